(** Model of EntryList and TernaryCache, src/bm_sim/lookup_structures.cpp:136-378, and of the
    comparison functions of TernaryMap and RangeMap (387-393, 432-450). *)
From Coq Require Import List Arith NArith ZArith Bool.
From Verif Require Import Base Bits.
Import ListNotations.

(** ** Match keys: include/bm/bm_sim/match_key_types.h:31-86.
    One record for the four key types; a table of a given kind only uses some fields.
    The [version] member is kept in the match-unit entry (MatchUnitModel.v), key comparison
    ignores it (lookup_structures.cpp:232-239). *)
Record mkey := mkKey {
  k_data : list N;        (* MatchKey::data, one [N] < 256 per byte *)
  k_mask : list N;        (* TernaryMatchKey::mask (end of range for range fields) *)
  k_plen : nat;           (* LPMMatchKey::prefix_length *)
  k_prio : Z;             (* TernaryMatchKey::priority, int *)
  k_widths : list nat }.  (* RangeMatchKey::range_widths *)

Inductive mkind := KExact | KLpm | KTernary | KRange.

Fixpoint bytes_eqb (a b : list N) : bool :=
  match a, b with
  | [], [] => true
  | x :: a', y :: b' => (x =? y)%N && bytes_eqb a' b'
  | _, _ => false
  end.
Fixpoint nats_eqb (a b : list nat) : bool :=
  match a, b with
  | [], [] => true
  | x :: a', y :: b' => (x =? y) && nats_eqb a' b'
  | _, _ => false
  end.

(** lookup_structures.cpp:232-239: operator== on ternary and range keys *)
Definition key_eqb (kd : mkind) (a b : mkey) : bool :=
  bytes_eqb (k_data a) (k_data b) && bytes_eqb (k_mask a) (k_mask b) &&
  match kd with KRange => nats_eqb (k_widths a) (k_widths b) | _ => true end.

(** lookup_structures.cpp:387-393 (and the second loop of 443-446, starting at [off]).
    [n] bytes remain.  Out-of-range indexing would fail an assertion (bytecontainer.h:187);
    here it reads 0, the theorems only use keys of the right length. *)
Fixpoint ternary_cmp_from (n off : nat) (key : list N) (k : mkey) : bool :=
  match n with
  | O => true
  | S n' => if (nth off (k_data k) 0 =? N.land (nth off key 0) (nth off (k_mask k) 0))%N
            then ternary_cmp_from n' (S off) key k else false
  end.
Definition ternary_cmp (nbytes : nat) (key : list N) (k : mkey) : bool :=
  ternary_cmp_from nbytes 0 key k.

(** memcmp on [w] bytes starting at [off] (unsigned byte comparison) *)
Fixpoint memcmp_at (w off : nat) (a b : list N) : comparison :=
  match w with
  | O => Eq
  | S w' => match N.compare (nth off a 0%N) (nth off b 0%N) with
            | Eq => memcmp_at w' (S off) a b
            | c => c
            end
  end.

(** lookup_structures.cpp:432-450 *)
Fixpoint range_cmp_from (ws : list nat) (nbytes off : nat) (key : list N) (k : mkey) : bool :=
  match ws with
  | [] => ternary_cmp_from (nbytes - off) off key k
  | w :: r =>
      match memcmp_at w off key (k_data k) with
      | Lt => false
      | _ => match memcmp_at w off key (k_mask k) with
             | Gt => false
             | _ => range_cmp_from r nbytes (off + w) key k
             end
      end
  end.
Definition range_cmp (nbytes : nat) (key : list N) (k : mkey) : bool :=
  range_cmp_from (k_widths k) nbytes 0 key k.

Definition list_cmp (kd : mkind) (nbytes : nat) : list N -> mkey -> bool :=
  match kd with KRange => range_cmp nbytes | _ => ternary_cmp nbytes end.

(** ** TernaryCache: lookup_structures.cpp:136-230.
    [entries], most recently used first.  The hash map [cache] is an index of that list and
    holds the same keys; it is not represented separately. *)
Definition cache := list (list N * nat).
(** template parameter S = 64, line 136 *)
Definition cache_size : nat := 64.

Fixpoint cache_find (c : cache) (key : list N) : option nat :=
  match c with
  | [] => None
  | (k, h) :: r => if bytes_eqb k key then Some h else cache_find r key
  end.
Fixpoint cache_remove (c : cache) (key : list N) : cache :=
  match c with
  | [] => []
  | (k, h) :: r => if bytes_eqb k key then r else (k, h) :: cache_remove r key
  end.
(** 149-158 with move_to_head 213-229 *)
Definition cache_lookup (c : cache) (key : list N) : option nat * cache :=
  match cache_find c key with
  | Some h => (Some h, (key, h) :: cache_remove c key)
  | None => (None, c)
  end.
(** 160-174 *)
Definition cache_add (c : cache) (key : list N) (h : nat) : cache :=
  match cache_find c key with
  | Some _ => c
  | None => let c' := if length c =? cache_size then removelast c else c in (key, h) :: c'
  end.

(** ** EntryList: lookup_structures.cpp:241-378 *)

(** Entry, 341-346.  Pointers into the vector are indices; [le_key] is a copy of the key
    pointed to: the match unit never changes a key while it is in the list (it only bumps the
    version, which comparisons ignore). *)
Record lentry := mkLE {
  le_prio : Z; le_key : option mkey; le_prev : option nat; le_next : option nat }.
Definition le_null : lentry := mkLE 0 None None None.

(** 348-355 *)
Record elist := mkEL {
  el_head : option nat; el_entries : list lentry; el_count : nat;
  el_enable : bool; el_use : bool; el_cache : cache }.

(** 244-245 *)
Definition el_new (size : nat) (enable : bool) : elist :=
  mkEL None (repeat le_null size) 0 enable false [].

(** 357 *)
Definition cache_min_entries : nat := 16.

(** 259-274: the scan; [best] is (min_priority, min_handle) when min_entry is set.
    [None]: dangling pointer or non-terminating loop ([fuel] exceeds the vector length). *)
Fixpoint el_scan (cmp : list N -> mkey -> bool) (fuel : nat) (es : list lentry)
         (p : option nat) (key : list N) (best : option (Z * nat)) : option (option nat) :=
  match p with
  | None => Some (match best with Some (_, h) => Some h | None => None end)
  | Some i =>
      match fuel, nth_error es i with
      | S f, Some (mkLE pr (Some k) _ nxt) =>
          let skip := match best with Some (mp, _) => (mp <=? pr)%Z | None => false end in
          let best' := if skip then best
                       else if cmp key k then Some (pr, i) else best in
          el_scan cmp f es nxt key best'
      | _, _ => None
      end
  end.

(** 248-281 *)
Definition el_lookup (cmp : list N -> mkey -> bool) (l : elist) (key : list N)
  : option (elist * option nat) :=
  let '(hit, c1) := if el_use l then cache_lookup (el_cache l) key else (None, el_cache l) in
  let l1 := mkEL (el_head l) (el_entries l) (el_count l) (el_enable l) (el_use l) c1 in
  match hit with
  | Some h => Some (l1, Some h)
  | None =>
      match el_scan cmp (S (length (el_entries l))) (el_entries l) (el_head l) key None with
      | None => None
      | Some None => Some (l1, None)
      | Some (Some h) =>
          let c2 := if el_use l then cache_add c1 key h else c1 in
          Some (mkEL (el_head l) (el_entries l) (el_count l) (el_enable l) (el_use l) c2,
                Some h)
      end
  end.

(** 363-369 *)
Fixpoint el_find (keq : mkey -> mkey -> bool) (fuel : nat) (es : list lentry)
         (p : option nat) (key : mkey) : option (option nat) :=
  match p with
  | None => Some None
  | Some i =>
      match fuel, nth_error es i with
      | S f, Some (mkLE pr (Some k) _ nxt) =>
          if (pr =? k_prio key)%Z && keq k key then Some (Some i)
          else el_find keq f es nxt key
      | _, _ => None
      end
  end.
Definition el_find_entry (keq : mkey -> mkey -> bool) (l : elist) (key : mkey) :=
  el_find keq (S (length (el_entries l))) (el_entries l) (el_head l) key.

(** 375-377 *)
Definition el_use_cache (enable : bool) (count : nat) : bool :=
  enable && (cache_min_entries <=? count).

Definition set_next (es : list lentry) (i : nat) (p : option nat) : list lentry :=
  match nth_error es i with
  | Some e => list_set es i (mkLE (le_prio e) (le_key e) (le_prev e) p)
  | None => es
  end.
Definition set_prev (es : list lentry) (i : nat) (p : option nat) : list lentry :=
  match nth_error es i with
  | Some e => list_set es i (mkLE (le_prio e) (le_key e) p (le_next e))
  | None => es
  end.
Definition set_prev_opt (es : list lentry) (i : option nat) (p : option nat) : list lentry :=
  match i with Some j => set_prev es j p | None => es end.

(** 295-319; [None]: entries.at throws *)
Definition el_add (l : elist) (k : mkey) (h : nat) : option elist :=
  let es := el_entries l in
  if h <? length es then
    let '(head', es') :=
      match h with
      | O =>
          let es1 := list_set es 0 (mkLE (k_prio k) (Some k) None (el_head l)) in
          (Some 0, set_prev_opt es1 (el_head l) (Some 0))
      | S hp =>
          let nxt := match nth_error es hp with Some e => le_next e | None => None end in
          let es1 := list_set es h (mkLE (k_prio k) (Some k) (Some hp) nxt) in
          let es2 := set_next es1 hp (Some h) in
          (el_head l, set_prev_opt es2 nxt (Some h))
      end in
    let count := S (el_count l) in
    let c := if el_use l then [] else el_cache l in
    Some (mkEL head' es' count (el_enable l) (el_use_cache (el_enable l) count) c)
  else None.

(** 321-332; [None]: the assertion [entry] fails *)
Definition el_delete (keq : mkey -> mkey -> bool) (l : elist) (k : mkey) : option elist :=
  let es := el_entries l in
  match el_find_entry keq l k with
  | Some (Some i) =>
      match nth_error es i with
      | Some e =>
          let '(head', es1) :=
            match le_prev e with
            | Some p => (el_head l, set_next es p (le_next e))
            | None => (le_next e, es)
            end in
          let es2 := set_prev_opt es1 (le_next e) (le_prev e) in
          let count := el_count l - 1 in
          let c := if el_use l then [] else el_cache l in
          Some (mkEL head' es2 count (el_enable l) (el_use_cache (el_enable l) count) c)
      | None => None
      end
  | _ => None
  end.

(** 334-339 *)
Definition el_clear (l : elist) : elist :=
  mkEL None (el_entries l) 0 (el_enable l) (el_use_cache (el_enable l) 0) [].

(** ** The two halves of a lookup as separate steps.
    Lookups run concurrently under the table's shared lock; the cache has its own mutex, so
    the cache probe (253-256) and the scan followed by the cache update (259-277) of
    different threads interleave. *)
Definition el_probe (l : elist) (key : list N) : elist * option nat :=
  if el_use l then
    let '(hit, c1) := cache_lookup (el_cache l) key in
    (mkEL (el_head l) (el_entries l) (el_count l) (el_enable l) (el_use l) c1, hit)
  else (l, None).
Definition el_finish (cmp : list N -> mkey -> bool) (l : elist) (key : list N)
  : option (elist * option nat) :=
  match el_scan cmp (S (length (el_entries l))) (el_entries l) (el_head l) key None with
  | None => None
  | Some None => Some (l, None)
  | Some (Some h) =>
      let c2 := if el_use l then cache_add (el_cache l) key h else el_cache l in
      Some (mkEL (el_head l) (el_entries l) (el_count l) (el_enable l) (el_use l) c2, Some h)
  end.
