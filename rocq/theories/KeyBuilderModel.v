(** Model of MatchKeyBuilder: src/bm_sim/match_units.cpp:91-600, and of
    MatchUnitGeneric::build_entry_from_match_key (911-937). *)
From Coq Require Import List Arith NArith ZArith Bool.
From Verif Require Import Base EntryListModel.
Import ListNotations.

(** include/bm/bm_sim/match_units.h:47-53; the order of the enum is used for sorting *)
Inductive mtype := TRange | TValid | TExact | TLpm | TTernary.
Definition mt_rank (t : mtype) : nat :=
  match t with TRange => 0 | TValid => 1 | TExact => 2 | TLpm => 3 | TTernary => 4 end.
Definition mt_eqb (a b : mtype) : bool := mt_rank a =? mt_rank b.

(** match_units.h:46-76: MatchKeyParam.  [p_plen] is an [int]. *)
Record param := mkParam { p_type : mtype; p_key : list N; p_mask : list N; p_plen : Z }.

(** match_units.h (MatchKeyBuilder::KeyF): one field of the key as declared.  [f_ref] stands for
    the pair (header id, field offset).  [f_mask] is the optional static mask passed to
    push_back_field (match_units.cpp:152-163); push_back_valid_header (166-173) pushes
    [mkF TValid 8 None ref]. *)
Record kfield := mkF { f_type : mtype; f_bits : nat; f_mask : option (list N); f_ref : nat }.

(** utils: nbits_to_nbytes *)
Definition nbytes_of (nbits : nat) : nat := (nbits + 7) / 8.
Definition f_nbytes (f : kfield) : nat := nbytes_of (f_bits f).

(** match_units.cpp:144-163: the mask remembered by push_back *)
Definition f_maskbytes (f : kfield) : list N :=
  match f_mask f with Some m => m | None => repeat 255%N (f_nbytes f) end.

Record kbuilder := mkKB {
  kb_input : list kfield;   (* key_input, re-ordered *)
  kb_map : list nat;        (* key_mapping *)
  kb_inv : list nat;        (* inv_mapping *)
  kb_offs : list nat;       (* key_offsets *)
  kb_nbytes : nat;          (* nbytes_key *)
  kb_big : list N;          (* big_mask *)
  kb_has : bool }.          (* has_big_mask *)

(** match_units.cpp:101-107: sort_fn on indices into the declared fields *)
Definition sort_lt (fs : list kfield) (i1 i2 : nat) : bool :=
  let t i := match nth_error fs i with Some f => mt_rank (f_type f) | None => 0 end in
  if t i1 =? t i2 then i1 <? i2 else t i1 <? t i2.

(** match_units.cpp:108: std::sort.  [sort_lt] is a strict total order on distinct indices, so
    every sorting algorithm gives the same result; modelled as insertion sort. *)
Fixpoint sort_insert (lt : nat -> nat -> bool) (x : nat) (l : list nat) : list nat :=
  match l with
  | [] => [x]
  | y :: r => if lt x y then x :: l else y :: sort_insert lt x r
  end.
Fixpoint sort_idx (lt : nat -> nat -> bool) (l : list nat) : list nat :=
  match l with [] => [] | x :: r => sort_insert lt x (sort_idx lt r) end.

Definition dummyF : kfield := mkF TExact 0 None 0.

(** match_units.cpp:111-114: [for idx in inv_mapping: key_mapping[inv_mapping[idx]] = idx] *)
Definition build_map (inv : list nat) (n : nat) : list nat :=
  fold_left (fun km idx => list_set km (nth idx inv 0) idx) inv (repeat 0 n).

(** match_units.cpp:117-122: offsets of the re-ordered fields *)
Fixpoint offsets_from (o : nat) (fs : list kfield) : list nat :=
  match fs with [] => [] | f :: r => o :: offsets_from (o + f_nbytes f) r end.

(** std::copy of a byte string to a position *)
Definition write_at (l : list N) (off : nat) (m : list N) : list N :=
  firstn off l ++ m ++ skipn (off + length m) l.

Fixpoint write_masks (big : list N) (offs : list nat) (ms : list (list N)) : list N :=
  match offs, ms with
  | o :: os, m :: r => write_masks (write_at big o m) os r
  | _, _ => big
  end.

(** match_units.cpp:91-133: push_back on each declared field, then build *)
Definition kb_build (fs : list kfield) : kbuilder :=
  let n := length fs in
  let inv := sort_idx (sort_lt fs) (seq 0 n) in
  let input := map (fun i => nth i fs dummyF) inv in
  let km := build_map inv n in
  let offsets := offsets_from 0 input in
  let koffs := map (fun j => nth j offsets 0) km in
  let nb := fold_left (fun a f => a + f_nbytes f) fs 0 in
  mkKB input km inv koffs nb
       (write_masks (repeat 0%N nb) koffs (map f_maskbytes fs))
       (existsb (fun f => match f_mask f with Some _ => true | None => false end) fs).

(** bytecontainer.h:252-256: apply_mask, position-wise and.  The code asserts that the sizes agree;
    the proofs only use it on strings of the same length. *)
Fixpoint apply_mask (a m : list N) : list N :=
  match a, m with
  | x :: a', y :: m' => N.land x y :: apply_mask a' m'
  | _, _ => a
  end.
(** match_units.cpp:175-179 *)
Definition apply_big (kb : kbuilder) (l : list N) : list N :=
  if kb_has kb then apply_mask l (kb_big kb) else l.

(** What the key builder sees of the packet: validity of the header, whether the field is hidden,
    the bytes of the field. *)
Record pfield := mkPF { pf_valid : bool; pf_hidden : bool; pf_bytes : list N }.

(** match_units.cpp:181-206 *)
Definition kb_key (kb : kbuilder) (phv : nat -> pfield) : list N :=
  apply_big kb
    (fold_left (fun key f =>
       let p := phv (f_ref f) in
       match f_type f with
       | TValid => key ++ [if pf_valid p then 1%N else 0%N]
       | _ => if pf_valid p || pf_hidden p then key ++ pf_bytes p
              else key ++ repeat 0%N (length (pf_bytes p))
       end) (kb_input kb) []).

(** match_units.cpp:208-222 *)
Definition sub (l : list N) (off n : nat) : list N := firstn n (skipn off l).
Definition kb_key_to_fields (kb : kbuilder) (key : list N) : list (list N) :=
  map (fun i => sub key (nth i (kb_offs kb) 0) (f_nbytes (nth (nth i (kb_map kb) 0) (kb_input kb) dummyF)))
      (seq 0 (length (kb_map kb))).

(** match_units.cpp:248-264.  The bit tricks run on [char]; every operand is masked so that sign
    extension does not matter. *)
Definition popcount8 (c : N) : N :=
  (let c1 := (c + 256 - N.land (N.shiftr c 1) 85) mod 256 in
   let c2 := N.land c1 51 + N.land (N.shiftr c1 2) 51 in
   N.land (c2 + N.shiftr c2 4) 15)%N.
Definition pref_len_from_mask (m : list N) : Z :=
  fold_left (fun pref c => if (c =? 255)%N then (pref + 8)%Z else (pref + Z.of_N (popcount8 c))%Z) m 0%Z.

(** match_units.cpp:266-275 *)
Definition create_mask (plen : Z) (size : nat) : list N :=
  let q := Z.to_nat (plen / 8) in
  let filled := repeat 255%N q ++ skipn q (repeat 0%N size) in
  if (plen mod 8 =? 0)%Z then filled
  else list_set filled q ((N.shiftl 255 (Z.to_N (8 - plen mod 8))) mod 256)%N.

(** match_units.cpp:277-282 *)
Definition format_ternary (data mask : list N) : list N := apply_mask data mask.

(** match_units.cpp:284-288 *)
Definition byte0_mask (nbits : nat) : N :=
  if nbits mod 8 =? 0 then 255%N else (N.shiftl 1 (N.of_nat (nbits mod 8)) - 1)%N.

(** [data.append(key); data[first_byte] &= get_byte0_mask(nbits)]; [None] = out of range *)
Definition append_param (data : list N) (first : nat) (key : list N) (nbits : nat) : option (list N) :=
  let d := data ++ key in
  match nth_error d first with
  | None => None
  | Some b => Some (list_set d first (N.land b (byte0_mask nbits)))
  end.

(** match_units.cpp:417-434: exact *)
Fixpoint to_entry_exact (ifs : list (nat * kfield)) (ps : list param) (data : list N) (first : nat) :
    option (list N) :=
  match ifs with
  | [] => Some data
  | (i, f) :: r =>
      match nth_error ps i with
      | None => None
      | Some p =>
          match append_param data first (p_key p) (f_bits f) with
          | None => None
          | Some d => to_entry_exact r ps d (first + length (p_key p))
          end
      end
  end.

(** match_units.cpp:436-470: LPM *)
Fixpoint to_entry_lpm (ifs : list (nat * kfield)) (ps : list param) (data : list N) (plen : Z)
    (first : nat) : option (list N * Z) :=
  match ifs with
  | [] => Some (data, plen)
  | (i, f) :: r =>
      match nth_error ps i with
      | None => None
      | Some p =>
          match append_param data first (p_key p) (f_bits f) with
          | None => None
          | Some d =>
              match p_type p with
              | TValid => to_entry_lpm r ps d (plen + 8)%Z (first + length (p_key p))
              | TExact => to_entry_lpm r ps d (plen + 8 * Z.of_nat (length (p_key p)))%Z
                                       (first + length (p_key p))
              | TLpm => to_entry_lpm r ps d (plen + p_plen p)%Z (first + length (p_key p))
              | TRange | TTernary => None
              end
          end
      end
  end.

(** match_units.cpp:511-547: common part of ternary and range *)
Fixpoint to_entry_tr (ifs : list (nat * kfield)) (ps : list param) (data mask : list N)
    (first : nat) : option (list N * list N) :=
  match ifs with
  | [] => Some (data, mask)
  | (i, f) :: r =>
      match nth_error ps i with
      | None => None
      | Some p =>
          match append_param data first (p_key p) (f_bits f) with
          | None => None
          | Some d =>
              let m := match p_type p with
                       | TValid => [255%N]
                       | TExact => repeat 255%N (length (p_key p))
                       | TLpm => create_mask (p_plen p) (length (p_key p))
                       | TRange | TTernary => p_mask p
                       end in
              to_entry_tr r ps d (mask ++ m) (first + length (p_key p))
          end
      end
  end.

(** match_units.cpp:488-500: range widths *)
Fixpoint range_widths (inv : list nat) (ps : list param) : option (list nat) :=
  match inv with
  | [] => Some []
  | i :: r =>
      match nth_error ps i with
      | None => None
      | Some p => match range_widths r ps with
                  | None => None
                  | Some ws => Some (match p_type p with TRange => length (p_key p) :: ws | _ => ws end)
                  end
      end
  end.

(** match_units.cpp:415-510: match_params_to_entry for the four table kinds.
    [None] = exception, failed assertion or undefined behaviour. *)
Definition kb_to_entry (kd : mkind) (kb : kbuilder) (ps : list param) : option mkey :=
  let ifs := combine (kb_inv kb) (kb_input kb) in
  match kd with
  | KExact =>
      match to_entry_exact ifs ps [] 0 with
      | Some d => Some (mkKey d [] 0 0 [])
      | None => None
      end
  | KLpm =>
      match to_entry_lpm ifs ps [] 0 0 with
      | Some (d, pl) => Some (mkKey d [] (Z.to_nat pl) 0 [])
      | None => None
      end
  | KTernary =>
      match to_entry_tr ifs ps [] [] 0 with
      | Some (d, m) => if length d =? length m then Some (mkKey (format_ternary d m) m 0 0 []) else None
      | None => None
      end
  | KRange =>
      match to_entry_tr ifs ps [] [] 0, range_widths (kb_inv kb) ps with
      | Some (d, m), Some ws =>
          let w := fold_left Nat.add ws 0 in
          if (length d =? length m) && (w <=? length d) then
            Some (mkKey (firstn w d ++ format_ternary (skipn w d) (skipn w m)) m 0 0 ws)
          else None
      | _, _ => None
      end
  end.

(** memcmp(a, b, n) > 0, unsigned byte comparison *)
Fixpoint memcmp_gt (n : nat) (a b : list N) : bool :=
  match n, a, b with
  | S n', x :: a', y :: b' => if (x =? y)%N then memcmp_gt n' a' b' else (y <? x)%N
  | _, _, _ => false
  end.

(** match_units.cpp:561-583: one iteration of the sanity check.  The prefix length is an [int]
    cast to a 64-bit [size_t]. *)
Definition sane_param (f : kfield) (p : param) : bool :=
  mt_eqb (p_type p) (f_type f) && (length (p_key p) =? f_nbytes f) &&
  match p_type p with
  | TValid | TExact => true
  | TLpm => negb (Z.of_nat (f_bits f) <? p_plen p mod 2 ^ 64)%Z
  | TTernary => length (p_mask p) =? f_nbytes f
  | TRange => (length (p_mask p) =? f_nbytes f) && negb (memcmp_gt (f_nbytes f) (p_key p) (p_mask p))
  end.

(** match_units.cpp:553-587 *)
Definition kb_sanity (kb : kbuilder) (ps : list param) : bool :=
  (length ps =? length (kb_input kb)) &&
  forallb (fun x => match nth_error ps (fst x) with
                    | Some p => sane_param (snd x) p
                    | None => false   (* not reached: the sizes agree *)
                    end) (combine (kb_inv kb) (kb_input kb)).

Inductive bres := BBadKey | BEntry (k : mkey).

(** match_units.cpp:911-937: BAD_MATCH_KEY, or the entry key with the big mask applied to its data
    and the priority set; set_priority (885-891) does nothing on exact and LPM keys, which have none
    ([k_prio] is 0 there) *)
Definition set_priority (kd : mkind) (old p : Z) : Z :=
  match kd with KExact | KLpm => old | _ => p end.
Definition kb_build_entry (kd : mkind) (kb : kbuilder) (ps : list param) (prio : Z) : option bres :=
  if kb_sanity kb ps then
    match kb_to_entry kd kb ps with
    | Some k => Some (BEntry (mkKey (apply_big kb (k_data k)) (k_mask k) (k_plen k)
                             (set_priority kd (k_prio k) prio) (k_widths k)))
    | None => None
    end
  else Some BBadKey.

(** match_units.cpp:291-403: entry_to_match_params.  [None] = failed assertion. *)
Definition kb_field_at (kb : kbuilder) (i : nat) : kfield := nth (nth i (kb_map kb) 0) (kb_input kb) dummyF.
Definition kb_slice (kb : kbuilder) (i : nat) (l : list N) : list N :=
  sub l (nth i (kb_offs kb) 0) (f_nbytes (kb_field_at kb i)).

Definition from_entry_exact (kb : kbuilder) (k : mkey) : option (list param) :=
  if forallb (fun i => match f_type (kb_field_at kb i) with TValid | TExact => true | _ => false end)
             (seq 0 (length (kb_map kb)))
  then Some (map (fun i => mkParam (f_type (kb_field_at kb i)) (kb_slice kb i (k_data k)) [] 0)
                 (seq 0 (length (kb_map kb))))
  else None.

(** match_units.cpp:314-348: the loop, with [lpm_idx] and [pref] as accumulators *)
Fixpoint from_lpm_loop (kb : kbuilder) (k : mkey) (is : list nat) (ps : list param) (lpm_idx : nat)
    (pref : Z) : option (list param * nat * Z) :=
  match is with
  | [] => Some (ps, lpm_idx, pref)
  | i :: r =>
      let f := kb_field_at kb i in
      let sl := kb_slice kb i (k_data k) in
      let ps' := ps ++ [mkParam (f_type f) sl [] 0] in
      match f_type f with
      | TTernary => None
      | TLpm => from_lpm_loop kb k r ps' i pref
      | _ => from_lpm_loop kb k r ps' lpm_idx (pref - 8 * Z.of_nat (f_nbytes f))%Z
      end
  end.
Definition from_entry_lpm (kb : kbuilder) (k : mkey) : option (list param) :=
  match from_lpm_loop kb k (seq 0 (length (kb_map kb))) [] 0 (Z.of_nat (k_plen k)) with
  | None => None
  | Some (ps, idx, pref) =>
      match nth_error ps idx with
      | None => None   (* vector::at throws *)
      | Some p => Some (list_set ps idx (mkParam (p_type p) (p_key p) (p_mask p) pref))
      end
  end.

(** match_units.cpp:350-391 *)
Definition from_entry_ternary (kb : kbuilder) (k : mkey) : option (list param) :=
  Some (map (fun i =>
    let f := kb_field_at kb i in
    let d := kb_slice kb i (k_data k) in
    let m := kb_slice kb i (k_mask k) in
    match f_type f with
    | TValid | TExact => mkParam (f_type f) d [] 0
    | TRange | TTernary => mkParam (f_type f) d m 0
    | TLpm => mkParam (f_type f) d [] (pref_len_from_mask m)
    end) (seq 0 (length (kb_map kb)))).

Definition kb_to_params (kd : mkind) (kb : kbuilder) (k : mkey) : option (list param) :=
  match kd with
  | KExact => from_entry_exact kb k
  | KLpm => from_entry_lpm kb k
  | KTernary | KRange => from_entry_ternary kb k
  end.
