(** Specification for C73: what the calls of primitives, told as the list of events of a history, should have done to counters, meters, registers,
    fields and lengths.  An index is a number, not a machine word. *)
From Coq Require Import List Arith NArith ZArith Bool.
From Verif Require Import RegModel StfModel.
Import ListNotations.

(** ** Looking at the state *)
Definition at2 {X} (l : list (list X)) (a i : nat) : option X := match nth_error l a with Some r => nth_error r i | None => None end.
Definition counter_at {M} (A : arrays M) (a i : nat) : option (N * N) := at2 (ar_cnt M A) a i.
Definition meter_at {M} (A : arrays M) (a i : nat) : option M := at2 (ar_met M A) a i.
Definition reg_at {M} (A : arrays M) (a i : nat) : option Z := at2 (map ra_v (ar_reg M A)) a i.
Definition reg_width {M} (A : arrays M) (a : nat) : option nat := option_map ra_w (nth_error (ar_reg M A) a).

(** ** The events *)
Definition index_of (p : prim Z) : option Z := match p with PMeter _ _ i _ | PCount _ _ i | PRead _ _ _ i | PWrite _ _ i _ => Some i | _ => None end.
(** The index fits in 32 bits *)
Definition index32 (e : event) : Prop := forall i, index_of (ev_prim e) = Some i -> (0 <= i < 2 ^ 32)%Z.
Definition is_at (a i b : nat) (j : Z) : bool := (b =? a) && (j =? Z.of_nat i)%Z.

(** Bytes and packets counted at position [i] of array [a] *)
Definition count_hit (a i : nat) (e : event) : bool := match ev_prim e with PCount _ b j => is_at a i b j | _ => false end.
Fixpoint bytes_counted (a i : nat) (tr : list event) : N :=
  match tr with [] => 0%N | e :: tr => ((if count_hit a i e then ev_len e else 0) + bytes_counted a i tr)%N end.
Definition packets_counted (a i : nat) (tr : list event) : N := N.of_nat (length (filter (count_hit a i) tr)).

(** The state of one meter fed with the calls for its position only *)
Definition meter_hit (a i : nat) (e : event) : bool := match ev_prim e with PMeter _ b j _ => is_at a i b j | _ => false end.
Definition meter_after {M} (exec : M -> N -> N -> M * Z) (a i : nat) (m : M) (tr : list event) : M :=
  fold_left (fun m e => fst (exec m (ev_len e) (ev_now e))) (filter (meter_hit a i) tr) m.

(** The last value written at position [i] of register array [a], cut to its width *)
Fixpoint reg_after (w a i : nat) (v : Z) (tr : list event) : Z :=
  match tr with
  | [] => v
  | e :: tr => reg_after w a i (match ev_prim e with PWrite _ b j x => if is_at a i b j then (x mod 2 ^ Z.of_nat w)%Z else v | _ => v end) tr
  end.

(** The last value given to field [d] of the packet, cut to its width *)
Definition dest (p : prim Z) : option nat := match p with PMeter _ _ _ d | PRead _ d _ _ | PRng _ d _ _ | PHash _ d _ _ | PSet _ d _ => Some d | _ => None end.
Fixpoint field_after (w d : nat) (v : Z) (tr : list event) : Z :=
  match tr with
  | [] => v
  | e :: tr => field_after w d (match dest (ev_prim e), ev_res e with
                                | Some d', Some x => if d' =? d then (x mod 2 ^ Z.of_nat w)%Z else v
                                | _, _ => v
                                end) tr
  end.
(** The smallest length asked for *)
Fixpoint shortest (n : Z) (tr : list event) : Z :=
  match tr with [] => n | e :: tr => shortest (match ev_prim e with PTrunc _ v => Z.min n v | _ => n end) tr end.

(** The values of the operands: constants, or fields as the packet's previous events left them *)
Definition operand (k : pkt) (before : list event) (s : src) (v : Z) : Prop :=
  match s with SC c => v = c | SF j => exists f, nth_error (k_fields k) j = Some f /\ v = field_after (fst f) j (snd f) before end.
Definition says (k : pkt) (before : list event) (p : prim src) (q : prim Z) : Prop :=
  let o := operand k before in
  match p, q with
  | PMeter _ a i d, PMeter _ a' i' d' => a' = a /\ d' = d /\ o i i'
  | PCount _ a i, PCount _ a' i' => a' = a /\ o i i'
  | PRead _ d a i, PRead _ d' a' i' => d' = d /\ a' = a /\ o i i'
  | PWrite _ a i v, PWrite _ a' i' v' => a' = a /\ o i i' /\ o v v'
  | PTrunc _ v, PTrunc _ v' => o v v'
  | PRng _ d l h, PRng _ d' l' h' => d' = d /\ o l l' /\ o h h'
  | PHash _ d b s, PHash _ d' b' s' => d' = d /\ o b b' /\ o s s'
  | PSet _ d v, PSet _ d' v' => d' = d /\ o v v'
  | _, _ => False
  end.

(** ** Well-formed programs *)
Definition src_ok (k : pkt) (s : src) : Prop := match s with SC v => (0 <= v)%Z | SF j => j < length (k_fields k) end.
Definition prim_ok {M} (A : arrays M) (k : pkt) (p : prim src) : Prop :=
  let f d := d < length (k_fields k) in
  match p with
  | PMeter _ a i d => a < length (ar_met M A) /\ src_ok k i /\ f d
  | PCount _ a i => a < length (ar_cnt M A) /\ src_ok k i
  | PRead _ d a i => f d /\ a < length (ar_reg M A) /\ src_ok k i
  | PWrite _ a i v => a < length (ar_reg M A) /\ src_ok k i /\ src_ok k v
  | PTrunc _ v => src_ok k v
  | PRng _ d l h => f d /\ src_ok k l /\ src_ok k h
  | PHash _ d b s => f d /\ src_ok k b /\ src_ok k s
  | PSet _ d v => f d /\ src_ok k v
  end.
(** The arrays and fields named exist; no operand is negative *)
Definition program_ok {M} (A : arrays M) (l : list (pkt * list (prim src * env))) : Prop :=
  Forall (fun x => Forall (fun f => 0 <= snd f)%Z (k_fields (fst x)) /\ Forall (fun y => prim_ok A (fst x) (fst y)) (snd x)) l.

(** The index of the event is one of the array's *)
Definition in_range {M} (A : arrays M) (e : event) : Prop :=
  match ev_prim e with
  | PMeter _ a i _ => exists r, nth_error (ar_met M A) a = Some r /\ (0 <= i < Z.of_nat (length r))%Z
  | PCount _ a i => exists r, nth_error (ar_cnt M A) a = Some r /\ (0 <= i < Z.of_nat (length r))%Z
  | PRead _ _ a i | PWrite _ a i _ => exists r, nth_error (ar_reg M A) a = Some r /\ (0 <= i < Z.of_nat (length (ra_v r)))%Z
  | _ => True
  end.
(** The events of a history, packet after packet *)
Definition trace (r : list (pkt * list event)) : list event := flat_map snd r.
