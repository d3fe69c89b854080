(** Specification of ternary and range matching and of priority lookup. *)
From Coq Require Import List Arith NArith ZArith Bool.
From Verif Require Import Bits EntryListModel.
Import ListNotations.

(** The number written by a big-endian byte string. *)
Fixpoint be_val_acc (acc : N) (l : list N) : N :=
  match l with [] => acc | b :: r => be_val_acc (acc * 256 + b)%N r end.
Definition be_val (l : list N) : N := be_val_acc 0 l.

Definition slice (off w : nat) (l : list N) : list N := firstn w (skipn off l).

(** Byte [i] matches under a mask: every bit selected by the mask agrees. *)
Definition byte_ternary (data mask key : N) : Prop :=
  forall j, N.testbit mask j = true -> N.testbit key j = N.testbit data j.

(** Bytes [off, nbytes) match as ternary. *)
Definition ternary_matches_from (off nbytes : nat) (k : mkey) (key : list N) : Prop :=
  forall i, off <= i < nbytes ->
    byte_ternary (nth i (k_data k) 0%N) (nth i (k_mask k) 0%N) (nth i key 0%N).

(** Range fields come first, one after the other; the value of each must lie in
    [start, end]; the remaining bytes match as ternary. *)
Fixpoint range_matches_from (ws : list nat) (off nbytes : nat) (k : mkey) (key : list N) : Prop :=
  match ws with
  | [] => ternary_matches_from off nbytes k key
  | w :: r => (be_val (slice off w (k_data k)) <= be_val (slice off w key) <=
               be_val (slice off w (k_mask k)))%N /\
              range_matches_from r (off + w) nbytes k key
  end.

Definition key_matches (kd : mkind) (nbytes : nat) (k : mkey) (key : list N) : Prop :=
  match kd with
  | KExact => k_data k = key
  | KLpm => is_prefix (firstn (k_plen k) (bits_of_bytes (k_data k))) (bits_of_bytes key)
  | KTernary => ternary_matches_from 0 nbytes k key
  | KRange => range_matches_from (k_widths k) 0 nbytes k key
  end.

(** Priority lookup among (handle, key) pairs: smallest priority wins, then lowest handle. *)
Definition best_match (P : mkey -> Prop) (a : list (nat * mkey)) (r : option nat) : Prop :=
  match r with
  | None => forall h k, In (h, k) a -> ~ P k
  | Some h => exists k, In (h, k) a /\ P k /\
      forall h' k', In (h', k') a -> P k' ->
        (k_prio k < k_prio k')%Z \/ (k_prio k = k_prio k' /\ h <= h')
  end.
