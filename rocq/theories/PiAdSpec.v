(** Specification for C74: the parameters of an action as the client knows them, one string of bytes each. *)
From Coq Require Import List Arith NArith ZArith Bool.
From Verif Require Import Bytes PiAdModel.
Import ListNotations.

(** The bytes [p] are the right number for a parameter of [w] bits, which is not empty *)
Definition fits (w : nat) (p : list N) : Prop := 0 < w /\ w <= 8 * length p < w + 8 /\ Forall (fun b => (b < 256)%N) p.
(** The number they stand for, first byte most significant *)
Definition num (p : list N) : Z := fold_left (fun v b => 256 * v + Z.of_N b)%Z p 0%Z.
(** An action with an id, the widths of its parameters and their bytes *)
Record pi_action := mk_pa { pa_id : N; pa_ws : list nat; pa_ps : list (list N) }.
Definition pi_ok (known : N -> bool) (a : pi_action) : Prop :=
  Forall2 fits (pa_ws a) (pa_ps a) /\ (pa_id a < 2 ^ 31)%N /\ known (pa_id a) = true /\ (N.of_nat (length (pa_ws a)) < 2 ^ 64)%N.
Definition blob_of (a : pi_action) : list N := concat (pa_ps a).
(** The entry the switch makes of it *)
Definition entry_of (a : pi_action) : option aentry := option_map (mk_ae (Some (pa_id a))) (build (pa_ws a) (blob_of a)).
(** Entries that can be saved: no negative number; ids and sizes fit their types *)
Definition savable (known : N -> bool) (e : aentry) : Prop :=
  match ae_id e with
  | None => ae_data e = []
  | Some id => (id < 2 ^ 31)%N /\ known id = true /\ (N.of_nat (length (ae_data e)) < 2 ^ 64)%N /\ Forall (fun d => 0 <= d)%Z (ae_data e)
  end.
(** Only white space separates the two *)
Definition same_rest (a b : list N) : Prop := exists s, a = s ++ b /\ Forall (fun c => is_ws c = true) s.
