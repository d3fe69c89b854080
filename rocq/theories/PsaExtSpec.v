(** What the Portable Switch Architecture says about InternetChecksum and Hash. *)
From Coq Require Import List Arith NArith ZArith Bool.
From Verif Require Import Bits ParserSpec CksumSpec PsaExtModel.
Import ListNotations.

(** The bits of a list of fields of type bit<W>, and the 16-bit words they consist of *)
Definition unsigned (f : nat * Z) : Prop := (0 <= snd f < 2 ^ Z.of_nat (fst f))%Z.
Definition data_bits (fs : list (nat * Z)) : list bool := concat (map (fun f => bitsN (fst f) (Z.to_N (snd f))) fs).
Definition words_of (b : list bool) (ws : list N) : Prop := Forall (fun w => (w < 65536)%N) ws /\ b = concat (map (bitsN 16) ws).
(** The data of a call is acceptable: bit<W> fields that make up whole words *)
Definition data_ok (fs : list (nat * Z)) : Prop := Forall unsigned fs /\ length (data_bits fs) mod 16 = 0.
Definition op_ok (o : ckop) : Prop :=
  match o with
  | CAdd fs | CSub fs => data_ok fs
  | CVerify v | CSet v => (0 <= v < 65536)%Z
  | _ => True
  end.

Local Open Scope N_scope.
(** "sum = ones_complement_sum(sum, d)" for each word, "sum = ones_complement_sum(sum, ~d)" for each word *)
Definition psa_add (sum : N) (ws : list N) : N := fold_left oc_add ws sum.
Definition psa_subtract (sum : N) (ws : list N) : N := fold_left (fun s d => oc_add s (65535 - d)) ws sum.
Definition total (ws : list N) : N := fold_right N.add 0 ws.
(** One method call: from sum [s], result [out], new sum [s'].  With [strict], subtraction is that of the PSA to the letter;
    without, this is required only when the sum is not 0 or the data are not a multiple of 65535, and otherwise the new sum is
    again a multiple of 65535 (0 and 65535 are the two ones'-complement zeros). *)
Definition psa_step (strict : bool) (s : N) (o : ckop) (s' : N) (out : option N) : Prop :=
  match o with
  | CAdd fs => out = None /\ exists ws, words_of (data_bits fs) ws /\ s' = psa_add s ws
  | CSub fs => out = None /\ exists ws, words_of (data_bits fs) ws /\
      (s' = psa_subtract s ws \/ strict = false /\ s = 0 /\ total ws mod 65535 = 0 /\ (s' = 0 \/ s' = 65535))
  | CGet => s' = s /\ out = Some (65535 - s)
  | CState => s' = s /\ out = Some s
  | CVerify v => s' = s /\ out = Some (if Z.eqb v (Z.of_N (65535 - s)) then 1 else 0)
  | CSet v => Z.of_N s' = v /\ out = None
  | CClear => s' = 0 /\ out = None
  end.
Inductive psa_run (strict : bool) : N -> list ckop -> N -> list (option N) -> Prop :=
| pr_nil s : psa_run strict s [] s []
| pr_cons s o s1 out r s2 outs : psa_step strict s o s1 out -> psa_run strict s1 r s2 outs -> psa_run strict s (o :: r) s2 (out :: outs).
(** The call ends, with the same result however long one waits. *)
Definition ends {A} (run : nat -> res A) (a : A) : Prop := exists n, forall fuel, (n <= fuel)%nat -> run fuel = Done a.

(** ** The input of a hash: the bits of the fields, with zeros before them up to a whole number of bytes *)
Definition hash_input (fs : list (nat * Z)) (buf : list N) : Prop :=
  let b := concat (map field_bits fs) in
  bytes_ok buf /\ length buf = ((length b + 7) / 8)%nat /\ bits_of_bytes buf = repeat false (8 * length buf - length b) ++ b.
