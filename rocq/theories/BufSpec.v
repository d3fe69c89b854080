(** What the input of a calculation is. *)
From Coq Require Import List Arith NArith ZArith Bool.
From Verif Require Import Bits ExtractSpec PhvModel PhvSpec ParserSpec BufModel.
Import ListNotations.

(** The header exists and takes part: it is metadata or valid. *)
Definition live (d : desc) (s : phv) (h : nat) (x : hdr) : Prop := exists t, nth_error (ds_h d) h = Some t /\ header s h = Some x /\ (hd_meta t = true \/ d_valid x = true).
Definition dead (d : desc) (s : phv) (h : nat) : Prop := exists t x, nth_error (ds_h d) h = Some t /\ header s h = Some x /\ hd_meta t = false /\ d_valid x = false.
Definition header_bits (x : hdr) : list bool := concat (map field_bits (d_fields x)).
(** The bits that one input contributes. *)
Inductive input_bits (d : desc) (s : phv) : bentry -> list bool -> Prop :=
| ib_field h f x v : live d s h x -> nth_error (d_fields x) f = Some v -> input_bits d s (BField h f) (field_bits v)
| ib_const v b : holds b v -> input_bits d s (BConst v (length b)) b
| ib_header h x : live d s h x -> input_bits d s (BHeader h) (header_bits x)
| ib_dead_field h f : dead d s h -> input_bits d s (BField h f) []
| ib_dead_header h : dead d s h -> input_bits d s (BHeader h) [].
(** Every whole header starts on a byte boundary. *)
Fixpoint aligned (n : nat) (es : list bentry) (parts : list (list bool)) : Prop :=
  match es, parts with
  | e :: es', b :: parts' => match e with BHeader _ => n mod 8 = 0 | _ => True end /\ aligned (n + length b) es' parts'
  | _, _ => True
  end.
(** The bits of a byte string that holds [b] followed by zeros up to the next byte boundary. *)
Definition padded_bits (b : list bool) : list bool := b ++ repeat false (8 * ((length b + 7) / 8) - length b).
(** The inputs name existing objects, constants have as many bytes as their width asks for and no other bits. *)
Definition entry_ok (d : desc) (e : bentry) : Prop :=
  match e with
  | BField h f => field_exists d h f
  | BConst v w => exists b, length b = w /\ holds b v
  | BHeader h => h < length (ds_h d)
  end.
