(** RFC 1071: the one's-complement of the one's-complement sum of the big-endian 16-bit words, an odd last byte being padded with
    a zero byte on the right. *)
From Coq Require Import List NArith.
Import ListNotations.
Local Open Scope N_scope.

Fixpoint words16 (l : list N) : list N := match l with a :: b :: r => (256 * a + b) :: words16 r | [a] => [256 * a] | [] => [] end.
(** One's-complement addition: the carry out of bit 15 is added back. *)
Definition oc_add (a b : N) : N := let t := a + b in if 65536 <=? t then t - 65536 + 1 else t.
Definition oc_sum (l : list N) : N := fold_left oc_add l 0.
Definition rfc1071 (buf : list N) : N := 65535 - oc_sum (words16 buf).
Local Close Scope N_scope.

(** ** Headers as bytes *)
From Verif Require Import Bits ExtractSpec PhvModel PhvSpec ParserSpec BufModel BufSpec.
Definition encodes (x : hdr) (r : list N) : Prop := bytes_ok r /\ bits_of_bytes r = header_bits x.
(** The header checksum of IPv4 is the 16-bit field in bytes 10 and 11. *)
Definition ip_field (x : hdr) (f : nat) : Prop := (exists v, nth_error (d_fields x) f = Some (16, v)) /\ fold_right Nat.add 0 (map fst (firstn f (d_fields x))) = 80.
Definition with_cksum (r : list N) (b : list N) : list N := firstn 10 r ++ b ++ skipn 12 r.
(** A calculation that does not read the field where its result goes *)
Definition reads (e : bentry) (h f : nat) : Prop := e = BField h f \/ e = BHeader h.
