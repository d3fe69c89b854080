(** Specification of C66: which ports a node is meant to have. *)
From Coq Require Import List Arith NArith Bool.
From Verif Require Import PreModel PiMcModel.
Import ListNotations.

(** a map of the replication engine has exactly the ports of the list *)
Definition has_exactly (m : list bool) (ports : list nat) : Prop := forall p, nth p m false = true <-> In p ports.
(** the ports are given in ascending order (repetitions allowed) *)
Fixpoint ascending (ports : list nat) : Prop :=
  match ports with [] => True | p :: r => (forall q, In q r -> p <= q) /\ ascending r end.
Definition supported (ports : list nat) : Prop := forall p, In p ports -> p < 512.
(** port p is given, and no smaller port after it *)
Definition unshadowed (ports : list nat) (p : nat) : Prop := exists l1 l2, ports = l1 ++ p :: l2 /\ forall q, In q l2 -> p <= q.

(** The calls of the replication engine that a caller means, as a relation: every node gets the ports of its list. *)
Inductive meant : mcop -> pop -> Prop :=
| MeGC g : meant (MGrpCreate g) (PGCreate g)
| MeGD h : meant (MGrpDelete h) (PGDestroy h)
| MeNC rid ports m : has_exactly m ports -> meant (MNodeCreate rid ports) (PNCreate rid m [])
| MeNM h ports m : has_exactly m ports -> meant (MNodeModify h ports) (PNUpdate h m None)
| MeND h : meant (MNodeDelete h) (PNDestroy h)
| MeA g h : meant (MAttach g h) (PAssoc g h)
| MeD g h : meant (MDetach g h) (PDissoc g h)
| MeP g : meant (MPacket g) (PReplicate false g).
Definition ports_of (o : mcop) : list nat := match o with MNodeCreate _ ps | MNodeModify _ ps => ps | _ => [] end.
