(** Specification of l2_switch: what one packet at a time would give, without threads and queues. *)
From Coq Require Import List Arith NArith Bool.
From Verif Require Import L2Model.
Import ListNotations.

Section L2.
Context (W : Type) (parse : phv -> bytes -> phv * bytes) (ingress egress : W -> phv -> W * phv) (deparse : phv -> bytes -> bytes) (group1 : W -> list nat).

(** The header vector a packet is parsed with: the one it has, and its port *)
Definition with_port (h : phv) (port : nat) : phv := fun f => if f =? 0 then port else h f.
Definition zeros : phv := fun _ => 0.
(** The same packets, each with a header vector of zeros *)
Definition clean (ps : list rx) : list rx := map (fun p => (fst p, zeros)) ps.
(** The program does not look at what the header vector holds when a packet comes in *)
Definition initialises : Prop := forall w h port b,
  snd (parse (with_port h port) b) = snd (parse (with_port zeros port) b) /\
  ingress w (fst (parse (with_port h port) b)) = ingress w (fst (parse (with_port zeros port) b)).
(** The header vector that leaves ingress, and the one that egress gets: without the learn id and the group *)
Definition cleared (h : phv) : phv := fun f => match f with 2 => 0 | 3 => 0 | _ => h f end.
(** Where a packet goes *)
Inductive goes (w : W) (port : nat) (h : phv) : list nat -> Prop :=
| goes_drop : h 2 = 0 -> h 1 = 511 -> goes w port h []
| goes_one : h 2 = 0 -> h 1 <> 511 -> goes w port h [h 1]
| goes_flood ps : h 2 = 1 -> (forall p, In p ps -> p <> port) -> ps = filter (fun p => negb (p =? port)) (group1 w) -> goes w port h ps.
(** The same egress for every port *)
Inductive sends (h : phv) (load : bytes) : W -> list nat -> W -> list out -> Prop :=
| sends_nil w : sends h load w [] w []
| sends_cons w w1 w2 h1 p ps os : (w1, h1) = egress w h -> sends h load w1 ps w2 os -> sends h load w (p :: ps) w2 ((p, deparse h1 load) :: os).
(** One packet: state before, state after, what is sent, what is learned *)
Inductive one (w : W) (p : rx) : W -> list out -> list (nat * phv) -> Prop :=
| one_intro h load w1 h1 ps w2 os he :
    parse (with_port (snd p) (fst (fst p))) (snd (fst p)) = (h, load) -> ingress w h = (w1, h1) -> goes w1 (fst (fst p)) h1 ps -> (forall f, he f = cleared h1 f) ->
    sends he load w1 ps w2 os -> one w p w2 os (if h1 3 =? 0 then [] else [(h1 3, h1)]).
Inductive alls : W -> list rx -> W -> list out -> list (nat * phv) -> Prop :=
| alls_nil w : alls w [] w [] []
| alls_snoc w ps w1 os ls p w2 os2 ls2 : alls w ps w1 os ls -> one w1 p w2 os2 ls2 -> alls w (ps ++ [p]) w2 (os ++ os2) (ls ++ ls2).
End L2.
