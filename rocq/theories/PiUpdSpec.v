(** Specification of pipeline updates, from the calls made so far, most recent first (with swapping enabled). *)
From Coq Require Import List Arith NArith Bool.
From Verif Require Import PiUpdModel.
Import ListNotations.

(** An update was started and has not ended *)
Fixpoint open (h : list uop) : bool :=
  match h with [] => false | UStart :: _ => true | UEnd :: _ => false | _ :: r => open r end.
(** The calls that concern the packets: those before the update that is open *)
Fixpoint committed (h : list uop) : list uop :=
  match h with
  | [] => []
  | UStart :: r => if open r then committed r else r
  | UEnd :: _ => h
  | _ :: r => if open r then committed r else h
  end.
(** The last value of an entry since the last update was started, and the last reset *)
Fixpoint entry (k : nat) (h : list uop) : option N :=
  match h with
  | [] => None
  | UWrite KEntry j v :: r => if j =? k then v else entry k r
  | UReset :: _ => None
  | UStart :: r => if open r then entry k r else None
  | _ :: r => entry k r
  end.
(** The last value set for a digest since the last update ended *)
Fixpoint digest (k : nat) (h : list uop) : option N :=
  match h with
  | [] => None
  | UWrite KDigest j v :: r => if j =? k then v else digest k r
  | UEnd :: r => if open r then None else digest k r
  | _ :: r => digest k r
  end.
(** Clone sessions are forgotten by nothing, multicast groups by a reset *)
Fixpoint clone (k : nat) (h : list uop) : option N :=
  match h with [] => None | UWrite KClone j v :: r => if j =? k then v else clone k r | _ :: r => clone k r end.
Fixpoint group (k : nat) (h : list uop) : option N :=
  match h with [] => None | UWrite KMulticast j v :: r => if j =? k then v else group k r | UReset :: _ => None | _ :: r => group k r end.

Definition right (h : list uop) (o : uop) : uout :=
  match o with
  | UStart => if open h then UErr else UOk
  | UEnd => if open h then UOk else UErr
  | URead k => UVal (entry k h)
  | UPkt KEntry k => UVal (entry k (committed h))
  | UPkt KDigest k => UVal (digest k h)
  | UPkt KClone k => UVal (clone k h)
  | UPkt KMulticast k => UVal (group k h)
  | _ => UOk
  end.
Fixpoint rights (h l : list uop) : list uout := match l with [] => [] | o :: r => right h o :: rights (o :: h) r end.

(** The outcome of one more call *)
Definition then_ (l : list uop) (o : uop) : uout := last (snd (u_run true u_new (l ++ [o]))) UErr.
(** Not the end of an update *)
Definition no_end (o : uop) : Prop := o <> UEnd.
