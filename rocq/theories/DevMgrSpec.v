(** Specification of C63: what the messages mean, per port, without maps, pending lists or a monitor. *)
From Coq Require Import List Arith NArith Bool Sorted.
From Verif Require Import PortMonModel DevMgrModel.
Import ListNotations.
Local Open Scope N_scope.

(** Messages, and their encodings.  Bytes after the part that matters are ignored. *)
Inductive message :=
| MAdd (p : N) | MRemove (p : N) | MStatus (p : N) (up : bool) | MPacket (p : N) (data : list N)
| MQuery (p : N) (x : N) | MIgnored.

Definition word (x : N) (bs : list N) : Prop :=
  exists a b c d, bs = [a; b; c; d] /\ a < 256 /\ b < 256 /\ c < 256 /\ d < 256 /\ x = d * 2 ^ 24 + c * 2 ^ 16 + b * 2 ^ 8 + a.
Inductive encodes : message -> list N -> Prop :=
| EAdd p t pb m rest : word 0 t -> word p pb -> length m = 4%nat -> encodes (MAdd p) (t ++ pb ++ m ++ rest)
| ERemove p t pb m rest : word 1 t -> word p pb -> length m = 4%nat -> encodes (MRemove p) (t ++ pb ++ m ++ rest)
| EStatus p (up : bool) t pb m rest : word 2 t -> word p pb -> word (if up then 1 else 0) m -> encodes (MStatus p up) (t ++ pb ++ m ++ rest)
| EPacket p data t pb m rest : word 3 t -> word p pb -> word (N.of_nat (length data)) m -> N.of_nat (length data) < 2 ^ 31 ->
    encodes (MPacket p data) (t ++ pb ++ m ++ data ++ rest)
| EQuery p x t pb m rest : word 5 t -> word p pb -> word x m -> encodes (MQuery p x) (t ++ pb ++ m ++ rest)
| EBadStatus p x t pb m rest : word 2 t -> word p pb -> word x m -> 2 <= x -> encodes MIgnored (t ++ pb ++ m ++ rest)
| EUnknown ty t pb m rest : word ty t -> length pb = 4%nat -> length m = 4%nat -> (ty = 4 \/ 6 <= ty) -> encodes MIgnored (t ++ pb ++ m ++ rest).

(** The messages that name the port change its status: absent ([None]), up or down. *)
Definition status1 (s : option bool) (p : N) (m : message) : option bool :=
  match m with
  | MAdd q => if q =? p then match s with None => Some true | Some b => Some b end else s
  | MRemove q => if q =? p then None else s
  | MStatus q up => if q =? p then match s with None => None | Some _ => Some up end else s
  | _ => s
  end.
Definition status (ms : list message) (p : N) : option bool := fold_left (fun s m => status1 s p m) ms None.

(** the callbacks one message causes, after the messages [ms] *)
Definition events1 (ms : list message) (m : message) : list (N * pevt) :=
  match m with
  | MAdd p => match status ms p with None => [(p, Added); (p, Up)] | Some _ => [] end
  | MRemove p => match status ms p with None => [] | Some _ => [(p, Removed)] end
  | MStatus p up => match status ms p with
                    | Some b => if Bool.eqb b up then [] else [(p, if up then Up else Down)]
                    | None => [] end
  | _ => []
  end.
Fixpoint events_from (before : list message) (ms : list message) : list (N * pevt) :=
  match ms with [] => [] | m :: r => events1 before m ++ events_from (before ++ [m]) r end.
Definition events (enf : bool) (ms : list message) : list (N * pevt) := if enf then events_from [] ms else [].

(** A schedule in terms of messages. *)
Inductive saction := SRecv (m : message) | SOther (a : daction).
Inductive same : saction -> daction -> Prop :=
| SameRecv m bs : encodes m bs -> same (SRecv m) (DRecv bs)
| SameOther a : (forall bs, a <> DRecv bs) -> same (SOther a) a.
Fixpoint received (l : list saction) : list message :=
  match l with [] => [] | SRecv m :: r => m :: received r | SOther _ :: r => received r end.

(** everything but the callbacks *)
Definition not_cb (o : dout) : bool := match o with OCb _ _ => false | _ => true end.
Definition cbs (os : list (list dout)) : list (N * pevt) :=
  flat_map (fun o => match o with OCb p e => [(p, e)] | _ => [] end) (concat os).

(** the answer to an action after the messages [ms] *)
Inductive answer (enf h : bool) (ms : list message) : saction -> list dout -> Prop :=
| AnsPacket p data : answer enf h ms (SRecv (MPacket p data))
    (if h && (negb enf || match status ms p with Some true => true | _ => false end) then [OPkt p data] else [])
| AnsQuery p x b0 b1 b2 b3 : word 6 b0 -> word p b1 -> word x b2 -> word 1 b3 -> answer enf h ms (SRecv (MQuery p x)) [OMsg (b0 ++ b1 ++ b2 ++ b3)]
| AnsSilent m : match m with MPacket _ _ | MQuery _ _ => False | _ => True end -> answer enf h ms (SRecv m) []
| AnsNotify : answer enf h ms (SOther DNotify) []
| AnsUp p : answer enf h ms (SOther (DIsUp p)) [OUp (negb enf || match status ms p with Some true => true | _ => false end)]
| AnsInfo l : StronglySorted N.lt (map fst l) -> (forall p b, In (p, b) l <-> status ms p = Some b) -> answer enf h ms (SOther DInfo) [OInfo l]
| AnsTransmit p data b0 b1 b2 : word 4 b0 -> word p b1 -> word (N.of_nat (length data)) b2 -> answer enf h ms (SOther (DTransmit p data)) [OMsg (b0 ++ b1 ++ b2 ++ data)]
| AnsAdd p : answer enf h ms (SOther (DAdd p)) [OUnsupported]
| AnsRemove p : answer enf h ms (SOther (DRemove p)) [OUnsupported].
Inductive answers (enf h : bool) : list message -> list saction -> list (list dout) -> Prop :=
| AnsNil ms : answers enf h ms [] []
| AnsCons ms a l o os : answer enf h ms a (filter not_cb o) -> answers enf h (ms ++ received [a]) l os -> answers enf h ms (a :: l) (o :: os).

(** ports and lengths are 32-bit *)
Definition small_action (a : saction) : Prop :=
  match a with SOther (DTransmit p data) => p < 2 ^ 32 /\ N.of_nat (length data) < 2 ^ 31 | _ => True end.
(** no call of port_add or port_remove *)
Definition no_api (a : saction) : Prop := match a with SOther (DAdd _) | SOther (DRemove _) => False | _ => True end.
