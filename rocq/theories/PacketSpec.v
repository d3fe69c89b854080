(** What packets should do: a variable holds a packet or nothing; moving a packet moves all of it;
    a clone is a new packet with the bytes, the ids and the port of the original. *)
From Coq Require Import List Arith NArith Bool.
From Verif Require Import PacketModel.
Import ListNotations.

(** What can be asked of a packet, and the answer of an object (KCap: the size of its buffer) *)
Inductive key := KCxt | KPort | KEport | KPid | KCid | KIlen | KExit | KSig | KData | KCap | KPsize | KTrunc | KTs | KReg (i : nat) | KEidx | KErr | KCks.
Definition val := list (option N).
Definition nn (n : nat) : val := [Some (N.of_nat n)].
Definition reads (a : att) (k : key) : val :=
  match k with
  | KCxt => nn (a_cxt a) | KPort => [Some (a_port a)] | KEport => [Some (a_eport a)] | KPid => [Some (a_pid a)]
  | KCid => [Some (a_cid a)] | KIlen => [Some (a_ilen a)] | KExit => [Some (N.b2n (a_exit a))] | KSig => [Some (a_sig a)]
  | KData => map Some (a_data a) | KCap => nn (a_cap a) | KPsize => nn (a_psize a)
  | KTrunc => match a_trunc a with Some n => nn n | None => [None] end
  | KTs => [Some (a_ts a)] | KReg i => match nth_error (a_regs a) i with Some r => [r] | None => [] end
  | KEidx => [a_eidx a] | KErr => [a_err a] | KCks => [Some (N.b2n (a_cks a))]
  end.

Section Spec.
Variable sg : list N -> N.

Definition packet := key -> val.
Definition key_eqb (a b : key) : bool :=
  match a, b with
  | KReg i, KReg j => i =? j
  | KCxt, KCxt | KPort, KPort | KEport, KEport | KPid, KPid | KCid, KCid | KIlen, KIlen | KExit, KExit | KSig, KSig | KData, KData | KCap, KCap
  | KPsize, KPsize | KTrunc, KTrunc | KTs, KTs | KEidx, KEidx | KErr, KErr | KCks, KCks => true
  | _, _ => false
  end.
Definition sets (p : packet) (k : key) (v : val) : packet := fun k' => if key_eqb k' k then v else p k'.
(** A new packet *)
Definition arrival (c port pid cid ilen data cap : val) (now : N) : packet := fun k =>
  match k with
  | KCxt => c | KPort => port | KPid => pid | KCid => cid | KIlen => ilen | KData => data | KCap => cap | KTs => [Some now]
  | KSig => [Some (sg (flat_map (fun o => match o with Some b => [b] | None => [] end) data))]
  | KEport | KExit | KCks | KPsize => [Some 0%N] | KTrunc | KEidx | KErr => [None]
  | KReg i => if i <? 4 then [None] else []
  end.
(** Variables: absent, moved from, or holding a packet *)
Inductive place := Absent | Empty | Full (p : packet).
Definition world := nat -> place.
Definition put_ (w : world) (v : nat) (x : place) : world := fun u => if u =? v then x else w u.

Definition least (n : nat) (v : val) : val := match v with [Some m] => nn (Nat.min n (N.to_nat m)) | _ => nn n end.
Definition setting (p : packet) (x : set) : packet :=
  match x with
  | SEport n => sets p KEport [Some n] | SPort n => sets p KPort [Some n] | SCid n => sets p KCid [Some n]
  | SIlen n => sets p KIlen [Some n] | SPsize n => sets p KPsize (nn n) | STrunc n => sets p KTrunc (least n (p KTrunc))
  | SReg i n => sets p (KReg i) [Some n] | SEidx n => sets p KEidx [n] | SErr n => sets p KErr [n]
  | SCks b => sets p KCks [Some (N.b2n b)] | SExit => sets p KExit [Some 1%N] | SResetExit => sets p KExit [Some 0%N]
  | SPrepend bs => sets p KData (map Some bs ++ p KData) | SRemove n => sets p KData (skipn n (p KData))
  end.
Definition after (w : world) (o : op) : world :=
  match o with
  | ONew v c port pid cid ilen bs cap now => put_ w v (Full (arrival (nn c) [Some port] [Some pid] [Some cid] [Some ilen] (map Some bs) (nn cap) now))
  | ODel v => put_ w v Absent
  | OClone v u cid now =>
      put_ w u (match w v with Full p => Full (arrival (p KCxt) (p KPort) (p KPid) [Some cid] (p KIlen) (p KData) (p KCap) now) | _ => Empty end)
  | OCloneTo v u c cid now =>
      put_ w u (match w v with Full p => Full (arrival (nn c) (p KPort) (p KPid) [Some cid] (p KIlen) (p KData) (p KCap) now) | _ => Empty end)
  | OMove v u => put_ (put_ w u (w v)) v Empty
  | OAssign u v => if u =? v then w else put_ (put_ w u (w v)) v Empty
  | OCtx v c => match w v with Full p => put_ w v (Full (sets p KCxt (nn c))) | _ => w end
  | OSet v x => match w v with Full p => put_ w v (Full (setting p x)) | _ => w end
  | OGet v => w
  end.
(** Nothing is said of what an empty variable shows. *)
Definition may_show (w : world) (o : op) (x : obs) : Prop :=
  match o with
  | OGet v => match w v with
              | Full p => exists a n, x = Shows a n /\ (forall k, reads a k = p k) /\
                  n = match p KTrunc with [Some m] => Nat.min (length (p KData)) (N.to_nat m) | _ => length (p KData) end
              | _ => True
              end
  | _ => x = Nothing
  end.
Fixpoint follows (w : world) (os : list op) (xs : list obs) : Prop :=
  match os, xs with
  | [], [] => True
  | o :: r, x :: t => may_show w o x /\ follows (after w o) r t
  | _, _ => False
  end.
Definition no_packets : world := fun _ => Absent.

(** What may be done with [n] contexts: making packets in new variables, using packets. *)
Definition num (v : val) : nat := match v with [Some m] => N.to_nat m | _ => 0 end.
Definition full (w : world) (v : nat) : Prop := exists p, w v = Full p.
Definition legal (n : nat) (w : world) (o : op) : Prop :=
  match o with
  | ONew v c _ _ _ _ bs cap _ => w v = Absent /\ c < n /\ length bs <= cap
  | ODel v => w v <> Absent
  | OClone v u _ _ => full w v /\ w u = Absent
  | OCloneTo v u c _ _ => full w v /\ w u = Absent /\ c < n
  | OMove v u => w v <> Absent /\ w u = Absent
  | OAssign u v => w v <> Absent /\ w u <> Absent
  | OCtx v c => full w v /\ c < n
  | OSet v x => exists p, w v = Full p /\
      match x with
      | SReg i _ => i < 4
      | SPrepend bs => length (p KData) + length bs <= num (p KCap)
      | SRemove k => num (p KPsize) + k <= length (p KData)
      | _ => True
      end
  | OGet v => w v <> Absent
  end.
Fixpoint all_legal (n : nat) (w : world) (os : list op) : Prop :=
  match os with [] => True | o :: r => legal n w o /\ all_legal n (after w o) r end.

(** A condition met by each operation in the state it is performed in *)
Fixpoint along (P : st -> op -> Prop) (s : st) (os : list op) : Prop :=
  match os with [] => True | o :: r => P s o /\ match step sg s o with Some (s', _) => along P s' r | None => True end end.
(** Moves concern packets whose truncation, entry index, error code and checksum error are as in a
    new packet (construction), or the same in both (assignment). *)
Definition rest (a : att) := (a_trunc a, a_eidx a, a_err a, a_cks a).
Definition plain_move (s : st) (o : op) : Prop :=
  match o with
  | OMove v w => forall a x, look (vars s) v = Some (mkVar a x) -> rest a = (None, None, None, false)
  | OAssign w v => forall a x b y, look (vars s) v = Some (mkVar a x) -> look (vars s) w = Some (mkVar b y) -> rest b = rest a
  | _ => True
  end.
(** Only a variable with nothing in it, or a packet of the same context and id, is assigned to. *)
Definition safe_assign (s : st) (o : op) : Prop :=
  match o with
  | OAssign w v => forall a x b y, look (vars s) v = Some (mkVar a x) -> look (vars s) w = Some (mkVar b (Some y)) ->
                   a_cxt b = a_cxt a /\ a_pid b = a_pid a
  | _ => True
  end.
(** The header vectors held by variables, with the context and id of the packet *)
Definition hold (x : var) : list (nat * N * (nat * nat)) :=
  match v_phv x with Some y => [(a_cxt (v_att x), a_pid (v_att x), y)] | None => [] end.
Definition held (s : st) : list (nat * N * (nat * nat)) := flat_map (fun x => hold (snd x)) (vars s).
(** The ids of the packets made, by creation or cloning *)
Fixpoint births (s : st) (os : list op) : list N :=
  match os with
  | [] => []
  | o :: r => match step sg s o with
              | Some (s', _) =>
                  match o with
                  | ONew w _ _ _ _ _ _ _ _ | OClone _ w _ _ | OCloneTo _ w _ _ _ =>
                      match look (vars s') w with Some x => a_pid (v_att x) :: births s' r | None => births s' r end
                  | _ => births s' r
                  end
              | None => []
              end
  end.
End Spec.
