(** Specification of egress queueing: an independent FIFO list per (queue, priority); one server per
    worker with strict priority; each element has an earliest send time. *)
From Coq Require Import List Arith NArith Bool.
From Verif Require Import QueueingModel.
Import ListNotations.

Section Spec.
Context {T : Type}.
Variables (ticks : N -> N) (wmap : nat -> nat) (nw np : nat).

(** A waiting element: item, earliest send time, arrival number among the elements of its worker. *)
Definition waiting := (T * N * nat)%type.
Definition w_item (x : waiting) : T := fst (fst x).
Definition w_send (x : waiting) : N := snd (fst x).
Definition w_arr (x : waiting) : nat := snd x.

Record sq := mkSq {
  s_pend : list waiting;        (* oldest first *)
  s_cap : nat; s_delay : N;
  s_last : option N }.          (* send time of the last accepted element; [None]: never mentioned *)
Record sst := mkSst { s_q : nat -> nat -> sq; s_arr : nat -> nat }.

Definition s_new (cap : nat) : sst := mkSst (fun _ _ => mkSq [] cap (ticks 0) None) (fun _ => 0).

Definition upd (f : nat -> nat -> sq) (q pri : nat) (x : sq) : nat -> nat -> sq :=
  fun q' p' => if (q' =? q) && (p' =? pri) then x else f q' p'.
(** The first call that names a queue starts its clock. *)
Definition mention (q : nat) (now : N) (f : nat -> nat -> sq) : nat -> nat -> sq :=
  fun q' p' => let x := f q' p' in
    if q' =? q then match s_last x with
                    | None => mkSq (s_pend x) (s_cap x) (s_delay x) (Some now) | Some _ => x end
    else x.
Definition last_of (x : sq) : N := match s_last x with Some t => t | None => 0%N end.
Definition set_cap (c : nat) (x : sq) : sq := mkSq (s_pend x) c (s_delay x) (s_last x).
Definition set_delay (d : N) (x : sq) : sq := mkSq (s_pend x) (s_cap x) d (s_last x).

(** [x] goes before [y]: earlier send time, then earlier arrival. *)
Definition goes_first (x y : waiting) : Prop :=
  (w_send x < w_send y)%N \/ (w_send x = w_send y /\ w_arr x <= w_arr y).

Fixpoint sum_to (f : nat -> nat) (n : nat) : nat := match n with O => 0 | S n => sum_to f n + f n end.

Inductive qspec (s : sst) : qlop T -> qlout T -> sst -> Prop :=
| qs_push_throw : forall q pri item now0 now, nw <= wmap q \/ np <= pri ->
    qspec s (OPush q pri item now0 now) QThrow (mkSst (mention q now0 (s_q s)) (s_arr s))
| qs_push_full : forall q pri item now0 now, wmap q < nw -> pri < np ->
    s_cap (s_q s q pri) <= length (s_pend (s_q s q pri)) ->
    qspec s (OPush q pri item now0 now) (QPushed false) (mkSst (mention q now0 (s_q s)) (s_arr s))
| qs_push : forall q pri item now0 now, wmap q < nw -> pri < np ->
    length (s_pend (s_q s q pri)) < s_cap (s_q s q pri) ->
    let f := mention q now0 (s_q s) in
    let x := f q pri in
    let send := N.max now (last_of x + s_delay x) in
    qspec s (OPush q pri item now0 now) (QPushed true)
      (mkSst (upd f q pri (mkSq (s_pend x ++ [(item, send, s_arr s (wmap q))]) (s_cap x) (s_delay x) (Some send)))
             (fun w => if w =? wmap q then S (s_arr s w) else s_arr s w))
| qs_pop_throw : forall w now, nw <= w -> qspec s (OPop w now) QThrow s
| qs_pop_block : forall w now, w < nw ->
    (forall q pri x, wmap q = w -> pri < np -> In x (s_pend (s_q s q pri)) -> (now < w_send x)%N) ->
    qspec s (OPop w now) QBlock s
| qs_pop : forall w now q pri x rest, w < nw -> wmap q = w -> pri < np ->
    s_pend (s_q s q pri) = x :: rest -> (w_send x <= now)%N ->
    (forall q' pri' y, wmap q' = w -> pri < pri' -> pri' < np -> In y (s_pend (s_q s q' pri')) -> (now < w_send y)%N) ->
    (forall q' y, wmap q' = w -> In y (s_pend (s_q s q' pri)) -> goes_first x y) ->
    qspec s (OPop w now) (QPopped q pri (w_item x))
      (mkSst (upd (s_q s) q pri (mkSq rest (s_cap (s_q s q pri)) (s_delay (s_q s q pri)) (s_last (s_q s q pri)))) (s_arr s))
| qs_size : forall q, qspec s (OSize q) (QSize (sum_to (fun p => length (s_pend (s_q s q p))) np)) s
| qs_size_pri : forall q pri, pri < np -> qspec s (OSizePri q pri) (QSize (length (s_pend (s_q s q pri)))) s
| qs_size_bad : forall q pri, np <= pri -> s_last (s_q s q pri) <> None -> qspec s (OSizePri q pri) QThrow s
| qs_size_bad0 : forall q pri, np <= pri -> s_last (s_q s q pri) = None -> qspec s (OSizePri q pri) (QSize 0) s
| qs_cap : forall q c now, qspec s (OCap q c now) QDone
    (mkSst (fun q' p' => let x := mention q now (s_q s) q' p' in if q' =? q then set_cap c x else x) (s_arr s))
| qs_cap_pri : forall q pri c now, pri < np -> qspec s (OCapPri q pri c now) QDone
    (mkSst (upd (mention q now (s_q s)) q pri (set_cap c (mention q now (s_q s) q pri))) (s_arr s))
| qs_cap_throw : forall q pri c now, np <= pri ->
    qspec s (OCapPri q pri c now) QThrow (mkSst (mention q now (s_q s)) (s_arr s))
| qs_cap_all : forall c, qspec s (OCapAll c) QDone (mkSst (fun q p => set_cap c (s_q s q p)) (s_arr s))
| qs_rate : forall q pps now, qspec s (ORate q pps now) QDone
    (mkSst (fun q' p' => let x := mention q now (s_q s) q' p' in if q' =? q then set_delay (ticks pps) x else x) (s_arr s))
| qs_rate_pri : forall q pri pps now, pri < np -> qspec s (ORatePri q pri pps now) QDone
    (mkSst (upd (mention q now (s_q s)) q pri (set_delay (ticks pps) (mention q now (s_q s) q pri))) (s_arr s))
| qs_rate_throw : forall q pri pps now, np <= pri ->
    qspec s (ORatePri q pri pps now) QThrow (mkSst (mention q now (s_q s)) (s_arr s))
| qs_rate_all : forall pps, qspec s (ORateAll pps) QDone (mkSst (fun q p => set_delay (ticks pps) (s_q s q p)) (s_arr s)).

Inductive qspec_run : sst -> list (qlop T) -> list (qlout T) -> sst -> Prop :=
| qsr_nil : forall s, qspec_run s [] [] s
| qsr_cons : forall s o x s' os xs s'', qspec s o x s' -> qspec_run s' os xs s'' ->
    qspec_run s (o :: os) (x :: xs) s''.

(** What a user sees of one (queue, priority): the items accepted, with the clock reading of the push,
    and the items delivered, with the clock reading of the pop. *)
Fixpoint accepted (q pri : nat) (ops : list (qlop T)) (outs : list (qlout T)) : list (T * N) :=
  match ops, outs with
  | OPush q' p' item _ now :: r, QPushed true :: xs =>
      if (q' =? q) && (p' =? pri) then (item, now) :: accepted q pri r xs else accepted q pri r xs
  | _ :: r, _ :: xs => accepted q pri r xs
  | _, _ => []
  end.
Fixpoint delivered (q pri : nat) (ops : list (qlop T)) (outs : list (qlout T)) : list (T * N) :=
  match ops, outs with
  | OPop _ now :: r, QPopped q' p' item :: xs =>
      if (q' =? q) && (p' =? pri) then (item, now) :: delivered q pri r xs else delivered q pri r xs
  | _ :: r, _ :: xs => delivered q pri r xs
  | _, _ => []
  end.
(** Calls that do not change the rate of this (queue, priority). *)
Definition keeps_rate (q pri : nat) (o : qlop T) : Prop :=
  match o with
  | ORate q' _ _ => q' <> q
  | ORatePri q' p' _ _ => q' <> q \/ p' <> pri
  | ORateAll _ => False
  | _ => True
  end.
End Spec.
Arguments sq : clear implicits.
Arguments sst : clear implicits.
