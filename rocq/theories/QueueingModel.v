(** Model of the egress queueing logics (include/bm/bm_sim/queueing.h).

    QueueingLogicPriRL (481-821) is modelled in full.  QueueingLogicRL (244-462) is the same code
    without the priority dimension and is the instance [np = 1] of this model.  Every public function
    takes the mutex for its whole duration, so calls are atomic.  [pop_back] blocks until an element
    may be sent; one evaluation of its loop body with the clock reading [now] is modelled, with the
    result [QBlock] when the thread goes to sleep (it then tries again later).  Clock readings are
    arbitrary numbers supplied with each call (no monotonicity).  [ticks] is [rate_to_ticks]
    (547-552), the conversion of a rate to a delay between packets; [wmap] is the user's
    [map_to_worker].  A std::priority_queue is represented by its sorted content.  The wrapping
    counter is a [nat] (it would wrap after 2^64 packets).  Undefined behaviour is [None]. *)
From Coq Require Import List Arith NArith Bool.
From Verif Require Import Base.
Import ListNotations.

Section Queueing.
Context {T : Type}.
Variables (ticks : N -> N) (wmap : nat -> nat) (nw np : nat).

(** QueueInfoPri 725-738 *)
Record qip := mkQip { qp_size : nat; qp_cap : nat; qp_delay : N; qp_last : N }.
(** QueueInfo 740-746 *)
Record qinfo := mkQi { qi_pri : list qip; qi_size : nat }.
(** QE 707-715: element, queue, send time, id *)
Record qe := mkQe { e_item : T; e_q : nat; e_send : N; e_id : nat }.
(** WorkerInfo 748-753: 32 priority queues *)
Record worker := mkW { w_size : nat; w_queues : list (list qe); w_cnt : nat }.
Record qlog := mkL { l_cap : nat; l_rate : N; l_q : nat -> option qinfo; l_w : list worker }.

Definition l_new (cap : nat) : qlog :=
  mkL cap 0 (fun _ => None) (repeat (mkW 0 (repeat [] 32) 0) nw).

(** QEComp 717-721: [before a b] when [a] has the higher place in the priority queue *)
Definition before (a b : qe) : bool :=
  if (e_send a =? e_send b)%N then e_id a <? e_id b else (e_send a <? e_send b)%N.
(** priority_queue::emplace *)
Fixpoint pq_ins (e : qe) (l : list qe) : list qe :=
  match l with [] => [e] | x :: r => if before e x then e :: l else x :: pq_ins e r end.

Definition updq (f : nat -> option qinfo) (q : nat) (i : qinfo) : nat -> option qinfo :=
  fun x => if x =? q then Some i else f x.
Definition set_q (s : qlog) (q : nat) (i : qinfo) : qlog :=
  mkL (l_cap s) (l_rate s) (updq (l_q s) q i) (l_w s).
(** get_queue 755-762; [now] is the clock reading of the constructor of QueueInfoPri *)
Definition get_queue (s : qlog) (q : nat) (now : N) : qlog * qinfo :=
  match l_q s q with
  | Some i => (s, i)
  | None => let i := mkQi (repeat (mkQip 0 (l_cap s) (ticks (l_rate s)) now) np) 0 in (set_q s q i, i)
  end.
(** get_next_tp 772-775 *)
Definition next_tp (p : qip) (now : N) : N := N.max now (qp_last p + qp_delay p).

Inductive qlout :=
| QPushed (ok : bool) | QThrow | QBlock | QPopped (q pri : nat) (item : T) | QSize (n : nat) | QDone.

(** push_front 519-565 *)
Definition l_push (s : qlog) (q pri : nat) (item : T) (now0 now : N) : option (qlog * qlout) :=
  let '(s, qi) := get_queue s q now0 in
  match nth_error (l_w s) (wmap q) with
  | None => Some (s, QThrow)
  | Some w =>
      match nth_error (qi_pri qi) pri with
      | None => Some (s, QThrow)
      | Some p =>
          if qp_cap p <=? qp_size p then Some (s, QPushed false)
          else
            let send := next_tp p now in
            match nth_error (w_queues w) pri with
            | None => None                      (* queues[priority] beyond the array of 32 *)
            | Some pq =>
                let w' := mkW (S (w_size w)) (list_set (w_queues w) pri (pq_ins (mkQe item q send (w_cnt w)) pq)) (S (w_cnt w)) in
                let p' := mkQip (S (qp_size p)) (qp_cap p) (qp_delay p) send in
                let qi' := mkQi (list_set (qi_pri qi) pri p') (S (qi_size qi)) in
                Some (mkL (l_cap s) (l_rate s) (updq (l_q s) q qi') (list_set (l_w s) (wmap q) w'), QPushed true)
            end
      end
  end.

(** the loop over priorities of pop_back 594-603, from [n - 1] down to 0 *)
Fixpoint find_pri (n : nat) (qs : list (list qe)) (now : N) : option (option (nat * qe * list qe)) :=
  match n with
  | O => Some None
  | S p => match nth_error qs p with
           | None => None                       (* queues[pri] beyond the array of 32 *)
           | Some (e :: r) => if (e_send e <=? now)%N then Some (Some (p, e, r)) else find_pri p qs now
           | Some [] => find_pri p qs now
           end
  end.
(** pop_back 577-620 *)
Definition l_pop (s : qlog) (wid : nat) (now : N) : option (qlog * qlout) :=
  match nth_error (l_w s) wid with
  | None => Some (s, QThrow)
  | Some w =>
      if w_size w =? 0 then Some (s, QBlock)
      else match find_pri np (w_queues w) now with
           | None => None
           | Some None => Some (s, QBlock)
           | Some (Some (pri, e, rest)) =>
               match l_q s (e_q e) with
               | None => None
               | Some qi =>
                   match nth_error (qi_pri qi) pri with
                   | None => None
                   | Some p =>
                       let w' := mkW (w_size w - 1) (list_set (w_queues w) pri rest) (w_cnt w) in
                       let p' := mkQip (qp_size p - 1) (qp_cap p) (qp_delay p) (qp_last p) in
                       let qi' := mkQi (list_set (qi_pri qi) pri p') (qi_size qi - 1) in
                       Some (mkL (l_cap s) (l_rate s) (updq (l_q s) (e_q e) qi') (list_set (l_w s) wid w'),
                             QPopped (e_q e) pri (e_item e))
                   end
               end
           end
  end.

(** size 632-650 *)
Definition l_size (s : qlog) (q : nat) : qlout :=
  match l_q s q with None => QSize 0 | Some qi => QSize (qi_size qi) end.
Definition l_size_pri (s : qlog) (q pri : nat) : qlout :=
  match l_q s q with
  | None => QSize 0
  | Some qi => match nth_error (qi_pri qi) pri with Some p => QSize (qp_size p) | None => QThrow end
  end.

(** SetCapacityFn, SetRateFn 793-821 *)
Definition with_cap (c : nat) (p : qip) : qip := mkQip (qp_size p) c (qp_delay p) (qp_last p).
Definition with_rate (pps : N) (p : qip) : qip := mkQip (qp_size p) (qp_cap p) (ticks pps) (qp_last p).
(** for_each_q, for_one_q 777-791 *)
Definition for_each (f : qip -> qip) (s : qlog) (q : nat) (now : N) : qlog :=
  let '(s, qi) := get_queue s q now in set_q s q (mkQi (map f (qi_pri qi)) (qi_size qi)).
Definition for_one (f : qip -> qip) (s : qlog) (q pri : nat) (now : N) : qlog * qlout :=
  let '(s, qi) := get_queue s q now in
  match nth_error (qi_pri qi) pri with
  | Some p => (set_q s q (mkQi (list_set (qi_pri qi) pri (f p)) (qi_size qi)), QDone)
  | None => (s, QThrow)
  end.
(** the loops of set_capacity_for_all 667-671 and set_rate_for_all 690-694 *)
Definition all_q (f : qip -> qip) (s : qlog) : nat -> option qinfo :=
  fun q => option_map (fun qi => mkQi (map f (qi_pri qi)) (qi_size qi)) (l_q s q).

Inductive qlop :=
| OPush (q pri : nat) (item : T) (now0 now : N)
| OPop (w : nat) (now : N)
| OSize (q : nat) | OSizePri (q pri : nat)
| OCap (q c : nat) (now : N) | OCapPri (q pri c : nat) (now : N) | OCapAll (c : nat)
| ORate (q : nat) (pps now : N) | ORatePri (q pri : nat) (pps now : N) | ORateAll (pps : N).

Definition l_step (s : qlog) (o : qlop) : option (qlog * qlout) :=
  match o with
  | OPush q pri item now0 now => l_push s q pri item now0 now
  | OPop w now => l_pop s w now
  | OSize q => Some (s, l_size s q)
  | OSizePri q pri => Some (s, l_size_pri s q pri)
  | OCap q c now => Some (for_each (with_cap c) s q now, QDone)
  | OCapPri q pri c now => Some (for_one (with_cap c) s q pri now)
  | OCapAll c => Some (mkL c (l_rate s) (all_q (with_cap c) s) (l_w s), QDone)
  | ORate q pps now => Some (for_each (with_rate pps) s q now, QDone)
  | ORatePri q pri pps now => Some (for_one (with_rate pps) s q pri now)
  | ORateAll pps => Some (mkL (l_cap s) pps (all_q (with_rate pps) s) (l_w s), QDone)
  end.
Fixpoint l_run (s : qlog) (ops : list qlop) : option (qlog * list qlout) :=
  match ops with
  | [] => Some (s, [])
  | o :: r => match l_step s o with
              | None => None
              | Some (s', x) => match l_run s' r with None => None | Some (s'', xs) => Some (s'', x :: xs) end
              end
  end.
End Queueing.
Arguments qe : clear implicits.
Arguments worker : clear implicits.
Arguments qlog : clear implicits.
Arguments qlop : clear implicits.
Arguments qlout : clear implicits.
