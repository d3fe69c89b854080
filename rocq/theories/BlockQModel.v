(** Model of the blocking egress queueing logic QueueingLogic (include/bm/bm_sim/queueing.h 74-229).

    All functions hold the mutex, so each evaluation of a waiting loop is atomic; a call that goes to
    sleep gives [BWait] and leaves the state as it is (except that the queue is created).  The condition
    variables themselves are not modelled here (see QueueModel.v for that level). *)
From Coq Require Import List Arith Bool.
From Verif Require Import Base.
Import ListNotations.

Section B.
Context {T : Type}.
Variables (wmap : nat -> nat).

(** QueueInfo 187-194: size and capacity; WorkerInfo 196-199: the deque, oldest first *)
Record bst := mkB { b_cap : nat; b_q : nat -> option (nat * nat); b_w : list (list (T * nat)) }.
Definition b_new (nw cap : nat) : bst := mkB cap (fun _ => None) (repeat [] nw).

(** get_queue 201-211 *)
Definition b_get (s : bst) (q : nat) : bst * (nat * nat) :=
  match b_q s q with
  | Some i => (s, i)
  | None => (mkB (b_cap s) (fun x => if x =? q then Some (0, b_cap s) else b_q s x) (b_w s), (0, b_cap s))
  end.
Definition b_setq (s : bst) (q : nat) (i : nat * nat) : bst :=
  mkB (b_cap s) (fun x => if x =? q then Some i else b_q s x) (b_w s).

Inductive bop := BPush (q : nat) (item : T) | BPop (w : nat) | BSize (q : nat) | BSetCap (q c : nat) | BSetAll (c : nat).
Inductive bout := BPushed | BWait | BThrow | BPopped (q : nat) (item : T) | BIs (n : nat) | BOk.

Definition b_step (s : bst) (o : bop) : option (bst * bout) :=
  match o with
  | BPush q item =>                                   (* push_front 95-121 *)
      let '(s, (size, cap)) := b_get s q in
      match nth_error (b_w s) (wmap q) with
      | None => Some (s, BThrow)
      | Some l => if cap <=? size then Some (s, BWait)
                  else let s := b_setq s q (S size, cap) in
                       Some (mkB (b_cap s) (b_q s) (list_set (b_w s) (wmap q) (l ++ [(item, q)])), BPushed)
      end
  | BPop w =>                                         (* pop_back 130-145 *)
      match nth_error (b_w s) w with
      | None => Some (s, BThrow)
      | Some [] => Some (s, BWait)
      | Some ((item, q) :: l) =>
          match b_q s q with
          | None => None                              (* get_queue_or_throw *)
          | Some (size, cap) =>
              let s := b_setq s q (size - 1, cap) in
              Some (mkB (b_cap s) (b_q s) (list_set (b_w s) w l), BPopped q item)
          end
      end
  | BSize q => Some (s, BIs (match b_q s q with None => 0 | Some (n, _) => n end))   (* 148-154 *)
  | BSetCap q c => let '(s, (size, _)) := b_get s q in Some (b_setq s q (size, c), BOk) (* 158-162 *)
  | BSetAll c => Some (mkB c (fun q => option_map (fun i => (fst i, c)) (b_q s q)) (b_w s), BOk) (* 165-169 *)
  end.
Fixpoint b_run (s : bst) (ops : list bop) : option (bst * list bout) :=
  match ops with
  | [] => Some (s, [])
  | o :: r => match b_step s o with
              | None => None
              | Some (s', x) => match b_run s' r with None => None | Some (s'', xs) => Some (s'', x :: xs) end
              end
  end.
End B.
Arguments bst : clear implicits.
Arguments bop : clear implicits.
Arguments bout : clear implicits.

(** ** Specification: one FIFO list per worker, a capacity per queue *)
Section S.
Context {T : Type}.
Variables (wmap : nat -> nat) (nw : nat).
Record bsp := mkBsp { p_l : nat -> list (T * nat); p_cap : nat -> nat }.
Definition in_queue (q : nat) (l : list (T * nat)) : nat := length (filter (fun x => snd x =? q) l).
Inductive bspec (s : bsp) : bop T -> bout T -> bsp -> Prop :=
| bs_throw : forall q item, nw <= wmap q -> bspec s (BPush q item) BThrow s
| bs_wait : forall q item, wmap q < nw -> p_cap s q <= in_queue q (p_l s (wmap q)) -> bspec s (BPush q item) BWait s
| bs_push : forall q item, wmap q < nw -> in_queue q (p_l s (wmap q)) < p_cap s q ->
    bspec s (BPush q item) BPushed (mkBsp (fun w => if w =? wmap q then p_l s w ++ [(item, q)] else p_l s w) (p_cap s))
| bs_popthrow : forall w, nw <= w -> bspec s (BPop w) BThrow s
| bs_popwait : forall w, w < nw -> p_l s w = [] -> bspec s (BPop w) BWait s
| bs_pop : forall w q item l, w < nw -> p_l s w = (item, q) :: l ->
    bspec s (BPop w) (BPopped q item) (mkBsp (fun x => if x =? w then l else p_l s x) (p_cap s))
| bs_size : forall q, bspec s (BSize q) (BIs (in_queue q (p_l s (wmap q)))) s
| bs_cap : forall q c, bspec s (BSetCap q c) BOk (mkBsp (p_l s) (fun x => if x =? q then c else p_cap s x))
| bs_all : forall c, bspec s (BSetAll c) BOk (mkBsp (p_l s) (fun _ => c)).
Inductive bspec_run : bsp -> list (bop T) -> list (bout T) -> bsp -> Prop :=
| bsr_nil : forall s, bspec_run s [] [] s
| bsr_cons : forall s o x s' os xs s'', bspec s o x s' -> bspec_run s' os xs s'' -> bspec_run s (o :: os) (x :: xs) s''.

(** What the users of worker [w] see. *)
Fixpoint b_accepted (w : nat) (ops : list (bop T)) (outs : list (bout T)) : list (T * nat) :=
  match ops, outs with
  | BPush q item :: r, BPushed :: xs => if wmap q =? w then (item, q) :: b_accepted w r xs else b_accepted w r xs
  | _ :: r, _ :: xs => b_accepted w r xs
  | _, _ => []
  end.
Fixpoint b_delivered (w : nat) (ops : list (bop T)) (outs : list (bout T)) : list (T * nat) :=
  match ops, outs with
  | BPop w' :: r, BPopped q item :: xs => if w' =? w then (item, q) :: b_delivered w r xs else b_delivered w r xs
  | _ :: r, _ :: xs => b_delivered w r xs
  | _, _ => []
  end.
End S.
Arguments bsp : clear implicits.
