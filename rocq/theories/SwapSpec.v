(** What loading and swapping configurations should do.
    A context has the configuration its packets use and, between a load and the swap, the one
    loaded; a packet has the configuration it was made under.  Calls of load_new_config,
    swap_configs and do_swap can be going on in any number of threads. *)
From Coq Require Import List Arith Bool.
From Verif Require Import SwapModel.
Import ListNotations.

Section Spec.
Context {J : Type}.
Variable enabled : bool.
Variable n : nat.                       (* number of contexts *)

Record sc := mkSc { s_live : J; s_next : option J; s_req : bool (* a swap has been requested *) }.
(** A call going on: the contexts it has gone through, those it has swapped, whether one refused. *)
Record op := mkOp { o_call : call J; o_done : list nat; o_swapped : list nat; o_refused : bool }.
Record sp := mkSp { s_cx : nat -> option sc; s_pk : nat -> option (nat * J); s_open : nat -> option op;
                    s_calm : Prop (* no two swap calls have overlapped *); s_last : option J }.
Definition upd {A} (f : nat -> A) (k : nat) (v : A) : nat -> A := fun x => if x =? k then v else f x.
Definition swapping (c : call J) : bool := match c with CLoad _ => false | _ => true end.
Definition newest (k : sc) : J := match s_next k with Some j => j | None => s_live k end.

Definition accept (s : sp) (e : ev J) (s' : sp) : Prop :=
  match e with
  | VCall t c =>
      s_open s t = None /\
      s' = mkSp (s_cx s) (s_pk s) (upd (s_open s) t (Some (mkOp c [] [] false)))
             (s_calm s /\ (swapping c = true -> forall t' o, s_open s t' = Some o -> swapping (o_call o) = false)) (s_last s)
  | VRet t c ok => exists o, s_open s t = Some o /\ o_call o = c /\
      match c with
      | CLoad _ => if ok then o_done o = seq 0 n /\ o_refused o = false else o_refused o = true \/ enabled = false
      | CSwap => if ok then o_done o = seq 0 n /\ o_refused o = false /\ (s_calm s -> o_swapped o = seq 0 n)
                 else o_refused o = true \/ enabled = false
      | CDo => if ok then o_swapped o <> [] else o_swapped o = []
      end /\
      s' = mkSp (s_cx s) (s_pk s) (upd (s_open s) t None) (s_calm s)
             (match c, ok with CLoad j, true => Some j | _, _ => s_last s end)
  | VLoad t i j ok => enabled = true /\ exists o k, s_open s t = Some o /\ o_call o = CLoad j /\ o_refused o = false /\ i = length (o_done o) /\
      s_cx s i = Some k /\
      if ok then s_next k = None /\
        s' = mkSp (upd (s_cx s) i (Some (mkSc (s_live k) (Some j) false))) (s_pk s)
               (upd (s_open s) t (Some (mkOp (o_call o) (o_done o ++ [i]) [] false))) (s_calm s) (s_last s)
      else s_next k <> None /\
        s' = mkSp (s_cx s) (s_pk s) (upd (s_open s) t (Some (mkOp (o_call o) (o_done o) [] true))) (s_calm s) (s_last s)
  | VReq t i ok => enabled = true /\ exists o k, s_open s t = Some o /\ o_call o = CSwap /\ o_refused o = false /\ i = length (o_done o) /\
      o_swapped o = [] /\ s_cx s i = Some k /\
      if ok then s_next k <> None /\
        s' = mkSp (upd (s_cx s) i (Some (mkSc (s_live k) (s_next k) true))) (s_pk s)
               (upd (s_open s) t (Some (mkOp (o_call o) (o_done o ++ [i]) [] false))) (s_calm s) (s_last s)
      else s_next k = None /\
        s' = mkSp (s_cx s) (s_pk s) (upd (s_open s) t (Some (mkOp (o_call o) (o_done o) [] true))) (s_calm s) (s_last s)
  | VSwapped t i => exists o k j, s_open s t = Some o /\ swapping (o_call o) = true /\
      (o_call o = CSwap -> o_done o = seq 0 n) /\
      s_cx s i = Some k /\ s_req k = true /\ s_next k = Some j /\
      (forall p i' j', s_pk s p = Some (i', j') -> i' <> i) /\
      s' = mkSp (upd (s_cx s) i (Some (mkSc j None false))) (s_pk s)
             (upd (s_open s) t (Some (mkOp (o_call o) (o_done o) (o_swapped o ++ [i]) (o_refused o)))) (s_calm s) (s_last s)
  | VNotify t => exists o, s_open s t = Some o /\ swapping (o_call o) = true /\
      (s_calm s -> o_call o = CSwap -> forall p, s_pk s p = None) /\ s' = s
  | VRun i j => exists k, s_cx s i = Some k /\ j = newest k /\ s' = s
  | VNew p i j => exists k, s_cx s i = Some k /\ j = s_live k /\ s_pk s p = None /\
      s' = mkSp (s_cx s) (upd (s_pk s) p (Some (i, j))) (s_open s) (s_calm s) (s_last s)
  | VUse p i j j' => exists k, s_pk s p = Some (i, j) /\ s_cx s i = Some k /\ j = s_live k /\ j' = j /\ s' = s
  | VDrop p => s_pk s p <> None /\ s' = mkSp (s_cx s) (upd (s_pk s) p None) (s_open s) (s_calm s) (s_last s)
  | VGet j => j = s_last s /\ s' = s
  | VAbort => ~ s_calm s /\ s' = s
  end.
Fixpoint accepts (s : sp) (es : list (ev J)) (s' : sp) : Prop :=
  match es with [] => s' = s | e :: r => exists s1, accept s e s1 /\ accepts s1 r s' end.
Definition sp_start (j : J) : sp :=
  mkSp (fun i => if i <? n then Some (mkSc j None false) else None) (fun _ => None) (fun _ => None) True (Some j).

(** ** Calls one after the other: the switch as a whole *)
Record sw := mkSw { w_live : J; w_next : option J }.
Definition sw_call (w : sw) (c : call J) : sw * bool :=
  match c with
  | CLoad j => if enabled then match w_next w with None => (mkSw (w_live w) (Some j), true) | Some _ => (w, false) end else (w, false)
  | CSwap => if enabled then match w_next w with Some j => (mkSw j None, true) | None => (w, false) end else (w, false)
  | CDo => (w, false)                                        (* nothing has been requested *)
  end.
Fixpoint sw_run (w : sw) (cs : list (call J)) : sw * list bool :=
  match cs with [] => (w, []) | c :: r => let (w1, x) := sw_call w c in let (w2, xs) := sw_run w1 r in (w2, x :: xs) end.
(** The completed calls of a history and their results, and: is no call begun while one is going on? *)
Definition completed (es : list (ev J)) : list (call J * bool) :=
  flat_map (fun e => match e with VRet _ c ok => [(c, ok)] | _ => [] end) es.
Fixpoint one_at_a_time (busy : bool) (es : list (ev J)) : Prop :=
  match es with
  | [] => busy = false
  | VCall _ _ :: r => busy = false /\ one_at_a_time true r
  | VRet _ _ _ :: r => one_at_a_time false r
  | _ :: r => one_at_a_time busy r
  end.
End Spec.
Arguments sc : clear implicits. Arguments op : clear implicits. Arguments sp : clear implicits. Arguments sw : clear implicits.
