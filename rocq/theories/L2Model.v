(** Model of the l2_switch target, targets/l2_switch/l2_switch.cpp:40-157: the receiving thread, the pipeline thread and the transmit thread with the two bounded queues between them, and the pool its header vectors come from.
    The program is arbitrary: parser, pipelines and deparser are variables, and can use and change the state of the switch ([W]: registers, counters, tables), which here
    only packets change.  A schedule is any list of labels; a thread that cannot go on stays where it is.  Queues are lists, oldest first (C18 has their
    locks).  Simplifications: field values and ports are natural numbers that fit an int; the group of multicast group 1 depends on the state of the switch (C19, C20 have the replication engine);
    logging is left out.
    A header vector is its fields.  [reset] is what PHV::reset and reset_header_stacks do to it when a packet dies (packet.cpp:96-110, phv.cpp:33-46); they leave the metadata as it is, but nothing
    here depends on that.  A copy takes its header vector from the pool when there is room in the output queue, in the code just before waiting for that room; all its fields are those of the
    original, in the code those of the metadata and of the valid headers (phv.cpp:71-77). *)
From Coq Require Import List Arith NArith Bool.
Import ListNotations.

Definition bytes := list N.
(** The header vector, as its fields; 0: standard_metadata.ingress_port, 1: standard_metadata.egress_port, 2: intrinsic_metadata.mgid, 3: intrinsic_metadata.learn_id *)
Definition phv := nat -> nat.
Definition set_f (h : phv) (f v : nat) : phv := fun g => if g =? f then v else h g.

Section L2.
Context (W : Type) (parse : phv -> bytes -> phv * bytes) (ingress egress : W -> phv -> W * phv) (deparse : phv -> bytes -> bytes) (reset : phv -> phv) (group1 : W -> list nat).
(** capacities of input_buffer and output_buffer, 43: 1024 and 128 *)
Context (cap_in cap_out : nat).

(** A packet received, with the header vector it got from the pool; the copies of a packet that the pipeline thread has still to send: header vector, payload, ports, and if they are copies; a packet to transmit *)
Definition rx : Type := nat * bytes * phv.
Record work := mk_wk { k_phv : phv; k_load : bytes; k_ports : list nat; k_copies : bool }.
Definition out : Type := nat * bytes.
Record st := mk_st { s_w : W; s_rx : option rx; s_in : list rx; s_work : work; s_out : list (out * phv); s_sent : list out; s_learn : list (nat * phv); s_pool : list phv (* last first *) }.
Definition no_work : work := mk_wk (fun _ => 0) [] [] false.
Definition init (w : W) : st := mk_st w None [] no_work [] [] [] [].
(** PHVPool::get, phv_source.cpp:36-46: the last one released, or a new one, all zeros *)
Definition take (pool : list phv) : phv * list phv := match pool with h :: r => (h, r) | [] => ((fun _ => 0), []) end.

Inductive label := LRecv (port : nat) (b : bytes) | LIn | LPipe | LPush | LSend.
Inductive res := Go (s : st) | Blocked | Failed.

(** pipeline_thread 117-154, from the header vector after ingress: the drop 131-134, the assertion on the group 137, pruning 142, unicast 151 *)
Definition ports_of (w : W) (port : nat) (h : phv) : option (list nat) :=
  if (h 1 =? 511) && (h 2 =? 0) then Some []
  else if h 2 =? 0 then Some [h 1]
  else if h 2 =? 1 then Some (filter (fun p => negb (p =? port)) (group1 w))
  else None.

Definition step (s : st) (l : label) : res :=
  match l with
  | LRecv port b =>                            (* receive_ 55-61: the packet is created *)
      match s_rx s with None => Go (mk_st (s_w s) (Some (port, b, fst (take (s_pool s)))) (s_in s) (s_work s) (s_out s) (s_sent s) (s_learn s) (snd (take (s_pool s)))) | Some _ => Blocked end
  | LIn =>                                     (* input_buffer.push_front 63 *)
      match s_rx s with
      | Some p => if length (s_in s) <? cap_in then Go (mk_st (s_w s) None (s_in s ++ [p]) (s_work s) (s_out s) (s_sent s) (s_learn s) (s_pool s)) else Blocked
      | None => Blocked
      end
  | LPipe =>                                   (* 105-139; a packet that goes nowhere dies here *)
      match k_ports (s_work s), s_in s with
      | [], (port, b, h0) :: r =>
          let '(h, load) := parse (set_f h0 0 port) b in
          let '(w1, h1) := ingress (s_w s) h in
          let lrn := if 0 <? h1 3 then s_learn s ++ [(h1 3, h1)] else s_learn s in      (* 126-129 *)
          let h2 := if 0 <? h1 3 then set_f h1 3 0 else h1 in
          match ports_of w1 port h2 with
          | Some ps =>
              let h3 := if h2 2 =? 0 then h2 else set_f h2 2 0 in      (* 138 *)
              Go (mk_st w1 (s_rx s) r (mk_wk h3 load ps (negb (h2 2 =? 0))) (s_out s) (s_sent s) lrn (match ps with [] => reset h3 :: s_pool s | _ => s_pool s end))
          | None => Failed
          end
      | _, _ => Blocked
      end
  | LPush =>                                   (* 144-148, 151-154; a copy has its own header vector, and the original dies after the last copy *)
      match k_ports (s_work s) with
      | p :: r =>
          if length (s_out s) <? cap_out then
            let '(w1, h) := egress (s_w s) (k_phv (s_work s)) in
            let pool := if k_copies (s_work s) then snd (take (s_pool s)) else s_pool s in
            Go (mk_st w1 (s_rx s) (s_in s) (mk_wk (k_phv (s_work s)) (k_load (s_work s)) r (k_copies (s_work s))) (s_out s ++ [(p, deparse h (k_load (s_work s)), h)]) (s_sent s) (s_learn s)
                      (match r with [] => if k_copies (s_work s) then reset (k_phv (s_work s)) :: pool else pool | _ => pool end))
          else Blocked
      | [] => Blocked
      end
  | LSend =>                                   (* transmit_thread 84-94; the packet dies *)
      match s_out s with
      | (p, h) :: r => Go (mk_st (s_w s) (s_rx s) (s_in s) (s_work s) r (s_sent s ++ [p]) (s_learn s) (reset h :: s_pool s))
      | [] => Blocked
      end
  end.
(** [None]: the assertion failed.  Also the packets received, in order, with their header vectors *)
Fixpoint run (s : st) (ls : list label) : option (st * list rx) :=
  match ls with
  | [] => Some (s, [])
  | l :: r =>
      match step s l with
      | Go s1 => match run s1 r with Some (s2, g) => Some (s2, match l with LRecv port b => (port, b, fst (take (s_pool s))) :: g | _ => g end) | None => None end
      | Blocked => run s r
      | Failed => None
      end
  end.
End L2.
