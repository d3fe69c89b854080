(** Model of the packet-in device manager, src/bm_sim/dev_mgr_packet_in.cpp, and of the calls of DevMgrIface (src/bm_sim/dev_mgr.cpp) on it.

    A schedule is a list of actions.  The receive thread takes one message at a time; taking it (with the update of
    port_info under the mutex) is one step and each notification that follows is one step, so that the calls of
    other threads may fall in between.  A notification and its callback are one step (the interleavings inside the
    port monitor are those of PortMonModel.v).  [None] means that the list is not a schedule, or that the message is
    read beyond its end (undefined behaviour).  Integers are 32-bit little-endian words (x86); a packet handler that
    is given a buffer and a length reads the whole of it.
    Not modelled: starting and stopping the receive thread, nanomsg itself, the names and extras in PortInfo,
    changing the packet handler while running. *)
From Coq Require Import List Arith NArith Bool.
From Verif Require Import PortMonModel.
Import ListNotations.

(** reading a little-endian int of packet_hdr_t at an offset, dev_mgr_packet_in.cpp:167-175 *)
Definition rd32 (bs : list N) (off : nat) : option N :=
  match skipn off bs with
  | b0 :: b1 :: b2 :: b3 :: _ => Some (b0 + 256 * (b1 + 256 * (b2 + 256 * b3)))%N
  | _ => None
  end.
(** writing one, the same lines *)
Definition wr32 (x : N) : list N :=
  [x mod 256; x / 256 mod 256; x / 65536 mod 256; x / 16777216 mod 256]%N.

(** what the outside sees *)
Inductive dout :=
| OCb (p : N) (e : pevt)              (* a callback registered for e is called *)
| OPkt (p : N) (data : list N)        (* the packet handler is called *)
| OMsg (bs : list N)                  (* a message is sent on the socket *)
| OUp (b : bool)                      (* port_is_up *)
| OInfo (l : list (N * bool))         (* get_port_info: port and is_up *)
| OUnsupported.                       (* ReturnCode::UNSUPPORTED *)

Inductive daction :=
| DRecv (bs : list N)                 (* receive_loop: recvmsg, handle_msg *)
| DNotify                             (* the next p_monitor->notify of the receive thread *)
| DIsUp (p : N) | DInfo | DTransmit (p : N) (data : list N) | DAdd (p : N) | DRemove (p : N).

Record dmgr := mkDM {
  dm_info : list (N * bool);          (* port_info, 195: a std::map, sorted by port *)
  dm_mon : list (N * bool);           (* curr_ports of the passive monitor *)
  dm_todo : list (N * pevt) }.        (* notifications the receive thread still has to make *)
Definition dm_new : dmgr := mkDM [] [] [].

(** std::map::emplace of a port that is not there *)
Fixpoint map_emplace (l : list (N * bool)) (p : N) (b : bool) : list (N * bool) :=
  match l with
  | [] => [(p, b)]
  | (q, x) :: r => if (p <? q)%N then (p, b) :: l else (q, x) :: map_emplace r p b
  end.

(** do_port_add, 128-141: is_up is true in a new PortInfo (dev_mgr.h:67) *)
Definition do_port_add (enf : bool) (d : dmgr) (p : N) : dmgr :=
  match pfind (dm_info d) p with
  | Some _ => d
  | None => mkDM (map_emplace (dm_info d) p true) (dm_mon d) (if enf then [(p, Added); (p, Up)] else [])
  end.
(** do_port_remove, 143-153 *)
Definition do_port_remove (enf : bool) (d : dmgr) (p : N) : dmgr :=
  match pfind (dm_info d) p with
  | None => d
  | Some _ => mkDM (perase (dm_info d) p) (dm_mon d) (if enf then [(p, Removed)] else [])
  end.
(** do_port_set_status, 155-165 *)
Definition do_port_set_status (enf : bool) (d : dmgr) (p : N) (e : pevt) : dmgr :=
  match pfind (dm_info d) p with
  | None => d
  | Some _ => mkDM (pset (dm_info d) p (pevt_eqb e Up)) (dm_mon d) (if enf then [(p, e)] else [])
  end.

(** handle_msg, 236-285, and handle_info_req_msg, 224-234; [h] says whether there is a packet handler *)
Definition handle_msg (enf h : bool) (d : dmgr) (bs : list N) : option (dmgr * list dout) :=
  match rd32 bs 0, rd32 bs 4, rd32 bs 8 with
  | Some ty, Some p, Some more =>
      if (ty =? 0)%N then Some (do_port_add enf d p, [])
      else if (ty =? 1)%N then Some (do_port_remove enf d p, [])
      else if (ty =? 2)%N then
        if (more =? 0)%N then Some (do_port_set_status enf d p Down, [])
        else if (more =? 1)%N then Some (do_port_set_status enf d p Up, [])
        else Some (d, [])
      else if (ty =? 3)%N then
        if enf && negb (match pfind (dm_info d) p with Some b => b | None => false end) then Some (d, [])
        else if h then
          let data := skipn 12 bs in
          if (more <? 2147483648)%N && (more <=? N.of_nat (length data))%N
          then Some (d, [OPkt p (firstn (N.to_nat more) data)]) else None
        else Some (d, [])
      else if (ty =? 5)%N then Some (d, [OMsg (wr32 6 ++ wr32 p ++ wr32 more ++ wr32 1)])
      else Some (d, [])
  | _, _, _ => None
  end.

(** PortMonitorPassive::notify_, port_monitor.cpp:92-117 (without the notifications transport) *)
Definition mon_notify (mon : list (N * bool)) (p : N) (e : pevt) : list (N * bool) * list dout :=
  match pm_accept mon p e with Some m => (m, [OCb p e]) | None => (mon, []) end.

Definition dm_step (enf h : bool) (d : dmgr) (a : daction) : option (dmgr * list dout) :=
  match a with
  | DRecv bs => match dm_todo d with [] => handle_msg enf h d bs | _ => None end
  | DNotify =>
      match dm_todo d with
      | [] => None
      | (p, e) :: r => let (m, o) := mon_notify (dm_mon d) p e in Some (mkDM (dm_info d) m r, o)
      end
  | DIsUp p =>                        (* port_is_up_, 93-98 *)
      Some (d, [OUp (if enf then match pfind (dm_info d) p with Some b => b | None => false end else true)])
  | DInfo => Some (d, [OInfo (dm_info d)])          (* get_port_info_, 100-103 *)
  | DTransmit p data =>               (* transmit_fn_, 198-222 *)
      Some (d, [OMsg (wr32 4 ++ wr32 p ++ wr32 (N.of_nat (length data)) ++ data)])
  | DAdd p =>                         (* DevMgrIface::port_add, dev_mgr.cpp:111-117, and port_add_, 57-66 *)
      let (m, o) := mon_notify (dm_mon d) p Added in Some (mkDM (dm_info d) m (dm_todo d), o ++ [OUnsupported])
  | DRemove p =>                      (* DevMgrIface::port_remove, dev_mgr.cpp:119-124, and port_remove_, 68-74 *)
      let (m, o) := mon_notify (dm_mon d) p Removed in Some (mkDM (dm_info d) m (dm_todo d), o ++ [OUnsupported])
  end.
(** The outputs of each action. *)
Fixpoint dm_run (enf h : bool) (d : dmgr) (acts : list daction) : option (dmgr * list (list dout)) :=
  match acts with
  | [] => Some (d, [])
  | a :: r =>
      match dm_step enf h d a with
      | None => None
      | Some (d', o) => match dm_run enf h d' r with Some (e, os) => Some (e, o :: os) | None => None end
      end
  end.
