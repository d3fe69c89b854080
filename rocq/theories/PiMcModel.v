(** Model of the multicast calls of the P4Runtime back end, PI/src/pi_mc_imp.cpp.

    The packet replication engine below is PreModel.v.  A string of '0' and '1' is the list of its characters, '1'
    being [true].  [None]: undefined behaviour (a write outside of the string), or what is [None] in PreModel.v.
    pi_mc_port_t has 32 bits.  Sessions do nothing and are left out; a switch has a replication engine (get_pre does
    not return null); the assertions that handles fit their PI types are left out.  Not modelled: memory exhaustion
    by the string. *)
From Coq Require Import List Arith NArith Bool.
From Verif Require Import Base NMap HandleMgrModel PreModel.
Import ListNotations.

(** std::string::resize(n, '0') *)
Definition resize (n : nat) (s : list bool) : list bool := firstn n s ++ repeat false (n - length s).
(** output[i] = '1' *)
Fixpoint set_char (s : list bool) (i : nat) : option (list bool) :=
  match s, i with
  | [], _ => None
  | _ :: r, O => Some (true :: r)
  | b :: r, S j => match set_char r j with Some r' => Some (b :: r') | None => None end
  end.
(** The length [eg_ports[i] + 1] is computed with 32 bits. *)
Definition inc32 (p : nat) : nat := if (N.of_nat p =? 4294967295)%N then 0 else S p.
(** The loop of convert_map, 66-69 *)
Fixpoint fill (output : list bool) (eg_ports : list nat) : option (list bool) :=
  match eg_ports with
  | [] => Some output
  | p :: r => match set_char (resize (inc32 p) output) p with Some o => fill o r | None => None end
  end.
(** std::bitset<size>(str), used by Set(str), pre.h 32-33: the first min(size, length) characters, the last of them being bit 0 *)
Definition bitset_of (size : nat) (str : list bool) : list bool :=
  let m := Nat.min size (length str) in
  map (fun i => if i <? m then nth (m - 1 - i) str false else false) (seq 0 size).
(** PORT_MAP_SIZE, simple_pre.h 80 *)
Definition port_map_size : nat := 512.
(** convert_map, 63-72 *)
Definition convert_map (eg_ports : list nat) : option (list bool) :=
  match fill [] eg_ports with Some o => Some (bitset_of port_map_size (rev o)) | None => None end.

Inductive mcop :=
| MGrpCreate (g : nat) | MGrpDelete (h : nat)
| MNodeCreate (rid : nat) (eg_ports : list nat) | MNodeModify (h : nat) (eg_ports : list nat) | MNodeDelete (h : nat)
| MAttach (g h : nat) | MDetach (g h : nat)
| MPacket (g : nat).                         (* not a call of PI: a packet is replicated *)
(** The call of the replication engine: _pi_mc_grp_create 88-107, _pi_mc_grp_delete 109-121, _pi_mc_node_create 123-145,
    _pi_mc_node_modify 147-162, _pi_mc_node_delete 164-176, _pi_mc_grp_attach_node 178-191, _pi_mc_grp_detach_node 193-206.
    The error code of the engine is passed on, shifted by PI_STATUS_TARGET_ERROR (common.h convert_error_code); here it is kept. *)
Definition mc_op (o : mcop) : option pop :=
  match o with
  | MGrpCreate g => Some (PGCreate g)
  | MGrpDelete h => Some (PGDestroy h)
  | MNodeCreate rid ports => option_map (fun m => PNCreate rid m []) (convert_map ports)
  | MNodeModify h ports => option_map (fun m => PNUpdate h m None) (convert_map ports)
  | MNodeDelete h => Some (PNDestroy h)
  | MAttach g h => Some (PAssoc g h)
  | MDetach g h => Some (PDissoc g h)
  | MPacket g => Some (PReplicate false g)
  end.
Section Mc.
Variables (mg_max l1_max l2_max lag_max hash : nat).
Fixpoint mc_run (s : pre) (ops : list mcop) : option (pre * list pout) :=
  match ops with
  | [] => Some (s, [])
  | o :: r =>
      match mc_op o with
      | None => None
      | Some p => match p_step mg_max l1_max l2_max lag_max hash s p with
                  | None => None
                  | Some (s', x) => match mc_run s' r with None => None | Some (s'', xs) => Some (s'', x :: xs) end
                  end
      end
  end.
End Mc.
