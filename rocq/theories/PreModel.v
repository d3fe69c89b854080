(** Model of the packet replication engine: src/bm_sim/simple_pre.cpp (McSimplePre) and
    src/bm_sim/simple_pre_lag.cpp (McSimplePreLAG), with include/bm/bm_sim/pre.h (Set, a bitset).

    One state serves both classes: McSimplePre never touches the LAG parts.  Every function holds the
    mutex for its whole duration (shared for replicate), so calls are atomic.  A bitset is the list of
    its bits, bit 0 first; its [size()] is the length of the list (512 in the code, any length here).
    Handle managers are those of HandleMgrModel.v.  An exception of [at()] is the output [PThrow];
    a failed assertion or an impossible lookup is [None].  JSON dumps are not modelled. *)
From Coq Require Import List Arith Bool.
From Verif Require Import Base NMap HandleMgrModel.
Import ListNotations.

(** simple_pre.h L1Entry 156-165, L2Entry 167-179; simple_pre_lag.h LagEntry 58-65 *)
Record l1e := mkL1 { e_mg : nat; e_rid : nat; e_l2 : nat; e_assoc : bool }.
Record l2e := mkL2 { x_l1 : nat; x_ports : list bool; x_lags : list bool }.
Record lage := mkLag { m_count : nat; m_ports : list bool }.
(** simple_pre.h 189-193, simple_pre_lag.h 67 *)
Record pre := mkPre { mg : nmap (list nat); l1 : nmap l1e; l2 : nmap l2e; h1 : hmgr; h2 : hmgr; lag : nmap lage }.
Definition pre_empty : pre := mkPre [] [] [] hm_empty hm_empty [].

Inductive pcode := TABLE_FULL | INVALID_MGRP_HANDLE | INVALID_L1_HANDLE | ERROR.
Inductive pout := POk | PHandle (h : nat) | PErr (c : pcode) | PThrow | PCopies (l : list (nat * nat)).

Section Pre.
Variables (mg_max l1_max l2_max lag_max hash : nat).

(** mc_mgrp_create 25-39: [insert] keeps an existing group *)
Definition mgrp_create (s : pre) (g : nat) : pre * pout :=
  if mg_max <=? length (mg s) then (s, PErr TABLE_FULL)
  else match nm_find g (mg s) with
       | Some _ => (s, POk)
       | None => (mkPre (nm_put g [] (mg s)) (l1 s) (l2 s) (h1 s) (h2 s) (lag s), POk)
       end.
(** mc_mgrp_destroy 41-47 *)
Definition mgrp_destroy (s : pre) (g : nat) : pre * pout :=
  (mkPre (nm_del g (mg s)) (l1 s) (l2 s) (h1 s) (h2 s) (lag s), POk).

(** mc_node_create 49-79, LAG: 22-52 *)
Definition node_create (s : pre) (rid : nat) (ports lags : list bool) : option (pre * pout) :=
  if l1_max <=? length (l1 s) then Some (s, PErr TABLE_FULL)
  else if l2_max <=? length (l2 s) then Some (s, PErr TABLE_FULL)
  else match hm_get_handle (h1 s) with
       | None => None
       | Some (m1, k1) =>
           match hm_get_handle (h2 s) with
           | None => None
           | Some (m2, k2) =>
               Some (mkPre (mg s) (nm_put k1 (mkL1 0 rid k2 false) (l1 s)) (nm_put k2 (mkL2 k1 ports lags) (l2 s)) m1 m2 (lag s), PHandle k1)
           end
       end.

(** mc_node_associate 81-105 *)
Definition node_associate (s : pre) (g h : nat) : option (pre * pout) :=
  match hm_valid_handle (h1 s) h with
  | None => None
  | Some false => Some (s, PErr INVALID_L1_HANDLE)
  | Some true =>
      match nm_find g (mg s) with
      | None => Some (s, PErr INVALID_MGRP_HANDLE)
      | Some ls =>
          match nm_find h (l1 s) with
          | None => None
          | Some e =>
              if e_assoc e then Some (s, PErr ERROR)
              else Some (mkPre (nm_put g (ls ++ [h]) (mg s)) (nm_put h (mkL1 g (e_rid e) (e_l2 e) true) (l1 s)) (l2 s) (h1 s) (h2 s) (lag s), POk)
          end
      end
  end.

(** node_dissociate 289-294: erase-remove of all occurrences *)
Definition drop (h : nat) (l : list nat) : list nat := filter (fun x => negb (x =? h)) l.
(** mc_node_dissociate 107-131 *)
Definition node_dissociate (s : pre) (g h : nat) : option (pre * pout) :=
  match hm_valid_handle (h1 s) h with
  | None => None
  | Some false => Some (s, PErr INVALID_L1_HANDLE)
  | Some true =>
      match nm_find g (mg s) with
      | None => Some (s, PErr INVALID_MGRP_HANDLE)
      | Some ls =>
          match nm_find h (l1 s) with
          | None => None
          | Some e =>
              if negb (e_assoc e) || negb (e_mg e =? g) then Some (s, PErr ERROR)
              else Some (mkPre (nm_put g (drop h ls) (mg s)) (nm_put h (mkL1 (e_mg e) (e_rid e) (e_l2 e) false) (l1 s)) (l2 s) (h1 s) (h2 s) (lag s), POk)
          end
      end
  end.

(** mc_node_destroy 133-158 *)
Definition node_destroy (s : pre) (h : nat) : option (pre * pout) :=
  match hm_valid_handle (h1 s) h with
  | None => None
  | Some false => Some (s, PErr INVALID_L1_HANDLE)
  | Some true =>
      match nm_find h (l1 s) with
      | None => None
      | Some e =>
          let finish (m : nmap (list nat)) :=
            match hm_release_handle (h2 s) (e_l2 e), hm_release_handle (h1 s) h with
            | Some (m2, true), Some (m1, true) =>
                Some (mkPre m (nm_del h (l1 s)) (nm_del (e_l2 e) (l2 s)) m1 m2 (lag s), POk)
            | _, _ => None
            end in
          if e_assoc e then
            match nm_find (e_mg e) (mg s) with
            | None => Some (s, PThrow)
            | Some ls => finish (nm_put (e_mg e) (drop h ls) (mg s))
            end
          else finish (mg s)
      end
  end.

(** mc_node_update 160-176, LAG: 54-73; [lags = None] is the overload without LAG map *)
Definition node_update (s : pre) (h : nat) (ports : list bool) (lags : option (list bool)) : option (pre * pout) :=
  match hm_valid_handle (h1 s) h with
  | None => None
  | Some false => Some (s, PErr INVALID_L1_HANDLE)
  | Some true =>
      match nm_find h (l1 s) with
      | None => None
      | Some e =>
          match nm_find (e_l2 e) (l2 s) with
          | None => None
          | Some x => let lg := match lags with Some l => l | None => x_lags x end in
                      Some (mkPre (mg s) (l1 s) (nm_put (e_l2 e) (mkL2 (x_l1 x) ports lg) (l2 s)) (h1 s) (h2 s) (lag s), POk)
          end
      end
  end.

(** mc_set_lag_membership 75-95 *)
Fixpoint count_set (l : list bool) : nat := match l with [] => 0 | b :: r => if b then S (count_set r) else count_set r end.
Definition set_lag (s : pre) (i : nat) (ports : list bool) : pre * pout :=
  if lag_max <? i then (s, PErr ERROR)
  else (mkPre (mg s) (l1 s) (l2 s) (h1 s) (h2 s) (nm_put i (mkLag (count_set ports) ports) (lag s)), POk).

(** the port loops of replicate 277-284 and 156-161 *)
Fixpoint port_loop (rid i : nat) (l : list bool) : list (nat * nat) :=
  match l with [] => [] | b :: r => (if b then [(rid, i)] else []) ++ port_loop rid (S i) r end.
(** the search loop 183-193: [c1] = port_count1, [c2] = port_count2 *)
Fixpoint member_loop (rid c1 c2 i : nat) (l : list bool) : list (nat * nat) :=
  match l with
  | [] => []
  | b :: r => let c2 := if b then S c2 else c2 in
              if c1 =? c2 then [(rid, i)] else member_loop rid c1 c2 (S i) r
  end.
(** the LAG loop 163-195 *)
Fixpoint lag_loop (s : pre) (rid i : nat) (l : list bool) : list (nat * nat) :=
  match l with
  | [] => []
  | b :: r =>
      (if b then match nm_find i (lag s) with
                 | None => []
                 | Some g => if m_count g =? 0 then []
                             else member_loop rid (hash mod m_count g + 1) 0 0 (m_ports g)
                 end
       else []) ++ lag_loop s rid (S i) r
  end.
(** replicate: 259-287 ([lagged = false]) and LAG 135-202 *)
Fixpoint node_loop (s : pre) (lagged : bool) (hs : list nat) : option (list (nat * nat)) :=
  match hs with
  | [] => Some []
  | h :: r =>
      match nm_find h (l1 s) with
      | None => None
      | Some e =>
          match nm_find (e_l2 e) (l2 s) with
          | None => None
          | Some x =>
              match node_loop s lagged r with
              | None => None
              | Some rest => Some (port_loop (e_rid e) 0 (x_ports x) ++
                                   (if lagged then lag_loop s (e_rid e) 0 (x_lags x) else []) ++ rest)
              end
          end
      end
  end.
Definition replicate (s : pre) (lagged : bool) (g : nat) : option (pre * pout) :=
  match nm_find g (mg s) with
  | None => Some (s, PCopies [])
  | Some hs => match node_loop s lagged hs with None => None | Some l => Some (s, PCopies l) end
  end.

Inductive pop :=
| PGCreate (g : nat) | PGDestroy (g : nat)
| PNCreate (rid : nat) (ports lags : list bool)
| PAssoc (g h : nat) | PDissoc (g h : nat) | PNDestroy (h : nat)
| PNUpdate (h : nat) (ports : list bool) (lags : option (list bool))
| PLag (i : nat) (ports : list bool)
| PReset                                       (* reset_state, LAG 123-129 *)
| PReplicate (lagged : bool) (g : nat).

Definition p_step (s : pre) (o : pop) : option (pre * pout) :=
  match o with
  | PGCreate g => Some (mgrp_create s g)
  | PGDestroy g => Some (mgrp_destroy s g)
  | PNCreate rid ports lags => node_create s rid ports lags
  | PAssoc g h => node_associate s g h
  | PDissoc g h => node_dissociate s g h
  | PNDestroy h => node_destroy s h
  | PNUpdate h ports lags => node_update s h ports lags
  | PLag i ports => Some (set_lag s i ports)
  | PReset => Some (mkPre [] [] [] (hm_clear (h1 s)) (hm_clear (h2 s)) [], POk)
  | PReplicate lagged g => replicate s lagged g
  end.
Fixpoint p_run (s : pre) (ops : list pop) : option (pre * list pout) :=
  match ops with
  | [] => Some (s, [])
  | o :: r => match p_step s o with
              | None => None
              | Some (s', x) => match p_run s' r with None => None | Some (s'', xs) => Some (s'', x :: xs) end
              end
  end.
End Pre.
