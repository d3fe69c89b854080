(** Specification of multicast replication: groups are lists of nodes; a node has a replication id, a set
    of ports, a set of LAGs, and possibly the group it is associated with. *)
From Coq Require Import List Arith Bool.
From Verif Require Import PreModel.
Import ListNotations.

Record node := mkNode { n_rid : nat; n_ports : list bool; n_lags : list bool; n_group : option nat }.
Record pspec := mkPs {
  groups : nat -> option (list nat); ngroups : nat;
  nodes : nat -> option node; nnodes : nat;
  lags : nat -> option (list bool) }.
Definition ps_empty : pspec := mkPs (fun _ => None) 0 (fun _ => None) 0 (fun _ => None).

Definition put {A} (f : nat -> option A) (k : nat) (v : option A) : nat -> option A :=
  fun x => if x =? k then v else f x.
Definition with_groups (s : pspec) f n := mkPs f n (nodes s) (nnodes s) (lags s).
Definition with_nodes (s : pspec) f n := mkPs (groups s) (ngroups s) f n (lags s).

(** The positions of the set bits, in increasing order. *)
Definition members (l : list bool) : list nat := filter (fun i => nth i l false) (seq 0 (length l)).

(** Copies of one node: its ports; then one member of each of its LAGs that has members. *)
Definition port_copies (n : node) : list (nat * nat) := map (fun p => (n_rid n, p)) (members (n_ports n)).
Definition lag_copies (hash : nat) (lg : nat -> option (list bool)) (n : node) : list (nat * nat) :=
  flat_map (fun i => match lg i with
                     | None => []
                     | Some ps => match members ps with
                                  | [] => []
                                  | m => [(n_rid n, nth (hash mod length m) m 0)]
                                  end
                     end) (members (n_lags n)).
Definition copies (hash : nat) (lagged : bool) (s : pspec) (g : nat) : list (nat * nat) :=
  match groups s g with
  | None => []
  | Some hs => flat_map (fun h => match nodes s h with
                                  | None => []
                                  | Some n => port_copies n ++ (if lagged then lag_copies hash (lags s) n else [])
                                  end) hs
  end.

Section Spec.
Variables (mg_max l1_max l2_max lag_max hash : nat).

Inductive pspec_step (s : pspec) : pop -> pout -> pspec -> Prop :=
| ps_gfull : forall g, mg_max <= ngroups s -> pspec_step s (PGCreate g) (PErr TABLE_FULL) s
| ps_gagain : forall g l, ngroups s < mg_max -> groups s g = Some l -> pspec_step s (PGCreate g) POk s
| ps_gnew : forall g, ngroups s < mg_max -> groups s g = None ->
    pspec_step s (PGCreate g) POk (with_groups s (put (groups s) g (Some [])) (S (ngroups s)))
| ps_gdel : forall g l, groups s g = Some l -> pspec_step s (PGDestroy g) POk (with_groups s (put (groups s) g None) (ngroups s - 1))
| ps_gdel0 : forall g, groups s g = None -> pspec_step s (PGDestroy g) POk s
| ps_nfull : forall r p l, l1_max <= nnodes s \/ l2_max <= nnodes s -> pspec_step s (PNCreate r p l) (PErr TABLE_FULL) s
| ps_nnew : forall r p l h, nnodes s < l1_max -> nnodes s < l2_max -> nodes s h = None -> (forall k, k < h -> nodes s k <> None) ->
    pspec_step s (PNCreate r p l) (PHandle h) (with_nodes s (put (nodes s) h (Some (mkNode r p l None))) (S (nnodes s)))
| ps_anode : forall g h, nodes s h = None -> pspec_step s (PAssoc g h) (PErr INVALID_L1_HANDLE) s
| ps_agroup : forall g h n, nodes s h = Some n -> groups s g = None -> pspec_step s (PAssoc g h) (PErr INVALID_MGRP_HANDLE) s
| ps_aerr : forall g h n ls g', nodes s h = Some n -> groups s g = Some ls -> n_group n = Some g' -> pspec_step s (PAssoc g h) (PErr ERROR) s
| ps_assoc : forall g h n ls, nodes s h = Some n -> groups s g = Some ls -> n_group n = None ->
    pspec_step s (PAssoc g h) POk
      (with_nodes (with_groups s (put (groups s) g (Some (ls ++ [h]))) (ngroups s))
         (put (nodes s) h (Some (mkNode (n_rid n) (n_ports n) (n_lags n) (Some g)))) (nnodes s))
| ps_dnode : forall g h, nodes s h = None -> pspec_step s (PDissoc g h) (PErr INVALID_L1_HANDLE) s
| ps_dgroup : forall g h n, nodes s h = Some n -> groups s g = None -> pspec_step s (PDissoc g h) (PErr INVALID_MGRP_HANDLE) s
| ps_derr : forall g h n ls, nodes s h = Some n -> groups s g = Some ls -> n_group n <> Some g -> pspec_step s (PDissoc g h) (PErr ERROR) s
| ps_dissoc : forall g h n ls, nodes s h = Some n -> groups s g = Some ls -> n_group n = Some g ->
    pspec_step s (PDissoc g h) POk
      (with_nodes (with_groups s (put (groups s) g (Some (remove Nat.eq_dec h ls))) (ngroups s))
         (put (nodes s) h (Some (mkNode (n_rid n) (n_ports n) (n_lags n) None))) (nnodes s))
| ps_xnode : forall h, nodes s h = None -> pspec_step s (PNDestroy h) (PErr INVALID_L1_HANDLE) s
| ps_xthrow : forall h n g, nodes s h = Some n -> n_group n = Some g -> groups s g = None -> pspec_step s (PNDestroy h) PThrow s
| ps_xassoc : forall h n g ls, nodes s h = Some n -> n_group n = Some g -> groups s g = Some ls ->
    pspec_step s (PNDestroy h) POk
      (with_nodes (with_groups s (put (groups s) g (Some (remove Nat.eq_dec h ls))) (ngroups s)) (put (nodes s) h None) (nnodes s - 1))
| ps_xfree : forall h n, nodes s h = Some n -> n_group n = None ->
    pspec_step s (PNDestroy h) POk (with_nodes s (put (nodes s) h None) (nnodes s - 1))
| ps_unode : forall h p l, nodes s h = None -> pspec_step s (PNUpdate h p l) (PErr INVALID_L1_HANDLE) s
| ps_update : forall h p l n, nodes s h = Some n ->
    pspec_step s (PNUpdate h p l) POk
      (with_nodes s (put (nodes s) h (Some (mkNode (n_rid n) p (match l with Some l => l | None => n_lags n end) (n_group n)))) (nnodes s))
| ps_lagerr : forall i p, lag_max < i -> pspec_step s (PLag i p) (PErr ERROR) s
| ps_lag : forall i p, i <= lag_max -> pspec_step s (PLag i p) POk (mkPs (groups s) (ngroups s) (nodes s) (nnodes s) (put (lags s) i (Some p)))
| ps_reset : pspec_step s PReset POk ps_empty
| ps_rep : forall lagged g, pspec_step s (PReplicate lagged g) (PCopies (copies hash lagged s g)) s.

Inductive pspec_run : pspec -> list pop -> list pout -> pspec -> Prop :=
| psr_nil : forall s, pspec_run s [] [] s
| psr_cons : forall s o x s' os xs s'', pspec_step s o x s' -> pspec_run s' os xs s'' -> pspec_run s (o :: os) (x :: xs) s''.
End Spec.
