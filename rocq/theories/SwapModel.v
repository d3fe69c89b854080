(** Model of loading and swapping configurations: src/bm_sim/switch.cpp:333-369 and 435-478,
    src/bm_sim/context.cpp:803-825 and 855-864, the packet constructors switch.cpp:531-551 and the
    pools of header vectors, src/bm_sim/phv_source.cpp.
    Any number of contexts, of threads inside load_new_config, swap_configs and do_swap, and of
    packets.  A step is a region under one mutex or one access to an atomic; a schedule is any list
    of labels.  A P4Objects is known by its address, an index in [objs]; a configuration is the
    JSON text it was made from (type [J]), and [init j] is whether init_objects would succeed on
    it.  A packet is its context and the P4Objects its header vector was built for.
    Not modelled: notifications (send_swap_status_notification, swap_notify_ beyond the event
    VNotify), the wait of start_and_return for a first configuration, the MD5 of the text,
    Packet::change_context (a cross-context copy followed by a drop), and locks inside the
    P4Objects.  The contents of tables are not part of this model. *)
From Coq Require Import List Arith Bool.
Import ListNotations.

Section Swap.
Variable J : Type.
(** SwitchWContexts::enable_swap, and whether P4Objects::init_objects accepts the text *)
Variable enabled : bool.
Variable init : J -> bool.

(** Context (context.h:498-515) with its PHVPool (phv_source.cpp:27-66) *)
Record cx := mkCx { c_live : nat (* p4objects *); c_rt : nat (* p4objects_rt *); c_ord : bool (* swap_ordered *);
                    c_fac : nat (* phv_factory *); c_free : list nat (* phvs *); c_cnt : nat (* count *) }.
Inductive call := CLoad (j : J) | CSwap | CDo.
(** Where a thread is.  [b]: do_swap was called from swap_configs; [rc]: its result variable. *)
Inductive pc :=
| PIdle
| PLoad (j : J) (i : nat)          (* load_new_config, before context i *)
| PSwap (i : nat)                  (* swap_configs, before context i *)
| PTest (b : bool)                 (* do_swap, 457 *)
| PLock (b : bool)                 (* 458 *)
| PCtx (b : bool) (i rc : nat)     (* 459-461 *)
| PWait (b : bool) (i rc : nat)    (* 463 *)
| PSwp (b : bool) (i rc : nat)     (* 466 *)
| PFac (b : bool) (i rc : nat).    (* 468 *)
Record st := mkSt { objs : list J; cxs : list cx; pks : list (nat * (nat * nat)) (* id, context, P4Objects *);
                    fresh : nat; cur : option J (* current_config *);
                    cmut : option nat (* holder of config_mutex *);
                    pmut : option nat (* unique holder of process_packet_mutex *);
                    pcs : nat -> pc; dead : bool }.

Inductive ev :=
| VCall (t : nat) (c : call)
| VRet (t : nat) (c : call) (ok : bool)
| VLoad (t i : nat) (j : J) (ok : bool)      (* context i is asked to load j *)
| VReq (t i : nat) (ok : bool)               (* context i is asked to swap *)
| VSwapped (t i : nat)                       (* context i swaps *)
| VNotify (t : nat)
| VRun (i : nat) (j : J)                     (* a runtime operation on context i acts on j *)
| VNew (p i : nat) (j : J)                   (* a packet gets a header vector made for j *)
| VUse (p i : nat) (j j' : J)                (* a packet with a header vector for j is processed by j' *)
| VDrop (p : nat)
| VGet (j : option J)
| VAbort.

Inductive label :=
| LCall (t : nat) (c : call) | LGo (t : nat) | LNew (i : nat) | LClone (p : nat) | LCloneTo (p i : nat)
| LDrop (p : nat) | LUse (p : nat) | LRun (i : nat) | LGet.

Definition set_cx (l : list cx) (i : nat) (c : cx) : list cx := firstn i l ++ match skipn i l with [] => [] | _ :: r => c :: r end.
Definition set_pc (f : nat -> pc) (t : nat) (p : pc) : nat -> pc := fun u => if u =? t then p else f u.
Definition at_pc (s : st) (t : nat) (p : pc) : st :=
  mkSt (objs s) (cxs s) (pks s) (fresh s) (cur s) (cmut s) (pmut s) (set_pc (pcs s) t p) (dead s).
Definition at_cx (s : st) (i : nat) (c : cx) : st :=
  mkSt (objs s) (set_cx (cxs s) i c) (pks s) (fresh s) (cur s) (cmut s) (pmut s) (pcs s) (dead s).
Definition with_cmut (s : st) (m : option nat) : st :=
  mkSt (objs s) (cxs s) (pks s) (fresh s) (cur s) m (pmut s) (pcs s) (dead s).
Definition with_pmut (s : st) (m : option nat) : st :=
  mkSt (objs s) (cxs s) (pks s) (fresh s) (cur s) (cmut s) m (pcs s) (dead s).
Definition with_cur (s : st) (j : option J) : st :=
  mkSt (objs s) (cxs s) (pks s) (fresh s) j (cmut s) (pmut s) (pcs s) (dead s).
Definition with_obj (s : st) (j : J) : st :=
  mkSt (objs s ++ [j]) (cxs s) (pks s) (fresh s) (cur s) (cmut s) (pmut s) (pcs s) (dead s).
Definition with_pks (s : st) (l : list (nat * (nat * nat))) (f : nat) : st :=
  mkSt (objs s) (cxs s) l f (cur s) (cmut s) (pmut s) (pcs s) (dead s).
Definition abort (s : st) : st * list ev :=
  (mkSt (objs s) (cxs s) (pks s) (fresh s) (cur s) (cmut s) (pmut s) (pcs s) true, [VAbort]).

(** PHVPool::get and release, phv_source.cpp:36-51 *)
Definition pool_get (c : cx) : cx * nat :=
  match c_free c with
  | [] => (mkCx (c_live c) (c_rt c) (c_ord c) (c_fac c) [] (S (c_cnt c)), c_fac c)
  | x :: r => (mkCx (c_live c) (c_rt c) (c_ord c) (c_fac c) r (S (c_cnt c)), x)
  end.
Definition pool_release (c : cx) (x : nat) : cx :=
  mkCx (c_live c) (c_rt c) (c_ord c) (c_fac c) (x :: c_free c) (pred (c_cnt c)).
(** set_phv_factory, 29-34; the assertion is checked by the caller *)
Definition pool_set (c : cx) (o : nat) : cx := mkCx (c_live c) (c_rt c) (c_ord c) o [] (c_cnt c).

(** The end of do_swap and, for [b], of swap_configs, switch.cpp:363-368 *)
Definition finish (s : st) (t : nat) (b : bool) (rc : nat) : st * list ev :=
  if b then if rc =? 0 then (at_pc (with_cmut s None) t PIdle, [VRet t CSwap true]) else abort s
  else (at_pc s t PIdle, [VRet t CDo (rc =? 0)]).

(** Context::load_new_config, context.cpp:803-815 *)
Definition cx_load (c : cx) (o : nat) : option cx :=
  if c_live c =? c_rt c then Some (mkCx (c_live c) o (c_ord c) (c_fac c) (c_free c) (c_cnt c)) else None.
(** Context::swap_configs, 818-825 *)
Definition cx_swap (c : cx) : option cx :=
  if c_live c =? c_rt c then None else Some (mkCx (c_live c) (c_rt c) true (c_fac c) (c_free c) (c_cnt c)).
(** Context::do_swap, 855-863 *)
Definition cx_do (c : cx) : option cx :=
  if c_ord c then Some (mkCx (c_rt c) (c_rt c) false (c_fac c) (c_free c) (c_cnt c)) else None.

Definition go (s : st) (t : nat) : option (st * list ev) :=
  match pcs s t with
  | PIdle => None
  | PLoad j i =>
      match nth_error (cxs s) i with
      | Some c =>
          match cx_load c (length (objs s)) with
          | Some c' =>
              let ok := init j in             (* the status of init_objects (812) is ignored *)
              Some (at_pc (with_obj (at_cx s i c') j) t (PLoad j (S i)), [VLoad t i j true])
          | None => Some (at_pc s t PIdle, [VLoad t i j false; VRet t (CLoad j) false])
          end
      | None => match cmut s with
                | Some _ => None
                | None => Some (at_pc (with_cur s (Some j)) t PIdle, [VRet t (CLoad j) true])
                end
      end
  | PSwap i =>
      match nth_error (cxs s) i with
      | Some c => match cx_swap c with
                  | Some c' => Some (at_pc (at_cx s i c') t (PSwap (S i)), [VReq t i true])
                  | None => Some (at_pc s t PIdle, [VReq t i false; VRet t CSwap false])
                  end
      | None => match cmut s with
                | Some _ => None
                | None => Some (at_pc (with_cmut s (Some t)) t (PTest true), [])
                end
      end
  | PTest b => if enabled && existsb c_ord (cxs s) then Some (at_pc s t (PLock b), []) else Some (finish s t b 1)
  | PLock b => match pmut s with
               | Some _ => None
               | None => Some (at_pc (with_pmut s (Some t)) t (PCtx b 0 1), [])
               end
  | PCtx b i rc =>
      match nth_error (cxs s) i with
      | Some c => if c_ord c then Some (at_pc s t (PWait b i rc), []) else Some (at_pc s t (PCtx b (S i) rc), [])
      | None => let (s', e) := finish (with_pmut s None) t b rc in Some (s', VNotify t :: e)
      end
  | PWait b i rc =>
      match nth_error (cxs s) i with
      | Some c => if c_cnt c =? 0 then Some (at_pc s t (PSwp b i rc), []) else None
      | None => None
      end
  | PSwp b i rc =>
      match nth_error (cxs s) i with
      | Some c => match cx_do c with
                  | Some c' => Some (at_pc (at_cx s i c') t (PFac b i rc), [VSwapped t i])
                  | None => Some (at_pc s t (PCtx b (S i) rc), [])
                  end
      | None => None
      end
  | PFac b i rc =>
      match nth_error (cxs s) i with
      | Some c => if c_cnt c =? 0 then Some (at_pc (at_cx s i (pool_set c (c_live c))) t (PCtx b (S i) 0), [])
                  else Some (abort s)
      | None => None
      end
  end.

(** A new Packet in context i: its header vector comes from the pool *)
Definition new_packet (s : st) (i : nat) : option (st * list ev) :=
  match nth_error (cxs s) i with
  | Some c => let (c', o) := pool_get c in
              match nth_error (objs s) o with
              | Some j => Some (with_pks (at_cx s i c') ((fresh s, (i, o)) :: pks s) (S (fresh s)), [VNew (fresh s) i j])
              | None => None
              end
  | None => None
  end.
Fixpoint find_pk (l : list (nat * (nat * nat))) (p : nat) : option (nat * nat) :=
  match l with [] => None | (q, x) :: r => if q =? p then Some x else find_pk r p end.
Definition remove_pk (l : list (nat * (nat * nat))) (p : nat) : list (nat * (nat * nat)) := filter (fun x => negb (fst x =? p)) l.

Definition begin (c : call) : pc := match c with CLoad j => PLoad j 0 | CSwap => PSwap 0 | CDo => PTest false end.
Definition step (s : st) (l : label) : option (st * list ev) :=
  if dead s then None else
  match l with
  | LCall t c =>
      match pcs s t with
      | PIdle =>
          match c with
          | CDo => Some (at_pc s t (begin c), [VCall t c])
          | _ => if enabled then Some (at_pc s t (begin c), [VCall t c])
                 else Some (s, [VCall t c; VRet t c false])             (* CONFIG_SWAP_DISABLED *)
          end
      | _ => None
      end
  | LGo t => go s t
  | LNew i => match pmut s with None => new_packet s i | Some _ => None end
  | LClone p => match find_pk (pks s) p with Some (i, _) => new_packet s i | None => None end
  | LCloneTo p i => match find_pk (pks s) p with Some _ => new_packet s i | None => None end
  | LDrop p =>
      match find_pk (pks s) p with
      | Some (i, o) =>
          match nth_error (cxs s) i with
          | Some c => Some (with_pks (at_cx s i (pool_release c o)) (remove_pk (pks s) p) (fresh s), [VDrop p])
          | None => None
          end
      | None => None
      end
  | LUse p =>
      match find_pk (pks s) p with
      | Some (i, o) =>
          match nth_error (cxs s) i with
          | Some c => match nth_error (objs s) o, nth_error (objs s) (c_live c) with
                      | Some j, Some j' => Some (s, [VUse p i j j'])
                      | _, _ => None
                      end
          | None => None
          end
      | None => None
      end
  | LRun i =>
      match nth_error (cxs s) i with
      | Some c => match nth_error (objs s) (c_rt c) with Some j => Some (s, [VRun i j]) | None => None end
      | None => None
      end
  | LGet => match cmut s with None => Some (s, [VGet (cur s)]) | Some _ => None end
  end.
(** A schedule; labels that cannot happen are skipped. *)
Fixpoint run (s : st) (ls : list label) : st * list ev :=
  match ls with
  | [] => (s, [])
  | l :: r => match step s l with
              | Some (s', e) => let (s'', es) := run s' r in (s'', e ++ es)
              | None => run s r
              end
  end.

(** After init_objects on [n] contexts, switch.cpp:142-171: each context has made its own P4Objects *)
Definition start (n : nat) (j : J) : st :=
  mkSt (repeat j n) (map (fun i => mkCx i i false i [] 0) (seq 0 n)) [] 0 (Some j) None None (fun _ => PIdle) false.
End Swap.
Arguments CLoad {J}. Arguments CSwap {J}. Arguments CDo {J}.
Arguments PIdle {J}. Arguments PLoad {J}. Arguments PSwap {J}. Arguments PTest {J}. Arguments PLock {J}. Arguments PCtx {J}.
Arguments PWait {J}. Arguments PSwp {J}. Arguments PFac {J}.
Arguments VCall {J}. Arguments VRet {J}. Arguments VLoad {J}. Arguments VReq {J}. Arguments VSwapped {J}. Arguments VNotify {J}.
Arguments VRun {J}. Arguments VNew {J}. Arguments VUse {J}. Arguments VDrop {J}. Arguments VGet {J}. Arguments VAbort {J}.
Arguments LCall {J}. Arguments LGo {J}. Arguments LNew {J}. Arguments LClone {J}. Arguments LCloneTo {J}. Arguments LDrop {J}.
Arguments LUse {J}. Arguments LRun {J}. Arguments LGet {J}.
Arguments mkSt {J}. Arguments objs {J}. Arguments cxs {J}. Arguments pks {J}. Arguments fresh {J}. Arguments cur {J}.
Arguments cmut {J}. Arguments pmut {J}. Arguments pcs {J}. Arguments dead {J}.
Arguments set_pc {J}. Arguments at_pc {J}. Arguments at_cx {J}. Arguments with_cmut {J}. Arguments with_pmut {J}. Arguments with_cur {J}.
Arguments with_obj {J}. Arguments with_pks {J}. Arguments abort {J}. Arguments finish {J}. Arguments go {J}. Arguments new_packet {J}.
Arguments step {J}. Arguments run {J}. Arguments start {J}. Arguments begin {J}.
