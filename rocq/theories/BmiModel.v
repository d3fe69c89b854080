(** Model of the BMI port manager, src/BMI/bmi_port.c, and of the device manager on top of it, src/bm_sim/dev_mgr_bmi.cpp.

    Every function of the manager runs under its rwlock (add and remove take it for writing, the others for reading,
    with a mutex per port for the statistics), so a call is one step; the locks themselves and the handshake with the
    receiving thread in remove are the subject of BmiLockModel.v.  [None] means an access outside the array of ports,
    a failed assertion, a descriptor outside an fd_set or the use of an uninitialised variable.
    What pcap answers (whether an interface opens, with which descriptor, what it receives, whether it sends) is part
    of the operations.  Names are numbers.  Not modelled: the dumpers, memory and the mutex of a port, which memmove
    moves along (no thread holds one while the rwlock is taken for writing), the operstate file behind is_up. *)
From Coq Require Import List Arith NArith ZArith Bool.
From Verif Require Import PortMonModel DevMgrModel.
Import ListNotations.

(** bmi_port_stats_t, BMI/bmi_port.h:23-28: uint64_t *)
Record stats := mkStats { in_packets : N; in_octets : N; out_packets : N; out_octets : N }.
Definition no_stats : stats := mkStats 0 0 0 0.
Definition u64 (x : N) : N := (x mod 18446744073709551616)%N.

(** bmi_port_t, bmi_port.c:31-38 *)
Record slot := mkSlot { sl_num : Z; sl_name : N; sl_fd : N; sl_stats : stats }.
Definition no_slot : slot := mkSlot 0 0 0 no_stats.

(** bmi_port_mgr_t, 40-56.  [b_ports] has max_port_count slots. *)
Record bmgr := mkB { b_ports : list slot; b_count : nat; b_fds : list N; b_maxfd : N; b_handler : bool }.
(** bmi_port_create_mgr, 181-218; [sock] is socketpairfd[1] *)
Definition b_new (max : nat) (sock : N) : bmgr := mkB (repeat no_slot max) 0 [sock] 0 false.

Inductive found := At (idx : nat) | Before (a : nat).
(** get_port, 58-73, and the search of insert_port, 75-89.  The fuel never runs out (proved). *)
Fixpoint bsearch (fuel : nat) (ports : list slot) (num : Z) (a b : nat) : option found :=
  if a <? b then
    match fuel with
    | O => None
    | S f =>
        let idx := a + (b - a) / 2 in
        match nth_error ports idx with
        | None => None
        | Some s => if (num <? sl_num s)%Z then bsearch f ports num a idx
                    else if (sl_num s <? num)%Z then bsearch f ports num (idx + 1) b
                    else Some (At idx)
        end
    end
  else Some (Before a).
Definition find_port (m : bmgr) (num : Z) : option found := bsearch (b_count m) (b_ports m) num 0 (b_count m).

(** memmove of n slots *)
Definition memmove (l : list slot) (dst src n : nat) : option (list slot) :=
  if (dst + n <=? length l) && (src + n <=? length l)
  then Some (firstn dst l ++ firstn n (skipn src l) ++ skipn (dst + n) l) else None.
Definition put (l : list slot) (i : nat) (s : slot) : option (list slot) :=
  if i <? length l then Some (firstn i l ++ s :: skipn (S i) l) else None.

Definition fd_clr (l : list N) (fd : N) : list N := filter (fun x => negb (x =? fd)%N) l.
Definition fd_set (l : list N) (fd : N) : list N := fd :: fd_clr l fd.

(** _bmi_port_interface_add, 253-289; [cr] is what bmi_interface_create gives: a descriptor, or failure.  insert_port, 75-93. *)
Definition b_add (m : bmgr) (num : Z) (name : N) (cr : option N) : option (bmgr * bool) :=
  match find_port m num with
  | None => None
  | Some (At _) => Some (m, false)
  | Some (Before _) =>
      if length (b_ports m) <=? b_count m then Some (m, false) else
      match cr with
      | None => Some (m, false)
      | Some fd =>
          match find_port m num with
          | Some (Before a) =>
              match memmove (b_ports m) (a + 1) a (b_count m - a) with
              | None => None
              | Some l =>
                  match put l a (mkSlot num name fd no_stats) with
                  | None => None
                  | Some l' =>
                      if (fd <? 1024)%N      (* FD_SETSIZE *)
                      then Some (mkB l' (b_count m + 1) (fd_set (b_fds m) fd)
                                   (if (b_maxfd m <? fd)%N then fd else b_maxfd m) (b_handler m), true)
                      else None
                  end
              end
          | _ => None                        (* assert(port != NULL) *)
          end
      end
  end.
(** _bmi_port_interface_remove, 305-325; delete_port, 95-99.  bmi_interface_destroy always returns 0. *)
Definition b_remove (m : bmgr) (num : Z) : option (bmgr * bool) :=
  match find_port m num with
  | None => None
  | Some (Before _) => Some (m, false)
  | Some (At i) =>
      match nth_error (b_ports m) i with
      | None => None
      | Some s =>
          match memmove (b_ports m) i (i + 1) (b_count m - i - 1) with
          | None => None
          | Some l => Some (mkB l (b_count m - 1) (fd_clr (b_fds m) (sl_fd s)) (b_maxfd m) (b_handler m), true)
          end
      end
  end.

Definition count_in (len : N) (s : slot) : slot :=
  mkSlot (sl_num s) (sl_name s) (sl_fd s)
    (mkStats (u64 (in_packets (sl_stats s) + 1)) (u64 (in_octets (sl_stats s) + len)) (out_packets (sl_stats s)) (out_octets (sl_stats s))).
Definition count_out (len : N) (s : slot) : slot :=
  mkSlot (sl_num s) (sl_name s) (sl_fd s)
    (mkStats (in_packets (sl_stats s)) (in_octets (sl_stats s)) (u64 (out_packets (sl_stats s) + 1)) (u64 (out_octets (sl_stats s) + len))).
Definition clear_stats (s : slot) : slot := mkSlot (sl_num s) (sl_name s) (sl_fd s) no_stats.
Definition set_ports (m : bmgr) (l : list slot) : bmgr := mkB l (b_count m) (b_fds m) (b_maxfd m) (b_handler m).

(** bmi_port_send, 230-250; [ok] is what bmi_interface_send answers.  Result: whether the interface was handed the packet, and the return code. *)
Definition b_send (m : bmgr) (num : Z) (data : list N) (ok : bool) : option (bmgr * (option N * bool)) :=
  match find_port m num with
  | None => None
  | Some (Before _) => Some (m, (None, false))
  | Some (At i) =>
      match nth_error (b_ports m) i with
      | None => None
      | Some s =>
          if ok then match put (b_ports m) i (count_out (N.of_nat (length data)) s) with
                     | Some l => Some (set_ports m l, (Some (sl_fd s), true))
                     | None => None
                     end
          else Some (m, (Some (sl_fd s), false))
      end
  end.
(** bmi_port_get_stats, 396-414, and bmi_port_clear_stats, 416-436 *)
Definition b_stats (m : bmgr) (num : Z) (clear : bool) : option (bmgr * option stats) :=
  match find_port m num with
  | None => None
  | Some (Before _) => Some (m, None)
  | Some (At i) =>
      match nth_error (b_ports m) i with
      | None => None
      | Some s =>
          if clear then match put (b_ports m) i (clear_stats s) with
                        | Some l => Some (set_ports m l, Some (sl_stats s))
                        | None => None
                        end
          else Some (m, Some (sl_stats s))
      end
  end.
(** bmi_port_interface_is_up, 363-394: the interface whose operstate is read *)
Definition b_ifname (m : bmgr) (num : Z) : option (option N) :=
  match find_port m num with
  | None => None
  | Some (Before _) => Some None
  | Some (At i) => match nth_error (b_ports m) i with Some s => Some (Some (sl_name s)) | None => None end
  end.

(** The loop of run_select over the ports, 148-168.  [ready] are the descriptors select reported (n of them), [rx] what
    bmi_interface_recv answers for each. *)
Fixpoint recv_loop (k : nat) (ports : list slot) (idx n : nat) (ready : list N) (rx : N -> option (list N))
  : option (list slot * list (Z * list N)) :=
  match k with
  | O => Some (ports, [])
  | S k' =>
      match n with
      | O => Some (ports, [])
      | S n' =>
          match nth_error ports idx with
          | None => None
          | Some s =>
              if existsb (N.eqb (sl_fd s)) ready then
                match rx (sl_fd s) with
                | Some data =>
                    match put ports idx (count_in (N.of_nat (length data)) s) with
                    | None => None
                    | Some l =>
                        match recv_loop k' l (idx + 1) n' ready rx with
                        | Some (l', o) => Some (l', (sl_num s, data) :: o)
                        | None => None
                        end
                    end
                | None => recv_loop k' ports (idx + 1) n' ready rx
                end
              else recv_loop k' ports (idx + 1) n ready rx
          end
      end
  end.
(** run_select after select, 137-171 *)
Definition b_pass (m : bmgr) (ready : list N) (rx : N -> option (list N)) : option (bmgr * list (Z * list N)) :=
  if length ready =? 0 then Some (m, []) else
  if b_handler m then
    match recv_loop (b_count m) (b_ports m) 0 (length ready) ready rx with
    | Some (l, o) => Some (set_ports m l, o)
    | None => None
    end
  else Some (m, []).

(** The removals of bmi_port_destroy_mgr, 335-342: the ports that are still there afterwards *)
Fixpoint destroy_loop (fuel : nat) (m : bmgr) (i : nat) : option bmgr :=
  if i <? b_count m then
    match fuel with
    | O => None
    | S f => match nth_error (b_ports m) i with
             | None => None
             | Some s => match b_remove m (sl_num s) with Some (m', _) => destroy_loop f m' (i + 1) | None => None end
             end
    end
  else Some m.
Definition b_destroy (m : bmgr) : option (list Z) :=
  match destroy_loop (b_count m) m 0 with
  | Some m' => Some (map sl_num (firstn (b_count m') (b_ports m')))
  | None => None
  end.

Inductive bop :=
| BAdd (num : Z) (name : N) (cr : option N)
| BRemove (num : Z)
| BHandler                                   (* bmi_set_packet_handler, 220-228 *)
| BSend (num : Z) (data : list N) (ok : bool)
| BStats (num : Z) (clear : bool)
| BIfname (num : Z)
| BWatch                                     (* what run_select gives to select, 114-119 *)
| BPass (ready : list N) (rx : N -> option (list N)).
Inductive bout :=
| RCode (ok : bool)
| RSent (fd : option N) (ok : bool)
| RStats (s : option stats)
| RName (n : option N)
| RWatch (fds : list N) (nfds : N)
| RGot (l : list (Z * list N)).

Definition b_step (m : bmgr) (o : bop) : option (bmgr * bout) :=
  match o with
  | BAdd num name cr => match b_add m num name cr with Some (m', r) => Some (m', RCode r) | None => None end
  | BRemove num => match b_remove m num with Some (m', r) => Some (m', RCode r) | None => None end
  | BHandler => Some (mkB (b_ports m) (b_count m) (b_fds m) (b_maxfd m) true, RCode true)
  | BSend num data ok => match b_send m num data ok with Some (m', (fd, r)) => Some (m', RSent fd r) | None => None end
  | BStats num clear => match b_stats m num clear with Some (m', r) => Some (m', RStats r) | None => None end
  | BIfname num => match b_ifname m num with Some r => Some (m, RName r) | None => None end
  | BWatch => Some (m, RWatch (b_fds m) (b_maxfd m + 1))
  | BPass ready rx => match b_pass m ready rx with Some (m', r) => Some (m', RGot r) | None => None end
  end.
Fixpoint b_run (m : bmgr) (ops : list bop) : option (bmgr * list bout) :=
  match ops with
  | [] => Some (m, [])
  | o :: r => match b_step m o with
              | None => None
              | Some (m', x) => match b_run m' r with Some (e, xs) => Some (e, x :: xs) | None => None end
              end
  end.

(** BmiDevMgrImp, dev_mgr_bmi.cpp:33-149, under DevMgrIface (dev_mgr.cpp:111-124).  Callbacks of the polling thread are those of PortMonModel.v. *)
Record bdev := mkBD { bd_mgr : bmgr; bd_info : list (N * N) (* port_info, port to interface name *); bd_mon : list (N * bool) }.
(** port_t is uint32_t, the manager's port number an int *)
Definition to_int (p : N) : Z := if (p <? 2147483648)%N then Z.of_N p else (Z.of_N p - 4294967296)%Z.
Fixpoint info_emplace (l : list (N * N)) (p n : N) : list (N * N) :=
  match l with
  | [] => [(p, n)]
  | (q, x) :: r => if (p <? q)%N then (p, n) :: l else if (p =? q)%N then l else (q, x) :: info_emplace r p n
  end.
Definition info_erase (l : list (N * N)) (p : N) : list (N * N) := filter (fun x => negb (fst x =? p)%N) l.
Inductive bdop := DevAdd (p name : N) (cr : option N) | DevRemove (p : N) | DevInfo | DevStats (p : N) (clear : bool) | DevOther (o : bop).
Inductive bdout := DevCode (cb : list dout) (ok : bool) | DevPorts (l : list (N * N)) | DevCounts (s : stats) | DevOut (o : bout).
Definition bd_step (d : bdev) (o : bdop) : option (bdev * bdout) :=
  match o with
  | DevAdd p name cr =>                      (* port_add_, 53-71 *)
      let (mon, cb) := mon_notify (bd_mon d) p Added in
      match b_add (bd_mgr d) (to_int p) name cr with
      | None => None
      | Some (m, ok) => Some (mkBD m (if ok then info_emplace (bd_info d) p name else bd_info d) mon, DevCode cb ok)
      end
  | DevRemove p =>                           (* port_remove_, 73-81 *)
      let (mon, cb) := mon_notify (bd_mon d) p Removed in
      match b_remove (bd_mgr d) (to_int p) with
      | None => None
      | Some (m, ok) => Some (mkBD m (if ok then info_erase (bd_info d) p else bd_info d) mon, DevCode cb ok)
      end
  | DevInfo => Some (d, DevPorts (bd_info d))            (* get_port_info_, 114-124, without is_up *)
  | DevStats p clear =>                      (* get_port_stats_, 126-131, clear_port_stats_, 133-138: the return code is ignored *)
      match b_stats (bd_mgr d) (to_int p) clear with
      | Some (m, Some s) => Some (mkBD m (bd_info d) (bd_mon d), DevCounts s)
      | _ => None
      end
  | DevOther o => match o with
                  | BAdd _ _ _ | BRemove _ => None       (* only through the manager above *)
                  | _ => match b_step (bd_mgr d) o with Some (m, x) => Some (mkBD m (bd_info d) (bd_mon d), DevOut x) | None => None end
                  end
  end.
Fixpoint bd_run (d : bdev) (ops : list bdop) : option (bdev * list bdout) :=
  match ops with
  | [] => Some (d, [])
  | o :: r => match bd_step d o with
              | None => None
              | Some (d', x) => match bd_run d' r with Some (e, xs) => Some (e, x :: xs) | None => None end
              end
  end.
