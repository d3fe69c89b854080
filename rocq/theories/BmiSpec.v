(** Specification of C64: a set of ports, each with the lengths of the packets it received and sent. *)
From Coq Require Import List Arith NArith ZArith Bool Sorted.
From Verif Require Import PortMonModel DevMgrModel BmiModel.
Import ListNotations.

Record port := mkPort { p_num : Z; p_name : N; p_fd : N; p_in : list N; p_out : list N }.
Record world := mkW { w_ports : list port; w_handler : bool }.
Definition look (w : world) (n : Z) : option port := find (fun p => Z.eqb (p_num p) n) (w_ports w).
Definition change (w : world) (n : Z) (f : port -> port) : world :=
  mkW (map (fun p => if Z.eqb (p_num p) n then f p else p) (w_ports w)) (w_handler w).

Definition total (l : list N) : N := fold_right N.add 0%N l.
Definition counts (p : port) : stats :=
  let m := (2 ^ 64)%N in
  mkStats (N.of_nat (length (p_in p)) mod m) (total (p_in p) mod m) (N.of_nat (length (p_out p)) mod m) (total (p_out p) mod m).

(** What the operating system guarantees: a new descriptor is not one in use (by another port or by the manager), and fits an fd_set;
    select reports no descriptor twice. *)
Definition legal (sock : N) (w : world) (o : bop) : Prop :=
  match o with
  | BAdd _ _ (Some fd) => (fd < 1024)%N /\ fd <> sock /\ forall p, In p (w_ports w) -> p_fd p <> fd
  | BPass ready _ => NoDup ready
  | _ => True
  end.

(** a port gets its packet when its descriptor was reported and the interface has one *)
Definition arrival (w : world) (ready : list N) (rx : N -> option (list N)) (n : Z) (data : list N) : Prop :=
  exists p, look w n = Some p /\ In (p_fd p) ready /\ rx (p_fd p) = Some data.

Inductive bspec (max : nat) (sock : N) (w : world) : bop -> bout -> world -> Prop :=
| SpAdd n name fd : look w n = None -> length (w_ports w) < max ->
    bspec max sock w (BAdd n name (Some fd)) (RCode true) (mkW (mkPort n name fd [] [] :: w_ports w) (w_handler w))
| SpAddNot n name cr : look w n <> None \/ max <= length (w_ports w) \/ cr = None -> bspec max sock w (BAdd n name cr) (RCode false) w
| SpRemove n : look w n <> None ->
    bspec max sock w (BRemove n) (RCode true) (mkW (filter (fun p => negb (Z.eqb (p_num p) n)) (w_ports w)) (w_handler w))
| SpRemoveNot n : look w n = None -> bspec max sock w (BRemove n) (RCode false) w
| SpHandler : bspec max sock w BHandler (RCode true) (mkW (w_ports w) true)
| SpSend n data ok p : look w n = Some p ->
    bspec max sock w (BSend n data ok) (RSent (Some (p_fd p)) ok)
      (if ok then change w n (fun p => mkPort (p_num p) (p_name p) (p_fd p) (p_in p) (N.of_nat (length data) :: p_out p)) else w)
| SpSendNot n data ok : look w n = None -> bspec max sock w (BSend n data ok) (RSent None false) w
| SpStats n p : look w n = Some p -> bspec max sock w (BStats n false) (RStats (Some (counts p))) w
| SpClear n p : look w n = Some p ->
    bspec max sock w (BStats n true) (RStats (Some (counts p))) (change w n (fun p => mkPort (p_num p) (p_name p) (p_fd p) [] []))
| SpStatsNot n clear : look w n = None -> bspec max sock w (BStats n clear) (RStats None) w
| SpName n : bspec max sock w (BIfname n) (RName (match look w n with Some p => Some (p_name p) | None => None end)) w
| SpWatch fds nfds : (forall fd, In fd fds <-> fd = sock \/ exists p, In p (w_ports w) /\ p_fd p = fd) ->
    (forall p, In p (w_ports w) -> p_fd p < nfds)%N -> bspec max sock w BWatch (RWatch fds nfds) w
| SpPass ready rx l w' : w_handler w = true -> StronglySorted Z.lt (map fst l) ->
    (forall n data, In (n, data) l <-> arrival w ready rx n data) ->
    w' = mkW (map (fun p => if existsb (N.eqb (p_fd p)) ready then
                              match rx (p_fd p) with
                              | Some data => mkPort (p_num p) (p_name p) (p_fd p) (N.of_nat (length data) :: p_in p) (p_out p)
                              | None => p end
                            else p) (w_ports w)) true ->
    bspec max sock w (BPass ready rx) (RGot l) w'
| SpPassNot ready rx : w_handler w = false -> bspec max sock w (BPass ready rx) (RGot []) w.

(** a history and its results are right *)
Inductive bspecs (max : nat) (sock : N) : world -> list bop -> list bout -> world -> Prop :=
| SpNil w : bspecs max sock w [] [] w
| SpCons w o x w1 ops xs w2 : bspec max sock w o x w1 -> bspecs max sock w1 ops xs w2 -> bspecs max sock w (o :: ops) (x :: xs) w2.
Inductive legals (max : nat) (sock : N) : world -> list bop -> Prop :=
| LgNil w : legals max sock w []
| LgCons w o ops : legal sock w o -> (forall x w1, bspec max sock w o x w1 -> legals max sock w1 ops) -> legals max sock w (o :: ops).
Definition w_new : world := mkW [] false.

(** the second, the fourth, ... *)
Fixpoint every_other {A} (l : list A) : list A := match l with _ :: y :: r => y :: every_other r | _ => [] end.

(** the device manager: 32-bit ports, and the calls it makes *)
Definition small_op (o : bdop) : Prop := match o with DevAdd p _ _ | DevRemove p => (p < 2 ^ 32)%N | _ => True end.
Definition under (o : bdop) : list bop :=
  match o with DevAdd p name cr => [BAdd (to_int p) name cr] | DevRemove p => [BRemove (to_int p)] | DevInfo => [] | DevStats p c => [BStats (to_int p) c] | DevOther o => [o] end.
