(** Model of packet capture replay, src/bm_sim/pcap_file.cpp.

    libpcap is a list of records per file; reading one that is damaged (pcap_next_ex = -1) and any
    call of pcap_fatal_error end the process ([Exited]).  The clock (gettimeofday) is any sequence of
    readings.  The handler is set before start (set_packet_handler, 317-325).
    Not modelled: opening the files, log messages, the wait before starting, overflow of tv_sec. *)
From Coq Require Import List Arith NArith ZArith Bool.
Import ListNotations.

(** struct timeval, with timercmp and timersub of <sys/time.h> *)
Record tv := mkTv { tv_sec : Z; tv_usec : Z }.
Definition timer_lt (a b : tv) : bool :=
  if (tv_sec a =? tv_sec b)%Z then (tv_usec a <? tv_usec b)%Z else (tv_sec a <? tv_sec b)%Z.
Definition timer_le (a b : tv) : bool :=
  if (tv_sec a =? tv_sec b)%Z then (tv_usec a <=? tv_usec b)%Z else (tv_sec a <=? tv_sec b)%Z.
Definition timersub (a b : tv) : tv :=
  let s := (tv_sec a - tv_sec b)%Z in
  let u := (tv_usec a - tv_usec b)%Z in
  if (u <? 0)%Z then mkTv (s - 1) (u + 1000000) else mkTv s u.

(** A record of a file: time, the packet's original length, and the bytes captured. *)
Inductive prec := Rec (t : tv) (len : nat) (data : list N) | Damaged.

(** PcapFileIn, pcap_file.h:64-101 *)
Inductive fstate := Opened | Reading (t : tv) (data : list N) | AtEnd.
Record infile := mkIn { if_port : nat; if_state : fstate; if_rest : list prec }.
(** the constructor and reset, pcap_file.cpp:54-92 *)
Definition open_file (port : nat) (l : list prec) : infile := mkIn port Opened l.

(** advance, 109-130.  [None] is exit(1). *)
Definition advance (f : infile) : option (infile * bool) :=
  match if_rest f with
  | Rec t len data :: r =>
      if length data =? len then Some (mkIn (if_port f) (Reading t data) r, true) else None
  | Damaged :: _ => None
  | [] => Some (mkIn (if_port f) AtEnd [], false)
  end.
(** moveNext, 94-107 *)
Definition move_next (f : infile) : option (infile * bool) :=
  match if_state f with AtEnd => Some (f, false) | Opened | Reading _ _ => advance f end.
(** current, 132-153 *)
Definition current (f : infile) : option (tv * list N) :=
  match if_state f with Reading t d => Some (t, d) | Opened | AtEnd => None end.

(** The loop of scan, 191-207: [None] is exit(1) in current, [Some None] is earliest_index = -1. *)
Fixpoint earliest (files : list infile) (i : nat) (acc : option (nat * tv)) : option (option (nat * tv)) :=
  match files with
  | [] => Some acc
  | f :: r =>
      match if_state f with
      | AtEnd => earliest r (S i) acc
      | _ =>
          match current f with
          | None => None
          | Some (t, _) =>
              earliest r (S i)
                (match acc with
                 | None => Some (i, t)
                 | Some (j, t0) => if timer_lt t t0 then Some (i, t) else Some (j, t0)
                 end)
          end
      end
  end.

(** A packet given to the handler, and how long the reader slept before: [None] when not at all. *)
Record given := mkGiven { g_port : nat; g_data : list N; g_sleep : option tv }.
Inductive outcome := Finished | Exited | Stuck.

(** schedulePacket, 251-266 *)
Definition sleep_for (delay : tv) : option tv := if timer_le delay (mkTv 0 0) then None else Some delay.

Fixpoint fset (l : list infile) (i : nat) (f : infile) : list infile :=
  match l, i with [], _ => [] | _ :: r, O => f :: r | x :: r, S i => x :: fset r i f end.

(** scan, 180-234, with timerFired, 237-248.  [clock k] is the k-th reading of the clock; [first]
    and [start] are firstPacketTime and startTime.  [adds k] are the files added by another thread
    (addFile, 171-176) before the k-th iteration.  One iteration per unit of fuel. *)
Fixpoint scan (fuel : nat) (respect : bool) (first start : tv) (clock : nat -> tv) (adds : nat -> list infile)
    (k : nat) (files : list infile) (nonempty : nat) : list given * outcome :=
  match fuel with
  | O => ([], Stuck)
  | S fuel =>
      let files := files ++ adds k in
      if nonempty =? 0 then ([], Finished)
      else
        match earliest files 0 None with
        | None | Some None => ([], Exited)
        | Some (Some (i, t)) =>
            let delay := if respect then timersub (timersub t first) (timersub (clock k) start) else mkTv 0 0 in
            match nth_error files i with
            | None => ([], Exited)
            | Some f =>
                match current f with
                | None => ([], Exited)
                | Some (_, d) =>
                    let g := mkGiven (if_port f) d (sleep_for delay) in
                    match move_next f with
                    | None => ([g], Exited)
                    | Some (f', ok) =>
                        let (gs, o) := scan fuel respect first start clock adds (S k) (fset files i f')
                                         (if ok then nonempty else nonempty - 1) in
                        (g :: gs, o)
                    end
                end
            end
        end
  end.

(** The loop of start, 286-298: the files, how many are not empty, the first time. *)
Fixpoint start_files (files : list infile) (n : nat) (first : option tv) : option (list infile * nat * option tv) :=
  match files with
  | [] => Some ([], n, first)
  | f :: r =>
      match move_next f with
      | None => None
      | Some (f', ok) =>
          let first' := if ok then
                          match current f' with
                          | Some (t, _) => match first with
                                           | None => Some t
                                           | Some t0 => if timer_lt t t0 then Some t else Some t0
                                           end
                          | None => first
                          end
                        else first in
          match start_files r (if ok then S n else n) first' with
          | None => None
          | Some (l, n', x) => Some (f' :: l, n', x)
          end
      end
  end.

(** start, 269-313.  [start] is the clock just before scan; firstPacketTime is not initialised when
    all files are empty, and then not used. *)
Definition reader_start (fuel : nat) (respect : bool) (start : tv) (clock : nat -> tv) (adds : nat -> list infile)
    (files : list infile) : list given * outcome :=
  match start_files files 0 None with
  | None => ([], Exited)
  | Some (l, n, first) =>
      scan fuel respect (match first with Some t => t | None => mkTv 0 0 end) start clock adds 0 l n
  end.

(** The writer: PcapFilesWriter, 363-386, and PcapFileOut::writePacket, 343-353.  The first file
    given for a port stays (emplace). *)
Definition writer : Type := list (nat * list prec).
Fixpoint w_find (w : writer) (p : nat) : option (list prec) :=
  match w with [] => None | (q, l) :: r => if q =? p then Some l else w_find r p end.
Definition w_add (w : writer) (p : nat) : writer :=
  match w_find w p with Some _ => w | None => w ++ [(p, [])] end.
Fixpoint w_append (w : writer) (p : nat) (x : prec) : writer :=
  match w with [] => [] | (q, l) :: r => if q =? p then (q, l ++ [x]) :: r else (q, l) :: w_append r p x end.
Definition w_send (w : writer) (now : tv) (p : nat) (data : list N) : writer :=
  match w_find w p with None => w | Some _ => w_append w p (Rec now (length data) data) end.
Inductive wop := WAdd (p : nat) | WSend (now : tv) (p : nat) (data : list N).
Definition w_step (w : writer) (o : wop) : writer :=
  match o with WAdd p => w_add w p | WSend now p d => w_send w now p d end.
