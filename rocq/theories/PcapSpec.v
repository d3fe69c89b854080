(** What replaying packet captures should do. *)
From Coq Require Import List Arith NArith ZArith Bool Sorted.
From Verif Require Import PcapModel.
Import ListNotations.

(** A file: the port it is played on and its records.  A record can be replayed when it holds the
    whole packet. *)
Notation file := (nat * list prec)%type.
Definition good (r : prec) : Prop := match r with Rec _ len data => len = length data | Damaged => False end.
Definition bad_head (f : file) : Prop := match snd f with r :: _ => ~ good r | [] => False end.

Definition before (a b : tv) : Prop :=
  (tv_sec a < tv_sec b \/ (tv_sec a = tv_sec b /\ tv_usec a < tv_usec b))%Z.
Definition head_time (f : file) : option tv := match snd f with Rec t _ _ :: _ => Some t | _ => None end.

(** The packets replayed, with their times, and whether the end of all files is reached.  The next
    packet is a first one of its file, at the earliest time; on a tie the first file's. *)
Inductive replay : list file -> list (nat * (tv * list N)) -> bool -> Prop :=
| rp_done fs : Forall (fun f => snd f = []) fs -> replay fs [] true
| rp_bad fs : Exists bad_head fs -> replay fs [] false
| rp_next fs1 p t len data r fs2 out ok :
    ~ Exists bad_head (fs1 ++ (p, Rec t len data :: r) :: fs2) ->
    (forall f t', In f fs1 -> head_time f = Some t' -> before t t') ->
    (forall f t', In f fs2 -> head_time f = Some t' -> ~ before t' t) ->
    replay (fs1 ++ (p, r) :: fs2) out ok ->
    replay (fs1 ++ (p, Rec t len data :: r) :: fs2) ((p, (t, data)) :: out) ok.

(** The packets of a file. *)
Definition packets (f : file) : list (nat * (tv * list N)) :=
  flat_map (fun r => match r with Rec t _ d => [(fst f, (t, d))] | Damaged => [] end) (snd f).

(** Microseconds. *)
Definition us (t : tv) : Z := (tv_sec t * 1000000 + tv_usec t)%Z.
Definition tv_ok (t : tv) : Prop := (0 <= tv_usec t < 1000000)%Z.
(** How long the reader slept before a packet. *)
Definition slept (g : given) : Z := match g_sleep g with None => 0%Z | Some d => us d end.
