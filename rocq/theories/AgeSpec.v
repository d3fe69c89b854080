(** Specification of the ageing notifications: tables are those of MatchUnitSpec.v; beside each, the handles reported by the last sweep. *)
From Coq Require Import List Arith NArith Bool.
From Verif Require Import Base EntryListModel MatchUnitModel MatchUnitSpec AgeModel.
Import ListNotations.

Section Spec.
Context {V : Type}.
Record stt := mk_stt { st_id : N; st_kd : mkind; st_nb : nat; st_size : nat; st_tab : stab V; st_last : list N }.
Definition set_tab (s : stt) (t : stab V) : stt := mk_stt (st_id s) (st_kd s) (st_nb s) (st_size s) t (st_last s).
Definition set_last (s : stt) (l : list N) : stt := mk_stt (st_id s) (st_kd s) (st_nb s) (st_size s) (st_tab s) l.
(** The handles of [l] that are not in [r] *)
Definition unreported (r l : list N) : list N := filter (fun h => if in_dec N.eq_dec h r then false else true) l.
(** A sweep: for each table the idle handles [hs] (as in MatchUnitSpec.v: those of the entries not hit for their timeout) that were not in the last report make the new report;
    it is sent, with the next buffer id, if it is not empty *)
Inductive sweeps : list stt -> list N -> N -> list msg -> list stt -> N -> Prop :=
| sw_nil b : sweeps [] [] b [] [] b
| sw_quiet s l now nows b m l' b' hs : mspec_step (st_kd s) (st_nb s) (st_size s) (st_tab s) (MSweep now) (MHandles hs) (st_tab s) ->
    unreported (st_last s) hs = [] -> sweeps l nows b m l' b' -> sweeps (s :: l) (now :: nows) b m (set_last s [] :: l') b'
| sw_report s l now nows b m l' b' hs : mspec_step (st_kd s) (st_nb s) (st_size s) (st_tab s) (MSweep now) (MHandles hs) (st_tab s) ->
    unreported (st_last s) hs <> [] -> sweeps l nows ((b + 1) mod 2 ^ 64)%N m l' b' ->
    sweeps (s :: l) (now :: nows) b ((b, st_id s, unreported (st_last s) hs) :: m) (set_last s (unreported (st_last s) hs) :: l') b'.
Inductive aspec_step : list stt * N -> aev V -> aout V -> list stt * N -> Prop :=
| as_op l b k o s x t : nth_error l k = Some s -> mspec_step (st_kd s) (st_nb s) (st_size s) (st_tab s) o x t ->
    aspec_step (l, b) (AOp k o) (AOut x) (list_set l k (set_tab s t), b)
| as_sweep l b nows m l' b' : sweeps l nows b m l' b' -> aspec_step (l, b) (ASweep nows) (AMsgs m) (l', b')
| as_reset l b : aspec_step (l, b) AReset ANone (map (fun s => set_last s []) l, 0%N).
Inductive aspec_run : list stt * N -> list (aev V) -> list (aout V) -> list stt * N -> Prop :=
| ar_nil s : aspec_run s [] [] s
| ar_cons s e x s' es xs s'' : aspec_step s e x s' -> aspec_run s' es xs s'' -> aspec_run s (e :: es) (x :: xs) s''.
Definition s_new (l : list acfg) : list stt * N := (map (fun '(id, kd, nb, size, _) => mk_stt id kd nb size tab_empty []) l, 0%N).

(** The operations of a history on table [k] *)
Fixpoint proj (k : nat) (l : list (aev V)) : list (mop V) :=
  match l with
  | [] => []
  | AOp j o :: r => if Nat.eqb j k then o :: proj k r else proj k r
  | ASweep nows :: r => match nth_error nows k with Some n => MSweep n :: proj k r | None => proj k r end
  | AReset :: r => proj k r
  end.
(** Well-formed histories: each table is used as in MatchUnitSpec.v; in particular the clock read by a sweep is not before the times recorded in the entries *)
Definition ev_fits (n : nat) (e : aev V) : Prop := match e with AOp k _ => k < n | ASweep nows => length nows = n | AReset => True end.
Definition hist_ok (cfg : list acfg) (l : list (aev V)) : Prop :=
  Forall (ev_fits (length cfg)) l /\
  forall k id kd nb size cache, nth_error cfg k = Some (id, kd, nb, size, cache) -> (N.of_nat size <= 2 ^ 24)%N /\ ops_ok kd nb 0 (proj k l).
(** The handles reported for table [id] by a sweep *)
Definition reported (id : N) (m : list msg) : list N := flat_map (fun x => if (snd (fst x) =? id)%N then snd x else []) m.
End Spec.
Arguments stt : clear implicits.
