(** Model of the ageing monitor, src/bm_sim/ageing.cpp, over the match units of MatchUnitModel.v (whose [mu_sweep] is sweep_entries, match_units.cpp 719-732).

    The sweep thread and the API calls exclude each other by the monitor's mutex, so the monitor is a sequential object; operations on the tables happen between
    the scans of two tables, or between two sweeps.  A sweep is given the time each table's scan reads from the clock. *)
From Coq Require Import List Arith NArith Bool.
From Verif Require Import Base EntryListModel MatchUnitModel.
Import ListNotations.

Section Age.
Context {V : Type}.
(** TableData 54-67, with the table *)
Record atab := mk_at { at_id : N; at_kd : mkind; at_nb : nat; at_u : munit V; at_prev : list N }.
(** Members 70-86: tables_with_ageing (a std::map: in the order of the ids), entries, entries_tmp, buffer_id *)
Record amon := mk_am { am_tabs : list atab; am_ent : list N; am_tmp : list N; am_bid : N }.
(** A notification: buffer id, table id, handles (msg_hdr_t, ageing.h 30-37; the device and context ids are constants) *)
Definition msg : Type := N * N * list N.
Definition found (h : N) (l : list N) : bool := existsb (N.eqb h) l.

(** The body of the loop of do_sweep 160-210, for one table *)
Definition sweep_table (a : atab) (now : N) (ent tmp : list N) (bid : N) : option (atab * list N * list N * N * list msg) :=
  match mu_sweep (at_u a) now with
  | Some (u, MHandles hs) =>
      let tmp1 := tmp ++ hs in
      match tmp1 with
      | [] => Some (mk_at (at_id a) (at_kd a) (at_nb a) u [], ent, tmp1, bid, [])
      | _ =>
          let ent1 := ent ++ filter (fun h => negb (found h (at_prev a))) tmp1 in
          match ent1 with
          | [] => Some (mk_at (at_id a) (at_kd a) (at_nb a) u [], ent1, [], bid, [])
          | _ => Some (mk_at (at_id a) (at_kd a) (at_nb a) u ent1, [], [], ((bid + 1) mod 2 ^ 64)%N, [(bid, at_id a, ent1)])
          end
      end
  | _ => None
  end.
Fixpoint do_sweep (l : list atab) (nows : list N) (ent tmp : list N) (bid : N) : option (list atab * list N * list N * N * list msg) :=
  match l, nows with
  | [], [] => Some ([], ent, tmp, bid, [])
  | a :: l, now :: nows =>
      match sweep_table a now ent tmp bid with
      | Some (a', ent', tmp', bid', m) =>
          match do_sweep l nows ent' tmp' bid' with
          | Some (l', ent'', tmp'', bid'', m') => Some (a' :: l', ent'', tmp'', bid'', m ++ m')
          | None => None
          end
      | None => None
      end
  | _, _ => None
  end.

(** Events: an operation on table number [k]; a sweep; reset_state 126-136 *)
Inductive aev := AOp (k : nat) (o : mop V) | ASweep (nows : list N) | AReset.
Inductive aout := AOut (x : mout V) | AMsgs (l : list msg) | ANone.
Definition a_step (s : amon) (e : aev) : option (amon * aout) :=
  match e with
  | AOp k o =>
      match nth_error (am_tabs s) k with
      | Some a => match mu_step (at_kd a) (at_nb a) (at_u a) o with
                  | Some (u, x) => Some (mk_am (list_set (am_tabs s) k (mk_at (at_id a) (at_kd a) (at_nb a) u (at_prev a))) (am_ent s) (am_tmp s) (am_bid s), AOut x)
                  | None => None end
      | None => None
      end
  | ASweep nows =>
      match do_sweep (am_tabs s) nows (am_ent s) (am_tmp s) (am_bid s) with
      | Some (l, ent, tmp, bid, m) => Some (mk_am l ent tmp bid, AMsgs m)
      | None => None
      end
  | AReset => Some (mk_am (map (fun a => mk_at (at_id a) (at_kd a) (at_nb a) (at_u a) []) (am_tabs s)) [] [] 0, ANone)
  end.
Fixpoint a_run (s : amon) (l : list aev) : option (amon * list aout) :=
  match l with
  | [] => Some (s, [])
  | e :: r => match a_step s e with Some (s', x) => match a_run s' r with Some (s'', xs) => Some (s'', x :: xs) | None => None end | None => None end
  end.
(** Tables as configured: id, kind, key width, size, lookup cache *)
Definition acfg : Type := N * mkind * nat * nat * bool.
(** add_table 108-111 for each table with timeouts *)
Definition a_new (l : list acfg) : amon := mk_am (map (fun '(id, kd, nb, size, cache) => mk_at id kd nb (mu_new kd size cache) []) l) [] [] 0.
End Age.
Arguments atab : clear implicits.
Arguments amon : clear implicits.
Arguments aev : clear implicits.
Arguments aout : clear implicits.
