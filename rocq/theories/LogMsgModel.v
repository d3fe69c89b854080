(** Model of the primitive log_msg (src/bm_sim/core/primitives.cpp 130-194).

    A string is a list of characters; [args] are the values already converted (Data::get_string_repr, data.h 212-215).  The loops are given more
    iterations than they can use ([Diverges] is never the result, see LogMsgProps). *)
From Coq Require Import List Arith Ascii Bool.
Import ListNotations.

Definition OPEN : ascii := "{"%char.
Definition CLOSE : ascii := "}"%char.
Definition BSL : ascii := "\"%char.
Inductive outcome := Logs (msg : list ascii) | Exits | Diverges.   (* Exits: std::exit(1), the end of the switch *)

Fixpoint index_of (c : ascii) (s : list ascii) : option nat :=
  match s with [] => None | x :: r => if Ascii.eqb x c then Some 0 else option_map S (index_of c r) end.
(** std::string::find(c, pos) *)
Definition find (s : list ascii) (c : ascii) (pos : nat) : option nat := option_map (Nat.add pos) (index_of c (skipn pos s)).
Definition is_char (s : list ascii) (i : nat) (c : ascii) : bool := match nth_error s i with Some x => Ascii.eqb x c | None => false end.
(** 143-150: the end of the placeholder *)
Fixpoint find_end (fuel : nat) (s : list ascii) (tmp : nat) : option nat :=
  match find s CLOSE tmp with
  | None => None
  | Some e => if is_char s (e - 1) BSL then match fuel with S f => find_end f s (e + 1) | O => None end else Some e
  end.
(** std::string::replace(pos, n, t) *)
Definition replace (s : list ascii) (pos n : nat) (t : list ascii) : list ascii := firstn pos s ++ t ++ skipn (pos + n) s.
(** The loop 139-171; [open] as at its beginning *)
Fixpoint scan (fuel : nat) (s : list ascii) (open : nat) (args : list (list ascii)) (counter : nat) : (list ascii * nat) + outcome :=
  match find s OPEN (open + 1) with
  | None => inl (s, counter)
  | Some o =>
      match fuel with
      | O => inr Diverges
      | S f =>
          if is_char s (o - 1) BSL then scan f s o args counter
          else
            match find_end (length s) s o with
            | None => inr Exits
            | Some e =>
                match nth_error args counter with
                | Some t => scan f (replace s o (e - o + 1) t) (o + length t) args (counter + 1)
                | None => scan f s (o + (e - o)) args (counter + 1)
                end
            end
      end
  end.
(** 184-191: one of the two loops that remove the backslashes *)
Fixpoint find2 (s : list ascii) (c : ascii) : option nat :=
  match s with
  | [] => None
  | x :: r => if Ascii.eqb x BSL && is_char r 0 c then Some 0 else option_map S (find2 r c)
  end.
Fixpoint strip (fuel : nat) (c : ascii) (s : list ascii) (tmp : nat) : option (list ascii) :=
  match find2 (skipn tmp s) c with
  | None => Some s
  | Some i => match fuel with S f => strip f c (replace s (tmp + i) 1 []) (tmp + i) | O => None end
  end.
Definition log_msg (format : list ascii) (args : list (list ascii)) : outcome :=
  match scan (length format) format 0 args 0 with
  | inr r => r
  | inl (s, counter) =>
      if Nat.eqb counter (length args)                                  (* 173-181 *)
      then match strip (length s) OPEN s 0 with
           | Some s1 => match strip (length s1) CLOSE s1 0 with Some s2 => Logs s2 | None => Diverges end
           | None => Diverges
           end
      else Exits
  end.
