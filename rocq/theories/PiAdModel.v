(** Model of the parameters of actions on their way through the PI implementation and through a saved state (PI/src/action_helpers.cpp 25-70;
    ActionFnEntry::serialize, deserialize, actions.cpp 459-487): bytes to numbers, numbers to bytes, numbers to text and back.

    A parameter is its width in bits, in the order of the P4Info.  Characters are their codes.  The stream is a list of characters; a word is what
    [in >> string] takes.  Reading a number takes a word of digits (the characters written are always such words).
    An exception, a failed assertion or a read past the end of the bytes is [None]. *)
From Coq Require Import List Arith NArith ZArith Bool.
From Verif Require Import Base Bytes DataModel PhvModel.
Import ListNotations.

(** ** Bytes of a PI action *)
Definition nbytes_of (w : nat) : nat := (w + 7) / 8.
(** build_action_data 25-47: Data(const char *, int) imports the bytes (data.h 91-95) *)
Fixpoint build (ws : list nat) (blob : list N) : option (list Z) :=
  match ws with
  | [] => Some []
  | w :: ws => let n := nbytes_of w in
               if length blob <? n then None
               else r <- build ws (skipn n blob) ;; Some (import_bytes (firstn n blob) :: r)
  end.
(** dump_action_data 49-70 *)
Fixpoint dump_params (ws : list nat) (ds : list Z) : option (list N) :=
  match ws, ds with
  | w :: ws, d :: ds =>
      let n := nbytes_of w in
      s <- get_string d ;;
      if n <? length s then None                                              (* assert 63 *)
      else r <- dump_params ws ds ;; Some (repeat 0%N (n - length s) ++ s ++ r)
  | _, _ => Some []
  end.
Definition dump (ws : list nat) (ds : list Z) : option (list N) :=
  if length ws =? length ds then dump_params ws ds else None.                 (* assert 57 *)

(** ** Text *)
(** Digits in base [b], most significant first; [fuel]: enough *)
Fixpoint digs (fuel : nat) (b v : N) : list N :=
  match fuel with O => [] | S f => if (v <? b)%N then [v] else digs f b (v / b)%N ++ [(v mod b)%N] end.
Definition digits (b v : N) : list N := digs (S (N.size_nat v)) b v.
Definition nl : N := 10.
(** out << number *)
Definition show_dec (v : N) : list N := map (fun d => (48 + d)%N) (digits 10 v).
(** out << std::hex << Data (data.h 415-419, Boost.Multiprecision): lower case, no prefix; throws for a negative number *)
Definition show_hex (v : Z) : option (list N) :=
  if (v <? 0)%Z then None else Some (map (fun d => if (d <? 10)%N then (48 + d)%N else (87 + d)%N) (digits 16 (Z.to_N v))).
(** isspace *)
Definition is_ws (c : N) : bool := (c =? 32)%N || ((9 <=? c)%N && (c <=? 13)%N).
Fixpoint skip_ws (l : list N) : list N := match l with c :: r => if is_ws c then skip_ws r else l | [] => [] end.
Fixpoint take_word (l : list N) : list N * list N :=
  match l with c :: r => if is_ws c then ([], l) else let q := take_word r in (c :: fst q, snd q) | [] => ([], []) end.
(** in >> string; [None]: nothing left *)
Definition read_word (l : list N) : option (list N * list N) :=
  let q := take_word (skip_ws l) in match fst q with [] => None | _ => Some q end.
Fixpoint dec_val (acc : N) (l : list N) : option N :=
  match l with [] => Some acc | c :: r => if (48 <=? c)%N && (c <=? 57)%N then dec_val (10 * acc + (c - 48))%N r else None end.
(** in >> number, into a type whose largest value is [max] *)
Definition read_num (max : N) (l : list N) : option (Z * list N) :=
  q <- read_word l ;;
  match fst q with
  | c :: r => if (c =? 45)%N then match r with [] => None | _ => v <- dec_val 0 r ;; Some (- Z.of_N v, snd q)%Z end
              else v <- dec_val 0 (fst q) ;; if (v <=? max)%N then Some (Z.of_N v, snd q) else None
  | [] => None
  end.

(** ** Action entries *)
(** ActionFnEntry: the id of its action (None: nullptr), its action data *)
Record aentry := mk_ae { ae_id : option N; ae_data : list Z }.
Fixpoint show_data (ds : list Z) : option (list N) :=
  match ds with [] => Some [] | d :: ds => s <- show_hex d ;; r <- show_data ds ;; Some (s ++ nl :: r) end.
(** serialize 459-470 *)
Definition save_entry (e : aentry) : option (list N) :=
  match ae_id e with
  | None => Some [45; 49; nl]%N
  | Some id => r <- show_data (ae_data e) ;; Some (show_dec id ++ nl :: show_dec (N.of_nat (length (ae_data e))) ++ nl :: r)
  end.
Fixpoint read_data (n : nat) (l : list N) : option (list Z * list N) :=
  match n with
  | O => Some ([], l)
  | S n => q <- read_word l ;; d <- set_hex (fst q) ;; r <- read_data n (snd q) ;; Some (d :: fst r, snd r)
  end.
(** deserialize 472-487 into [old]; [known]: the program has an action with this id *)
Definition load_entry (known : N -> bool) (old : aentry) (l : list N) : option (aentry * list N) :=
  q <- read_num (2 ^ 31 - 1) l ;;
  if (fst q =? -1)%Z then Some (mk_ae None (ae_data old), snd q)
  else if (fst q <? 0)%Z then None
  else let id := Z.to_N (fst q) in
       if known id
       then s <- read_num (2 ^ 64 - 1) (snd q) ;;
            r <- read_data (Z.to_nat (fst s)) (snd s) ;;
            Some (mk_ae (Some id) (ae_data old ++ fst r), snd r)
       else None.
(** The entries of a table or of an action profile, one after the other *)
Fixpoint save_all (es : list aentry) : option (list N) :=
  match es with [] => Some [] | e :: es => s <- save_entry e ;; r <- save_all es ;; Some (s ++ r) end.
Fixpoint load_all (known : N -> bool) (n : nat) (l : list N) : option (list aentry * list N) :=
  match n with
  | O => Some ([], l)
  | S n => q <- load_entry known (mk_ae None []) l ;; r <- load_all known n (snd q) ;; Some (fst q :: fst r, snd r)
  end.
