(** Model of one learn list, src/bm_sim/learning.cpp (LearnEngine::LearnList).

    Producers (packet threads, and API calls), acknowledgements and the transmit thread synchronise on one mutex.  An event below is a maximal
    stretch of code run under the mutex, or the unlocked I/O of the transmit thread; a schedule is any sequence of events.  A producer that has to wait on
    [b_can_swap] leaves the mutex in the middle of its call and resumes with [EWake] (any number of times: spurious wake-ups are included).
    [None]: undefined behaviour (dangling reference, data race), or an event that the thread concerned cannot perform.

    Not modelled: the destructor; the fixed fields of the message header (device, context and list ids). *)
From Coq Require Import List Arith NArith ZArith Bool.
Import ListNotations.

(** A sample: the bytes of the fields and constants of the list, one after the other (LearnSampleBuilder::operator() 254-273) *)
Inductive lentry := LField (h f : nat) | LConst (c : list N).
Definition build (field_bytes : nat -> nat -> list N) (es : list lentry) : list N :=
  flat_map (fun e => match e with LField h f => field_bytes h f | LConst c => c end) es.

Definition sample : Type := list N.
Definition sample_eq (a b : sample) : bool := if list_eq_dec N.eq_dec a b then true else false.
(** FilterPtrs 126-134.  The references to the keys of the filter are the addresses of its nodes. *)
Record fptrs := mk_fp { f_cnt : N; f_refs : list nat }.
(** The transmit thread: waiting for something to send; having released the lock to send [k] samples; having sent *)
Inductive phase := PIdle | PTook (k : nat) | PSent.
(** Members 192-230; [l_wait]: producers waiting on b_can_swap, [l_sig]: notifications of b_can_swap not consumed yet; [l_dest]: learn_mode (NONE, or to whom) *)
Record lst := mk_l {
  l_buf : list N; l_n : nat; l_id : N; l_max : nat; l_started : N; l_timeout : N;
  l_filter : list (nat * sample); l_next : nat; l_old : N -> option fptrs;
  l_tmp : list N; l_ntmp : nat; l_ph : phase; l_wait : list nat; l_sig : nat; l_dest : option N }.
(** Constructor 275-283 *)
Definition l_new (max : nat) (timeout : N) : lst := mk_l [] 0 0 max 0 timeout [] 0 (fun _ => None) [] 0 PIdle [] 0 None.

(** swap_buffers 347-353 *)
Definition swap (s : lst) : lst :=
  mk_l (l_tmp s) 0 ((l_id s + 1) mod 2 ^ 64)%N (l_max s) (l_started s) (l_timeout s) (l_filter s) (l_next s) (l_old s) (l_buf s) (l_n s) (l_ph s) (l_wait s) (l_sig s) (l_dest s).
Definition set_wait (s : lst) (w : list nat) (g : nat) : lst :=
  mk_l (l_buf s) (l_n s) (l_id s) (l_max s) (l_started s) (l_timeout s) (l_filter s) (l_next s) (l_old s) (l_tmp s) (l_ntmp s) (l_ph s) w g (l_dest s).
(** process_full_buffer 356-363: [true] if the caller goes waiting *)
Definition process_full (s : lst) (t : nat) : lst * bool :=
  match l_tmp s with [] => (swap s, false) | _ => (set_wait s (t :: l_wait s) (l_sig s), true) end.
Definition old_put (o : N -> option fptrs) (i : N) (v : option fptrs) : N -> option fptrs := fun j => if (j =? i)%N then v else o j.
(** add_sample 366-392 *)
Definition add_sample (s : lst) (t : nat) (now : N) (x : sample) : lst * (bool * bool) :=
  if existsb (fun p => sample_eq (snd p) x) (l_filter s) then (s, (false, false))
  else
    let fp := match l_old s (l_id s) with Some fp => fp | None => mk_fp 0 [] end in
    let s1 := mk_l (l_buf s ++ x) (l_n s + 1) (l_id s) (l_max s) (l_started s) (l_timeout s) (l_filter s ++ [(l_next s, x)]) (S (l_next s))
                (old_put (l_old s) (l_id s) (Some (mk_fp ((f_cnt fp + 1) mod 2 ^ 64)%N (f_refs fp ++ [l_next s]))))
                (l_tmp s) (l_ntmp s) (l_ph s) (l_wait s) (l_sig s) (l_dest s) in
    if (l_n s1 =? 1) && (1 <? l_max s1) then
      (mk_l (l_buf s1) (l_n s1) (l_id s1) (l_max s1) now (l_timeout s1) (l_filter s1) (l_next s1) (l_old s1) (l_tmp s1) (l_ntmp s1) (l_ph s1) (l_wait s1) (l_sig s1) (l_dest s1), (true, false))
    else if l_max s1 <=? l_n s1 then let '(s2, b) := process_full s1 t in (s2, (true, b))
    else (s1, (true, false)).
(** set_max_samples 338-344 *)
Definition set_max (s : lst) (t : nat) (m : nat) : lst * bool :=
  let s1 := mk_l (l_buf s) (l_n s) (l_id s) m (l_started s) (l_timeout s) (l_filter s) (l_next s) (l_old s) (l_tmp s) (l_ntmp s) (l_ph s) (l_wait s) (l_sig s) (l_dest s) in
  if (0 <? l_n s) && (m <=? l_n s) then process_full s1 t else (s1, false).
(** A waiting producer runs again: the loop and the rest of process_full_buffer 357-361.  It consumes a notification if there is one. *)
Definition wake (s : lst) (t : nat) : option (lst * bool) :=
  if existsb (Nat.eqb t) (l_wait s) then
    match l_tmp s with
    | [] => Some (swap (set_wait s (filter (fun u => negb (t =? u)) (l_wait s)) (l_sig s - 1)), true)
    | _ => Some (set_wait s (l_wait s) (l_sig s - 1), false)
    end
  else None.
(** buffer_transmit 395-424, until the lock is released: [false] if the thread goes on waiting *)
Definition take (s : lst) (now : N) : option (lst * bool) :=
  match l_ph s with
  | PIdle =>
      let nothing := match l_tmp s with [] => (l_timeout s =? 0)%N || (l_n s =? 0) || (now <? l_started s + l_timeout s)%N | _ => false end in
      if nothing then Some (s, false)
      else
        let '(s1, k) := match l_tmp s with [] => (swap s, l_n s) | _ => (s, l_ntmp s) end in
        Some (mk_l (l_buf s1) (l_n s1) (l_id s1) (l_max s1) (l_started s1) (l_timeout s1) (l_filter s1) (l_next s1) (l_old s1) (l_tmp s1) (l_ntmp s1) (PTook k) (l_wait s1) (l_sig s1) (l_dest s1), true)
  | _ => None
  end.
Definition set_ph (s : lst) (p : phase) : lst :=
  mk_l (l_buf s) (l_n s) (l_id s) (l_max s) (l_started s) (l_timeout s) (l_filter s) (l_next s) (l_old s) (l_tmp s) (l_ntmp s) p (l_wait s) (l_sig s) (l_dest s).
(** The message, 426-453: built from buffer_id, buffer_tmp and learn_mode without the lock.  To whom, buffer id, number of samples, bytes *)
Definition msg : Type := option N * N * nat * list N.
Definition send (s : lst) : option (lst * msg) :=
  match l_ph s with
  | PTook k => Some (set_ph s PSent, (l_dest s, ((l_id s + (2 ^ 64 - 1)) mod 2 ^ 64)%N, k, l_tmp s))
  | _ => None
  end.
(** 458-465: b_can_swap.notify_one wakes one more waiter, if there is one *)
Definition done (s : lst) : option lst :=
  match l_ph s with
  | PSent => Some (mk_l (l_buf s) (l_n s) (l_id s) (l_max s) (l_started s) (l_timeout s) (l_filter s) (l_next s) (l_old s) [] (l_ntmp s) PIdle (l_wait s) (Nat.min (l_sig s + 1) (length (l_wait s))) (l_dest s))
  | _ => None
  end.
(** filter.erase( *ref ): dereferences the address, erases the key found there *)
Definition erase_ref (f : list (nat * sample)) (a : nat) : option (list (nat * sample)) :=
  match find (fun p => fst p =? a) f with
  | Some (_, x) => Some (filter (fun p => negb (sample_eq (snd p) x)) f)
  | None => None
  end.
(** The loop of ack 485-494; [alive]: old_buffers.erase(it) was not done yet, so that filter_ptrs can be used *)
Fixpoint ack_loop (f : list (nat * sample)) (refs : list nat) (cnt : N) (alive : bool) (ids : list Z) : option (list (nat * sample) * N * bool) :=
  match ids with
  | [] => Some (f, cnt, alive)
  | i :: r =>
      if (i <? 0)%Z then ack_loop f refs cnt alive r
      else if negb alive then None
      else match nth_error refs (Z.to_nat i) with
           | None => ack_loop f refs cnt alive r
           | Some a =>
               match erase_ref f a with
               | Some f' => let cnt' := ((cnt + (2 ^ 64 - 1)) mod 2 ^ 64)%N in ack_loop f' refs cnt' (negb (cnt' =? 0)%N) r
               | None => None
               end
           end
  end.
Definition set_filter (s : lst) (f : list (nat * sample)) (o : N -> option fptrs) : lst :=
  mk_l (l_buf s) (l_n s) (l_id s) (l_max s) (l_started s) (l_timeout s) f (l_next s) o (l_tmp s) (l_ntmp s) (l_ph s) (l_wait s) (l_sig s) (l_dest s).
(** ack 476-495 *)
Definition ack (s : lst) (id : N) (ids : list Z) : option lst :=
  match l_old s id with
  | None => Some s
  | Some fp =>
      match ack_loop (l_filter s) (f_refs fp) (f_cnt fp) true ids with
      | Some (f, cnt, alive) => Some (set_filter s f (old_put (l_old s) id (if alive then Some (mk_fp cnt (f_refs fp)) else None)))
      | None => None
      end
  end.
(** ack_buffer 498-517 *)
Fixpoint erase_refs (f : list (nat * sample)) (refs : list nat) : option (list (nat * sample)) :=
  match refs with [] => Some f | a :: r => match erase_ref f a with Some f' => erase_refs f' r | None => None end end.
Definition ack_buffer (s : lst) (id : N) : option lst :=
  match l_old s id with
  | None => Some s
  | Some fp =>
      match (if (f_cnt fp =? N.of_nat (length (l_filter s)))%N then Some [] else erase_refs (l_filter s) (f_refs fp)) with
      | Some f => Some (set_filter s f (old_put (l_old s) id None))
      | None => None
      end
  end.
(** reset_state 525-534.  While the transmit thread is sending, clearing buffer_tmp is a data race. *)
Definition reset (s : lst) : option lst :=
  match l_ph s with
  | PTook _ => None
  | _ => Some (mk_l [] 0 0 (l_max s) (l_started s) (l_timeout s) [] (l_next s) (fun _ => None) [] 0 (l_ph s) (l_wait s) (l_sig s) (l_dest s))
  end.
Definition set_timeout (s : lst) (x : N) : lst :=
  mk_l (l_buf s) (l_n s) (l_id s) (l_max s) (l_started s) x (l_filter s) (l_next s) (l_old s) (l_tmp s) (l_ntmp s) (l_ph s) (l_wait s) (l_sig s) (l_dest s).
(** set_learn_writer, set_learn_cb 300-320: wait while the transmit thread is sending *)
Definition set_dest (s : lst) (d : N) : option lst :=
  match l_ph s with
  | PIdle => Some (mk_l (l_buf s) (l_n s) (l_id s) (l_max s) (l_started s) (l_timeout s) (l_filter s) (l_next s) (l_old s) (l_tmp s) (l_ntmp s) (l_ph s) (l_wait s) (l_sig s) (Some d))
  | _ => None
  end.

Inductive lev := EAdd (t : nat) (now : N) (x : sample) | EMax (t : nat) (m : nat) | EWake (t : nat) | ETake (now : N) | ESend | EDone
  | EAck (id : N) (ids : list Z) | EAckBuf (id : N) | EReset | ETimeout (x : N) | EDest (d : N).
Inductive lout := OAdd (accepted blocked : bool) | OBlocked (b : bool) | OWoke (b : bool) | OTook (b : bool) | OMsg (m : msg) | ONone.
Definition l_step (s : lst) (e : lev) : option (lst * lout) :=
  let free t := negb (existsb (Nat.eqb t) (l_wait s)) in
  match e with
  | EAdd t now x => if free t then let '(s', (a, b)) := add_sample s t now x in Some (s', OAdd a b) else None
  | EMax t m => if free t then let '(s', b) := set_max s t m in Some (s', OBlocked b) else None
  | EWake t => match wake s t with Some (s', b) => Some (s', OWoke b) | None => None end
  | ETake now => match take s now with Some (s', b) => Some (s', OTook b) | None => None end
  | ESend => match send s with Some (s', m) => Some (s', OMsg m) | None => None end
  | EDone => match done s with Some s' => Some (s', ONone) | None => None end
  | EAck id ids => match ack s id ids with Some s' => Some (s', ONone) | None => None end
  | EAckBuf id => match ack_buffer s id with Some s' => Some (s', ONone) | None => None end
  | EReset => match reset s with Some s' => Some (s', ONone) | None => None end
  | ETimeout x => Some (set_timeout s x, ONone)
  | EDest d => match set_dest s d with Some s' => Some (s', ONone) | None => None end
  end.
Fixpoint l_run (s : lst) (es : list lev) : option (lst * list lout) :=
  match es with
  | [] => Some (s, [])
  | e :: r => match l_step s e with Some (s', x) => match l_run s' r with Some (s'', xs) => Some (s'', x :: xs) | None => None end | None => None end
  end.
