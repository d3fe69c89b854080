(** Model of the bit-level codec of src/bm_sim/extract.h and of Header::extract / Header::deparse
    (src/bm_sim/headers.cpp 216-226, 267-277).  Bytes are numbers below 256; a read or write out of a buffer
    is [None]. *)
From Coq Require Import List Arith NArith Bool.
From Verif Require Import Base.
Import ListNotations.

Definition wr (l : list N) (i : nat) (v : N) : option (list N) := if i <? length l then Some (list_set l i v) else None.
(** assignment of an [unsigned char << o] to a char *)
Definition shl8 (u : N) (o : nat) : N := (N.shiftl u (N.of_nat o)) mod 256.
Definition shr8 (u : N) (o : nat) : N := N.shiftr u (N.of_nat o).
(** 0xFF >> o *)
Definition low_mask (o : nat) : N := N.shiftr 255 (N.of_nat o).

(** [for (i = lo; i < lo + n; i++) dst[i] = f(i, dst[i])] *)
Fixpoint upd_loop (lo n : nat) (f : nat -> N -> option N) (dst : list N) : option (list N) :=
  match n with
  | O => Some dst
  | S n' =>
      match nth_error dst lo with
      | None => None
      | Some old => match f lo old with
                    | None => None
                    | Some v => upd_loop (S lo) n' f (list_set dst lo v)
                    end
      end
  end.
Definition get2 (u : list N) (i j : nat) (f : N -> N -> N) : option N :=
  match nth_error u i, nth_error u j with Some a, Some b => Some (f a b) | _, _ => None end.
Definition get1 (u : list N) (i : nat) (f : N -> N) : option N := match nth_error u i with Some a => Some (f a) | None => None end.
Definition upd1 (dst : list N) (i : nat) (f : N -> option N) : option (list N) := upd_loop i 1 (fun _ => f) dst.
(** memcpy of [n] bytes at the start of [dst] *)
Definition memcpy (dst src : list N) (n : nat) : option (list N) :=
  if (n <=? length src) && (n <=? length dst) then Some (firstn n src ++ skipn n dst) else None.

Definition bind {A B} (x : option A) (f : A -> option B) : option B := match x with Some a => f a | None => None end.
Notation "x <- e ;; k" := (bind e (fun x => k)) (at level 100, e at next level, right associativity).

(** generic_extract 22-60 *)
Definition g_extract (data : list N) (off w : nat) (dst : list N) : option (list N) :=
  let nb := (w + 7) / 8 in
  if (off =? 0) && (w mod 8 =? 0) then memcpy dst data nb
  else
    let dofs := 8 * nb - w in
    if off =? dofs then
      d <- memcpy dst data nb ;;
      upd1 d 0 (fun x => Some (N.land x (low_mask dofs)))
    else if dofs <? off then
      let o := off - dofs in
      d1 <- upd_loop 0 (nb - 1) (fun i _ => get2 data i (i + 1) (fun a b => N.lor (shl8 a o) (shr8 b (8 - o)))) dst ;;
      d2 <- upd1 d1 (nb - 1) (fun _ => get1 data (nb - 1) (fun a => shl8 a o)) ;;
      d3 <- upd1 d2 0 (fun x => Some (N.land x (low_mask dofs))) ;;
      if 8 * nb <? off + w
      then upd1 d3 (nb - 1) (fun x => get1 data (nb - 1 + 1) (fun b => N.lor x (shr8 b (8 - o))))
      else Some d3
    else
      let o := dofs - off in
      d1 <- upd1 dst 0 (fun _ => get1 data 0 (fun a => N.land (shr8 a o) (low_mask dofs))) ;;
      upd_loop 1 (nb - 1) (fun i _ => get2 data (i - 1) i (fun a b => N.lor (shl8 a (8 - o)) (shr8 b o))) d1.

(** generic_deparse 62-110 *)
Definition g_deparse (data : list N) (w : nat) (dst : list N) (off : nat) : option (list N) :=
  if w =? 0 then Some dst
  else
    let nb := (w + 7) / 8 in
    if (off =? 0) && (w mod 8 =? 0) then memcpy dst data nb
    else
      let fofs := 8 * nb - w in
      let hb := (off + w + 7) / 8 in
      d0 <- upd1 dst 0 (fun x => Some (N.ldiff x (low_mask off))) ;;
      if fofs =? off then
        d1 <- upd_loop 1 (hb - 1) (fun i _ => get1 data i (fun a => a)) d0 ;;
        upd1 d1 0 (fun x => get1 data 0 (fun a => N.lor x a))
      else if off <? fofs then
        let o := fofs - off in
        d1 <- upd_loop 1 (hb - 1) (fun _ _ => Some 0%N) d0 ;;
        d2 <- upd_loop 0 (hb - 1) (fun i x => get2 data i (i + 1) (fun a b => N.lor x (N.lor (shl8 a o) (shr8 b (8 - o))))) d1 ;;
        upd1 d2 (hb - 1) (fun x => get1 data (hb - 1) (fun a => N.lor x (shl8 a o)))
      else
        let o := off - fofs in
        d1 <- upd1 d0 0 (fun x => get1 data 0 (fun a => N.lor x (shr8 a o))) ;;
        if nb =? 1 then upd1 d1 1 (fun _ => get1 data 0 (fun a => shl8 a (8 - o)))
        else
          d2 <- upd_loop 1 (hb - 2) (fun i _ => get2 data (i - 1) i (fun a b => N.lor (shl8 a (8 - o)) (shr8 b o))) d1 ;;
          let tail := 8 * hb - (off + w) in
          d3 <- upd1 d2 (hb - 1) (fun x => Some (N.land x (N.shiftl 1 (N.of_nat tail) - 1))) ;;
          upd1 d3 (hb - 1) (fun x => get1 data (hb - 1 - 1) (fun a => N.lor x (shl8 a (8 - o)))).

(** Header::extract 216-226: the data pointer advances by whole bytes.  A field is its width; the result is
    the byte string of each field ([Field::extract], fields.cpp 67-74, writes into the field's bytes). *)
Fixpoint h_extract (widths : list nat) (data : list N) (off : nat) : option (list (list N)) :=
  match widths with
  | [] => Some []
  | w :: r =>
      b <- g_extract data off w (repeat 0%N ((w + 7) / 8)) ;;
      let off' := off + w in
      bs <- h_extract r (skipn (off' / 8) data) (off' mod 8) ;;
      Some (b :: bs)
  end.
(** Header::deparse 267-277 *)
Fixpoint h_deparse (fields : list (nat * list N)) (dst : list N) (off : nat) : option (list N) :=
  match fields with
  | [] => Some dst
  | (w, b) :: r =>
      d <- g_deparse b w dst off ;;
      let off' := off + w in
      d' <- h_deparse r (skipn (off' / 8) d) (off' mod 8) ;;
      Some (firstn (off' / 8) d ++ d')
  end.
