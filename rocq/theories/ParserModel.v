(** Model of the parser: parse operations, select, value sets and the parse loop (src/bm_sim/parser.cpp).

    Simplifications.  Expressions and conditions are arbitrary functions of the header vector; a parser method is an
    arbitrary list of header-vector operations (PhvModel) computed from it.  A field value is the unsigned number
    made of its bits (signed fields and saturation: FieldModel, C23).  Debugger, logging and event
    logging are left out, except that the model lists what each operation consumed ([event]).  The contents of the
    value sets may change between two states of a parse, not while a key is compared.  A read out of the packet,
    an assertion failure or undefined behaviour is [None]. *)
From Coq Require Import List Arith NArith ZArith Bool.
From Verif Require Import Base Bytes EntryListSpec DataModel ExtractModel PhvModel.
Import ListNotations.

Inductive perr := NoError | PacketTooShort | HeaderTooShort | StackOutOfBounds | InvalidArgument | ArchError (n : Z).
(** What an operation consumed: the fields of a header, or a number of bytes skipped. *)
Inductive event := EvHdr (h : nat) (fs : list (nat * Z)) | EvSkip (n : nat).

(** Conversion of an int, or of the difference of two sizes, to size_t (overflow of int arithmetic is not modelled) *)
Definition u64 (z : Z) : Z := if (z <? 0)%Z then (z + 2 ^ 64)%Z else z.
(** [pkt->get_data_size() - *bytes_parsed < need], on size_t *)
Definition short (size bp : nat) (need : Z) : bool := (u64 (Z.of_nat size - Z.of_nat bp) <? u64 need)%Z.

(** Widths of the fields of a header when its variable-length field is [vl] bits wide *)
Definition widths (t : htype) (vl : nat) : list nat := map (fun w => match w with Some w => w | None => vl end) t.
(** The fields before the variable-length one *)
Fixpoint fixed_prefix (t : htype) : list nat := match t with Some w :: r => w :: fixed_prefix r | _ => [] end.

(** Header::extract 216-226, extract_VL_common 229-250 on packet bytes, followed by
    [*bytes_parsed += hdr->get_nbytes_packet()] *)
Definition do_extract (d : desc) (s : phv) (h vl : nat) (data : list N) (bp : nat) : option (phv * nat * list event) :=
  t <- nth_error (ds_h d) h ;;
  bs <- h_extract (widths (hd_fields t) vl) (skipn bp data) 0 ;;
  s1 <- extract d s h vl (map import_bytes bs) ;;
  x <- nth_error (p_h s1) h ;;
  Some (s1, Z.to_nat (Z.of_nat bp + d_nb x), [EvHdr h (d_fields x)]).

(** The length expression attached to a header type (P4_14): Header::extract_VL(data, phv) 257-265.  It is evaluated
    when the fields before the variable-length one have been extracted.  [lx h = None]: no such expression. *)
Definition legacy_len (lx : nat -> option (phv -> Z)) (d : desc) (s : phv) (h : nat) (data : list N) (bp : nat) : option nat :=
  t <- nth_error (ds_h d) h ;;
  x <- nth_error (p_h s) h ;;
  f <- lx h ;;
  bs <- h_extract (fixed_prefix (hd_fields t)) (skipn bp data) 0 ;;
  let fs := combine (fixed_prefix (hd_fields t)) (map import_bytes bs) ++ skipn (length bs) (d_fields x) in
  let n := f (set_h s h (mk_hdr (d_valid x) (d_vf x) fs (d_nb x))) in
  if (n <? 0)%Z then None else Some (Z.to_nat n).
(** extract_fixed 234-241 *)
Definition extract_fixed (lx : nat -> option (phv -> Z)) (d : desc) (s : phv) (h : nat) (data : list N) (bp : nat) : option (perr + (phv * nat * list event)) :=
  t <- nth_error (ds_h d) h ;;
  x <- nth_error (p_h s) h ;;
  if short (length data) bp (d_nb x) then Some (inl PacketTooShort)
  else
    vl <- (if is_VL t then legacy_len lx d s h data bp else Some 0) ;;
    r <- do_extract d s h vl data bp ;;
    Some (inr r).
(** extract_VL 243-269; [Z.rem] and [Z.quot] are the remainder and quotient of C++ *)
Definition extract_VL (d : desc) (s : phv) (h : nat) (len : phv -> Z) (maxb : nat) (data : list N) (bp : nat) : option (perr + (phv * nat * list event)) :=
  t <- nth_error (ds_h d) h ;;
  x <- nth_error (p_h s) h ;;
  let nbits := len s in
  if negb (Z.rem nbits 8 =? 0)%Z then Some (inl InvalidArgument)
  else
    let need := (d_nb x + Z.quot nbits 8)%Z in
    if short (length data) bp need then Some (inl PacketTooShort)
    else if negb (maxb =? 0) && (Z.of_nat maxb <? u64 need)%Z then Some (inl HeaderTooShort)
    else if (nbits <? 0)%Z && is_VL t then None
    else
      r <- do_extract d s h (Z.to_nat nbits) data bp ;;
      Some (inr r).
Definition extract_one (lx : nat -> option (phv -> Z)) (d : desc) (s : phv) (h : nat) (vl : option ((phv -> Z) * nat)) (data : list N) (bp : nat) : option (perr + (phv * nat * list event)) :=
  match vl with
  | None => extract_fixed lx d s h data bp
  | Some (len, maxb) => extract_VL d s h len maxb data bp
  end.

(** Parse operations.  [vl]: the length expression and the maximal header size of an extraction with a length; for stacks
    [max_header_bytes == 0] means no length (parser.cpp 335-341), so [vl] carries a non-zero maximum there. *)
Inductive pop :=
| PExtract (h : nat) (vl : option ((phv -> Z) * nat))
| PExtractStack (k : nat) (vl : option ((phv -> Z) * nat))
| PExtractUStack (k i : nat) (vl : option ((phv -> Z) * nat))
| PSet (h f : nat) (g : phv -> Z)
| PSetLook (h f off w : nat)
| PVerify (c : phv -> bool) (e : phv -> Z)
| PMethod (f : phv -> list op)
| PShift (n : nat)
| PAdvance (g : phv -> Z).

(** ParserLookAhead::peek 38-45: [nbytes] zero bytes are appended to the container, then the bits
    extracted into them *)
Definition peek (off w : nat) (data : list N) (bp : nat) : option (list N) :=
  g_extract (skipn (off / 8) (skipn bp data)) (off mod 8) w (repeat 0%N ((w + 7) / 8)).
(** A store to a field of [w] bits *)
Definition store (s : phv) (h f : nat) (v : Z) : option phv :=
  x <- nth_error (p_h s) h ;;
  o <- nth_error (d_fields x) f ;;
  set_field s h f (v mod 2 ^ Z.of_nat (fst o))%Z.

Definition skip (data : list N) (s : phv) (bp : nat) (n : Z) : option (perr + (phv * nat * list event)) :=
  if short (length data) bp n then Some (inl PacketTooShort)
  else Some (inr (s, bp + Z.to_nat n, [EvSkip (Z.to_nat n)])).

(** ParserOp...::operator() 55-518.  An error leaves the header vector and [bytes_parsed] as they were. *)
Definition exec_op (legacy : bool) (lx : nat -> option (phv -> Z)) (d : desc) (data : list N) (o : pop) (s : phv) (bp : nat) : option (perr + (phv * nat * list event)) :=
  match o with
  | PExtract h vl => extract_one lx d s h vl data bp
  | PExtractStack k vl =>
      e <- nth_error (ds_s d) k ;;
      next <- nth_error (p_s s) k ;;
      if length e <=? next then Some (inl StackOutOfBounds)
      else
        h <- nth_error e next ;;
        r <- extract_one lx d s h vl data bp ;;
        match r with
        | inl err => Some (inl err)
        | inr (s1, bp1, ev) => q <- push_back d s1 k ;; Some (inr (fst q, bp1, ev))
        end
  | PExtractUStack k i vl =>
      e <- nth_error (ds_us d) k ;;
      next <- nth_error (p_us s) k ;;
      if length e <=? next then Some (inl StackOutOfBounds)
      else
        u <- nth_error e next ;;
        m <- nth_error (ds_u d) u ;;
        h <- nth_error m i ;;
        r <- extract_one lx d s h vl data bp ;;
        match r with
        | inl err => Some (inl err)
        | inr (s1, bp1, ev) => q <- push_back_u d s1 k ;; Some (inr (fst q, bp1, ev))
        end
  | PSet h f g => s1 <- store s h f (g s) ;; Some (inr (s1, bp, []))
  | PSetLook h f off w =>
      if short (length data) bp (Z.of_nat ((w + 7) / 8)) then Some (inl PacketTooShort)
      else
        b <- peek off w data bp ;;
        s1 <- store s h f (import_bytes b) ;;
        Some (inr (s1, bp, []))
  | PVerify c e => Some (if c s then inr (s, bp, []) else inl (ArchError (e s)))
  | PMethod f => s1 <- run legacy d s (f s) ;; Some (inr (s1, bp, []))
  | PShift n => skip data s bp (Z.of_nat n)
  | PAdvance g =>
      if (g s <? 0)%Z then None
      else
        let n := (g s mod 2 ^ 64)%Z in
        if negb (n mod 8 =? 0)%Z then Some (inl InvalidArgument) else skip data s bp (n / 8)%Z
  end.
(** The loop over the operations of a state (1048-1049); the last component is the error thrown, if any *)
Fixpoint exec_ops (legacy : bool) (lx : nat -> option (phv -> Z)) (d : desc) (data : list N) (ops : list pop) (s : phv) (bp : nat) : option (phv * nat * list event * option perr) :=
  match ops with
  | [] => Some (s, bp, [], None)
  | o :: r =>
      match exec_op legacy lx d data o s bp with
      | None => None
      | Some (inl e) => Some (s, bp, [], Some e)
      | Some (inr (s1, bp1, ev)) =>
          match exec_ops legacy lx d data r s1 bp1 with
          | None => None
          | Some (s2, bp2, ev2, e) => Some (s2, bp2, ev ++ ev2, e)
          end
      end
  end.

(** ** Select keys: ParseSwitchKeyBuilder::operator() 197-224 *)
Inductive kentry := KField (h f : nat) | KStack (k f : nat) | KUStack (k i f : nat) | KLook (off w : nat).
(** Field::get_bytes: the value on the smallest number of bytes *)
Definition field_bytes (f : nat * Z) : list N := be_enc ((fst f + 7) / 8) (Z.to_N (snd f mod 2 ^ Z.of_nat (fst f))).
Definition header_field (s : phv) (h f : nat) : option (list N) :=
  x <- nth_error (p_h s) h ;;
  o <- nth_error (d_fields x) f ;;
  Some (field_bytes o).
Definition last_of (e : list nat) (next : nat) : option nat := match next with O => None | S n => nth_error e n end.
Definition key_entry (d : desc) (s : phv) (data : list N) (bp : nat) (k : kentry) : option (list N) :=
  match k with
  | KField h f => header_field s h f
  | KStack k f => e <- nth_error (ds_s d) k ;; n <- nth_error (p_s s) k ;; h <- last_of e n ;; header_field s h f
  | KUStack k i f => e <- nth_error (ds_us d) k ;; n <- nth_error (p_us s) k ;; u <- last_of e n ;; m <- nth_error (ds_u d) u ;; h <- nth_error m i ;; header_field s h f
  | KLook off w => peek off w data bp
  end.
Fixpoint build_key (d : desc) (s : phv) (data : list N) (bp : nat) (ks : list kentry) : option (list N) :=
  match ks with
  | [] => Some []
  | k :: r => b <- key_entry d s data bp k ;; l <- build_key d s data bp r ;; Some (b ++ l)
  end.

(** ** Value sets (520-718).  A shadow is the copy of the set held by one select case (or the base copy): its padding
    ([None]: none, [Some widths]: the widths of the key fields), the size of its elements, its mask, its elements. *)
Record shadow := mk_sh { sh_pad : option (list nat); sh_width : nat; sh_mask : option (list N); sh_set : list (list N) }.
Fixpoint bytes_eqb (a b : list N) : bool :=
  match a, b with [], [] => true | x :: a', y :: b' => (x =? y)%N && bytes_eqb a' b' | _, _ => false end.
Definition mem (v : list N) (l : list (list N)) : bool := existsb (bytes_eqb v) l.
(** compute_width 611-619 *)
Definition new_base (compressed : nat) : shadow := mk_sh None ((compressed + 7) / 8) None [].
Definition new_shadow (ws : list nat) (mask : option (list N)) : shadow := mk_sh (Some ws) (fold_right Nat.add 0 (map (fun w => (w + 7) / 8) ws)) mask [].
(** do_padding 569-597 *)
Definition do_padding (sh : shadow) (v : list N) : option (list N) :=
  match sh_pad sh with
  | None => Some v
  | Some [_] => Some v
  | Some ws =>
      let sum := fold_right Nat.add 0 ws in
      if length v =? (sum + 7) / 8 then
        bs <- h_extract ws v (8 * length v - sum) ;; Some (concat bs)
      else None
  end.
(** transform_input 606-608, mask_v 651-655: an index out of the mask is an assertion failure *)
Definition transform (sh : shadow) (v : list N) : option (list N) :=
  match sh_mask sh with
  | None => Some v
  | Some m => if length v <=? length m then Some (map2 N.land v m) else None
  end.
Definition prepared (sh : shadow) (v : list N) : option (list N) :=
  p <- do_padding sh v ;; q <- transform sh p ;; if length q =? sh_width sh then Some q else None.
Definition with_set (sh : shadow) (l : list (list N)) : shadow := mk_sh (sh_pad sh) (sh_width sh) (sh_mask sh) l.
(** add 532-538, remove 540-546, contains 548-554, clear 556-559 *)
Definition sh_add (v : list N) (sh : shadow) : option shadow := q <- prepared sh v ;; Some (with_set sh (if mem q (sh_set sh) then sh_set sh else q :: sh_set sh)).
Definition sh_remove (v : list N) (sh : shadow) : option shadow := q <- prepared sh v ;; Some (with_set sh (filter (fun x => negb (bytes_eqb q x)) (sh_set sh))).
Definition sh_contains (sh : shadow) (v : list N) : option bool := q <- transform sh v ;; if length v =? sh_width sh then Some (mem q (sh_set sh)) else None.
Fixpoint map_opt {A B} (f : A -> option B) (l : list A) : option (list B) :=
  match l with [] => Some [] | x :: r => y <- f x ;; ys <- map_opt f r ;; Some (y :: ys) end.
(** ParseVSet 658-718: the base copy is the first shadow *)
Definition vset := list shadow.
Inductive vop := VAdd (v : list N) | VRemove (v : list N) | VClear.
Definition vs_step (vs : vset) (o : vop) : option vset :=
  match o with
  | VAdd v => map_opt (sh_add v) vs
  | VRemove v => map_opt (sh_remove v) vs
  | VClear => Some (map (fun sh => with_set sh []) vs)
  end.
Fixpoint vs_run (vs : vset) (l : list vop) : option vset := match l with [] => Some vs | o :: r => vs1 <- vs_step vs o ;; vs_run vs1 r end.

(** ** Select cases (720-863).  [next = None]: the end of the parser. *)
Inductive case :=
| CExact (key : list N) (next : option nat)
| CMask (key mask : list N) (next : option nat)
| CVSet (vs sh : nat) (next : option nat).
Definition case_next (c : case) : option nat := match c with CExact _ n => n | CMask _ _ n => n | CVSet _ _ n => n end.
(** ParseSwitchCaseWithMask::match 774-783, with the key masked when the case is made (786-790) *)
Fixpoint mask_match (key mask input : list N) : option bool :=
  match key, mask, input with
  | [], _, _ => Some true
  | k :: key', m :: mask', i :: input' => if (N.land k m =? N.land i m)%N then mask_match key' mask' input' else Some false
  | _, _, _ => None
  end.
Definition case_match (env : list vset) (c : case) (key : list N) : option bool :=
  match c with
  | CExact k _ => Some (bytes_eqb k key)
  | CMask k m _ => mask_match k m key
  | CVSet i j _ => vs <- nth_error env i ;; sh <- nth_error vs j ;; sh_contains sh key
  end.
(** The loop of find_next_state 1070-1073 *)
Fixpoint select (env : list vset) (cs : list case) (dflt : option nat) (key : list N) : option (option nat) :=
  match cs with
  | [] => Some dflt
  | c :: r => b <- case_match env c key ;; if (b : bool) then Some (case_next c) else select env r dflt key
  end.

(** ** States and the parser.  [st_key = None]: the state has no switch. *)
Record pstate := mk_st { st_ops : list pop; st_key : option (list kentry); st_cases : list case; st_default : option nat }.
Record program := mk_prog { pg_init : option nat; pg_states : list pstate }.
Inductive outcome := Done (s : phv) (payload : list N) (ev : list event) (e : perr) | OutOfFuel | Crash.
(** find_next_state 1040-1075 after the operations *)
Definition next_state (d : desc) (env : list vset) (data : list N) (p : pstate) (s : phv) (bp : nat) : option (option nat) :=
  match st_key p with
  | None => Some (st_default p)
  | Some ks => key <- build_key d s data bp ks ;; select env (st_cases p) (st_default p) key
  end.
(** The loop of Parser::parse 1139-1152 followed by [pkt->remove] 1153, which asserts that the packet has that many
    bytes.  [env n]: the value sets when [n] more states can be visited. *)
Fixpoint parse_loop (legacy : bool) (lx : nat -> option (phv -> Z)) (d : desc) (env : nat -> list vset) (states : list pstate) (data : list N)
    (fuel : nat) (st : option nat) (s : phv) (bp : nat) (ev : list event) : outcome :=
  match st with
  | None => if bp <=? length data then Done s (skipn bp data) ev NoError else Crash
  | Some i =>
      match fuel with
      | O => OutOfFuel
      | S fuel' =>
          match nth_error states i with
          | None => Crash
          | Some p =>
              match exec_ops legacy lx d data (st_ops p) s bp with
              | None => Crash
              | Some (s1, bp1, ev1, Some e) => if bp1 <=? length data then Done s1 (skipn bp1 data) (ev ++ ev1) e else Crash
              | Some (s1, bp1, ev1, None) =>
                  match next_state d (env fuel') data p s1 bp1 with
                  | None => Crash
                  | Some st' => parse_loop legacy lx d env states data fuel' st' s1 bp1 (ev ++ ev1)
                  end
              end
          end
      end
  end.
(** Parser::parse 1123-1160 *)
Definition parse (legacy : bool) (lx : nat -> option (phv -> Z)) (d : desc) (env : nat -> list vset) (pg : program) (fuel : nat) (data : list N) (s : phv) : outcome :=
  match pg_init pg with
  | None => Done s data [] NoError
  | Some i => parse_loop legacy lx d env (pg_states pg) data fuel (Some i) s 0 []
  end.
