(** Model of the packet header vector: headers, header unions, header stacks and stacks of unions
    (src/bm_sim/headers.cpp, include/bm/bm_sim/header_unions.h, src/bm_sim/stacks.cpp, src/bm_sim/phv.cpp) and of
    the primitives acting on them (src/bm_sim/core/primitives.cpp 48-97, targets/simple_switch/primitives.cpp
    217-261).

    Simplifications.  A field is its current bit width and its value; storing and loading values is the subject of
    FieldModel, and copying a stored value to a field of the same type is exact (C23), so it is a plain copy
    here.  The hidden field "$valid$" is the boolean [d_vf].  A reference to an object is its index.
    An assertion failure, an exception or an access out of bounds is [None]. *)
From Coq Require Import List Arith ZArith Bool.
From Verif Require Import Base.
Import ListNotations.

(** Field types of a header type: [Some w] for a field of [w] bits, [None] for the variable-length field
    (HeaderType, headers.cpp 68-125). *)
Definition htype := list (option nat).
Record hdesc := mk_hdesc { hd_meta : bool; hd_ty : nat; hd_fields : htype }.
(** What PHVFactory holds (phv.cpp 203-260): headers, unions (lists of header ids), stacks (lists of header ids),
    stacks of unions (lists of union ids). *)
Record desc := mk_desc { ds_h : list hdesc; ds_u : list (list nat); ds_s : list (list nat); ds_us : list (list nat) }.

(** Dynamic part of a Header (headers.h 291-300): [valid], the value of [valid_field], the fields, [nbytes_packet]. *)
Record hdr := mk_hdr { d_valid : bool; d_vf : bool; d_fields : list (nat * Z); d_nb : Z }.
(** HeaderUnion (header_unions.h 107-110): [valid], [valid_header_idx]. *)
Record phv := mk_phv { p_h : list hdr; p_u : list (bool * nat); p_s : list nat; p_us : list nat }.

Definition bind {A B} (x : option A) (f : A -> option B) : option B := match x with Some a => f a | None => None end.
Notation "x <- e ;; k" := (bind e (fun x => k)) (at level 100, e at next level, right associativity).

Definition sum_bits (fs : list (nat * Z)) : nat := fold_right Nat.add 0 (map fst fs).
(** Header::Header 131-160: a VL field starts with 0 bits; fields start at 0. *)
Definition new_hdr (t : hdesc) : hdr :=
  let fs := map (fun w => (match w with Some w => w | None => 0 end, 0%Z)) (hd_fields t) in
  mk_hdr false false fs (Z.of_nat (sum_bits fs / 8)).
(** PHVFactory::create (phv.cpp 330-365) *)
Definition create (d : desc) : phv :=
  mk_phv (map new_hdr (ds_h d)) (map (fun _ => (false, 0)) (ds_u d)) (map (fun _ => 0) (ds_s d)) (map (fun _ => 0) (ds_us d)).

(** union_membership of a header, set by PHV::push_back_header_union (phv.cpp 137-153); a later union or position
    overrides an earlier one *)
Fixpoint idx_of (l : list nat) (k h : nat) : option nat :=
  match l with
  | [] => None
  | x :: r => match idx_of r (S k) h with Some i => Some i | None => if x =? h then Some k else None end
  end.
Fixpoint um_of (us : list (list nat)) (k h : nat) : option (nat * nat) :=
  match us with
  | [] => None
  | m :: r => match um_of r (S k) h with Some x => Some x | None => match idx_of m 0 h with Some i => Some (k, i) | None => None end end
  end.
Definition um (d : desc) (h : nat) : option (nat * nat) := um_of (ds_u d) 0 h.

Definition set_h (s : phv) (h : nat) (x : hdr) : phv := mk_phv (list_set (p_h s) h x) (p_u s) (p_s s) (p_us s).
Definition set_u (s : phv) (u : nat) (x : bool * nat) : phv := mk_phv (p_h s) (list_set (p_u s) u x) (p_s s) (p_us s).
Definition set_s (s : phv) (k n : nat) : phv := mk_phv (p_h s) (p_u s) (list_set (p_s s) k n) (p_us s).
Definition set_us (s : phv) (k n : nat) : phv := mk_phv (p_h s) (p_u s) (p_s s) (list_set (p_us s) k n).
Definition with_valid (x : hdr) (b : bool) : hdr := mk_hdr b b (d_fields x) (d_nb x).

(** HeaderUnion::make_header_invalid 59-61 *)
Definition make_header_invalid (s : phv) (u i : nat) : option phv :=
  x <- nth_error (p_u s) u ;;
  Some (if fst x && (snd x =? i) then set_u s u (false, snd x) else s).
(** Header::mark_invalid 186-191 *)
Definition mark_invalid (d : desc) (s : phv) (h : nat) : option phv :=
  x <- nth_error (p_h s) h ;;
  let s1 := set_h s h (with_valid x false) in
  match um d h with Some (u, i) => make_header_invalid s1 u i | None => Some s1 end.
(** HeaderUnion::make_header_valid 51-57 *)
Definition make_header_valid (d : desc) (s : phv) (u i : nat) : option phv :=
  x <- nth_error (p_u s) u ;;
  m <- nth_error (ds_u d) u ;;
  s1 <- (if fst x && negb (snd x =? i) then (h <- nth_error m (snd x) ;; mark_invalid d s h) else Some s) ;;
  Some (set_u s1 u (true, i)).
(** Header::mark_valid 179-184 *)
Definition mark_valid (d : desc) (s : phv) (h : nat) : option phv :=
  x <- nth_error (p_h s) h ;;
  let s1 := set_h s h (with_valid x true) in
  match um d h with Some (u, i) => make_header_valid d s1 u i | None => Some s1 end.

(** Header::is_valid (headers.h 165-167) *)
Definition is_valid (t : hdesc) (x : hdr) : bool := hd_meta t || d_valid x.
(** Header::reset 193-197: every field, the hidden one included *)
Definition reset_hdr (x : hdr) : hdr := mk_hdr (d_valid x) false (map (fun f => (fst f, 0%Z)) (d_fields x)) (d_nb x).
(** Header::reset_VL_header 199-208, Field::reset_VL (fields.cpp 117-126): the width becomes 0, the value stays *)
Definition reset_VL (t : hdesc) (x : hdr) : hdr :=
  let vl := fold_right Nat.add 0 (map (fun p => match fst p with None => (fst (snd p) + 7) / 8 | Some _ => 0 end) (combine (hd_fields t) (d_fields x))) in
  mk_hdr (d_valid x) (d_vf x) (map (fun p => match fst p with None => (0, snd (snd p)) | Some _ => snd p end) (combine (hd_fields t) (d_fields x)))
    (d_nb x - Z.of_nat vl).
Definition is_VL (t : hdesc) : bool := existsb (fun w => match w with None => true | Some _ => false end) (hd_fields t).

(** Header::extract 216-226 and extract_VL_common 229-250, on values already cut out of the packet
    (ExtractModel): [vl] is the width of the VL field. *)
Definition extract (d : desc) (s : phv) (h : nat) (vl : nat) (vals : list Z) : option phv :=
  t <- nth_error (ds_h d) h ;;
  x <- nth_error (p_h s) h ;;
  if length vals =? length (hd_fields t) then
    let fs := map (fun p => (match fst p with Some w => w | None => vl end, snd p)) (combine (hd_fields t) vals) in
    if is_VL t && negb (sum_bits fs mod 8 =? 0) then None
    else mark_valid d (set_h s h (mk_hdr (d_valid x) (d_vf x) fs (if is_VL t then Z.of_nat (sum_bits fs / 8) else d_nb x))) h
  else None.
(** add_header 217-230 (the packet length register is not modelled here) *)
Definition add_header (d : desc) (s : phv) (h : nat) : option phv :=
  t <- nth_error (ds_h d) h ;;
  x <- nth_error (p_h s) h ;;
  if is_valid t x then Some s else mark_valid d (set_h s h (reset_hdr x)) h.
(** remove_header 242-253 *)
Definition remove_header (d : desc) (s : phv) (h : nat) : option phv :=
  t <- nth_error (ds_h d) h ;;
  x <- nth_error (p_h s) h ;;
  if is_valid t x then mark_invalid d s h else Some s.
(** assign_header 48-63: the loop covers the hidden field too; Field::assign_VL (fields.cpp 104-114) copies the
    width and recomputes nbytes_packet (headers.cpp 162-172) *)
Definition assign_header (d : desc) (s : phv) (dst src : nat) : option phv :=
  td <- nth_error (ds_h d) dst ;;
  ts <- nth_error (ds_h d) src ;;
  y <- nth_error (p_h s) src ;;
  if negb (is_valid ts y) then mark_invalid d s dst
  else
    s1 <- mark_valid d s dst ;;
    if hd_ty td =? hd_ty ts then
      y1 <- nth_error (p_h s1) src ;;
      x1 <- nth_error (p_h s1) dst ;;
      let fs := map (fun p => match fst p with None => snd (snd p) | Some _ => (fst (fst (snd p)), snd (snd (snd p))) end)
                    (combine (hd_fields td) (combine (d_fields x1) (d_fields y1))) in
      if is_VL td && negb (sum_bits fs mod 8 =? 0) then None
      else Some (set_h s1 dst (mk_hdr (d_valid x1) (d_vf y1) fs (if is_VL td then Z.of_nat (sum_bits fs / 8) else d_nb x1)))
    else None.

(** Header::swap_values 288-297 *)
Definition swap_h (s : phv) (a b : nat) : option phv :=
  x <- nth_error (p_h s) a ;;
  y <- nth_error (p_h s) b ;;
  Some (set_h (set_h s a y) b x).
(** HeaderUnion::swap_values 64-72 *)
Fixpoint swap_members (s : phv) (l m : list nat) : option phv :=
  match l, m with
  | [], [] => Some s
  | a :: l', b :: m' => s1 <- swap_h s a b ;; swap_members s1 l' m'
  | _, _ => None
  end.
Definition swap_u (d : desc) (s : phv) (a b : nat) : option phv :=
  ma <- nth_error (ds_u d) a ;;
  mb <- nth_error (ds_u d) b ;;
  if length ma =? length mb then
    x <- nth_error (p_u s) a ;;
    y <- nth_error (p_u s) b ;;
    swap_members (set_u (set_u s a y) b x) ma mb
  else None.

(** The shift loops of stacks.cpp, for an element type with swap [sw] and invalidation [mi] / validation [mv].
    [run i n f]: f i, f (i+1), ..., n times. *)
Fixpoint run_up (n i : nat) (f : nat -> phv -> option phv) (s : phv) : option phv :=
  match n with O => Some s | S n' => s1 <- f i s ;; run_up n' (S i) f s1 end.
(** f (i+n-1), ..., f i *)
Fixpoint run_down (n i : nat) (f : nat -> phv -> option phv) (s : phv) : option phv :=
  match n with O => Some s | S n' => s1 <- f (i + n') s ;; run_down n' i f s1 end.
Definition at_el (e : list nat) (i : nat) (f : nat -> option phv) : option phv := x <- nth_error e i ;; f x.

Definition swap_el (sw : phv -> nat -> nat -> option phv) (e : list nat) (i j : nat) (s : phv) : option phv := a <- nth_error e i ;; b <- nth_error e j ;; sw s a b.
(** StackP4_16::pop_front(num) 100-117; the new [next] is returned *)
Definition pop16 (sw : phv -> nat -> nat -> option phv) (mi : phv -> nat -> option phv) (e : list nat) (next num : nat) (s : phv) : option (phv * nat) :=
  if num =? 0 then Some (s, next)
  else
    let size := length e in
    s1 <- run_up (size - num) 0 (fun i => swap_el sw e i (i + num)) s ;;
    s2 <- run_up (size - (size - num)) (size - num) (fun i s => at_el e i (mi s)) s1 ;;
    Some (s2, next - Nat.min next num).
(** StackP4_16::push_front(num) 131-145; with no element [size - 1] wraps around *)
Definition push16 (sw : phv -> nat -> nat -> option phv) (mi : phv -> nat -> option phv) (e : list nat) (next num : nat) (s : phv) : option (phv * nat) :=
  if num =? 0 then Some (s, next)
  else
    let size := length e in
    if size =? 0 then None
    else
      s1 <- run_down (size - num) num (fun i => swap_el sw e i (i - num)) s ;;
      s2 <- run_up (Nat.min size num) 0 (fun i s => at_el e i (mi s)) s1 ;;
      Some (s2, Nat.min size (next + num)).
(** StackLegacy::pop_front(num) 39-52 *)
Definition pop_legacy (sw : phv -> nat -> nat -> option phv) (mi : phv -> nat -> option phv) (e : list nat) (next num : nat) (s : phv) : option (phv * nat) :=
  if num =? 0 then Some (s, next)
  else
    let popped := Nat.min next num in
    let next' := next - popped in
    s1 <- run_up next' 0 (fun i => swap_el sw e i (i + num)) s ;;
    s2 <- run_up popped next' (fun i s => at_el e i (mi s)) s1 ;;
    Some (s2, next').
(** StackLegacy::push_front(num) 66-78 *)
Definition push_legacy (sw : phv -> nat -> nat -> option phv) (mv : phv -> nat -> option phv) (e : list nat) (next num : nat) (s : phv) : option (phv * nat) :=
  if num =? 0 then Some (s, next)
  else
    let size := length e in
    let next' := Nat.min size (next + num) in
    if next' =? 0 then None
    else
      s1 <- run_down (next' - num) num (fun i => swap_el sw e i (i - num)) s ;;
      s2 <- run_up (Nat.min size num) 0 (fun i s => at_el e i (mv s)) s1 ;;
      Some (s2, next').

Definition noop (s : phv) (_ : nat) : option phv := Some s.
(** [true]: the legacy implementation, chosen when the library is built (stacks.h 182-189) *)
Definition pop_front (legacy : bool) (d : desc) (s : phv) (k num : nat) : option phv :=
  e <- nth_error (ds_s d) k ;;
  next <- nth_error (p_s s) k ;;
  r <- (if legacy then pop_legacy swap_h (mark_invalid d) e next num s else pop16 swap_h (mark_invalid d) e next num s) ;;
  Some (set_s (fst r) k (snd r)).
Definition push_front (legacy : bool) (d : desc) (s : phv) (k num : nat) : option phv :=
  e <- nth_error (ds_s d) k ;;
  next <- nth_error (p_s s) k ;;
  r <- (if legacy then push_legacy swap_h (mark_valid d) e next num s else push16 swap_h (mark_invalid d) e next num s) ;;
  Some (set_s (fst r) k (snd r)).
(** Stacks of unions: HeaderUnion::mark_valid and mark_invalid do nothing (header_unions.h 95-97) *)
Definition pop_front_u (legacy : bool) (d : desc) (s : phv) (k num : nat) : option phv :=
  e <- nth_error (ds_us d) k ;;
  next <- nth_error (p_us s) k ;;
  r <- (if legacy then pop_legacy (swap_u d) noop e next num s else pop16 (swap_u d) noop e next num s) ;;
  Some (set_us (fst r) k (snd r)).
Definition push_front_u (legacy : bool) (d : desc) (s : phv) (k num : nat) : option phv :=
  e <- nth_error (ds_us d) k ;;
  next <- nth_error (p_us s) k ;;
  r <- (if legacy then push_legacy (swap_u d) noop e next num s else push16 (swap_u d) noop e next num s) ;;
  Some (set_us (fst r) k (snd r)).
(** Stack::push_back 193-199 and pop_back 184-190; the result tells whether an element was pushed / popped *)
Definition push_back (d : desc) (s : phv) (k : nat) : option (phv * nat) :=
  e <- nth_error (ds_s d) k ;;
  next <- nth_error (p_s s) k ;;
  if next =? length e then Some (s, 0) else s1 <- at_el e next (mark_valid d s) ;; Some (set_s s1 k (S next), 1).
Definition pop_back (d : desc) (s : phv) (k : nat) : option (phv * nat) :=
  e <- nth_error (ds_s d) k ;;
  next <- nth_error (p_s s) k ;;
  match next with O => Some (s, 0) | S n => s1 <- at_el e n (mark_invalid d s) ;; Some (set_s s1 k n, 1) end.
Definition push_back_u (d : desc) (s : phv) (k : nat) : option (phv * nat) :=
  e <- nth_error (ds_us d) k ;;
  next <- nth_error (p_us s) k ;;
  if next =? length e then Some (s, 0) else Some (set_us s k (S next), 1).

(** ParserOpExtractStack (parser.cpp 313-347): extraction into the next element; on a full stack the parser reports an
    error and nothing changes *)
Definition extract_next (d : desc) (s : phv) (k vl : nat) (vals : list Z) : option phv :=
  e <- nth_error (ds_s d) k ;;
  next <- nth_error (p_s s) k ;;
  if length e <=? next then Some s
  else s1 <- at_el e next (fun h => extract d s h vl vals) ;; r <- push_back d s1 k ;; Some (fst r).

(** assign_union 65-71, assign_header_stack 73-79, assign_union_stack 81-88 *)
Fixpoint assign_all (f : phv -> nat -> nat -> option phv) (s : phv) (l m : list nat) : option phv :=
  match l, m with
  | [], [] => Some s
  | a :: l', b :: m' => s1 <- f s a b ;; assign_all f s1 l' m'
  | _, _ => None
  end.
Definition assign_union (d : desc) (s : phv) (dst src : nat) : option phv :=
  a <- nth_error (ds_u d) dst ;;
  b <- nth_error (ds_u d) src ;;
  assign_all (assign_header d) s a b.
Definition assign_stack (d : desc) (s : phv) (dst src : nat) : option phv :=
  a <- nth_error (ds_s d) dst ;;
  b <- nth_error (ds_s d) src ;;
  n <- nth_error (p_s s) src ;;
  assign_all (assign_header d) (set_s s dst n) a b.
Definition assign_ustack (d : desc) (s : phv) (dst src : nat) : option phv :=
  a <- nth_error (ds_us d) dst ;;
  b <- nth_error (ds_us d) src ;;
  n <- nth_error (p_us s) src ;;
  assign_all (assign_union d) (set_us s dst n) a b.

(** A store to a field *)
Definition set_field (s : phv) (h f : nat) (v : Z) : option phv :=
  x <- nth_error (p_h s) h ;;
  o <- nth_error (d_fields x) f ;;
  Some (set_h s h (mk_hdr (d_valid x) (d_vf x) (list_set (d_fields x) f (fst o, v)) (d_nb x))).

(** PHV::reset 32-38 *)
Definition phv_reset (d : desc) (s : phv) : option phv :=
  run_up (length (p_h s)) 0 (fun h s =>
    t <- nth_error (ds_h d) h ;;
    s1 <- mark_invalid d s h ;;
    x <- nth_error (p_h s1) h ;;
    Some (if is_VL t then set_h s1 h (reset_VL t x) else s1)) s.
(** PHV::reset_header_stacks 40-46 *)
Definition reset_stacks (s : phv) : phv := mk_phv (p_h s) (p_u s) (map (fun _ => 0) (p_s s)) (map (fun _ => 0) (p_us s)).
(** PHV::reset_metadata 50-56 *)
Definition reset_metadata (d : desc) (s : phv) : phv :=
  mk_phv (map (fun p => if hd_meta (fst p) then reset_hdr (snd p) else snd p) (combine (ds_h d) (p_h s))) (p_u s) (p_s s) (p_us s).
(** PHV::reset_headers 58-62 *)
Definition reset_headers (s : phv) : phv := mk_phv (map reset_hdr (p_h s)) (p_u s) (p_s s) (p_us s).
(** Packet::~Packet (packet.cpp 104-107): the PHV goes back to the pool *)
Definition recycle (d : desc) (s : phv) : option phv := s1 <- phv_reset d s ;; Some (reset_stacks s1).
(** PHV::copy_headers 70-90, Field::copy_value (fields.cpp 128-140: the width of a VL field is copied too) *)
Definition copy_headers (d : desc) (dst src : phv) : phv :=
  mk_phv
    (map (fun p => let t := fst p in let x := fst (snd p) in let y := snd (snd p) in
                   if d_valid y || hd_meta t
                   then mk_hdr (d_valid y) (d_vf y)
                          (map (fun q => match fst q with None => snd (snd q) | Some _ => (fst (fst (snd q)), snd (snd (snd q))) end)
                               (combine (hd_fields t) (combine (d_fields x) (d_fields y))))
                          (d_nb y)
                   else mk_hdr (d_valid y) (d_vf x) (d_fields x) (d_nb x))
         (combine (ds_h d) (combine (p_h dst) (p_h src))))
    (p_u src) (p_s src) (p_us src).

(** Operations of a packet-processing program *)
Inductive op :=
| OExtract (h vl : nat) (vals : list Z) | OAdd (h : nat) | OAddFast (h : nat) | ORemove (h : nat) | OAssign (dst src : nat) | OAssignU (dst src : nat)
| OAssignS (dst src : nat) | OAssignUS (dst src : nat) | OPush (k n : nat) | OPop (k n : nat) | OPushU (k n : nat) | OPopU (k n : nat)
| OExtractNext (k vl : nat) (vals : list Z) | OPushBack (k : nat) | OPopBack (k : nat) | OPushBackU (k : nat) | OSet (h f : nat) (v : Z) | ORecycle | OResetMeta.
Definition step (legacy : bool) (d : desc) (s : phv) (o : op) : option phv :=
  match o with
  | OExtract h vl vals => extract d s h vl vals
  | OAdd h => add_header d s h
  | OAddFast h => mark_valid d s h
  | ORemove h => remove_header d s h
  | OAssign a b => assign_header d s a b
  | OAssignU a b => assign_union d s a b
  | OAssignS a b => assign_stack d s a b
  | OAssignUS a b => assign_ustack d s a b
  | OPush k n => push_front legacy d s k n
  | OPop k n => pop_front legacy d s k n
  | OPushU k n => push_front_u legacy d s k n
  | OPopU k n => pop_front_u legacy d s k n
  | OExtractNext k vl vals => extract_next d s k vl vals
  | OPushBack k => r <- push_back d s k ;; Some (fst r)
  | OPopBack k => r <- pop_back d s k ;; Some (fst r)
  | OPushBackU k => r <- push_back_u d s k ;; Some (fst r)
  | OSet h f v => set_field s h f v
  | ORecycle => recycle d s
  | OResetMeta => Some (reset_metadata d s)
  end.
Fixpoint run (legacy : bool) (d : desc) (s : phv) (l : list op) : option phv :=
  match l with [] => Some s | o :: r => s1 <- step legacy d s o ;; run legacy d s1 r end.
