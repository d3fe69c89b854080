(** Model of the deparser (src/bm_sim/deparser.cpp 43-97).

    The packet buffer is the payload together with the bytes before it in its block ([old]: room for headers, arbitrary
    contents; PktBufModel).  Each checksum is given with the initial contents of the stack buffer it uses.  A method
    call of the deparser is an arbitrary list of header-vector operations computed from the header vector.  An access
    out of the buffer or a failed assertion is [None].  Logging, the debugger and register locks are left out. *)
From Coq Require Import List Arith NArith ZArith Bool.
From Verif Require Import Base ExtractModel PhvModel ParserModel BufModel CksumModel.
Import ListNotations.

(** get_headers_size 43-53 *)
Fixpoint headers_size (d : desc) (s : phv) (hs : list nat) : option nat :=
  match hs with
  | [] => Some 0
  | h :: r =>
      t <- nth_error (ds_h d) h ;;
      x <- nth_error (p_h s) h ;;
      n <- headers_size d s r ;;
      Some ((if is_valid t x then Z.to_nat (d_nb x) else 0) + n)
  end.
(** update_checksums 91-97 *)
Fixpoint update_checksums (d : desc) (cks : list (checksum * list N)) (payload : list N) (s : phv) : option phv :=
  match cks with
  | [] => Some s
  | (ck, stack) :: r => s1 <- ck_update d ck stack payload s ;; update_checksums d r payload s1
  end.
(** PacketBuffer::push (packet_buffer.h 81-86): the bytes from the returned pointer on *)
Definition prepend (n : nat) (old payload : list N) : option (list N) :=
  if n <=? length old then Some (skipn (length old - n) old ++ payload) else None.
(** The deparser operations 72-74 *)
Fixpoint methods (legacy : bool) (d : desc) (ms : list (phv -> list op)) (s : phv) : option phv :=
  match ms with
  | [] => Some s
  | m :: r => s1 <- run legacy d s (m s) ;; methods legacy d r s1
  end.
(** The loop 78-86: [pos] is [bytes_parsed] *)
Fixpoint emit (d : desc) (s : phv) (hs : list nat) (buf : list N) (pos : nat) : option (list N) :=
  match hs with
  | [] => Some buf
  | h :: r =>
      t <- nth_error (ds_h d) h ;;
      x <- nth_error (p_h s) h ;;
      if is_valid t x then
        buf' <- write_at buf pos (hdr_deparse x) ;;
        emit d s r buf' (pos + Z.to_nat (d_nb x))
      else emit d s r buf pos
  end.
(** Deparser::deparse 55-90: the header vector and the packet after it *)
Definition deparse (legacy : bool) (d : desc) (cks : list (checksum * list N)) (ms : list (phv -> list op)) (hs : list nat) (old payload : list N) (s : phv) : option (phv * list N) :=
  s1 <- update_checksums d cks payload s ;;
  n <- headers_size d s1 hs ;;
  buf <- prepend n old payload ;;
  s2 <- methods legacy d ms s1 ;;
  buf' <- emit d s2 hs buf 0 ;;
  Some (s2, buf').
