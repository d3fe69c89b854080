(** What a deparser writes. *)
From Coq Require Import List Arith NArith ZArith Bool.
From Verif Require Import Bits ExtractSpec PhvModel PhvSpec ParserModel ParserSpec BufModel BufSpec CksumModel CksumSpec.
Import ListNotations.

(** The encodings of the headers of [hs] that are valid, in order. *)
Inductive emits (d : desc) (s : phv) : list nat -> list (list N) -> Prop :=
| em_nil : emits d s [] []
| em_live h x r hs rs : live d s h x -> encodes x r -> emits d s hs rs -> emits d s (h :: hs) (r :: rs)
| em_dead h hs rs : dead d s h -> emits d s hs rs -> emits d s (h :: hs) rs.

(** ** Parse followed by deparse *)
Definition ev_hdr (e : event) : list nat := match e with EvHdr h _ => [h] | EvSkip _ => [] end.
(** The headers extracted, in order. *)
Definition extracted_headers (ev : list event) : list nat := concat (map ev_hdr ev).
(** Nothing has been extracted yet. *)
Definition fresh (d : desc) (s : phv) : Prop := forall h t x, nth_error (ds_h d) h = Some t -> header s h = Some x -> hd_meta t = false -> d_valid x = false.
(** Parser operations that leave no trace in the headers: extractions, checks, and assignments to metadata. *)
Definition plain (d : desc) (o : pop) : Prop :=
  match o with
  | PExtract h _ => ~ meta d h
  | PExtractStack _ _ | PExtractUStack _ _ _ | PVerify _ _ => True
  | PSet h _ _ | PSetLook h _ _ _ => meta d h
  | PMethod _ | PShift _ | PAdvance _ => False
  end.
(** The deparser emits no metadata, and the extracted headers in the order of extraction. *)
Definition follows (d : desc) (hs xs : list nat) : Prop :=
  (forall h, In h hs -> h < length (ds_h d) /\ ~ meta d h) /\ filter (fun h => existsb (Nat.eqb h) xs) hs = xs.
(** No header was extracted twice, and no two members of one union. *)
Definition once (d : desc) (xs : list nat) : Prop := NoDup xs /\ forall a b, In a xs -> In b xs -> ~ siblings d a b.
