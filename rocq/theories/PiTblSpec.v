(** Specification of the PI calls on match tables, on numbers only: matches, priorities, and the
    set of entries a table holds.  Nothing here refers to bmv2's keys, masks or slots, except that
    among entries of equal priority the one whose handle has the smaller low 24 bits wins. *)
From Coq Require Import List Arith NArith ZArith Bool.
From Verif Require Import Base Bits Bytes EntryListModel MatchUnitModel KeyBuilderModel KeyBuilderSpec PiTblModel.
Import ListNotations.

(** ** Matches *)

(** What a client asks of one field. *)
Inductive pmatch :=
| PMValid (b : bool)          (* the header is, or is not, there *)
| PMExact (v : N)
| PMLpm (v plen : N)
| PMTernary (v mask : N)
| PMRange (lo hi : N).

(** The match is of the kind declared for the field and its numbers fit the width. *)
Definition fits (f : pif) (m : pmatch) : Prop :=
  let lim := (2 ^ N.of_nat (pi_bw f))%N in
  match pi_mt f, m with
  | PValid, PMValid _ => True
  | PExact, PMExact v => (v < lim)%N
  | PLpm, PMLpm v p => (v < lim)%N /\ (p < 2 ^ 32)%N
  | PTernary, PMTernary v m | POptional, PMTernary v m => (v < lim)%N /\ (m < lim)%N
  | PRange, PMRange lo hi => (lo < lim)%N /\ (hi < lim)%N
  | _, _ => False
  end.

(** The match makes sense. *)
Definition sensible (f : pif) (m : pmatch) : Prop :=
  match m with
  | PMLpm _ p => (p <= N.of_nat (pi_bw f))%N
  | PMRange lo hi => (lo <= hi)%N
  | _ => True
  end.

(** The bytes of a match in the client's message: numbers in network order on as many bytes as the
    field needs, prefix lengths as little-endian 32-bit words. *)
Definition le32 (v : N) : list N :=
  [v mod 256; v / 256 mod 256; v / 256 / 256 mod 256; v / 256 / 256 / 256]%N.
Definition wire1 (f : pif) (m : pmatch) : list N :=
  let num := be_enc ((pi_bw f + 7) / 8) in
  match m with
  | PMValid b => [if b then 1%N else 0%N]
  | PMExact v => num v
  | PMLpm v p => num v ++ le32 p
  | PMTernary a b | PMRange a b => num a ++ num b
  end.
Fixpoint wire (fs : list pif) (ms : list pmatch) : list N :=
  match fs, ms with
  | f :: fs', m :: ms' => wire1 f m ++ wire fs' ms'
  | _, _ => []
  end.

(** The number [x] of a packet's field satisfies the match. *)
Definition holds1 (f : pif) (x : N) (m : pmatch) : Prop :=
  let w := N.of_nat (pi_bw f) in
  match m with
  | PMValid b => x = (if b then 1 else 0)%N
  | PMExact v => x = v
  | PMLpm v p => N.shiftr x (w - p) = N.shiftr v (w - p)
  | PMTernary v m => N.land x m = N.land v m
  | PMRange lo hi => (lo <= x <= hi)%N
  end.

(** Two matches ask the same. *)
Definition same1 (f : pif) (a b : pmatch) : Prop :=
  let w := N.of_nat (pi_bw f) in
  match a, b with
  | PMValid x, PMValid y => x = y
  | PMExact x, PMExact y => x = y
  | PMLpm x p, PMLpm y q => p = q /\ N.shiftr x (w - p) = N.shiftr y (w - p)
  | PMTernary x m, PMTernary y n => m = n /\ N.land x m = N.land y m
  | PMRange x m, PMRange y n => x = y /\ m = n
  | _, _ => False
  end.
Fixpoint same (fs : list pif) (a b : list pmatch) : Prop :=
  match fs, a, b with
  | [], [], [] => True
  | f :: fs', x :: a', y :: b' => same1 f x y /\ same fs' a' b'
  | _, _, _ => False
  end.

(** The form in which a match is given back: the bits it does not look at are cleared, except in
    a longest-prefix table, which gives back the value as it was written. *)
Definition canon1 (kd : mkind) (f : pif) (m : pmatch) : pmatch :=
  match m with
  | PMLpm v p => match kd with
                 | KLpm => m
                 | _ => let s := (N.of_nat (pi_bw f) - p)%N in PMLpm (N.shiftl (N.shiftr v s) s) p
                 end
  | PMTernary v k => PMTernary (N.land v k) k
  | _ => m
  end.
Fixpoint canon_ms (kd : mkind) (fs : list pif) (ms : list pmatch) : list pmatch :=
  match fs, ms with
  | f :: fs', m :: ms' => canon1 kd f m :: canon_ms kd fs' ms'
  | _, _ => []
  end.

(** ** The table *)

(** The description the client has of a field and the one bmv2 has agree. *)
Definition agree1 (p : pif) (k : kfield) : Prop :=
  f_mask k = None /\
  match pi_mt p with
  | PValid => f_type k = TValid
  | PExact => f_type k = TExact /\ f_bits k = pi_bw p
  | PLpm => f_type k = TLpm /\ f_bits k = pi_bw p
  | PTernary | POptional => f_type k = TTernary /\ f_bits k = pi_bw p
  | PRange => f_type k = TRange /\ f_bits k = pi_bw p
  end.
Definition ranked (kd : mkind) : Prop := match kd with KExact | KLpm => False | _ => True end.
Definition needs_prio (p : pif) : Prop :=
  match pi_mt p with PTernary | POptional | PRange => True | _ => False end.
(** Prefix fields are a whole number of bytes wide (see C08 for the others); no field is wider
    than an int can tell. *)
Definition agree (kd : mkind) (ps : list pif) (ks : list kfield) : Prop :=
  ps <> [] /\ Forall2 agree1 ps ks /\ layout_ok kd ks /\
  (ranked kd <-> Exists needs_prio ps) /\
  Forall (fun p => (pi_mt p = PLpm -> pi_bw p mod 8 = 0) /\ (N.of_nat (pi_bw p) < 2 ^ 31)%N) ps.

Definition prio_limit : N := (2 ^ 31 - 1)%N.

Section Tbl.
Context {V : Type}.
Record pentry := mkPE { pe_ms : list pmatch; pe_prio : N; pe_val : V }.
(** The entries of the table, by handle. *)
Definition tbl := N -> option pentry.
Definition t_set (t : tbl) (h : N) (e : option pentry) : tbl := fun x => if (x =? h)%N then e else t x.

Variables (kd : mkind) (fs : list pif) (ks : list kfield) (size : nat).

(** Same entry: the same matches, and the same priority where priorities mean something. *)
Definition same_entry (e : pentry) (ms : list pmatch) (prio : N) : Prop :=
  same fs (pe_ms e) ms /\ (ranked kd -> pe_prio e = prio).

Definition full (t : tbl) : Prop :=
  exists l, NoDup l /\ length l = size /\ forall h, In h l <-> t h <> None.

(** The packet satisfies every match of the entry. *)
Inductive all_hold (phv : nat -> pfield) : list pif -> list kfield -> list pmatch -> Prop :=
| ah_nil : all_hold phv [] [] []
| ah_cons : forall f k m fs ks ms, holds1 f (field_value k phv) m -> all_hold phv fs ks ms ->
    all_hold phv (f :: fs) (k :: ks) (m :: ms).

(** Length of the prefix of an entry. *)
Fixpoint plen_of (ms : list pmatch) : N :=
  match ms with
  | [] => 0
  | PMLpm _ p :: r => p + plen_of r
  | _ :: r => plen_of r
  end%N.

(** Entry [e] at [h] goes before [e'] at [h']. *)
Definition before (h : N) (e : pentry) (h' : N) (e' : pentry) : Prop :=
  match kd with
  | KExact => h = h'
  | KLpm => (plen_of (pe_ms e') <= plen_of (pe_ms e))%N
  | KTernary | KRange =>
      (pe_prio e' < pe_prio e)%N \/
      (pe_prio e' = pe_prio e /\ h mod 2 ^ 24 <= h' mod 2 ^ 24)%N
  end.

(** What a fetch gives for an entry. *)
Definition shown (h : N) (e : pentry) : xout V :=
  XEntry h (match kd with KExact | KLpm => 0%N | _ => pe_prio e end)
    (wire fs (canon_ms kd fs (pe_ms e))) (pe_val e).

Definition gone (c : mcode) : Prop := c = MInvalid \/ c = MExpired.
Definition keyed (key : list N) (ms : list pmatch) : Prop := Forall2 fits fs ms /\ key = wire fs ms.

Inductive x_spec : tbl -> xop V -> xout V -> tbl -> Prop :=
| xs_add_prio : forall t now key prio v, (prio_limit < prio)%N ->
    x_spec t (XAdd now key prio v) XUnsupported t
| xs_add_bad : forall t now key ms prio v, (prio <= prio_limit)%N -> keyed key ms ->
    ~ Forall2 sensible fs ms -> x_spec t (XAdd now key prio v) (XErr MBadKey) t
| xs_add_dup : forall t now key ms prio v h e, (prio <= prio_limit)%N -> keyed key ms ->
    Forall2 sensible fs ms -> t h = Some e -> same_entry e ms prio ->
    x_spec t (XAdd now key prio v) (XErr MDuplicate) t
| xs_add_full : forall t now key ms prio v, (prio <= prio_limit)%N -> keyed key ms ->
    Forall2 sensible fs ms -> (forall h e, t h = Some e -> ~ same_entry e ms prio) -> full t ->
    x_spec t (XAdd now key prio v) (XErr MFull) t
| xs_add : forall t now key ms prio v h, (prio <= prio_limit)%N -> keyed key ms ->
    Forall2 sensible fs ms -> (forall h e, t h = Some e -> ~ same_entry e ms prio) -> ~ full t ->
    t h = None -> (h < 2 ^ 32)%N ->
    x_spec t (XAdd now key prio v) (XHandle h) (t_set t h (Some (mkPE ms prio v)))
| xs_mod_no : forall t h v c, t h = None -> gone c -> x_spec t (XMod h v) (XErr c) t
| xs_mod : forall t h v e, t h = Some e ->
    x_spec t (XMod h v) XOk (t_set t h (Some (mkPE (pe_ms e) (pe_prio e) v)))
| xs_del_no : forall t h c, t h = None -> gone c -> x_spec t (XDel h) (XErr c) t
| xs_del : forall t h, t h <> None -> x_spec t (XDel h) XOk (t_set t h None)
| xs_delk_prio : forall t key prio, (prio_limit < prio)%N -> x_spec t (XDelKey key prio) XUnsupported t
| xs_delk_bad : forall t key ms prio, (prio <= prio_limit)%N -> keyed key ms ->
    (Forall2 sensible fs ms -> forall h e, t h = Some e -> ~ same_entry e ms prio) ->
    x_spec t (XDelKey key prio) (XErr MBadKey) t
| xs_delk : forall t key ms prio h e, (prio <= prio_limit)%N -> keyed key ms ->
    Forall2 sensible fs ms -> t h = Some e -> same_entry e ms prio ->
    x_spec t (XDelKey key prio) XOk (t_set t h None)
| xs_modk_prio : forall t key prio v, (prio_limit < prio)%N -> x_spec t (XModKey key prio v) XUnsupported t
| xs_modk_bad : forall t key ms prio v, (prio <= prio_limit)%N -> keyed key ms ->
    (Forall2 sensible fs ms -> forall h e, t h = Some e -> ~ same_entry e ms prio) ->
    x_spec t (XModKey key prio v) (XErr MBadKey) t
| xs_modk : forall t key ms prio v h e, (prio <= prio_limit)%N -> keyed key ms ->
    Forall2 sensible fs ms -> t h = Some e -> same_entry e ms prio ->
    x_spec t (XModKey key prio v) XOk (t_set t h (Some (mkPE (pe_ms e) (pe_prio e) v)))
| xs_get_no : forall t h c, t h = None -> gone c -> x_spec t (XFetch h) (XErr c) t
| xs_get : forall t h e, t h = Some e -> x_spec t (XFetch h) (shown h e) t
| xs_getk_no : forall t key ms prio, (prio <= prio_limit)%N -> keyed key ms ->
    (Forall2 sensible fs ms -> forall h e, t h = Some e -> ~ same_entry e ms prio) ->
    x_spec t (XFetchKey key prio) XNoEntry t
| xs_getk : forall t key ms prio h e, (prio <= prio_limit)%N -> keyed key ms ->
    Forall2 sensible fs ms -> t h = Some e -> same_entry e ms prio ->
    x_spec t (XFetchKey key prio) (shown h e) t
| xs_miss : forall t ts len phv,
    (forall h e, t h = Some e -> ~ all_hold phv fs ks (pe_ms e)) ->
    x_spec t (XPacket ts len phv) XMiss t
| xs_hit : forall t ts len phv h e, t h = Some e -> all_hold phv fs ks (pe_ms e) ->
    (forall h' e', t h' = Some e' -> all_hold phv fs ks (pe_ms e') -> before h e h' e') ->
    x_spec t (XPacket ts len phv) (XHit h (pe_val e)) t.

Inductive x_spec_run : tbl -> list (xop V) -> list (xout V) -> tbl -> Prop :=
| xr_nil : forall t, x_spec_run t [] [] t
| xr_cons : forall t o x t' os xs t'', x_spec t o x t' -> x_spec_run t' os xs t'' ->
    x_spec_run t (o :: os) (x :: xs) t''.

(** Well-formed calls: keys are messages of the right shape, handles fit 32 bits, a fetch by key
    respects the limit on priorities, packets' fields fit their width. *)
Definition xop_ok (o : xop V) : Prop :=
  match o with
  | XAdd _ key _ _ | XDelKey key _ | XModKey key _ _ => exists ms, keyed key ms
  | XFetchKey key prio => (exists ms, keyed key ms) /\ (prio <= prio_limit)%N
  | XMod h _ | XDel h | XFetch h => (h < 2 ^ 32)%N
  | XPacket _ _ phv => phv_ok ks phv
  end.
End Tbl.
Arguments pentry : clear implicits.
Arguments tbl : clear implicits.
