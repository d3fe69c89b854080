(** Model of saving and restoring the state of the switch: serialize / deserialize in
    src/bm_sim/match_units.cpp:1070-1160, match_tables.cpp:58-77, 158-180, 624-634, 951-963,
    actions.cpp:460-486, action_profile.cpp:24-52, 84-97, 539-580, switch.cpp:388-420,
    P4Objects.cpp:2349-2372, with ByteContainer's hexadecimal form (bytecontainer.h:62-98,
    utils.h:44-54).
    The stream is a list of whitespace-separated words; how a number is spelled in decimal (or an
    action parameter in hexadecimal) and read back by iostreams is not modelled.  Reading a word of
    the wrong kind is [None], as are failed assertions and undefined behaviour.
    Not modelled: direct meters inside a match unit and meter arrays (MeterModel.v has the meters'
    own save and restore), several contexts. *)
From Coq Require Import List Arith NArith ZArith Bool.
From Verif Require Import Base HandleMgrModel LpmModel EntryListModel MatchUnitModel KeyBuilderModel
  TableModel ProfileModel.
Import ListNotations.

Inductive tok :=
| WNum (z : Z)              (* a number *)
| WHex (digits : list N)    (* a hexadecimal string, as a list of digits *)
| WData (d : N)             (* an action parameter, printed with std::hex *)
| WNode (n : option nat)    (* a control node's name, or "__NULL__" *)
| WTable (j : nat).         (* a table's name *)

Notation "'let*' x := a 'in' b" :=
  (match a with Some x => b | None => None end)
  (at level 200, x pattern, a at level 100, b at level 200).

Definition rd_num (l : list tok) : option (Z * list tok) :=
  match l with WNum z :: r => Some (z, r) | _ => None end.
(** into an unsigned variable *)
Definition rd_nat (l : list tok) : option (nat * list tok) :=
  match l with WNum z :: r => if (z <? 0)%Z then None else Some (Z.to_nat z, r) | _ => None end.
Definition rd_N (l : list tok) : option (N * list tok) :=
  match l with WNum z :: r => if (z <? 0)%Z then None else Some (Z.to_N z, r) | _ => None end.
Definition w_nat (n : nat) : tok := WNum (Z.of_nat n).
Definition w_N (n : N) : tok := WNum (Z.of_N n).

(** to_hex, bytecontainer.cpp:21-30 and utils.h:44-54: two digits per byte.  Nothing at all is
    written for an empty container, so no word. *)
Definition to_hex (bytes : list N) : list N := flat_map (fun b => [b / 16; b mod 16]%N) bytes.
Definition w_hex (bytes : list N) : list tok :=
  match bytes with [] => [] | _ => [WHex (to_hex bytes)] end.
(** ByteContainer(hexstring), bytecontainer.h:75-98, after the optional "0x".  [char] arithmetic is
    modulo 256. *)
Fixpoint hex_pairs (ds : list N) : option (list N) :=
  match ds with
  | [] => Some []
  | [_] => None (* would read past the end; excluded by the parity test *)
  | a :: b :: r => let* t := hex_pairs r in Some (((a * 16 + b) mod 256)%N :: t)
  end.
Definition from_hex (ds : list N) : option (list N) :=
  if length ds =? 0 then None
  else if Nat.odd (length ds) then
    match ds with a :: r => let* t := hex_pairs r in Some (a :: t) | [] => None end
  else hex_pairs ds.
Definition rd_hex (l : list tok) : option (list N * list tok) :=
  match l with WHex ds :: r => let* b := from_hex ds in Some (b, r) | _ => None end.

(** serialize_key, match_units.cpp:1074-1089; range_widths is not written *)
Definition w_key (kd : mkind) (k : mkey) : list tok :=
  match kd with
  | KExact => []
  | KLpm => [w_nat (k_plen k)]
  | KTernary | KRange => w_hex (k_mask k) ++ [WNum (k_prio k)]
  end.
(** deserialize_key, 1118-1131, into a default-constructed key *)
Definition rd_key (kd : mkind) (data : list N) (l : list tok) : option (mkey * list tok) :=
  match kd with
  | KExact => Some (mkKey data [] 0 0 [], l)
  | KLpm => let* (pl, l) := rd_nat l in Some (mkKey data [] pl 0 [], l)
  | KTernary | KRange =>
      let* (m, l) := rd_hex l in
      let* (p, l) := rd_num l in Some (mkKey data m 0 p [], l)
  end.

(** EntryList::add stores a pointer to the key it is given (lookup_structures.cpp:295-319).
    deserialize_ gives it the local variable's key (match_units.cpp:1150), gone at the end of the
    loop body: the pointer dangles from then on.  ExactMap and the LPM trie copy the key. *)
Definition ls_forget (s : lstruct) (h : nat) : lstruct :=
  match s with
  | LSList l =>
      LSList (mkEL (el_head l)
        (match nth_error (el_entries l) h with
         | Some e => list_set (el_entries l) h (mkLE (le_prio e) None (le_prev e) (le_next e))
         | None => el_entries l
         end) (el_count l) (el_enable l) (el_use l) (el_cache l))
  | _ => s
  end.

Section Unit.
Context {V : Type}.
Variable w_val : V -> list tok.                              (* V::serialize *)
Variable rd_val : list tok -> option (V * list tok).         (* V::deserialize into a new V *)

(** serialize_, 1094-1113, one entry; the last check is the assertion on the versions *)
Definition w_entry (kd : mkind) (u : munit V) (h : nat) : option (list tok) :=
  match nth_error (mu_ents u) h, nth_error (mu_meta u) h with
  | Some e, Some m =>
      let* v := e_val e in
      if (m_ver m =? e_ver e)%N
      then Some (w_nat h :: w_N (e_ver e) :: w_hex (k_data (e_key e)) ++ w_key kd (e_key e) ++
                 w_val v ++ [w_N (m_ttl m)])
      else None
  | _, _ => None
  end.
Fixpoint w_entries (kd : mkind) (u : munit V) (hs : list nat) : option (list tok) :=
  match hs with
  | [] => Some []
  | h :: r => let* a := w_entry kd u h in let* b := w_entries kd u r in Some (a ++ b)
  end.
Definition mu_save (kd : mkind) (u : munit V) : option (list tok) :=
  let* hs := hm_iterate (mu_hm u) in
  let* b := w_entries kd u hs in
  Some (w_nat (mu_num u) :: b).

(** the loop body of deserialize_, 1137-1156; [now] is the clock at that point (EntryMeta::reset
    stores it) *)
Definition rd_entry (kd : mkind) (now : nat -> N) (u : munit V) (l : list tok)
  : option (munit V * list tok) :=
  let* (h, l) := rd_nat l in
  match hm_set_handle (mu_hm u) h with
  | Some (hm', true) =>
      let* (ver, l) := rd_N l in
      let* (data, l) := rd_hex l in
      let* (k, l) := rd_key kd data l in
      let* (v, l) := rd_val l in
      if h <? length (mu_ents u) then
        let ents' := list_set (mu_ents u) h (mkEnt k ver (Some v)) in
        let* ls' := ls_add (mu_ls u) k h in
        match nth_error (mu_meta u) h with
        | Some m =>
            let* (ttl, l) := rd_N l in
            Some (mkMU (mu_size u) (mu_num u) hm'
                    (list_set (mu_meta u) h (mkMeta (now h) ttl 0 0 ver)) ents' (ls_forget ls' h), l)
        | None => None
        end
      else None
  | _ => None                       (* assert(!error) *)
  end.
Fixpoint rd_entries (kd : mkind) (now : nat -> N) (n : nat) (u : munit V) (l : list tok)
  : option (munit V * list tok) :=
  match n with
  | O => Some (u, l)
  | S n => let* (u, l) := rd_entry kd now u l in rd_entries kd now n u l
  end.
(** deserialize_, 1135-1158 *)
Definition mu_restore (kd : mkind) (now : nat -> N) (u : munit V) (l : list tok)
  : option (munit V * list tok) :=
  let* (n, l) := rd_nat l in
  rd_entries kd now n (mkMU (mu_size u) n (mu_hm u) (mu_meta u) (mu_ents u) (mu_ls u)) l.
End Unit.

(** ** ActionEntry: actions.cpp:460-486 and match_tables.cpp:58-77 *)
Definition w_action (a : aentry) : list tok :=
  match a_fn a with
  | None => [WNum (-1)]
  | Some fn => w_nat fn :: w_nat (length (a_data a)) :: map WData (a_data a)
  end ++ [WNode (a_next a)].
Fixpoint rd_data (n : nat) (acc : list N) (l : list tok) : option (list N * list tok) :=
  match n with
  | O => Some (acc, l)
  | S n => match l with WData d :: r => rd_data n (acc ++ [d]) r | _ => None end
  end.
(** into an existing entry [old]: the parameters are appended to those it has, and its next node
    stays when the saved one is null *)
Definition rd_action (old : aentry) (l : list tok) : option (aentry * list tok) :=
  let* (id, l) := rd_num l in
  let* (fn, data, l) :=
     (if (id =? -1)%Z then Some (None, a_data old, l)
      else let* (n, l) := rd_nat l in
           let* (d, l) := rd_data n (a_data old) l in Some (Some (Z.to_nat id), d, l)) in
  match l with
  | WNode n :: l =>
      Some (mkA fn data (match n with None => a_next old | Some x => Some x end), l)
  | _ => None
  end.
Definition a_null : aentry := mkA None [] None.

(** ** Direct tables: match_tables.cpp:158-180, 624-634.  [j] is the table's name; the saved
    next_node_miss is a constant of the program and is set to the same value again. *)
Definition t_save (kd : mkind) (c : tcfg) (j : nat) (t : table) : option (list tok) :=
  let* u := mu_save w_action kd (t_unit t) in
  Some (WTable j :: WNode (match c_miss c with Some n => n | None => None end) :: u ++
        w_action (t_default t)).
Definition rd_header (j : nat) (l : list tok) : option (list tok) :=
  match l with
  | WTable j' :: WNode _ :: r => if j' =? j then Some r else None
  | _ => None
  end.
Definition t_restore (kd : mkind) (j : nat) (now : nat -> N) (t : table) (l : list tok)
  : option (table * list tok) :=
  let* l := rd_header j l in
  let* (u, l) := mu_restore (rd_action a_null) kd now (t_unit t) l in
  let* (d, l) := rd_action (t_default t) l in
  Some (mkT u d (t_imm t), l).

(** ** Indirect tables: match_tables.cpp:951-963; IndirectIndex, action_profile.h:42-85 and
    action_profile.cpp:42-52 *)
Definition idx_word (x : idx) : N :=
  match x with Mbr m => N.of_nat m | Grp g => N.lor (N.shiftl 1 24) (N.of_nat g) end.
Definition word_idx (n : N) : option idx :=
  if (N.shiftr n 24 =? 0)%N then Some (Mbr (N.to_nat (N.land n 16777215)))
  else if (N.shiftr n 24 =? 1)%N then Some (Grp (N.to_nat (N.land n 16777215)))
  else None.
Definition w_idx (x : idx) : list tok := [w_N (idx_word x)].
Definition rd_idx (l : list tok) : option (idx * list tok) :=
  let* (n, l) := rd_N l in let* x := word_idx n in Some (x, l).

Definition it_save (c : itcfg) (j : nat) (t : itab) : option (list tok) :=
  let* u := mu_save w_idx (ic_kd c) (it_unit t) in
  Some (WTable j :: WNode (match c_miss (ic_cfg c) with Some n => n | None => None end) :: u ++
        match it_def t with None => [WNum 0] | Some x => WNum 1 :: w_idx x end).
Definition it_restore (c : itcfg) (j : nat) (now : nat -> N) (t : itab) (l : list tok)
  : option (itab * list tok) :=
  let* l := rd_header j l in
  let* (u, l) := mu_restore rd_idx (ic_kd c) now (it_unit t) l in
  let* (b, l) := rd_num l in
  if (b =? 0)%Z then Some (mkIT u None, l)
  else let* (x, l) := rd_idx l in Some (mkIT u (Some x), l).

(** ** Action profiles: action_profile.cpp:24-40, 84-97, 539-580 *)
Fixpoint w_members (ents : list (nat * list N)) (hs : list nat) : option (list tok) :=
  match hs with
  | [] => Some []
  | h :: r => let* e := nth_error ents h in
              let* b := w_members ents r in
              Some (w_nat h :: w_action (mkA (Some (fst e)) (snd e) None) ++ b)
  end.
Fixpoint w_groups (gs : list (list nat)) (hs : list nat) : option (list tok) :=
  match hs with
  | [] => Some []
  | h :: r => let* g := nth_error gs h in
              let* b := w_groups gs r in
              Some (w_nat h :: w_nat (length g) :: map w_nat g ++ b)
  end.
Definition w_counts (l : list N) : list tok := w_nat (length l) :: map w_N l.
Definition p_save (p : prof) : option (list tok) :=
  let* mh := hm_iterate (p_mh p) in
  let* ms := w_members (p_ents p) mh in
  let* gh := hm_iterate (p_gh p) in
  let* gs := w_groups (p_groups p) gh in
  Some (w_nat (length (p_ents p)) :: w_nat (p_nm p) :: ms ++ w_counts (p_mc p) ++ w_counts (p_gc p) ++
        w_nat (p_ng p) :: gs).

(** vector::resize *)
Definition resize {A} (l : list A) (n : nat) (d : A) : list A :=
  firstn n l ++ repeat d (n - length l).

(** An entry that was never written has no action; it is [(0, [])] here, and is only reached through
    a valid member handle. *)
Definition no_entry : nat * list N := (0, []).
Fixpoint rd_members (n : nat) (mh : hmgr) (es : list (nat * list N)) (l : list tok)
  : option (hmgr * list (nat * list N) * list tok) :=
  match n with
  | O => Some (mh, es, l)
  | S n =>
      let* (h, l) := rd_nat l in
      match hm_set_handle mh h with
      | Some (mh', true) =>
          let* e := nth_error es h in   (* at() *)
          let* (a, l) := rd_action (mkA None (snd e) None) l in
          let* fn := a_fn a in
          rd_members n mh' (list_set es h (fn, a_data a)) l
      | _ => None
      end
  end.
Fixpoint rd_list (n : nat) (l : list tok) : option (list N * list tok) :=
  match n with
  | O => Some ([], l)
  | S n => let* (c, l) := rd_N l in let* (r, l) := rd_list n l in Some (c :: r, l)
  end.
(** GroupInfo::deserialize: add_member's result is ignored *)
Fixpoint rd_group (n : nat) (acc : list nat) (l : list tok) : option (list nat * list tok) :=
  match n with
  | O => Some (acc, l)
  | S n => let* (m, l) := rd_nat l in
           rd_group n (if set_mem m acc then acc else set_ins m acc) l
  end.
Fixpoint rd_groups (n : nat) (gh : hmgr) (gs : list (list nat)) (l : list tok)
  : option (hmgr * list (list nat) * list tok) :=
  match n with
  | O => Some (gh, gs, l)
  | S n =>
      let* (g, l) := rd_nat l in
      match hm_set_handle gh g with
      | Some (gh', true) =>
          let* gs' := vec_put gs g [] in         (* insert_group, 123-130 *)
          let* (k, l) := rd_nat l in
          let* (ms, l) := rd_group k [] l in
          rd_groups n gh' (list_set gs' g ms) l
      | _ => None
      end
  end.
Definition p_restore (p : prof) (l : list tok) : option (prof * list tok) :=
  let* (sz, l) := rd_nat l in
  let* (nm, l) := rd_nat l in
  let* (mh, es, l) := rd_members nm (p_mh p) (resize (p_ents p) sz no_entry) l in
  let* (n, l) := rd_nat l in
  let* (mc, l) := rd_list n l in
  let* (n, l) := rd_nat l in
  let* (gc, l) := rd_list n l in
  let* (ng, l) := rd_nat l in
  let* (gh, gs, l) := rd_groups ng (p_gh p) (p_groups p) l in
  Some (mkProf mh gh es mc gc gs nm ng, l).

(** ** The switch: P4Objects.cpp:2349-2372 (tables, then profiles) and switch.cpp:388-420, for one
    context with any number of indirect tables sharing a profile.  [md5] identifies the program. *)
Fixpoint its_save (cs : list itcfg) (j : nat) (ts : list itab) : option (list tok) :=
  match cs, ts with
  | [], [] => Some []
  | c :: cs, t :: ts => let* a := it_save c j t in let* b := its_save cs (S j) ts in Some (a ++ b)
  | _, _ => None
  end.
Fixpoint its_restore (cs : list itcfg) (j : nat) (now : nat -> nat -> N) (ts : list itab) (l : list tok)
  : option (list itab * list tok) :=
  match cs, ts with
  | [], [] => Some ([], l)
  | c :: cs, t :: ts =>
      let* (t', l) := it_restore c j (now j) t l in
      let* (ts', l) := its_restore cs (S j) now ts l in Some (t' :: ts', l)
  | _, _ => None
  end.

Definition format_version : Z := 606201600. (* "06062016_0" *)
Definition w_save (cs : list itcfg) (md5 : Z) (w : world) : option (list tok) :=
  let* a := its_save cs 0 (w_tabs w) in
  let* b := p_save (w_prof w) in
  Some (WNum format_version :: WNum md5 :: a ++ b).
(** the status: 0 on success, 1 when the file is refused *)
Definition w_restore (cs : list itcfg) (md5 : Z) (now : nat -> nat -> N) (w : world) (l : list tok)
  : option (world * nat) :=
  let* (v, l) := rd_num l in
  if negb (v =? format_version)%Z then Some (w, 1)
  else
    let* (m, l) := rd_num l in
    if negb (m =? md5)%Z then Some (w, 1)
    else
      let* (ts, l) := its_restore cs 0 now (w_tabs w) l in
      let* (p, l) := p_restore (w_prof w) l in
      Some (mkW p ts, 0).
