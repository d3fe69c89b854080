From Coq Require Import List Arith ZArith Lia Bool.
From Verif Require Import Base DataModel PhvModel ExprModel ExprSpec.
Import ListNotations.

(** ** What build produces *)
Lemma bind_some {A B} (x : option A) (f : A -> option B) r : bind x f = Some r -> exists a, x = Some a /\ f a = Some r.
Proof. destruct x; cbn; intros; [eauto|discriminate]. Qed.

Definition shift (k : nat) (o : eop) : eop := match o with LoadConst i => LoadConst (i + k) | _ => o end.
Lemma append_shift x e : append_expr x e = (fst x ++ map (shift (length (snd x))) (fst e), snd x ++ snd e).
Proof. reflexivity. Qed.

(** [emits api j t c] : at any point where there are k constants, j adds the instructions c k *)
Inductive emits (api : bool) : jexp -> ty -> (nat -> list eop) -> list Z -> Prop :=
| em_tern c l r t fc fl fr kc kl kr : emits api c TBool fc kc -> emits api l t fl kl -> emits api r t fr kr ->
    emits api (JTern c l r) t
      (fun k => fc k ++ [Ternary; Skip (length (fl 0) + 1)] ++ fl (k + length kc) ++ [Skip (length (fr 0))] ++ fr (k + length kc + length kl))
      (kc ++ kl ++ kr)
| em_eq neg l r t o fl fr kl kr : eq_opcode neg t = Some o -> emits api l t fl kl -> emits api r t fr kr ->
    emits api (JEq neg l r) TBool (fun k => fl k ++ fr (k + length kl) ++ [o]) (kl ++ kr)
| em_access l f fl kl : emits api l THeader fl kl -> emits api (JAccess l f) TData (fun k => fl k ++ [AccessField f]) kl
| em_accessu l i fl kl : emits api l TUnion fl kl -> api = true -> emits api (JAccessU l i) THeader (fun k => fl k ++ [AccessUnion i]) kl
| em_un_r o r a t fr kr : un_sig o = Some (a, t) -> emits api r a fr kr -> emits api (JOp o JNull r) t (fun k => fr k ++ [opcode o]) kr
| em_un_l o l a t fl kl : un_sig o = Some (a, t) -> emits api l a fl kl -> emits api (JOp o l JNull) t (fun k => fl k ++ [opcode o]) kl
| em_sign o r fr kr : o = BAdd \/ o = BSub -> emits api r TData fr kr ->
    emits api (JOp (OBin o) JNull r) TData (fun k => LoadConst k :: fr (k + 1) ++ [Arith o 0]) (0%Z :: kr)
| em_bin o l r a b t fl fr kl kr : bin_sig o = Some (a, b, t) -> emits api l a fl kl -> emits api r b fr kr ->
    emits api (JOp o l r) t (fun k => fl k ++ fr (k + length kl) ++ [opcode o]) (kl ++ kr)
| em_reggen a i fi ki : emits api i TData fi ki -> emits api (JRegGen a i) TData (fun k => fi k ++ [LoadRegGen a]) ki
| em_hex v : emits api (JHex v) TData (fun k => [LoadConst k]) [v]
| em_header h : emits api (JHeader h) THeader (fun _ => [LoadHeader h]) []
| em_field h f : emits api (JField h f) TData (fun _ => [LoadField h f]) []
| em_bool b : emits api (JBool b) TBool (fun _ => [LoadBool b]) []
| em_local i : emits api (JLocal i) TData (fun _ => [LoadLocal i]) []
| em_reg a i : emits api (JReg a i) TData (fun _ => [LoadRegRef a i]) []
| em_stack k : emits api (JStack k) TStack (fun _ => [LoadStack k]) []
| em_stackfield k f : emits api (JStackField k f) TData (fun _ => [LoadLast k f]) []
| em_union u : emits api (JUnion u) TUnion (fun _ => [LoadUnion u]) []
| em_ustack k : emits api (JUStack k) TUStack (fun _ => [LoadUStack k]) [].

Lemma emits_ex api j t : has_ty j t -> api = true \/ no_member j -> exists f k, emits api j t f k.
Proof.
  induction 1; cbn [no_member]; intros N.
  - destruct IHhas_ty1 as (f1 & k1 & E1); [tauto|]. destruct IHhas_ty2 as (f2 & k2 & E2); [tauto|]. destruct IHhas_ty3 as (f3 & k3 & E3); [tauto|].
    eexists _, _; eapply em_tern; eauto.
  - destruct IHhas_ty1 as (f1 & k1 & E1); [tauto|]. destruct IHhas_ty2 as (f2 & k2 & E2); [tauto|].
    cbn in H. destruct H as [<- | [<- | [<- | [<- | []]]]]; eexists _, _; eapply em_eq; eauto; cbn; eauto.
  - destruct IHhas_ty as (f1 & k1 & E1); [tauto|]. eexists _, _; eapply em_access; eauto.
  - destruct IHhas_ty as (f1 & k1 & E1); [tauto|]. eexists _, _; eapply em_accessu; eauto. tauto.
  - destruct IHhas_ty as (f1 & k1 & E1); [tauto|]. eexists _, _; eapply em_un_r; eauto.
  - destruct IHhas_ty as (f1 & k1 & E1); [tauto|]. eexists _, _; eapply em_un_l; eauto.
  - destruct IHhas_ty as (f1 & k1 & E1); [tauto|]. eexists _, _; eapply em_sign; eauto.
  - destruct IHhas_ty1 as (f1 & k1 & E1); [tauto|]. destruct IHhas_ty2 as (f2 & k2 & E2); [tauto|]. eexists _, _; eapply em_bin; eauto.
  - eexists _, _; constructor.
  - eexists _, _; constructor.
  - eexists _, _; constructor.
  - eexists _, _; constructor.
  - eexists _, _; constructor.
  - eexists _, _; constructor.
  - destruct IHhas_ty as (f1 & k1 & E1); [tauto|]. eexists _, _; eapply em_reggen; eauto.
  - eexists _, _; constructor.
  - eexists _, _; constructor.
  - eexists _, _; constructor.
  - eexists _, _; constructor.
Qed.

Lemma emits_notnull api j t f k : emits api j t f k -> j <> JNull.
Proof. intros E; destruct E; discriminate. Qed.
Lemma shift_other k o : match o with LoadConst _ => False | _ => True end -> shift k o = o.
Proof. destruct o; cbn; tauto. Qed.
Lemma shift_opcode k o : shift k (opcode o) = opcode o.
Proof. destruct o; reflexivity. Qed.
Lemma shift_eq_opcode k n t o : eq_opcode n t = Some o -> shift k o = o.
Proof. destruct t; cbn; try discriminate; destruct n; intros [= <-]; reflexivity. Qed.
Lemma emits_shift api j t f ks : emits api j t f ks -> forall a k, map (shift a) (f k) = f (k + a).
Proof.
  induction 1; intros a0 k0; cbn [map]; rewrite ?map_app; cbn [map]; rewrite ?shift_opcode;
    repeat match goal with IH : forall a k, map (shift a) (?g k) = _ |- _ => rewrite IH; clear IH end; cbn [map shift].
  all: try reflexivity.
  - rewrite ?Nat.add_assoc. replace (k0 + length kc + length kl + a0) with (k0 + a0 + length kc + length kl) by lia. replace (k0 + length kc + a0) with (k0 + a0 + length kc) by lia. reflexivity.
  - replace (k0 + length kl + a0) with (k0 + a0 + length kl) by lia. rewrite (shift_eq_opcode _ _ _ _ H). reflexivity.
  - replace (k0 + 1 + a0) with (k0 + a0 + 1) by lia. reflexivity.
  - replace (k0 + length kl + a0) with (k0 + a0 + length kl) by lia. reflexivity.
Qed.
Lemma emits_len api j t f ks : emits api j t f ks -> forall k, length (f k) = length (f 0).
Proof. intros E k. pose proof (emits_shift _ _ _ _ _ E k 0) as X. cbn [Nat.add] in X. rewrite <- X. apply map_length. Qed.
Lemma ty_eqb_refl t : ty_eqb t t = true.
Proof. destruct t; reflexivity. Qed.
Lemma un_type o a t : un_sig o = Some (a, t) -> opcode_type o = t.
Proof. destruct o; cbn; intros [= <- <-]; reflexivity. Qed.
Lemma bin_type o a b t : bin_sig o = Some (a, b, t) -> opcode_type o = t.
Proof. destruct o; cbn; intros [= <- <- <-]; reflexivity. Qed.
Lemma un_build api o r x : un_sig o <> None -> build api (JOp o JNull r) x = (x2 <- build api r x ;; Some (push_op (fst x2) (opcode o), opcode_type o)).
Proof. destruct o; cbn; try congruence; reflexivity. Qed.
Lemma bin_build api o l r x : l <> JNull -> build api (JOp o l r) x = (x1 <- build api l x ;; x2 <- build api r (fst x1) ;; Some (push_op (fst x2) (opcode o), opcode_type o)).
Proof. intros N. destruct o as [[]| | | | | | | | | | | | | | | | | | |]; try reflexivity; destruct l; try reflexivity; congruence. Qed.
Lemma emits_build api j t f ks : emits api j t f ks -> forall x, build api j x = Some ((fst x ++ f (length (snd x)), snd x ++ ks), t).
Proof.
  induction 1; intros [ops cs]; cbn [fst snd].
  - cbn [build]. rewrite IHemits1. cbn [bind]. rewrite IHemits2. cbn [bind]. rewrite IHemits3. cbn [bind fst snd app].
    rewrite ty_eqb_refl. unfold push_ternary. rewrite !append_shift. cbn [fst snd push_op app length]. unfold push_op; cbn [fst snd].
    rewrite ?app_nil_r, ?map_app. rewrite (emits_shift _ _ _ _ _ H0), (emits_shift _ _ _ _ _ H1). cbn [Nat.add].
    rewrite !app_length. rewrite <- !app_assoc. cbn [app]. rewrite ?Nat.add_assoc. reflexivity.
  - cbn [build]. rewrite IHemits1. cbn [bind fst snd]. rewrite IHemits2. cbn [bind fst snd]. rewrite ty_eqb_refl, H. cbn [bind]. unfold push_op; cbn [fst snd].
    rewrite <- !app_assoc, app_length. reflexivity.
  - cbn [build]. rewrite IHemits. cbn [bind fst snd ty_eqb]. unfold push_op; cbn [fst snd]. rewrite <- !app_assoc. reflexivity.
  - cbn [build]. rewrite IHemits. cbn [bind fst snd ty_eqb]. unfold push_op; cbn [fst snd]. rewrite <- !app_assoc, H0. reflexivity.
  - rewrite un_build by congruence. rewrite IHemits. cbn [bind fst snd]. unfold push_op; cbn [fst snd]. rewrite <- !app_assoc. rewrite (un_type _ _ _ H). reflexivity.
  - rewrite bin_build by (eapply emits_notnull; eauto). rewrite IHemits. cbn [bind fst snd build]. unfold push_op; cbn [fst snd]. rewrite <- !app_assoc. rewrite (un_type _ _ _ H). reflexivity.
  - assert (B : build api (JOp (OBin o) JNull r) (ops, cs) = (x2 <- build api r (push_const (ops, cs) 0%Z) ;; Some (push_op (fst x2) (Arith o 0), TData))).
    { destruct H as [-> | ->]; reflexivity. }
    rewrite B, IHemits. cbn [bind fst snd push_const]. unfold push_op, push_const; cbn [fst snd]. rewrite <- !app_assoc, app_length. reflexivity.
  - rewrite bin_build by (eapply emits_notnull; eauto). rewrite IHemits1. cbn [bind fst snd]. rewrite IHemits2. cbn [bind fst snd]. unfold push_op; cbn [fst snd].
    rewrite <- !app_assoc, app_length. rewrite (bin_type _ _ _ _ H). reflexivity.
  - cbn [build]. rewrite IHemits. cbn [bind fst snd]. unfold push_op; cbn [fst snd]. rewrite <- !app_assoc. reflexivity.
  - reflexivity.
  - cbn. rewrite app_nil_r. reflexivity.
  - cbn. rewrite app_nil_r. reflexivity.
  - cbn. rewrite app_nil_r. reflexivity.
  - cbn. rewrite app_nil_r. reflexivity.
  - cbn. rewrite app_nil_r. reflexivity.
  - cbn. rewrite app_nil_r. reflexivity.
  - cbn. rewrite app_nil_r. reflexivity.
  - cbn. rewrite app_nil_r. reflexivity.
  - cbn. rewrite app_nil_r. reflexivity.
Qed.

(** ** Registers *)
Fixpoint sum (l : list nat) : nat := match l with [] => 0 | x :: r => x + sum r end.
Lemma sum_app a b : sum (a ++ b) = sum a + sum b.
Proof. induction a; cbn; lia. Qed.
Lemma assign_app a b s c : assign (a ++ b) s c = (q <- assign a s c ;; q' <- assign b (snd (fst q)) (snd q) ;; Some (fst (fst q) ++ fst (fst q'), snd (fst q'), snd q')).
Proof.
  revert s c. induction a; intros s c; cbn [app assign bind].
  - cbn [fst snd]. destruct (assign b s c) as [[[]]|]; reflexivity.
  - destruct (assign_op a s) as [[o s1]|]; cbn [bind fst snd]; [|reflexivity]. rewrite IHa.
    destruct (assign a0 s1 (Nat.max c (snd s1))) as [[[p s2] c2]|]; cbn [bind fst snd]; [|reflexivity].
    destruct (assign b s2 c2) as [[[p3 s3] c3]|]; cbn [bind fst snd]; reflexivity.
Qed.

Lemma exec_skip E cs a b s : forall n, n = length a -> exec E cs (a ++ b) n s = exec E cs b 0 s.
Proof. induction a; intros n ->; cbn; [reflexivity|]. apply IHa. reflexivity. Qed.

(** [pushed S S' v p s s'] : s' is s with v pushed (a pointer p for data), the temporaries below sum S untouched *)
Definition pushed (E : env) (cs : list Z) (lo hi : nat) (v : val) (lv : option dptr) (s s' : mst) : Prop :=
  exists t', length t' = length (m_t s) /\
  (forall r, r < lo -> nth_error t' r = nth_error (m_t s) r) /\
  match v with
  | VD z => exists p, s' = mk_mst (m_b s) (p :: m_d s) (m_h s) (m_s s) (m_u s) t' /\ deref E cs t' p = Some z /\
                      (forall r, p = PTemp r -> r < hi) /\ (forall q, lv = Some q -> p = q)
  | VB b => s' = mk_mst (b :: m_b s) (m_d s) (m_h s) (m_s s) (m_u s) t'
  | VH h => s' = mk_mst (m_b s) (m_d s) (h :: m_h s) (m_s s) (m_u s) t'
  | VS k => s' = mk_mst (m_b s) (m_d s) (m_h s) (SHdr k :: m_s s) (m_u s) t'
  | VUS k => s' = mk_mst (m_b s) (m_d s) (m_h s) (SUn k :: m_s s) (m_u s) t'
  | VU u => s' = mk_mst (m_b s) (m_d s) (m_h s) (m_s s) (u :: m_u s) t'
  end.
Definition vty (v : val) : ty := match v with VD _ => TData | VB _ => TBool | VH _ => THeader | VS _ => TStack | VU _ => TUnion | VUS _ => TUStack end.
(** What executing [p] does *)
Definition does (E : env) (cs : list Z) (lo hi cnt : nat) (p : list eop) (r : option val) (lv : option dptr) : Prop :=
  forall s, cnt <= length (m_t s) ->
  match r with
  | None => forall rest, exec E cs (p ++ rest) 0 s = None
  | Some v => exists s', pushed E cs lo hi v lv s s' /\ forall rest, exec E cs (p ++ rest) 0 s = exec E cs rest 0 s'
  end.

Definition jump (o : eop) : Prop := match o with Ternary | Skip _ => True | _ => False end.
Lemma exec_op E cs o rest s : ~ jump o -> exec E cs (o :: rest) 0 s = (s' <- eval_op E cs o s ;; exec E cs rest 0 s').
Proof. destruct o; cbn; intros J; try reflexivity; tauto. Qed.
Lemma get_size_spec v : get_size v = if Z_lt_dec v 0 then None else Some (v mod two64)%Z.
Proof. unfold get_size. destruct (Z.ltb_spec v 0); destruct (Z_lt_dec v 0); try reflexivity; lia. Qed.
Lemma compare_spec c a b : compare c a b = if compares_dec c a b then true else false.
Proof.
  destruct (compares_dec c a b) as [C|C]; destruct c; cbn in *;
  repeat match goal with
  | |- negb _ = true => rewrite negb_true_iff | |- negb _ = false => rewrite negb_false_iff
  | |- (_ =? _)%Z = true => apply Z.eqb_eq | |- (_ =? _)%Z = false => apply Z.eqb_neq
  | |- (_ <? _)%Z = true => apply Z.ltb_lt | |- (_ <? _)%Z = false => apply Z.ltb_ge
  | |- (_ <=? _)%Z = true => apply Z.leb_le | |- (_ <=? _)%Z = false => apply Z.leb_gt
  | |- (_ >? _)%Z = _ => rewrite Z.gtb_ltb | |- (_ >=? _)%Z = _ => rewrite Z.geb_leb end; lia.
Qed.
Lemma arith_spec b x y : d_op (dop_of b) x y = sem_arith b x y.
Proof.
  assert (T : two32 = (2 ^ 32)%Z) by reflexivity.
  destruct b; try reflexivity; cbn [dop_of d_op sem_arith].
  - rewrite Z.geb_leb, Z.gtb_ltb. destruct (Z_le_dec 0 x), (Z_lt_dec 0 y), (Z.leb_spec 0 x), (Z.ltb_spec 0 y); try lia; cbn [andb]; try reflexivity. rewrite Z.rem_mod_nonneg by lia. reflexivity.
  - rewrite Z.geb_leb, Z.gtb_ltb. destruct (Z_le_dec 0 x), (Z_lt_dec 0 y), (Z.leb_spec 0 x), (Z.ltb_spec 0 y); try lia; cbn [andb]; try reflexivity. rewrite Z.quot_div_nonneg by lia. reflexivity.
  - rewrite Z.geb_leb. unfold get_uint. rewrite T. destruct (Z_le_dec 0 y), (Z.leb_spec 0 y), (Z.ltb_spec y 0); try lia; try reflexivity. rewrite Z.shiftl_mul_pow2; [reflexivity|]. apply Z.mod_pos_bound. reflexivity.
  - rewrite Z.geb_leb. unfold get_uint. rewrite T. destruct (Z_le_dec 0 y), (Z.leb_spec 0 y), (Z.ltb_spec y 0); try lia; try reflexivity. rewrite Z.shiftr_div_pow2; [reflexivity|]. apply Z.mod_pos_bound. reflexivity.
Qed.
Lemma put_temp_ok s dest v : dest < length (m_t s) -> put_temp s dest v = Some (mk_mst (m_b s) (PTemp dest :: m_d s) (m_h s) (m_s s) (m_u s) (list_set (m_t s) dest v)).
Proof. intros L. unfold put_temp. apply Nat.ltb_lt in L. rewrite L. reflexivity. Qed.
Ltac pok := cbn [m_b m_d m_h m_s m_u m_t fst snd bind pop_b pop_d pop_h pop_s pop_u push_b push_d push_h push_s push_u length].
(** A result put in register dest *)
Lemma pushed_temp E cs S ext dest z b h u st d t0 t lv :
  dest = sum (ext ++ S) -> dest < length t -> length t = length t0 ->
  (forall r, r < sum S -> nth_error t r = nth_error t0 r) -> lv = None ->
  pushed E cs (sum S) (sum ((1 :: ext) ++ S)) (VD z) lv (mk_mst b d h st u t0) (mk_mst b (PTemp dest :: d) h st u (list_set t dest z)).
Proof.
  intros -> L Lt Ag ->. exists (list_set t (sum (ext ++ S)) z). split; [|split].
  - pok. rewrite list_set_length. exact Lt.
  - pok. intros r R. rewrite nth_error_list_set_neq; [apply Ag; exact R|]. rewrite sum_app. lia.
  - pok. exists (PTemp (sum (ext ++ S))). split; [reflexivity|]. split; [cbn [deref]; apply nth_error_list_set_eq; exact L|]. split; [|discriminate].
    intros r [= <-]. cbn [app sum]. lia.
Qed.

Ltac poki D := cbn [m_b m_d m_h m_s m_u m_t fst snd bind pop_b pop_d pop_h pop_s pop_u push_b push_d push_h push_s push_u length] in D.
(** Nothing put in a register *)
Lemma pushed_val E cs lo hi v lv b h u st d t0 t s' :
  length t = length t0 -> (forall r, r < lo -> nth_error t r = nth_error t0 r) ->
  match v with
  | VD z => exists p, s' = mk_mst b (p :: d) h st u t /\ deref E cs t p = Some z /\ (forall r, p <> PTemp r) /\ (forall q, lv = Some q -> p = q)
  | VB x => s' = mk_mst (x :: b) d h st u t
  | VH x => s' = mk_mst b d (x :: h) st u t
  | VS k => s' = mk_mst b d h (SHdr k :: st) u t
  | VUS k => s' = mk_mst b d h (SUn k :: st) u t
  | VU x => s' = mk_mst b d h st (x :: u) t
  end -> pushed E cs lo hi v lv (mk_mst b d h st u t0) s'.
Proof.
  intros L A M. unfold pushed. destruct v; [destruct M as (p & -> & D & N & Q)|subst s'..]; pok; exists t; (split; [exact L|]); (split; [exact A|]); try reflexivity.
  exists p. split; [reflexivity|]. split; [exact D|]. split; [|exact Q]. intros r ->. destruct (N r eq_refl).
Qed.
Lemma un_step o a t : un_sig o = Some (a, t) -> forall ext S, (a = TData -> ext <> []) ->
  exists o' ext', assign_op (opcode o) (ext ++ S, sum (ext ++ S)) = Some (o', (ext' ++ S, sum (ext' ++ S))) /\ (t = TData -> ext' <> []) /\ ~ jump o' /\
  forall E cs v lv s s1, vty v = a -> pushed E cs (sum S) (sum (ext ++ S)) v lv s s1 -> sum (ext' ++ S) <= length (m_t s) ->
    match sem_un E o v with
    | None => eval_op E cs o' s1 = None
    | Some w => vty w = t /\ exists s2, eval_op E cs o' s1 = Some s2 /\ pushed E cs (sum S) (sum (ext' ++ S)) w None s s2
    end.
Proof.
  intros U ext S NE. destruct o; cbn in U; try discriminate; injection U as <- <-; cbn [opcode].
  - (* ~ *)
    destruct ext as [|n ext]; [destruct (NE eq_refl); reflexivity|]. cbn [assign_op app popr bind fst snd sum].
    eexists _, (1 :: ext). split; [cbn [app sum]; replace (n + sum (ext ++ S) - n) with (sum (ext ++ S)) by lia; rewrite (Nat.add_comm (sum (ext ++ S)) 1); reflexivity|].
    split; [discriminate|]. split; [intros []|]. intros E cs v lv s s1 T P L. destruct v; try discriminate T. destruct P as (t1 & Lt & Ag & p & -> & D & _). cbn [app sum] in L. poki D. poki Lt. poki Ag.
    cbn [sem_un]. split; [reflexivity|]. eexists. split.
    + cbn [eval_op]. pok. rewrite D. cbn [bind d_op]. rewrite put_temp_ok by (pok; lia). pok. reflexivity.
    + destruct s as [sb sd sh sk su st]. pok. replace (- z - 1)%Z with (Z.lnot z) by (unfold Z.lnot; lia). apply pushed_temp; auto; lia.
  - (* not *)
    eexists _, ext. split; [reflexivity|]. split; [discriminate|]. split; [intros []|].
    intros E cs v lv s s1 T P L. destruct v; try discriminate T. destruct P as (t1 & Lt & Ag & ->). poki Lt. poki Ag.
    cbn [sem_un]. split; [reflexivity|]. eexists. split; [reflexivity|]. destruct s as [sb sd sh sk su st]. pok. apply pushed_val with (t := t1); auto.
  - (* valid *)
    eexists _, ext. split; [reflexivity|]. split; [discriminate|]. split; [intros []|].
    intros E cs v lv s s1 T P L. destruct v; try discriminate T. destruct P as (t1 & Lt & Ag & ->). poki Lt. poki Ag.
    cbn [sem_un eval_op]. pok. destruct (e_valid E h); cbn [bind]; [|reflexivity]. split; [reflexivity|]. eexists. split; [reflexivity|]. destruct s as [sb sd sh sk su st]. pok. apply pushed_val with (t := t1); auto.
  - (* valid union *)
    eexists _, ext. split; [reflexivity|]. split; [discriminate|]. split; [intros []|].
    intros E cs v lv s s1 T P L. destruct v; try discriminate T. destruct P as (t1 & Lt & Ag & ->). poki Lt. poki Ag.
    cbn [sem_un eval_op]. pok. destruct (e_uvalid E u); cbn [bind]; [|reflexivity]. split; [reflexivity|]. eexists. split; [reflexivity|]. destruct s as [sb sd sh sk su st]. pok. apply pushed_val with (t := t1); auto.
  - (* d2b *)
    destruct ext as [|n ext]; [destruct (NE eq_refl); reflexivity|]. cbn [assign_op app popr bind fst snd sum].
    eexists _, ext. split; [replace (n + sum (ext ++ S) - n) with (sum (ext ++ S)) by lia; reflexivity|].
    split; [discriminate|]. split; [intros []|]. intros E cs v lv s s1 T P L. destruct v; try discriminate T. destruct P as (t1 & Lt & Ag & p & -> & D & _). poki D. poki Lt. poki Ag.
    cbn [sem_un]. split; [reflexivity|]. eexists. split.
    + cbn [eval_op]. pok. rewrite D. cbn [bind]. reflexivity.
    + destruct s as [sb sd sh sk su st]. pok. apply pushed_val with (t := t1); auto. destruct (Z.eqb_spec z 0); destruct (Z.eq_dec z 0); try contradiction; reflexivity.
  - (* b2d *)
    cbn [assign_op fst snd].
    eexists _, (1 :: ext). split; [rewrite (Nat.add_comm (sum (ext ++ S)) 1); reflexivity|].
    split; [discriminate|]. split; [intros []|]. intros E cs v lv s s1 T P L. destruct v; try discriminate T. destruct P as (t1 & Lt & Ag & ->). cbn [app sum] in L. poki Lt. poki Ag.
    cbn [sem_un]. split; [reflexivity|]. eexists. split.
    + cbn [eval_op]. pok. rewrite put_temp_ok by (pok; lia). pok. reflexivity.
    + destruct s as [sb sd sh sk su st]. pok. apply pushed_temp; auto; lia.
  - (* last index *)
    cbn [assign_op fst snd].
    eexists _, (1 :: ext). split; [rewrite (Nat.add_comm (sum (ext ++ S)) 1); reflexivity|].
    split; [discriminate|]. split; [intros []|]. intros E cs v lv s s1 T P L. destruct v; try discriminate T. destruct P as (t1 & Lt & Ag & ->). cbn [app sum] in L. poki Lt. poki Ag.
    cbn [sem_un eval_op]. pok. destruct (e_count E k) as [c|]; cbn [bind]; [|reflexivity]. split; [reflexivity|]. eexists. split.
    + rewrite put_temp_ok by (pok; lia). pok. reflexivity.
    + destruct s as [sb sd sh sk su st]. pok. replace (if Nat.eq_dec c 0 then (two64 - 1)%Z else ((Z.of_nat c - 1) mod two64)%Z) with ((Z.of_nat c - 1) mod two64)%Z; [apply pushed_temp; auto; lia|].
      destruct (Nat.eq_dec c 0) as [->|]; reflexivity.
  - (* size *)
    cbn [assign_op fst snd].
    eexists _, (1 :: ext). split; [rewrite (Nat.add_comm (sum (ext ++ S)) 1); reflexivity|].
    split; [discriminate|]. split; [intros []|]. intros E cs v lv s s1 T P L. destruct v; try discriminate T. destruct P as (t1 & Lt & Ag & ->). cbn [app sum] in L. poki Lt. poki Ag.
    cbn [sem_un eval_op]. pok. destruct (e_count E k) as [c|]; cbn [bind]; [|reflexivity]. split; [reflexivity|]. eexists. split.
    + rewrite put_temp_ok by (pok; lia). pok. reflexivity.
    + destruct s as [sb sd sh sk su st]. pok. apply pushed_temp; auto; lia.
Qed.

(** The left operand survives the evaluation of the right one *)
Lemma deref_keep E cs t t' p hi : (forall r, p = PTemp r -> r < hi) -> (forall r, r < hi -> nth_error t' r = nth_error t r) -> deref E cs t' p = deref E cs t p.
Proof. intros B A. destruct p; cbn; try reflexivity. apply A, B. reflexivity. Qed.
Lemma pop_two (ext2 ext1 S : list nat) : ext1 <> [] -> ext2 <> [] -> exists n m ext, ext2 ++ ext1 = n :: m :: ext.
Proof.
  intros N1 N2. destruct ext2 as [|n [|m e]]; [congruence| |].
  - destruct ext1 as [|m e]; [congruence|]. exists n, m, e. reflexivity.
  - exists n, m, (e ++ ext1). reflexivity.
Qed.
Definition bin_op (sem : env -> val -> val -> option val) (a b t : ty) (op : eop) : Prop :=
  forall ext1 ext2 S, (a = TData -> ext1 <> []) -> (b = TData -> ext2 <> []) ->
  exists o' ext', assign_op op (ext2 ++ ext1 ++ S, sum (ext2 ++ ext1 ++ S)) = Some (o', (ext' ++ S, sum (ext' ++ S))) /\ (t = TData -> ext' <> []) /\ ~ jump o' /\
  forall E cs v w lv lw s s1 s2, vty v = a -> vty w = b ->
    pushed E cs (sum S) (sum (ext1 ++ S)) v lv s s1 -> pushed E cs (sum (ext1 ++ S)) (sum (ext2 ++ ext1 ++ S)) w lw s1 s2 -> sum (ext' ++ S) <= length (m_t s) ->
    match sem E v w with
    | None => eval_op E cs o' s2 = None
    | Some x => vty x = t /\ exists s3, eval_op E cs o' s2 = Some s3 /\ pushed E cs (sum S) (sum (ext' ++ S)) x None s s3
    end.
Lemma keep_two ext1 (S : list nat) (t0 t1 t2 : list Z) :
  (forall r, r < sum S -> nth_error t1 r = nth_error t0 r) -> (forall r, r < sum (ext1 ++ S) -> nth_error t2 r = nth_error t1 r) -> forall r, r < sum S -> nth_error t2 r = nth_error t0 r.
Proof. intros A B r R. rewrite B by (rewrite sum_app; lia). apply A. exact R. Qed.
Ltac bin_intro := intros E cs v w lv lw s s1 s2 Tv Tw P1 P2 L; destruct v; try discriminate Tv; destruct w; try discriminate Tw.
Lemma bin_step o a b t : bin_sig o = Some (a, b, t) -> bin_op (fun E v w => sem_bin E o v w) a b t (opcode o).
Proof.
  intros B ext1 ext2 S N1 N2.
  assert (HH : forall (k : env -> nat -> nat -> option bool), forall E v w cs lv lw s s1 s2, vty v = THeader -> vty w = THeader ->
            pushed E cs (sum S) (sum (ext1 ++ S)) v lv s s1 -> pushed E cs (sum (ext1 ++ S)) (sum (ext2 ++ ext1 ++ S)) w lw s1 s2 ->
            match (match v, w with VH x, VH y => r <- k E x y ;; Some (VB r) | _, _ => None end) with
            | None => two_h s2 (k E) = None
            | Some x => vty x = TBool /\ exists s3, two_h s2 (k E) = Some s3 /\ pushed E cs (sum S) (sum ((ext2 ++ ext1) ++ S)) x None s s3
            end).
  { intros k E v w cs lv lw s s1 s2 Tv Tw P1 P2; destruct v; try discriminate Tv; destruct w; try discriminate Tw.
    destruct P1 as (t1 & L1 & A1 & ->). destruct P2 as (t2 & L2 & A2 & ->). poki L1. poki A1. poki L2. poki A2. unfold two_h. pok.
    destruct (k E h h0); cbn [bind]; [|reflexivity]. split; [reflexivity|]. eexists. split; [reflexivity|].
    destruct s as [sb sd sh sk su st]. pok. apply pushed_val with (t := t2); [poki L1; congruence| |reflexivity]. exact (keep_two _ _ _ _ _ A1 A2). }
  assert (HU : forall (k : env -> nat -> nat -> option bool), forall E v w cs lv lw s s1 s2, vty v = TUnion -> vty w = TUnion ->
            pushed E cs (sum S) (sum (ext1 ++ S)) v lv s s1 -> pushed E cs (sum (ext1 ++ S)) (sum (ext2 ++ ext1 ++ S)) w lw s1 s2 ->
            match (match v, w with VU x, VU y => r <- k E x y ;; Some (VB r) | _, _ => None end) with
            | None => two_u s2 (k E) = None
            | Some x => vty x = TBool /\ exists s3, two_u s2 (k E) = Some s3 /\ pushed E cs (sum S) (sum ((ext2 ++ ext1) ++ S)) x None s s3
            end).
  { intros k E v w cs lv lw s s1 s2 Tv Tw P1 P2; destruct v; try discriminate Tv; destruct w; try discriminate Tw.
    destruct P1 as (t1 & L1 & A1 & ->). destruct P2 as (t2 & L2 & A2 & ->). poki L1. poki A1. poki L2. poki A2. unfold two_u. pok.
    destruct (k E u u0); cbn [bind]; [|reflexivity]. split; [reflexivity|]. eexists. split; [reflexivity|].
    destruct s as [sb sd sh sk su st]. pok. apply pushed_val with (t := t2); [poki L1; congruence| |reflexivity]. exact (keep_two _ _ _ _ _ A1 A2). }
  assert (HB : forall (k : bool -> bool -> bool), forall E v w cs lv lw s s1 s2, vty v = TBool -> vty w = TBool ->
            pushed E cs (sum S) (sum (ext1 ++ S)) v lv s s1 -> pushed E cs (sum (ext1 ++ S)) (sum (ext2 ++ ext1 ++ S)) w lw s1 s2 ->
            match (match v, w with VB x, VB y => Some (VB (k x y)) | _, _ => None end) with
            | None => two_b s2 k = None
            | Some x => vty x = TBool /\ exists s3, two_b s2 k = Some s3 /\ pushed E cs (sum S) (sum ((ext2 ++ ext1) ++ S)) x None s s3
            end).
  { intros k E v w cs lv lw s s1 s2 Tv Tw P1 P2; destruct v; try discriminate Tv; destruct w; try discriminate Tw.
    destruct P1 as (t1 & L1 & A1 & ->). destruct P2 as (t2 & L2 & A2 & ->). poki L1. poki A1. poki L2. poki A2. unfold two_b. pok.
    split; [reflexivity|]. eexists. split; [reflexivity|].
    destruct s as [sb sd sh sk su st]. pok. apply pushed_val with (t := t2); [poki L1; congruence| |reflexivity]. exact (keep_two _ _ _ _ _ A1 A2). }
  destruct o; cbn in B; try discriminate; injection B as <- <- <-; cbn [opcode].
  - (* arithmetic *)
    destruct (pop_two ext2 ext1 S (N1 eq_refl) (N2 eq_refl)) as (n & m & ext & X).
    assert (X' : ext2 ++ ext1 ++ S = n :: m :: ext ++ S) by (rewrite app_assoc, X; reflexivity). rewrite X'.
    cbn [assign_op popr bind fst snd sum]. replace (n + (m + sum (ext ++ S)) - n - m) with (sum (ext ++ S)) by lia.
    eexists _, (1 :: ext). split; [rewrite (Nat.add_comm (sum (ext ++ S)) 1); reflexivity|]. split; [discriminate|]. split; [intros []|].
    bin_intro. destruct P1 as (t1 & L1 & A1 & p & -> & D1 & R1 & _). destruct P2 as (t2 & L2 & A2 & q & -> & D2 & _). poki L1. poki A1. poki L2. poki A2. poki D1. poki D2. cbn [app sum] in L.
    cbn [sem_bin eval_op]. unfold two_d. pok. rewrite (deref_keep _ _ _ _ _ _ R1 A2), D1, D2. cbn [bind].
    rewrite arith_spec. destruct (sem_arith b0 z z0) as [y|]; cbn [bind]; [|reflexivity]. split; [reflexivity|]. eexists. split; [rewrite put_temp_ok by (pok; lia); pok; reflexivity|].
    destruct s as [sb sd sh sk su st]. poki L1. poki A1. poki L. pok. apply pushed_temp; [reflexivity|lia|lia|exact (keep_two _ _ _ _ _ A1 A2)|reflexivity].
  - (* comparisons *)
    destruct (pop_two ext2 ext1 S (N1 eq_refl) (N2 eq_refl)) as (n & m & ext & X).
    assert (X' : ext2 ++ ext1 ++ S = n :: m :: ext ++ S) by (rewrite app_assoc, X; reflexivity). rewrite X'.
    cbn [assign_op popr bind fst snd sum]. replace (n + (m + sum (ext ++ S)) - n - m) with (sum (ext ++ S)) by lia.
    eexists _, ext. split; [reflexivity|]. split; [discriminate|]. split; [intros []|].
    bin_intro. destruct P1 as (t1 & L1 & A1 & p & -> & D1 & R1 & _). destruct P2 as (t2 & L2 & A2 & q & -> & D2 & _). poki L1. poki A1. poki L2. poki A2. poki D1. poki D2.
    cbn [sem_bin eval_op]. unfold two_d. pok. rewrite (deref_keep _ _ _ _ _ _ R1 A2), D1, D2. cbn [bind]. rewrite compare_spec.
    split; [reflexivity|]. eexists. split; [reflexivity|].
    destruct s as [sb sd sh sk su st]. poki L1. poki A1. pok. apply pushed_val with (t := t2); [lia|exact (keep_two _ _ _ _ _ A1 A2)|reflexivity].
  - eexists _, (ext2 ++ ext1). split; [rewrite <- app_assoc; reflexivity|]. split; [discriminate|]. split; [intros []|].
    intros E cs v w lv lw s s1 s2 Tv Tw P1 P2 L. exact (HH (fun E => e_cmp E) E v w cs lv lw s s1 s2 Tv Tw P1 P2).
  - eexists _, (ext2 ++ ext1). split; [rewrite <- app_assoc; reflexivity|]. split; [discriminate|]. split; [intros []|].
    intros E cs v w lv lw s s1 s2 Tv Tw P1 P2 L. pose proof (HH (fun E a b => option_map negb (e_cmp E a b)) E v w cs lv lw s s1 s2 Tv Tw P1 P2) as X.
    destruct v; try discriminate Tv; destruct w; try discriminate Tw. cbn [sem_bin eval_op]. destruct (e_cmp E h h0); exact X.
  - eexists _, (ext2 ++ ext1). split; [rewrite <- app_assoc; reflexivity|]. split; [discriminate|]. split; [intros []|].
    intros E cs v w lv lw s s1 s2 Tv Tw P1 P2 L. exact (HU (fun E => e_ucmp E) E v w cs lv lw s s1 s2 Tv Tw P1 P2).
  - eexists _, (ext2 ++ ext1). split; [rewrite <- app_assoc; reflexivity|]. split; [discriminate|]. split; [intros []|].
    intros E cs v w lv lw s s1 s2 Tv Tw P1 P2 L. pose proof (HU (fun E a b => option_map negb (e_ucmp E a b)) E v w cs lv lw s s1 s2 Tv Tw P1 P2) as X.
    destruct v; try discriminate Tv; destruct w; try discriminate Tw. cbn [sem_bin eval_op]. destruct (e_ucmp E u u0); exact X.
  - eexists _, (ext2 ++ ext1). split; [rewrite <- app_assoc; reflexivity|]. split; [discriminate|]. split; [intros []|].
    intros E cs v w lv lw s s1 s2 Tv Tw P1 P2 L. pose proof (HB Bool.eqb E v w cs lv lw s s1 s2 Tv Tw P1 P2) as X.
    destruct v; try discriminate Tv; destruct w; try discriminate Tw. destruct b, b0; exact X.
  - eexists _, (ext2 ++ ext1). split; [rewrite <- app_assoc; reflexivity|]. split; [discriminate|]. split; [intros []|].
    intros E cs v w lv lw s s1 s2 Tv Tw P1 P2 L. pose proof (HB (fun a b => negb (Bool.eqb a b)) E v w cs lv lw s s1 s2 Tv Tw P1 P2) as X.
    destruct v; try discriminate Tv; destruct w; try discriminate Tw. destruct b, b0; exact X.
  - eexists _, (ext2 ++ ext1). split; [rewrite <- app_assoc; reflexivity|]. split; [discriminate|]. split; [intros []|].
    intros E cs v w lv lw s s1 s2 Tv Tw P1 P2 L. exact (HB andb E v w cs lv lw s s1 s2 Tv Tw P1 P2).
  - eexists _, (ext2 ++ ext1). split; [rewrite <- app_assoc; reflexivity|]. split; [discriminate|]. split; [intros []|].
    intros E cs v w lv lw s s1 s2 Tv Tw P1 P2 L. exact (HB orb E v w cs lv lw s s1 s2 Tv Tw P1 P2).
  - (* dereference of a header stack *)
    destruct ext2 as [|n ext2]; [destruct (N2 eq_refl); reflexivity|]. cbn [app assign_op popr bind fst snd sum].
    eexists _, (ext2 ++ ext1). split; [rewrite <- app_assoc; replace (n + sum (ext2 ++ ext1 ++ S) - n) with (sum (ext2 ++ ext1 ++ S)) by lia; reflexivity|]. split; [discriminate|]. split; [intros []|].
    bin_intro. destruct P1 as (t1 & L1 & A1 & ->). destruct P2 as (t2 & L2 & A2 & q & -> & D2 & _). poki L1. poki A1. poki L2. poki A2. poki D2.
    cbn [sem_bin eval_op]. pok. rewrite D2. cbn [bind]. rewrite get_size_spec. destruct (Z_lt_dec z 0); cbn [bind]; [reflexivity|]. pok. destruct (e_at E k (z mod two64)); cbn [bind]; [|reflexivity].
    split; [reflexivity|]. eexists. split; [reflexivity|].
    destruct s as [sb sd sh sk su st]. poki L1. poki A1. pok. apply pushed_val with (t := t2); [lia|exact (keep_two _ _ _ _ _ A1 A2)|reflexivity].
  - (* dereference of a union stack *)
    destruct ext2 as [|n ext2]; [destruct (N2 eq_refl); reflexivity|]. cbn [app assign_op popr bind fst snd sum].
    eexists _, (ext2 ++ ext1). split; [rewrite <- app_assoc; replace (n + sum (ext2 ++ ext1 ++ S) - n) with (sum (ext2 ++ ext1 ++ S)) by lia; reflexivity|]. split; [discriminate|]. split; [intros []|].
    bin_intro. destruct P1 as (t1 & L1 & A1 & ->). destruct P2 as (t2 & L2 & A2 & q & -> & D2 & _). poki L1. poki A1. poki L2. poki A2. poki D2.
    cbn [sem_bin eval_op]. pok. rewrite D2. cbn [bind]. rewrite get_size_spec. destruct (Z_lt_dec z 0); cbn [bind]; [reflexivity|]. pok. destruct (e_uat E k (z mod two64)); cbn [bind]; [|reflexivity].
    split; [reflexivity|]. eexists. split; [reflexivity|].
    destruct s as [sb sd sh sk su st]. poki L1. poki A1. pok. apply pushed_val with (t := t2); [lia|exact (keep_two _ _ _ _ _ A1 A2)|reflexivity].
Qed.

(** ** Compositions *)
Definition comp (t : ty) (c : list eop) (sem : env -> list Z -> Prop) (v : env -> option val) (lv : env -> option dptr) : Prop :=
  forall S cnt, exists p ext cnt', assign c (S, sum S) cnt = Some (p, (ext ++ S, sum (ext ++ S)), cnt') /\
    length p = length c /\ cnt <= cnt' /\ sum (ext ++ S) <= cnt' /\ (t = TData -> ext <> []) /\
    forall E cs, sem E cs -> (forall x, v E = Some x -> vty x = t) /\ does E cs (sum S) (sum (ext ++ S)) cnt' p (v E) (lv E).
Lemma comp_ext t c sem v lv (sem' : env -> list Z -> Prop) v' lv' : comp t c sem v lv -> (forall E cs, sem' E cs -> sem E cs) -> (forall E, v' E = v E) -> (forall E, v E <> None -> lv' E = lv E \/ lv' E = None) -> comp t c sem' v' lv'.
Proof.
  intros C Hs Hv Hl S cnt. destruct (C S cnt) as (p & ext & c' & A & Lp & Lc & Ls & N & D). exists p, ext, c'. repeat (split; [assumption|]).
  intros E cs Se. destruct (D E cs (Hs _ _ Se)) as [T Do]. rewrite Hv. split; [exact T|]. intros s L. specialize (Do s L). destruct (v E) as [x|] eqn:V; [|exact Do].
  destruct Do as (s' & P & X). exists s'. split; [|exact X]. destruct P as (t' & P1 & P2 & P3). exists t'. split; [exact P1|]. split; [exact P2|]. destruct x; try exact P3.
  destruct P3 as (q & Q1 & Q2 & Q3 & Q4). exists q. repeat (split; [assumption|]). intros q' Hq. destruct (Hl E) as [Z|Z]; [congruence| |]; [apply Q4|]; congruence.
Qed.
Definition un_op (semu : env -> val -> option val) (lvu : env -> val -> option dptr) (a t : ty) (op : eop) : Prop :=
  forall ext S, (a = TData -> ext <> []) ->
  exists o' ext', assign_op op (ext ++ S, sum (ext ++ S)) = Some (o', (ext' ++ S, sum (ext' ++ S))) /\ (t = TData -> ext' <> []) /\ ~ jump o' /\
  forall E cs v lv s s1, vty v = a -> pushed E cs (sum S) (sum (ext ++ S)) v lv s s1 -> sum (ext' ++ S) <= length (m_t s) ->
    match semu E v with
    | None => eval_op E cs o' s1 = None
    | Some w => vty w = t /\ exists s2, eval_op E cs o' s1 = Some s2 /\ pushed E cs (sum S) (sum (ext' ++ S)) w (lvu E v) s s2
    end.
Lemma comp_un t c sem v lv a semu lvu op : comp a c sem v lv -> un_op semu lvu a t op ->
  comp t (c ++ [op]) sem (fun E => x <- v E ;; semu E x) (fun E => x <- v E ;; lvu E x).
Proof.
  intros C U S cnt. destruct (C S cnt) as (p & ext & c' & A & Lp & Lc & Ls & N & D). destruct (U ext S N) as (o' & ext' & A' & N' & J & St).
  exists (p ++ [o']), ext', (Nat.max c' (sum (ext' ++ S))). split.
  { rewrite assign_app, A. cbn [bind fst snd assign]. rewrite A'. cbn [bind fst snd assign]. reflexivity. }
  split; [rewrite !app_length, Lp; reflexivity|]. split; [lia|]. split; [lia|]. split; [exact N'|].
  intros E cs Se. destruct (D E cs Se) as [T Do]. split.
  - intros x. destruct (v E) as [y|] eqn:V; cbn [bind]; [|discriminate]. intros Hx. specialize (T y eq_refl).
    (* typing comes from the step on some state *)
    destruct (Do (mk_mst [] [] [] [] [] (repeat 0%Z (Nat.max c' (sum (ext' ++ S)))))) as (s' & P & _); [pok; rewrite repeat_length; lia|].
    assert (L : sum (ext' ++ S) <= length (m_t (mk_mst [] [] [] [] [] (repeat 0%Z (Nat.max c' (sum (ext' ++ S))))))) by (pok; rewrite repeat_length; lia).
    pose proof (St E cs y (lv E) _ s' T P L) as X. rewrite Hx in X. tauto.
  - intros s L. specialize (Do s ltac:(lia)). destruct (v E) as [y|] eqn:V; cbn [bind].
    + destruct Do as (s' & P & X). pose proof (St E cs y (lv E) s s' (T y eq_refl) P ltac:(lia)) as Y. destruct (semu E y).
      * destruct Y as (_ & s2 & Ev & P2). exists s2. split; [exact P2|]. intros rest. rewrite <- app_assoc, X. cbn [app]. rewrite exec_op by exact J. rewrite Ev. reflexivity.
      * intros rest. rewrite <- app_assoc, X. cbn [app]. rewrite exec_op by exact J. rewrite Y. reflexivity.
    + intros rest. rewrite <- app_assoc. apply Do.
Qed.
Lemma comp_bin t c1 c2 sem1 sem2 v1 v2 lv1 lv2 a b semb op : comp a c1 sem1 v1 lv1 -> comp b c2 sem2 v2 lv2 -> bin_op semb a b t op ->
  comp t (c1 ++ c2 ++ [op]) (fun E cs => sem1 E cs /\ sem2 E cs) (fun E => x <- v1 E ;; y <- v2 E ;; semb E x y) (fun _ => None).
Proof.
  intros C1 C2 B S cnt. destruct (C1 S cnt) as (p1 & ext1 & n1 & A1 & Lp1 & Lc1 & Ls1 & N1 & D1). destruct (C2 (ext1 ++ S) n1) as (p2 & ext2 & n2 & A2 & Lp2 & Lc2 & Ls2 & N2 & D2).
  destruct (B ext1 ext2 S N1 N2) as (o' & ext' & A' & N' & J & St).
  exists (p1 ++ p2 ++ [o']), ext', (Nat.max n2 (sum (ext' ++ S))). split.
  { rewrite assign_app, A1. cbn [bind fst snd]. rewrite assign_app, A2. cbn [bind fst snd assign]. rewrite A'. cbn [bind fst snd assign]. reflexivity. }
  split; [rewrite !app_length, Lp1, Lp2; reflexivity|]. split; [lia|]. split; [lia|]. split; [exact N'|].
  intros E cs [Se1 Se2]. destruct (D1 E cs Se1) as [T1 Do1]. destruct (D2 E cs Se2) as [T2 Do2].
  assert (MAIN : forall s, Nat.max n2 (sum (ext' ++ S)) <= length (m_t s) ->
     match (x <- v1 E ;; y <- v2 E ;; semb E x y) with
     | None => forall rest, exec E cs ((p1 ++ p2 ++ [o']) ++ rest) 0 s = None
     | Some w => vty w = t /\ exists s', pushed E cs (sum S) (sum (ext' ++ S)) w None s s' /\ forall rest, exec E cs ((p1 ++ p2 ++ [o']) ++ rest) 0 s = exec E cs rest 0 s'
     end).
  { intros s L. specialize (Do1 s ltac:(lia)). destruct (v1 E) as [x|] eqn:V1; cbn [bind].
    - destruct Do1 as (s1 & P1 & X1). assert (Lt : length (m_t s1) = length (m_t s)) by (destruct P1 as (t' & Q & _ & M); destruct x; [destruct M as (? & -> & _)| | | | |]; try rewrite M; exact Q).
      specialize (Do2 s1 ltac:(lia)). destruct (v2 E) as [y|] eqn:V2; cbn [bind].
      + destruct Do2 as (s2 & P2 & X2). pose proof (St E cs x y _ _ s s1 s2 (T1 x eq_refl) (T2 y eq_refl) P1 P2 ltac:(lia)) as Y. destruct (semb E x y).
        * destruct Y as (Ty & s3 & Ev & P3). split; [exact Ty|]. exists s3. split; [exact P3|]. intros rest. rewrite <- !app_assoc, X1, X2. cbn [app]. rewrite exec_op by exact J. rewrite Ev. reflexivity.
        * intros rest. rewrite <- !app_assoc, X1, X2. cbn [app]. rewrite exec_op by exact J. rewrite Y. reflexivity.
      + intros rest. rewrite <- !app_assoc, X1. apply Do2.
    - intros rest. rewrite <- !app_assoc. apply Do1. }
  split.
  - intros w Hw. specialize (MAIN (mk_mst [] [] [] [] [] (repeat 0%Z (Nat.max n2 (sum (ext' ++ S)))))). rewrite Hw in MAIN. apply MAIN. pok. rewrite repeat_length. lia.
  - intros s L. specialize (MAIN s L). destruct (x <- v1 E ;; y <- v2 E ;; semb E x y); tauto.
Qed.
Lemma pushed_weaken E cs lo hi lo' hi' v lv s s' : pushed E cs lo hi v lv s s' -> lo' <= lo -> hi <= hi' -> pushed E cs lo' hi' v lv s s'.
Proof.
  intros (t' & L & A & M) L1 L2. exists t'. split; [exact L|]. split; [intros r R; apply A; lia|]. destruct v; try exact M.
  destruct M as (p & P1 & P2 & P3 & P4). exists p. repeat (split; [assumption|]). split; [intros r R; specialize (P3 r R); lia|exact P4].
Qed.
Lemma comp_tern t c l r semc seml semr vc vl vr lc ll lr : comp TBool c semc vc lc -> comp t l seml vl ll -> comp t r semr vr lr ->
  comp t (c ++ [Ternary; Skip (length l + 1)] ++ l ++ [Skip (length r)] ++ r) (fun E cs => semc E cs /\ seml E cs /\ semr E cs)
    (fun E => match vc E with Some (VB true) => vl E | Some (VB false) => vr E | _ => None end)
    (fun E => match vc E with Some (VB true) => ll E | Some (VB false) => lr E | _ => None end).
Proof.
  intros Cc Cl Cr S cnt. destruct (Cc S cnt) as (pc & extc & nc & Ac & Lpc & Lcc & Lsc & Nc & Dc).
  destruct (Cl (extc ++ S) (Nat.max nc (sum (extc ++ S)))) as (pl & extl & nl & Al & Lpl & Lcl & Lsl & Nl & Dl).
  destruct (Cr (extl ++ extc ++ S) (Nat.max nl (sum (extl ++ extc ++ S)))) as (pr & extr & nr & Ar & Lpr & Lcr & Lsr & Nr & Dr).
  exists (pc ++ [Ternary; Skip (length l + 1)] ++ pl ++ [Skip (length r)] ++ pr), (extr ++ extl ++ extc), nr. split.
  { rewrite assign_app, Ac. cbn [bind fst snd app assign assign_op]. rewrite Nat.max_id || idtac. replace (Nat.max (Nat.max nc (sum (extc ++ S))) (sum (extc ++ S))) with (Nat.max nc (sum (extc ++ S))) by lia.
    rewrite assign_app, Al. cbn [bind fst snd app assign assign_op]. rewrite Ar. cbn [bind fst snd]. rewrite <- !app_assoc. reflexivity. }
  split; [cbn [app]; rewrite !app_length; cbn [length]; rewrite !app_length; cbn [length]; lia|]. split; [lia|]. rewrite <- !app_assoc. split; [exact Lsr|].
  split; [intros Z; specialize (Nr Z); destruct extr; [congruence|discriminate]|].
  intros E cs (Sc & Sl & Sr). destruct (Dc E cs Sc) as [Tc Doc]. destruct (Dl E cs Sl) as [Tl Dol]. destruct (Dr E cs Sr) as [Tr Dor]. split.
  - intros x. destruct (vc E) as [[]|]; try discriminate. destruct b; [apply Tl|apply Tr].
  - intros s L. specialize (Doc s ltac:(lia)). destruct (vc E) as [x|]; [|intros rest; rewrite <- !app_assoc; apply Doc].
    specialize (Tc x eq_refl). destruct x; try discriminate Tc. destruct Doc as (s1 & (t1 & L1 & A1 & ->) & X1). destruct b.
    + specialize (Dol (mk_mst (m_b s) (m_d s) (m_h s) (m_s s) (m_u s) t1)). poki Dol. specialize (Dol ltac:(lia)). destruct (vl E) as [x|].
      * destruct Dol as (s2 & P2 & X2). exists s2. split.
        -- destruct P2 as (t2 & L2 & A2 & M2). poki L2. poki A2. exists t2. split; [congruence|]. split; [intros q Hq; rewrite A2 by (rewrite sum_app; lia); apply A1; exact Hq|].
           destruct x; poki M2; try exact M2. destruct M2 as (p & Q1 & Q2 & Q3 & Q4). exists p. repeat (split; [assumption|]). split; [|exact Q4].
           intros q Hq. specialize (Q3 q Hq). rewrite sum_app. lia.
        -- intros rest. rewrite <- !app_assoc, X1. cbn [app exec]. pok. rewrite X2. cbn [app exec]. apply exec_skip. auto.
      * intros rest. rewrite <- !app_assoc, X1. cbn [app exec]. pok. apply Dol.
    + assert (SK : forall rest, exec E cs ((pc ++ [Ternary; Skip (length l + 1)] ++ pl ++ [Skip (length r)] ++ pr) ++ rest) 0 s = exec E cs (pr ++ rest) 0 (mk_mst (m_b s) (m_d s) (m_h s) (m_s s) (m_u s) t1)).
      { intros rest. rewrite <- !app_assoc, X1. cbn [app exec]. pok.
        change (pl ++ Skip (length r) :: pr ++ rest) with (pl ++ [Skip (length r)] ++ pr ++ rest). rewrite (app_assoc pl). apply exec_skip. rewrite app_length. cbn. lia. }
      specialize (Dor (mk_mst (m_b s) (m_d s) (m_h s) (m_s s) (m_u s) t1)). poki Dor. specialize (Dor ltac:(lia)). destruct (vr E) as [x|].
      * destruct Dor as (s2 & P2 & X2). exists s2. split.
        -- destruct P2 as (t2 & L2 & A2 & M2). poki L2. poki A2. exists t2. split; [congruence|]. split; [intros q Hq; rewrite A2 by (rewrite !sum_app; lia); apply A1; exact Hq|].
           destruct x; poki M2; exact M2.
        -- intros rest. rewrite SK. apply X2.
      * intros rest. rewrite SK. apply Dor.
Qed.
(** A value loaded without operands *)
Lemma comp_leaf t o (sem : env -> list Z -> Prop) v lv : ~ jump o -> (forall s, assign_op o s = Some (o, if ty_eqb t TData then (0 :: fst s, snd s) else s)) ->
  (forall E cs, sem E cs -> (forall x, v E = Some x -> vty x = t) /\ forall s, match v E with None => eval_op E cs o s = None | Some x => exists s', eval_op E cs o s = Some s' /\ forall lo hi, pushed E cs lo hi x (lv E) s s' end) ->
  comp t [o] sem v lv.
Proof.
  intros J A D S cnt. exists [o], (if ty_eqb t TData then [0] else []), (Nat.max cnt (sum S)).
  split; [cbn [assign]; rewrite A; destruct (ty_eqb t TData); reflexivity|]. split; [reflexivity|]. split; [lia|]. split; [destruct (ty_eqb t TData); cbn; lia|]. split; [intros ->; discriminate|].
  intros E cs Se. destruct (D E cs Se) as [T X]. split; [exact T|]. intros s L. specialize (X s). destruct (v E) as [x|].
  - destruct X as (s' & Ev & P). exists s'. split; [apply P|]. intros rest. cbn [app]. rewrite exec_op by exact J. rewrite Ev. reflexivity.
  - intros rest. cbn [app]. rewrite exec_op by exact J. rewrite X. reflexivity.
Qed.

(** ** Every tree *)
Definition has (k : nat) (ks : list Z) (cs : list Z) : Prop := forall i z, nth_error ks i = Some z -> nth_error cs (k + i) = Some z.
Lemma has_app k a b cs : has k (a ++ b) cs -> has k a cs /\ has (k + length a) b cs.
Proof.
  intros Hh. split; intros i z Hi.
  - apply Hh. rewrite nth_error_app1; [exact Hi|]. apply nth_error_Some. congruence.
  - rewrite <- Nat.add_assoc. apply Hh. rewrite nth_error_app2 by lia. replace (length a + i - length a) with i by lia. exact Hi.
Qed.
Ltac leaf := apply comp_leaf; [intros []|reflexivity|]; intros E cs Se.
Lemma load_pushed E cs s p z lv : deref E cs (m_t s) p = Some z -> (forall r, p <> PTemp r) -> (forall q, lv = Some q -> p = q) ->
  load E cs s p = Some (push_d s p) /\ forall lo hi, pushed E cs lo hi (VD z) lv s (push_d s p).
Proof.
  intros D N Q. split; [unfold load; rewrite D; reflexivity|]. intros lo hi. destruct s as [sb sd sh sk su st]. unfold push_d. poki D. pok. apply pushed_val with (t := st); [reflexivity|reflexivity|]. exists p. auto.
Qed.
Lemma un_access f : un_op (fun E v => match v with VH h => z <- e_field E h f ;; Some (VD z) | _ => None end) (fun E v => match v with VH h => Some (PField h f) | _ => None end) THeader TData (AccessField f).
Proof.
  intros ext S _. exists (AccessField f), (0 :: ext). split; [reflexivity|]. split; [discriminate|]. split; [intros []|].
  intros E cs v lv s s1 T P L. destruct v; try discriminate T. destruct P as (t1 & Lt & Ag & ->). poki Lt. poki Ag. cbn [eval_op]. pok. unfold load. pok. cbn [deref].
  destruct (e_field E h f) as [z|] eqn:Ef; cbn [bind]; [|reflexivity]. split; [reflexivity|]. eexists. split; [reflexivity|].
  destruct s as [sb sd sh sk su st]. poki Lt. poki Ag. pok. apply pushed_val with (t := t1); [exact Lt|exact Ag|]. exists (PField h f). split; [reflexivity|]. split; [exact Ef|]. split; [discriminate|]. congruence.
Qed.
Lemma un_member i : un_op (fun E v => match v with VU u => h <- e_member E u i ;; Some (VH h) | _ => None end) (fun _ _ => None) TUnion THeader (AccessUnion i).
Proof.
  intros ext S _. exists (AccessUnion i), ext. split; [reflexivity|]. split; [discriminate|]. split; [intros []|].
  intros E cs v lv s s1 T P L. destruct v; try discriminate T. destruct P as (t1 & Lt & Ag & ->). poki Lt. poki Ag. cbn [eval_op]. pok.
  destruct (e_member E u i) as [z|] eqn:Ef; cbn [bind]; [|reflexivity]. split; [reflexivity|]. eexists. split; [reflexivity|].
  destruct s as [sb sd sh sk su st]. poki Lt. poki Ag. pok. apply pushed_val with (t := t1); [exact Lt|exact Ag|reflexivity].
Qed.
Lemma un_reg a : un_op (fun E v => match v with VD z => if Z_lt_dec z 0 then None else y <- e_reg E a (z mod two64)%Z ;; Some (VD y) | _ => None end)
  (fun E v => match v with VD z => if Z_lt_dec z 0 then None else Some (PReg a (z mod two64)%Z) | _ => None end) TData TData (LoadRegGen a).
Proof.
  intros ext S NE. destruct ext as [|n ext]; [destruct (NE eq_refl); reflexivity|]. cbn [assign_op app popr bind fst snd sum].
  exists (LoadRegGen a), (0 :: ext). split; [replace (n + sum (ext ++ S) - n) with (sum (ext ++ S)) by lia; reflexivity|]. split; [discriminate|]. split; [intros []|].
  intros E cs v lv s s1 T P L. destruct v; try discriminate T. destruct P as (t1 & Lt & Ag & p & -> & D & _). poki Lt. poki Ag. cbn [eval_op]. pok. rewrite D. cbn [bind]. rewrite get_size_spec.
  destruct (Z_lt_dec z 0); cbn [bind]; [reflexivity|]. unfold load. pok. cbn [deref].
  destruct (e_reg E a (z mod two64)) as [y|] eqn:Ef; cbn [bind]; [|reflexivity]. split; [reflexivity|]. eexists. split; [reflexivity|].
  destruct s as [sb sd sh sk su st]. poki Lt. poki Ag. pok. apply pushed_val with (t := t1); [exact Lt|exact Ag|]. exists (PReg a (z mod two64)%Z). split; [reflexivity|]. split; [exact Ef|]. split; [discriminate|]. congruence.
Qed.
Lemma not_null j : j <> JNull -> is_null j = false.
Proof. destruct j; auto; congruence. Qed.
Lemma value_un_r E o a t r : un_sig o = Some (a, t) -> value E (JOp o JNull r) = (x <- value E r ;; sem_un E o x).
Proof. intros U. cbn [value is_null]. destruct o; cbn [un_sig] in U; try discriminate; reflexivity. Qed.
Lemma value_un_l E o a t l : un_sig o = Some (a, t) -> l <> JNull -> value E (JOp o l JNull) = (x <- value E l ;; sem_un E o x).
Proof. intros _ N. cbn [value]. rewrite (not_null _ N). reflexivity. Qed.
Lemma value_bin E o l r : l <> JNull -> r <> JNull -> value E (JOp o l r) = (x <- value E l ;; y <- value E r ;; sem_bin E o x y).
Proof. intros Nl Nr. cbn [value]. rewrite (not_null _ Nl), (not_null _ Nr). reflexivity. Qed.
Lemma eq_step neg t o : eq_opcode neg t = Some o -> bin_op (fun E v w => sem_eq E neg v w) t t TBool o.
Proof.
  intros Q ext1 ext2 S N1 N2.
  assert (X : exists jo, o = opcode jo /\ bin_sig jo = Some (t, t, TBool) /\ forall E v w, vty v = t -> sem_eq E neg v w = sem_bin E jo v w).
  { destruct t; cbn in Q; try discriminate; injection Q as <-; [exists (OCmp (if neg then CNeq else CEq))|exists (if neg then ONeqH else OEqH)|exists (if neg then ONeqB else OEqB)|exists (if neg then ONeqU else OEqU)];
    (split; [destruct neg; reflexivity|]); (split; [destruct neg; reflexivity|]); intros E v w Tv; destruct v; try discriminate Tv; reflexivity. }
  destruct X as (jo & -> & Sg & Eq). destruct (bin_step _ _ _ _ Sg ext1 ext2 S N1 N2) as (o' & ext' & A & N & J & St). exists o', ext'. repeat (split; [assumption|]).
  intros E cs v w lv lw s s1 s2 Tv Tw P1 P2 L. rewrite (Eq E v w Tv). exact (St E cs v w lv lw s s1 s2 Tv Tw P1 P2 L).
Qed.
Lemma compiled api j t f ks : emits api j t f ks -> forall k, comp t (f k) (fun _ cs => has k ks cs) (fun E => value E j) (fun E => refers E j).
Proof.
  induction 1; intros k0.
  - eapply comp_ext; [pose proof (comp_tern t (fc k0) (fl (k0 + length kc)) (fr (k0 + length kc + length kl)) _ _ _ _ _ _ _ _ _ (IHemits1 k0) (IHemits2 _) (IHemits3 _)) as X|..].
    + rewrite (emits_len _ _ _ _ _ H0), (emits_len _ _ _ _ _ H1) in X. exact X.
    + intros E cs Hh. cbn. apply has_app in Hh. destruct Hh as [Hc Hh]. apply has_app in Hh. tauto.
    + reflexivity.
    + intros E _. left. reflexivity.
  - eapply comp_ext; [exact (comp_bin _ _ _ _ _ _ _ _ _ _ _ _ _ (IHemits1 k0) (IHemits2 (k0 + length kl)) (eq_step _ _ _ H))|..].
    + intros E cs Hh. cbn. apply has_app in Hh. exact Hh.
    + reflexivity.
    + intros E _. left. reflexivity.
  - eapply comp_ext; [exact (comp_un _ _ _ _ _ _ _ _ _ (IHemits k0) (un_access f))|auto| |].
    + intros E. cbn [value]. destruct (value E l) as [[]|]; reflexivity.
    + intros E _. left. cbn [refers]. destruct (value E l) as [[]|]; reflexivity.
  - eapply comp_ext; [exact (comp_un _ _ _ _ _ _ _ _ _ (IHemits k0) (un_member i))|auto| |].
    + intros E. cbn [value]. destruct (value E l) as [[]|]; reflexivity.
    + intros E _. right. reflexivity.
  - eapply comp_ext; [exact (comp_un _ _ _ _ _ _ _ (fun _ _ => None) _ (IHemits k0) (un_step _ _ _ H))|auto| |].
    + intros E. exact (value_un_r _ _ _ _ _ H).
    + intros E _. right. reflexivity.
  - eapply comp_ext; [exact (comp_un _ _ _ _ _ _ _ (fun _ _ => None) _ (IHemits k0) (un_step _ _ _ H))|auto| |].
    + intros E. refine (value_un_l _ _ _ _ _ H _). eapply emits_notnull; eauto.
    + intros E _. right. reflexivity.
  - assert (L : comp TData [LoadConst k0] (fun _ cs => has k0 [0%Z] cs) (fun _ => Some (VD 0)) (fun _ => None)).
    { leaf. split; [intros x [= <-]; reflexivity|]. intros s. cbn [eval_op]. destruct (load_pushed E cs s (PConst k0) 0%Z None) as [X Y]; [|discriminate|discriminate|].
      - cbn [deref]. specialize (Se 0 0%Z eq_refl). rewrite Nat.add_0_r in Se. exact Se.
      - eexists. split; [exact X|exact Y]. }
    eapply comp_ext; [exact (comp_bin _ _ _ _ _ _ _ _ _ _ _ _ _ L (IHemits (k0 + 1)) (bin_step (OBin o) _ _ _ eq_refl))|..].
    + intros E cs Hh. cbn. apply (has_app k0 [0%Z] kr) in Hh. exact Hh.
    + intros E. cbn [bind]. destruct H as [-> | ->]; reflexivity.
    + intros E _. left. reflexivity.
  - eapply comp_ext; [exact (comp_bin _ _ _ _ _ _ _ _ _ _ _ _ _ (IHemits1 k0) (IHemits2 (k0 + length kl)) (bin_step _ _ _ _ H))|..].
    + intros E cs Hh. cbn. apply has_app in Hh. exact Hh.
    + intros E. apply value_bin; eapply emits_notnull; eauto.
    + intros E _. left. reflexivity.
  - eapply comp_ext; [exact (comp_un _ _ _ _ _ _ _ _ _ (IHemits k0) (un_reg a))|auto| |].
    + intros E. cbn [value]. destruct (value E i) as [[]|]; reflexivity.
    + intros E _. left. cbn [refers]. destruct (value E i) as [[]|]; reflexivity.
  - leaf. cbn [value]. split; [intros x [= <-]; reflexivity|]. intros s. cbn [eval_op]. destruct (load_pushed E cs s (PConst k0) v None) as [X Y]; [|discriminate|discriminate|].
    + cbn [deref]. specialize (Se 0 v eq_refl). rewrite Nat.add_0_r in Se. exact Se.
    + eexists. split; [exact X|exact Y].
  - leaf. cbn [value refers]. split; [intros x [= <-]; reflexivity|]. intros s. eexists. split; [reflexivity|]. intros lo hi. destruct s as [sb sd sh sk su st]. eapply pushed_val; reflexivity.
  - leaf. cbn [value refers]. destruct (e_field E h f) as [z|] eqn:Ef; cbn [bind].
    + split; [intros x [= <-]; reflexivity|]. intros s. cbn [eval_op]. destruct (load_pushed E cs s (PField h f) z (Some (PField h f))) as [X Y]; [exact Ef|discriminate|congruence|]. eexists. split; [exact X|exact Y].
    + split; [discriminate|]. intros s. cbn [eval_op]. unfold load. cbn [deref]. rewrite Ef. reflexivity.
  - leaf. cbn [value refers]. split; [intros x [= <-]; reflexivity|]. intros s. eexists. split; [reflexivity|]. intros lo hi. destruct s as [sb sd sh sk su st]. eapply pushed_val; reflexivity.
  - leaf. cbn [value refers]. destruct (e_local E i) as [z|] eqn:Ef; cbn [bind].
    + split; [intros x [= <-]; reflexivity|]. intros s. cbn [eval_op]. destruct (load_pushed E cs s (PLocal i) z None) as [X Y]; [exact Ef|discriminate|congruence|]. eexists. split; [exact X|exact Y].
    + split; [discriminate|]. intros s. cbn [eval_op]. unfold load. cbn [deref]. rewrite Ef. reflexivity.
  - leaf. cbn [value refers]. destruct (e_reg E a (Z.of_nat i)) as [z|] eqn:Ef; cbn [bind].
    + split; [intros x [= <-]; reflexivity|]. intros s. cbn [eval_op]. destruct (load_pushed E cs s (PReg a (Z.of_nat i)) z (Some (PReg a (Z.of_nat i)))) as [X Y]; [exact Ef|discriminate|congruence|]. eexists. split; [exact X|exact Y].
    + split; [discriminate|]. intros s. cbn [eval_op]. unfold load. cbn [deref]. rewrite Ef. reflexivity.
  - leaf. cbn [value refers]. split; [intros x [= <-]; reflexivity|]. intros s. eexists. split; [reflexivity|]. intros lo hi. destruct s as [sb sd sh sk su st]. eapply pushed_val; reflexivity.
  - leaf. cbn [value refers]. cbn [eval_op]. destruct (e_last E k) as [h|]; cbn [bind]; [|split; [discriminate|reflexivity]]. destruct (e_field E h f) as [z|] eqn:Ef; cbn [bind].
    + split; [intros x [= <-]; reflexivity|]. intros s. destruct (load_pushed E cs s (PField h f) z (Some (PField h f))) as [X Y]; [exact Ef|discriminate|congruence|]. eexists. split; [exact X|exact Y].
    + split; [discriminate|]. intros s. unfold load. cbn [deref]. rewrite Ef. reflexivity.
  - leaf. cbn [value refers]. split; [intros x [= <-]; reflexivity|]. intros s. eexists. split; [reflexivity|]. intros lo hi. destruct s as [sb sd sh sk su st]. eapply pushed_val; reflexivity.
  - leaf. cbn [value refers]. split; [intros x [= <-]; reflexivity|]. intros s. eexists. split; [reflexivity|]. intros lo hi. destruct s as [sb sd sh sk su st]. eapply pushed_val; reflexivity.
Qed.

(** ** Resolving a length expression *)
Fixpoint subst_local (h : nat) (j : jexp) : jexp :=
  match j with
  | JLocal i => JField h i
  | JTern c l r => JTern (subst_local h c) (subst_local h l) (subst_local h r)
  | JEq n l r => JEq n (subst_local h l) (subst_local h r)
  | JOp o l r => JOp o (subst_local h l) (subst_local h r)
  | JAccess l f => JAccess (subst_local h l) f
  | JAccessU l i => JAccessU (subst_local h l) i
  | JRegGen a i => JRegGen a (subst_local h i)
  | _ => j
  end.
Definition rex (h : nat) (x : expr) : expr := (map (resolve_op h) (fst x), snd x).
Definition rext (h : nat) (x : expr * ty) : expr * ty := (rex h (fst x), snd x).
Lemma rex_op h x o : resolve_op h o = o -> push_op (rex h x) o = rex h (push_op x o).
Proof. intros R. unfold push_op, rex. cbn [fst snd]. rewrite map_app. cbn [map]. rewrite R. reflexivity. Qed.
Lemma rex_append h x e : append_expr (rex h x) (rex h e) = rex h (append_expr x e).
Proof. unfold append_expr, rex. cbn [fst snd]. rewrite map_app, !map_map. f_equal. f_equal. apply map_ext. intros o. destruct o; reflexivity. Qed.
Lemma rex_ternary h x a b : push_ternary (rex h x) (rex h a) (rex h b) = rex h (push_ternary x a b).
Proof.
  unfold push_ternary. assert (L : forall y, length (fst (rex h y)) = length (fst y)) by (intros y; apply map_length). rewrite !L.
  rewrite (rex_op h x Ternary eq_refl), (rex_op h _ (Skip (length (fst a) + 1)) eq_refl), rex_append, (rex_op h _ (Skip (length (fst b))) eq_refl), rex_append. reflexivity.
Qed.
Lemma subst_null h j : is_null (subst_local h j) = is_null j.
Proof. destruct j; reflexivity. Qed.
Definition signed (o : jop) : bool := match o with OBin BAdd | OBin BSub => true | _ => false end.
Lemma build_op api o l r x : build api (JOp o l r) x =
  (x1 <- (if signed o && is_null l then Some (push_const x 0%Z, TUnknown) else build api l x) ;; x2 <- build api r (fst x1) ;; Some (push_op (fst x2) (opcode o), opcode_type o)).
Proof. destruct o as [[]| | | | | | | | | | | | | | | | | | |]; try reflexivity; destruct l; reflexivity. Qed.
Lemma res_opcode h o : resolve_op h (opcode o) = opcode o.
Proof. destruct o; reflexivity. Qed.
Lemma res_eq_opcode h n t o : eq_opcode n t = Some o -> resolve_op h o = o.
Proof. destruct t; cbn; try discriminate; destruct n; intros [= <-]; reflexivity. Qed.
Lemma build_subst api h j : forall x, build api (subst_local h j) (rex h x) = option_map (rext h) (build api j x).
Proof.
  assert (Z : forall y : expr, ([], []) = rex h ([], [])) by reflexivity.
  induction j; intros x; cbn [subst_local].
  1: reflexivity.
  5: { rewrite !build_op, subst_null. destruct (signed o && is_null j1).
       - cbn [bind fst]. replace (push_const (rex h x) 0%Z) with (rex h (push_const x 0%Z)) by (unfold rex, push_const; cbn [fst snd]; rewrite map_app; reflexivity).
         rewrite IHj2. destruct (build api j2 (push_const x 0%Z)) as [[x2 t2]|]; cbn [bind option_map rext fst snd]; [|reflexivity]. rewrite (rex_op h x2 _ (res_opcode h o)). reflexivity.
       - rewrite IHj1. destruct (build api j1 x) as [[x1 t1]|]; cbn [bind option_map rext fst snd]; [|reflexivity].
         rewrite IHj2. destruct (build api j2 x1) as [[x2 t2]|]; cbn [bind option_map rext fst snd]; [|reflexivity]. rewrite (rex_op h x2 _ (res_opcode h o)). reflexivity. }
  - cbn [build]. rewrite IHj1. destruct (build api j1 x) as [[x1 t1]|]; cbn [bind option_map rext fst snd]; [|reflexivity].
    rewrite (Z x) at 1. rewrite IHj2. destruct (build api j2 ([], [])) as [[x2 t2]|]; cbn [bind option_map rext fst snd]; [|reflexivity].
    rewrite (Z x) at 1. rewrite IHj3. destruct (build api j3 ([], [])) as [[x3 t3]|]; cbn [bind option_map rext fst snd]; [|reflexivity].
    destruct (ty_eqb t2 t3); [|reflexivity]. rewrite rex_ternary. reflexivity.
  - cbn [build]. rewrite IHj1. destruct (build api j1 x) as [[x1 t1]|]; cbn [bind option_map rext fst snd]; [|reflexivity].
    rewrite IHj2. destruct (build api j2 x1) as [[x2 t2]|]; cbn [bind option_map rext fst snd]; [|reflexivity].
    destruct (ty_eqb t1 t2); [|reflexivity]. destruct (eq_opcode neg t1) as [o|] eqn:Q; cbn [bind option_map rext fst snd]; [|reflexivity]. rewrite (rex_op h x2 o (res_eq_opcode _ _ _ _ Q)). reflexivity.
  - cbn [build]. rewrite IHj. destruct (build api j x) as [[x1 t1]|]; cbn [bind option_map rext fst snd]; [|reflexivity]. destruct (ty_eqb t1 THeader); [|reflexivity].
    rewrite (rex_op h x1 (AccessField f) eq_refl). reflexivity.
  - cbn [build]. rewrite IHj. destruct (build api j x) as [[x1 t1]|]; cbn [bind option_map rext fst snd]; [|reflexivity]. destruct (ty_eqb t1 TUnion); [|reflexivity].
    rewrite (rex_op h x1 (if api then AccessUnion i else AccessField i)) by (destruct api; reflexivity). reflexivity.
  - cbn [build option_map rext fst snd]. rewrite (rex_op h x (LoadHeader h0) eq_refl). reflexivity.
  - cbn [build option_map rext fst snd]. rewrite (rex_op h x (LoadField h0 f) eq_refl). reflexivity.
  - cbn [build option_map rext fst snd]. rewrite (rex_op h x (LoadBool b) eq_refl). reflexivity.
  - cbn [build option_map]. unfold rext, rex, push_const; cbn [fst snd]; rewrite map_app; reflexivity.
  - cbn [build option_map]. unfold rext, rex, push_op; cbn [fst snd]; rewrite map_app; reflexivity.
  - cbn [build option_map rext fst snd]. rewrite (rex_op h x (LoadRegRef a i) eq_refl). reflexivity.
  - cbn [build]. rewrite IHj. destruct (build api j x) as [[x1 t1]|]; cbn [bind option_map rext fst snd]; [|reflexivity]. rewrite (rex_op h x1 (LoadRegGen a) eq_refl). reflexivity.
  - cbn [build option_map rext fst snd]. rewrite (rex_op h x (LoadStack k) eq_refl). reflexivity.
  - cbn [build option_map rext fst snd]. rewrite (rex_op h x (LoadLast k f) eq_refl). reflexivity.
  - cbn [build option_map rext fst snd]. rewrite (rex_op h x (LoadUnion u) eq_refl). reflexivity.
  - cbn [build option_map rext fst snd]. rewrite (rex_op h x (LoadUStack k) eq_refl). reflexivity.
Qed.
Lemma assign_op_res h o s : assign_op (resolve_op h o) s = option_map (fun q => (resolve_op h (fst q), snd q)) (assign_op o s).
Proof.
  destruct s as [l n]. destruct o; try reflexivity; cbn [resolve_op assign_op]; unfold popr; cbn [fst snd];
  (destruct l as [|y l]; [reflexivity|]); cbn [bind fst snd]; try reflexivity; destruct l as [|y' l]; cbn [bind fst snd]; reflexivity.
Qed.
Lemma assign_res h ops : forall s c, assign (map (resolve_op h) ops) s c = option_map (fun q => (map (resolve_op h) (fst (fst q)), snd (fst q), snd q)) (assign ops s c).
Proof.
  induction ops as [|o ops IH]; intros s c; cbn [map assign]; [reflexivity|]. rewrite assign_op_res. destruct (assign_op o s) as [[o' s']|]; cbn [option_map bind fst snd]; [|reflexivity].
  rewrite IH. destruct (assign ops s' _) as [[[p s2] c2]|]; reflexivity.
Qed.
Lemma compile_subst api h j : compile api (subst_local h j) = option_map (resolve h) (compile api j).
Proof.
  unfold compile. change ([], []) with (rex h ([], [])) at 1. rewrite build_subst. destruct (build api j ([], [])) as [[x t]|]; cbn [option_map bind fst snd rext]; [|reflexivity].
  unfold finish. cbn [rex fst snd]. rewrite assign_res. destruct (assign (fst x) ([], 0) 0) as [[[p s2] c2]|]; reflexivity.
Qed.
Definition with_locals (E : env) (l : nat -> option Z) : env :=
  mk_env (e_field E) (e_last E) l (e_reg E) (e_valid E) (e_cmp E) (e_uvalid E) (e_ucmp E) (e_at E) (e_uat E) (e_member E) (e_count E).
Lemma value_subst E h j : value E (subst_local h j) = value (with_locals E (e_field E h)) j.
Proof.
  induction j; cbn [subst_local value]; try reflexivity.
  - rewrite IHj1, IHj2, IHj3. reflexivity.
  - rewrite IHj1, IHj2. reflexivity.
  - rewrite IHj. reflexivity.
  - rewrite IHj. reflexivity.
  - rewrite !subst_null, IHj1, IHj2. reflexivity.
  - rewrite IHj. reflexivity.
Qed.
Lemma subst_ty h j t : has_ty j t -> has_ty (subst_local h j) t.
Proof. induction 1; cbn [subst_local]; [apply t_tern|eapply t_eq|apply t_access|apply t_accessu|eapply t_un_r|eapply t_un_l|apply t_sign|eapply t_bin|constructor..]; eauto. Qed.
Lemma subst_no_member h j : no_member j -> no_member (subst_local h j).
Proof. induction j; cbn; tauto. Qed.
