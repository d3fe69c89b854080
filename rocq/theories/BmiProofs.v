(** Proofs for C64. *)
From Coq Require Import List Arith NArith ZArith Bool Sorted Permutation Lia.
From Verif Require Import PortMonModel DevMgrModel BmiModel BmiSpec.
Import ListNotations.

Lemma perm_in {A} (l l' : list A) x : Permutation l l' -> (In x l <-> In x l').
Proof. intros P. split; apply Permutation_in; auto. apply Permutation_sym. auto. Qed.

(** ** the array *)
Lemma skipn_len {A} (l1 l2 : list A) n : n = length l1 -> skipn n (l1 ++ l2) = l2.
Proof. intros ->. rewrite skipn_app, skipn_all, Nat.sub_diag. reflexivity. Qed.
Lemma firstn_len {A} (l1 l2 : list A) n : n = length l1 -> firstn n (l1 ++ l2) = l1.
Proof. intros ->. rewrite firstn_app, firstn_all, Nat.sub_diag. cbn. apply app_nil_r. Qed.
Lemma put_at l1 x l2 s i : i = length l1 -> put (l1 ++ x :: l2) i s = Some (l1 ++ s :: l2).
Proof.
  intros ->. unfold put. rewrite app_length. cbn [length]. rewrite (proj2 (Nat.ltb_lt _ _)) by lia. rewrite firstn_len by auto.
  replace (skipn (S (length l1)) (l1 ++ x :: l2)) with l2; auto. replace (l1 ++ x :: l2) with ((l1 ++ [x]) ++ l2) by (rewrite <- app_assoc; auto). rewrite skipn_len; auto. rewrite app_length. cbn. lia.
Qed.
Lemma move_up l1 l2 t0 tl s : exists l, memmove (l1 ++ l2 ++ t0 :: tl) (length l1 + 1) (length l1) (length l2) = Some l /\ put l (length l1) s = Some (l1 ++ s :: l2 ++ tl).
Proof.
  unfold memmove. rewrite !app_length. cbn [length]. rewrite !(proj2 (Nat.leb_le _ _)) by lia. cbn [andb]. eexists. split; [reflexivity|].
  rewrite (skipn_len l1) by auto. rewrite (firstn_len l2) by auto.
  assert (E : skipn (length l1 + 1 + length l2) (l1 ++ l2 ++ t0 :: tl) = tl).
  { replace (l1 ++ l2 ++ t0 :: tl) with ((l1 ++ l2 ++ [t0]) ++ tl) by (rewrite <- !app_assoc; auto). apply skipn_len. rewrite !app_length. cbn. lia. }
  rewrite E. assert (F : exists y, firstn (length l1 + 1) (l1 ++ l2 ++ t0 :: tl) = l1 ++ [y]).
  { destruct l2 as [|y l2]; cbn [app].
    - exists t0. replace (l1 ++ t0 :: tl) with ((l1 ++ [t0]) ++ tl) by (rewrite <- app_assoc; auto). apply firstn_len. rewrite app_length. cbn. lia.
    - exists y. replace (l1 ++ y :: l2 ++ t0 :: tl) with ((l1 ++ [y]) ++ l2 ++ t0 :: tl) by (rewrite <- app_assoc; auto). apply firstn_len. rewrite app_length. cbn. lia. }
  destruct F as (y & ->). rewrite <- app_assoc. cbn [app]. apply put_at. auto.
Qed.
Lemma move_down l1 x l2 tl : exists t0, memmove (l1 ++ x :: l2 ++ tl) (length l1) (length l1 + 1) (length l2) = Some (l1 ++ l2 ++ t0 :: tl).
Proof.
  unfold memmove. rewrite !app_length. cbn [length]. rewrite !app_length. rewrite !(proj2 (Nat.leb_le _ _)) by lia. cbn [andb].
  rewrite (firstn_len l1) by auto.
  assert (E : skipn (length l1 + 1) (l1 ++ x :: l2 ++ tl) = l2 ++ tl).
  { replace (l1 ++ x :: l2 ++ tl) with ((l1 ++ [x]) ++ l2 ++ tl) by (rewrite <- app_assoc; auto). apply skipn_len. rewrite app_length. cbn. lia. }
  rewrite E, (firstn_len l2) by auto.
  destruct (@exists_last _ (x :: l2) ltac:(discriminate)) as (l3 & t0 & E3). exists t0. f_equal. f_equal. f_equal.
  replace (l1 ++ x :: l2 ++ tl) with ((l1 ++ l3) ++ t0 :: tl). 2:{ replace (x :: l2 ++ tl) with ((x :: l2) ++ tl) by reflexivity. rewrite E3, <- !app_assoc. reflexivity. }
  apply skipn_len. assert (L := f_equal (@length _) E3). rewrite app_length in *. cbn in L. lia.
Qed.

(** ** the search *)
Definition asc (l : list slot) : Prop := StronglySorted Z.lt (map sl_num l).
Lemma asc_app l1 l2 : asc (l1 ++ l2) <-> asc l1 /\ asc l2 /\ (forall s t, In s l1 -> In t l2 -> (sl_num s < sl_num t)%Z).
Proof.
  unfold asc. induction l1 as [|x l1 IH]; cbn; [repeat split; [constructor|auto|contradiction|tauto]|]. split.
  - intros S. inversion S as [|? ? S1 F1]; subst. apply IH in S1 as (A & B & C). rewrite map_app, Forall_app in F1. destruct F1 as [F1 F2].
    repeat split; auto; [constructor; auto|]. intros s t [<-|IN] IT; auto. rewrite Forall_forall in F2. apply F2. apply in_map. auto.
  - intros (A & B & C). inversion A as [|? ? S1 F1]; subst. constructor; [apply IH; auto|]. rewrite map_app, Forall_app. split; auto. rewrite Forall_forall. intros y IN. apply in_map_iff in IN as (t & <- & IN). auto.
Qed.

Lemma bsearch_ok live tl num : asc live -> forall fuel a b, b - a <= fuel -> a <= b -> b <= length live ->
  (forall s, In s (firstn a live) -> (sl_num s < num)%Z) -> (forall s, In s (skipn b live) -> (num < sl_num s)%Z) ->
  (exists i l1 s l2, bsearch fuel (live ++ tl) num a b = Some (At i) /\ live = l1 ++ s :: l2 /\ length l1 = i /\ sl_num s = num) \/
  (exists i l1 l2, bsearch fuel (live ++ tl) num a b = Some (Before i) /\ live = l1 ++ l2 /\ length l1 = i /\
     (forall s, In s l1 -> (sl_num s < num)%Z) /\ (forall s, In s l2 -> (num < sl_num s)%Z)).
Proof.
  intros S. induction fuel as [|f IH]; intros a b F AB BL LO HI.
  - right. exists a, (firstn a live), (skipn a live). assert (a = b) by lia. subst b. cbn [bsearch]. rewrite Nat.ltb_irrefl. split; auto. split; [symmetry; apply firstn_skipn|]. split; [rewrite firstn_length; lia|]. auto.
  - cbn [bsearch]. destruct (Nat.ltb_spec a b).
    2:{ right. exists a, (firstn a live), (skipn a live). assert (a = b) by lia. subst b. split; auto. split; [symmetry; apply firstn_skipn|]. split; [rewrite firstn_length; lia|]. auto. }
    pose proof (Nat.div_lt (b - a) 2 ltac:(lia) ltac:(lia)) as D. set (k := (b - a) / 2) in *. clearbody k. set (idx := a + k).
    assert (IL : idx < length live) by lia. rewrite nth_error_app1 by auto. destruct (nth_error live idx) as [s|] eqn:NE; [|apply nth_error_None in NE; lia].
    destruct (nth_error_split live idx NE) as (l1 & l2 & E & L1).
    assert (A1 : firstn idx live = l1) by (rewrite E; apply firstn_len; auto). assert (A2 : skipn idx live = s :: l2) by (rewrite E; apply skipn_len; auto).
    assert (A3 : firstn (idx + 1) live = l1 ++ [s]) by (rewrite E; replace (l1 ++ s :: l2) with ((l1 ++ [s]) ++ l2) by (rewrite <- app_assoc; auto); apply firstn_len; rewrite app_length; cbn; lia).
    assert (S2 := S). rewrite E in S2. apply asc_app in S2 as (S3 & S4 & S5). change (s :: l2) with ([s] ++ l2) in S4. apply asc_app in S4 as (_ & _ & S6).
    destruct (Z.ltb_spec num (sl_num s)).
    + apply IH; try lia; auto. rewrite A2. intros t [<-|IN]; auto. specialize (S6 s t (or_introl eq_refl) IN). lia.
    + destruct (Z.ltb_spec (sl_num s) num).
      * apply IH; try lia; auto. rewrite A3. intros t IN. apply in_app_or in IN as [IN|[<-|[]]]; auto. specialize (S5 t s IN (or_introl eq_refl)). lia.
      * left. exists idx, l1, s, l2. repeat split; auto. lia.
Qed.

(** ** the invariant *)
Definition slot_of (p : port) : slot := mkSlot (p_num p) (p_name p) (p_fd p) (counts p).
Record inv (max : nat) (sock : N) (m : bmgr) (w : world) (live tl : list slot) : Prop := mkInv {
  i_ports : b_ports m = live ++ tl;
  i_count : b_count m = length live;
  i_max : length (b_ports m) = max;
  i_asc : asc live;
  i_perm : Permutation live (map slot_of (w_ports w));
  i_fds : forall fd, In fd (b_fds m) <-> fd = sock \/ In fd (map sl_fd live);
  i_maxfd : forall s, In s live -> (sl_fd s <= b_maxfd m)%N;
  i_nodup : NoDup (map sl_fd live);
  i_sock : ~ In sock (map sl_fd live);
  i_handler : b_handler m = w_handler w }.
Definition INVB max sock m w := exists live tl, inv max sock m w live tl.

Lemma inv_new max sock : INVB max sock (b_new max sock) w_new.
Proof. exists [], (repeat no_slot max). constructor; cbn; auto; try constructor; try tauto. apply repeat_length. intros [->|[]]; auto. intros [|[]]; auto. Qed.

Lemma asc_nodup l : asc l -> NoDup (map sl_num l).
Proof.
  unfold asc. generalize (map sl_num l). clear l. intros l S. induction S as [|x l S IH F]; constructor; auto. intros IN. rewrite Forall_forall in F. specialize (F _ IN). lia. Qed.
Lemma look_in ps b n p : NoDup (map p_num ps) -> (look (mkW ps b) n = Some p <-> In p ps /\ p_num p = n).
Proof.
  unfold look. cbn [w_ports]. intros ND. split; [intros H; apply find_some in H as [? H]; split; auto; apply Z.eqb_eq; auto|].
  intros [IN E]. induction ps as [|q ps IH]; [contradiction|]. cbn in *. inversion ND; subst. destruct (Z.eqb_spec (p_num q) (p_num p)) as [E2|].
  - f_equal. destruct IN as [->|IN]; auto. exfalso. apply H1. rewrite E2. apply in_map. auto.
  - apply IH; auto. destruct IN as [->|IN]; auto. contradiction.
Qed.
Lemma inv_nodup max sock m w live tl : inv max sock m w live tl -> NoDup (map p_num (w_ports w)).
Proof.
  intros I. assert (P := Permutation_map sl_num (i_perm _ _ _ _ _ _ I)). rewrite map_map in P. cbn in P. eapply Permutation_NoDup; [exact P|]. apply asc_nodup, I.
Qed.
Lemma find_cases max sock m w live tl num : inv max sock m w live tl ->
  (exists i l1 p l2, find_port m num = Some (At i) /\ live = l1 ++ slot_of p :: l2 /\ length l1 = i /\ p_num p = num /\ look w num = Some p) \/
  (exists i l1 l2, find_port m num = Some (Before i) /\ live = l1 ++ l2 /\ length l1 = i /\ look w num = None /\
     (forall s, In s l1 -> (sl_num s < num)%Z) /\ (forall s, In s l2 -> (num < sl_num s)%Z)).
Proof.
  intros I. unfold find_port. rewrite (i_ports _ _ _ _ _ _ I), (i_count _ _ _ _ _ _ I). assert (ND := inv_nodup _ _ _ _ _ _ I). destruct w as [ps hb].
  destruct (bsearch_ok live tl num (i_asc _ _ _ _ _ _ I) (length live) 0 (length live)) as [(i & l1 & s & l2 & B & E & L & N)|(i & l1 & l2 & B & E & L & LO & HI)]; try lia.
  - cbn. contradiction.
  - rewrite skipn_all. contradiction.
  - left. assert (IN : In s (map slot_of ps)) by (apply (Permutation_in _ (i_perm _ _ _ _ _ _ I)); rewrite E; apply in_or_app; right; left; auto).
    apply in_map_iff in IN as (p & <- & IN). exists i, l1, p, l2. repeat split; auto. apply look_in; auto.
  - right. exists i, l1, l2. repeat split; auto. destruct (look (mkW ps hb) num) as [p|] eqn:LK; auto. exfalso. apply look_in in LK as [IN N]; auto.
    assert (IS : In (slot_of p) live) by (apply (Permutation_in _ (Permutation_sym (i_perm _ _ _ _ _ _ I))); cbn; apply in_map; auto).
    rewrite E in IS. apply in_app_or in IS as [IS|IS]; [specialize (LO _ IS)|specialize (HI _ IS)]; cbn in *; lia.
Qed.

(** ** steps *)
Lemma wlen max sock m w live tl : inv max sock m w live tl -> length (w_ports w) = length live.
Proof. intros I. rewrite (Permutation_length (i_perm _ _ _ _ _ _ I)), map_length. auto. Qed.
Lemma fd_clr_in l fd x : In x (fd_clr l fd) <-> In x l /\ x <> fd.
Proof. unfold fd_clr. rewrite filter_In. destruct (N.eqb_spec x fd); cbn; intuition congruence. Qed.

Lemma add_ok max sock m w num name cr : INVB max sock m w -> legal sock w (BAdd num name cr) ->
  exists m' ok w', b_add m num name cr = Some (m', ok) /\ bspec max sock w (BAdd num name cr) (RCode ok) w' /\ INVB max sock m' w'.
Proof.
  intros (live & tl & I) LG. unfold b_add. assert (WL := wlen _ _ _ _ _ _ I).
  destruct (find_cases _ _ _ _ _ _ num I) as [(i & l1 & p & l2 & F & E & L & N & LK)|(i & l1 & l2 & F & E & L & LK & LO & HI)]; rewrite F.
  - exists m, false, w. repeat split; auto; [constructor; left; congruence|exists live, tl; auto].
  - destruct (Nat.leb_spec (length (b_ports m)) (b_count m)) as [FULL|ROOM].
    { exists m, false, w. rewrite (i_max _ _ _ _ _ _ I), (i_count _ _ _ _ _ _ I) in FULL. repeat split; auto; [constructor; right; left; lia|exists live, tl; auto]. }
    destruct cr as [fd|]; [|exists m, false, w; repeat split; auto; [constructor; auto|exists live, tl; auto]].
    destruct LG as (SM & NS & FR).
    assert (RM := ROOM). rewrite (i_ports _ _ _ _ _ _ I), (i_count _ _ _ _ _ _ I), app_length in RM. destruct tl as [|t0 tl]; [cbn in RM; lia|].
    rewrite (i_ports _ _ _ _ _ _ I), (i_count _ _ _ _ _ _ I). rewrite E, <- app_assoc, app_length, L. replace (i + length l2 - i) with (length l2) by lia. rewrite <- L.
    destruct (move_up l1 l2 t0 tl (mkSlot num name fd no_stats)) as (l & -> & ->). rewrite (proj2 (N.ltb_lt _ _)) by auto.
    assert (NI : ~ In fd (map sl_fd live)).
    { intros IN. apply in_map_iff in IN as (s & <- & IN). apply (Permutation_in _ (i_perm _ _ _ _ _ _ I)) in IN. apply in_map_iff in IN as (p & <- & IN). apply (FR p IN). reflexivity. }
    assert (PM : Permutation (l1 ++ mkSlot num name fd no_stats :: l2) (mkSlot num name fd no_stats :: live)) by (rewrite E; symmetry; apply Permutation_middle).
    do 3 eexists. split; [reflexivity|]. split.
    + apply SpAdd; auto. rewrite WL. rewrite (i_max _ _ _ _ _ _ I), (i_count _ _ _ _ _ _ I) in ROOM. auto.
    + exists (l1 ++ mkSlot num name fd no_stats :: l2), tl. constructor; cbn [b_ports b_count b_fds b_maxfd b_handler w_ports w_handler].
      * rewrite <- app_assoc. reflexivity.
      * rewrite !app_length. cbn. lia.
      * rewrite <- (i_max _ _ _ _ _ _ I), (i_ports _ _ _ _ _ _ I), E. rewrite !app_length. cbn. rewrite !app_length. cbn. lia.
      * assert (S := i_asc _ _ _ _ _ _ I). rewrite E in S. apply asc_app in S as (S1 & S2 & S3). apply asc_app. split; auto. split.
        -- change (asc ([mkSlot num name fd no_stats] ++ l2)). apply asc_app. split; [repeat constructor|]. split; auto. intros s t [<-|[]] IT. cbn. auto.
        -- intros s t IN [<-|IT]; cbn; auto.
      * rewrite PM. cbn [map]. apply (perm_skip (mkSlot num name fd no_stats)). apply I.
      * intros x. rewrite (perm_in (map sl_fd (l1 ++ mkSlot num name fd no_stats :: l2)) (fd :: map sl_fd live)) by (apply (Permutation_map sl_fd PM)).
        unfold fd_set. cbn [In]. rewrite fd_clr_in, (i_fds _ _ _ _ _ _ I). split; [tauto|]. intros [H|[H|H]]; auto; destruct (N.eq_dec x fd); auto.
      * intros s IN. apply (Permutation_in _ PM) in IN. assert (B := i_maxfd _ _ _ _ _ _ I). destruct (N.ltb_spec (b_maxfd m) fd), IN as [<-|IN]; cbn; try lia; specialize (B _ IN); lia.
      * eapply Permutation_NoDup; [symmetry; apply (Permutation_map sl_fd PM)|]. cbn. constructor; auto. apply I.
      * intros IN. apply (Permutation_in _ (Permutation_map sl_fd PM)) in IN. destruct IN as [IN|IN]; [cbn in IN; congruence|]. apply (i_sock _ _ _ _ _ _ I). auto.
      * apply I.
Qed.

Lemma remove_ok max sock m w num : INVB max sock m w ->
  exists m' ok w', b_remove m num = Some (m', ok) /\ bspec max sock w (BRemove num) (RCode ok) w' /\ INVB max sock m' w'.
Proof.
  intros (live & tl & I). unfold b_remove. assert (ND := inv_nodup _ _ _ _ _ _ I).
  destruct (find_cases _ _ _ _ _ _ num I) as [(i & l1 & p & l2 & F & E & L & N & LK)|(i & l1 & l2 & F & E & L & LK & LO & HI)]; rewrite F.
  2:{ exists m, false, w. repeat split; auto; [constructor; auto|exists live, tl; auto]. }
  rewrite (i_ports _ _ _ _ _ _ I), (i_count _ _ _ _ _ _ I), E, app_length. cbn [length]. rewrite <- app_assoc. cbn [app]. rewrite nth_error_app2, L, Nat.sub_diag by lia. cbn [nth_error].
  replace (i + S (length l2) - i - 1) with (length l2) by lia. rewrite <- L. destruct (move_down l1 (slot_of p) l2 tl) as (t0 & ->).
  do 3 eexists. split; [reflexivity|]. split; [constructor; congruence|]. exists (l1 ++ l2), (t0 :: tl).
  assert (S := i_asc _ _ _ _ _ _ I). rewrite E in S. assert (SN := asc_nodup _ S). apply asc_app in S as (S1 & S2 & S3). change (slot_of p :: l2) with ([slot_of p] ++ l2) in S2. apply asc_app in S2 as (_ & S4 & S5).
  assert (PM : Permutation live (slot_of p :: l1 ++ l2)) by (rewrite E; symmetry; apply Permutation_middle).
  assert (NF := i_nodup _ _ _ _ _ _ I). apply (Permutation_NoDup (Permutation_map sl_fd PM)) in NF. cbn [map] in NF. inversion NF as [|? ? NF1 NF2]; subst.
  constructor; cbn [b_ports b_count b_fds b_maxfd b_handler w_ports w_handler].
  - rewrite <- app_assoc. reflexivity.
  - rewrite !app_length. lia.
  - rewrite <- (i_max _ _ _ _ _ _ I), (i_ports _ _ _ _ _ _ I). rewrite !app_length. cbn. rewrite ?app_length. cbn. lia.
  - apply asc_app. repeat split; auto. intros s t IN IT. apply S3; auto. right. auto.
  - assert (Q := i_perm _ _ _ _ _ _ I).
    assert (G : forall l, map slot_of (filter (fun q => negb (p_num q =? p_num p)%Z) l) = filter (fun s => negb (sl_num s =? p_num p)%Z) (map slot_of l)).
    { clear. induction l as [|q l IH]; cbn; auto. destruct (p_num q =? p_num p)%Z; cbn; rewrite IH; auto. }
    rewrite G. assert (H : l1 ++ l2 = filter (fun s => negb (sl_num s =? p_num p)%Z) (l1 ++ slot_of p :: l2)).
    { rewrite filter_app. cbn [filter]. cbn [sl_num slot_of]. rewrite Z.eqb_refl. cbn [negb].
      assert (K : forall l, (forall s, In s l -> sl_num s <> p_num p) -> filter (fun s => negb (sl_num s =? p_num p)%Z) l = l).
      { clear. induction l as [|s l IH]; cbn; auto. intros H. destruct (Z.eqb_spec (sl_num s) (p_num p)); cbn; [exfalso; apply (H s); auto|]. rewrite IH; auto. }
      rewrite !K; auto.
      - intros s IN. specialize (S5 (slot_of p) s (or_introl eq_refl) IN). cbn in S5. lia.
      - intros s IN. specialize (S3 s (slot_of p) IN (or_introl eq_refl)). cbn in S3. lia. }
    rewrite H. clear - Q. induction Q as [|x a b P IH|x y a|a b c P1 IH1 P2 IH2]; cbn; auto.
    + destruct (negb _); auto.
    + destruct (negb (sl_num x =? p_num p)%Z), (negb (sl_num y =? p_num p)%Z); try apply perm_swap; reflexivity.
    + etransitivity; eauto.
  - intros x. rewrite fd_clr_in, (i_fds _ _ _ _ _ _ I). rewrite (perm_in (map sl_fd (l1 ++ slot_of p :: l2)) (sl_fd (slot_of p) :: map sl_fd (l1 ++ l2))) by (apply (Permutation_map sl_fd PM)).
    cbn [In]. split; [intros [[->|[<-|H]] X]; auto; contradiction|]. intros [->|H].
    + split; auto. intros ->. apply (i_sock _ _ _ _ _ _ I). apply (Permutation_in _ (Permutation_sym (Permutation_map sl_fd PM))). left. reflexivity.
    + split; auto. intros ->. contradiction.
  - intros s IN. apply (i_maxfd _ _ _ _ _ _ I). apply (Permutation_in _ (Permutation_sym PM)). right. auto.
  - auto.
  - intros IN. apply (i_sock _ _ _ _ _ _ I). apply (Permutation_in _ (Permutation_sym (Permutation_map sl_fd PM))). right. auto.
  - apply I.
Qed.
