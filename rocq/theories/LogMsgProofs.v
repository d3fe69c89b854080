From Coq Require Import List Arith Ascii Bool Lia.
From Verif Require Import LogMsgModel LogMsgSpec.
Import ListNotations.

Definition clean (t : list ascii) : Prop := Forall ordinary t.
Lemma neqb a b : a <> b -> Ascii.eqb a b = false.
Proof. intros N. destruct (Ascii.eqb_spec a b); congruence. Qed.
Lemma eqb_r a : Ascii.eqb a a = true.
Proof. apply Ascii.eqb_refl. Qed.

Lemma find_app A B c : find (A ++ B) c (length A) = option_map (Nat.add (length A)) (index_of c B).
Proof. unfold find. rewrite skipn_app, skipn_all, Nat.sub_diag. auto. Qed.
Lemma find_hit A B c : find (A ++ c :: B) c (length A) = Some (length A).
Proof. rewrite find_app. cbn [index_of]. rewrite eqb_r. cbn. f_equal. lia. Qed.
Lemma find_skip A x B c : x <> c -> find (A ++ x :: B) c (length A) = find ((A ++ [x]) ++ B) c (length (A ++ [x])).
Proof. intros N. rewrite !find_app. cbn [index_of]. rewrite neqb by auto. destruct (index_of c B); cbn; auto. f_equal. rewrite app_length. cbn. lia. Qed.
Lemma find_out s c p : length s <= p -> find s c p = None.
Proof. intros L. unfold find. rewrite skipn_all2 by auto. auto. Qed.
Lemma is_char_app A x B c : is_char (A ++ x :: B) (length A) c = Ascii.eqb x c.
Proof. unfold is_char. rewrite nth_error_app2 by lia. rewrite Nat.sub_diag. auto. Qed.

(** The last character is not a backslash *)
Definition ends (A : list ascii) : Prop := is_char A (length A - 1) BSL = false.
Lemma ends_snoc A x : x <> BSL -> ends (A ++ [x]).
Proof. intros N. unfold ends. rewrite app_length. cbn [length]. replace (length A + 1 - 1) with (length A) by lia. rewrite is_char_app. apply neqb. auto. Qed.
Lemma ends_clean A t : ends A -> clean t -> ends (A ++ t).
Proof.
  intros E C. destruct t as [|x t] using rev_ind; [rewrite app_nil_r; auto|]. rewrite app_assoc. apply ends_snoc. apply Forall_app in C as [_ C]. inversion C as [|? ? O]; subst. destruct O as (_ & _ & O). auto.
Qed.
Lemma ends_at A B : A <> [] -> ends A -> is_char (A ++ B) (length A - 1) BSL = false.
Proof. intros N E. unfold ends, is_char in *. rewrite nth_error_app1; auto. destruct A; [congruence|cbn; lia]. Qed.

Lemma snoc2 (A : list ascii) x y B : A ++ x :: y :: B = (A ++ [x; y]) ++ B.
Proof. rewrite <- app_assoc. auto. Qed.
Lemma snoc1 (A : list ascii) x B : A ++ x :: B = (A ++ [x]) ++ B.
Proof. rewrite <- app_assoc. auto. Qed.
Lemma ends_snoc2 A x y : y <> BSL -> ends (A ++ [x; y]).
Proof. intros N. change [x; y] with ([x] ++ [y]). rewrite app_assoc. apply ends_snoc; auto. Qed.

Lemma find_end_skip fuel A x B : x <> CLOSE -> find_end fuel (A ++ x :: B) (length A) = find_end fuel ((A ++ [x]) ++ B) (length (A ++ [x])).
Proof. intros N. rewrite <- snoc1. destruct fuel; cbn [find_end]; rewrite find_skip by auto; rewrite <- snoc1; auto. Qed.
Lemma find_end_ok l R : forall fuel A, A <> [] -> ends A -> Forall flat l -> length l <= fuel ->
  find_end fuel (A ++ concat (map text1 l) ++ CLOSE :: R) (length A) = Some (length A + length (concat (map text1 l))).
Proof.
  induction l as [|p l IH]; intros fuel A NA E F L; cbn [map concat app length].
  - destruct fuel; cbn [find_end]; rewrite find_hit, ends_at by auto; f_equal; lia.
  - inversion F as [|p1 l1 F1 F2]; subst. cbn [length] in L. destruct p as [c|c|[|]| |]; cbn [flat] in F1; try contradiction; cbn [text1 app].
    + destruct F1 as (_ & F1 & F3). rewrite find_end_skip by auto. rewrite IH; auto; [|destruct A; discriminate|apply ends_snoc; auto|lia]. rewrite app_length. cbn [length app]. f_equal. lia.
    + destruct F1 as (_ & F1 & F3). rewrite find_end_skip by discriminate. rewrite find_end_skip by auto. rewrite IH; auto; [|destruct A; discriminate|apply ends_snoc; auto|lia]. rewrite !app_length. cbn [length app]. f_equal. lia.
    + rewrite !find_end_skip by discriminate. rewrite IH; auto; [|destruct A; discriminate|apply ends_snoc; discriminate|lia]. rewrite !app_length. cbn [length app]. f_equal. lia.
    + rewrite find_end_skip by discriminate. destruct fuel as [|fuel]; [lia|]. change "}"%char with CLOSE. cbn [find_end]. rewrite find_hit.
      replace (is_char _ (length (A ++ ["\"%char]) - 1) BSL) with true. 2: { rewrite app_length. cbn [length]. replace (length A + 1 - 1) with (length A) by lia. rewrite <- app_assoc. cbn [app]. rewrite is_char_app. auto. }
      rewrite (snoc1 (A ++ ["\"%char]) CLOSE). replace (length (A ++ ["\"%char]) + 1) with (length ((A ++ ["\"%char]) ++ [CLOSE])) by (rewrite !app_length; cbn; lia).
      rewrite IH; auto; [|destruct A; discriminate|apply ends_snoc; discriminate|lia]. rewrite !app_length. cbn [length app]. f_equal. lia.
Qed.

(** The placeholders filled in while there are arguments *)
Fixpoint fill (ps : list piece) (args : list (list ascii)) : list piece :=
  match ps with
  | [] => []
  | Hole l :: r => match args with t :: a => map Plain t ++ fill r a | [] => Hole l :: fill r [] end
  | p :: r => p :: fill r args
  end.
Lemma format_app a b : format (a ++ b) = format a ++ format b.
Proof. unfold format. rewrite map_app, concat_app. auto. Qed.
Lemma format_plain t : format (map Plain t) = t.
Proof. induction t; cbn; auto. f_equal. auto. Qed.

Lemma scan_find fuel s o1 o2 args n : find s OPEN (o1 + 1) = find s OPEN (o2 + 1) -> scan fuel s o1 args n = scan fuel s o2 args n.
Proof. intros E. destruct fuel; cbn [scan]; rewrite E; auto. Qed.
Lemma spaced_weaken ps : spaced true ps = true -> spaced false ps = true.
Proof. destruct ps as [|[]]; cbn; auto; discriminate. Qed.
Lemma skipn_nth {A} (l : list A) n : skipn n l = match nth_error l n with Some x => x :: skipn (S n) l | None => [] end.
Proof. revert l. induction n as [|n IH]; intros [|x l]; cbn [skipn nth_error]; auto. rewrite IH. destruct (nth_error l n); auto. Qed.

Lemma format_length ps : length ps <= length (format ps).
Proof. induction ps as [|p ps IH]; auto. change (format (p :: ps)) with (text p ++ format ps). rewrite app_length. destruct p as [| |[|]| |]; cbn; lia. Qed.
Fixpoint lasthole (ah : bool) (ps : list piece) : bool := match ps with [] => ah | Hole _ :: r => lasthole true r | _ :: r => lasthole false r end.
Lemma lasthole_mono ps : lasthole false ps = true -> lasthole true ps = true.
Proof. destruct ps as [|[]]; cbn; auto. Qed.
(** The loop arrives behind the pieces. *)
Lemma scan_gen ps (T : list ascii) : forall fuel (A : list ascii) open (args : list (list ascii)) n (ah : bool), Forall well_formed ps -> Forall clean args -> open + 1 = length A + (if ah then 1 else 0) -> (ah = false -> A <> []) -> spaced ah ps = true -> length ps <= fuel -> ends A ->
  exists (fuel' open' : nat) (ah' : bool), scan fuel (A ++ format ps ++ T) open args n = scan fuel' ((A ++ format (fill ps (skipn n args))) ++ T) open' args (n + holes ps) /\ fuel - length ps <= fuel' /\
    open' + 1 = length (A ++ format (fill ps (skipn n args))) + (if ah' then 1 else 0) /\ (ah' = false -> A ++ format (fill ps (skipn n args)) <> []) /\ ends (A ++ format (fill ps (skipn n args))) /\ (ah' = true -> lasthole ah ps = true).
Proof.
  induction ps as [|p ps IH]; intros fuel A open args n ah WF CL EO NA SP LF EN.
  - cbn [fill]. exists fuel, open, ah. unfold format. cbn [map concat app]. rewrite app_nil_r. unfold holes. cbn. rewrite Nat.add_0_r. repeat split; auto. lia.
  - inversion WF as [|p1 l1 W1 W2]; subst. cbn [length] in LF.
    (* a piece without an opening brace is passed over *)
    assert (PASS : forall x, text p = x ++ [] -> (forall c, In c x -> c <> OPEN) -> x <> [] -> spaced false ps = true -> ends (A ++ x) ->
              exists (fuel' open' : nat) (ah' : bool), scan fuel (A ++ format (p :: ps) ++ T) open args n = scan fuel' (((A ++ x) ++ format (fill ps (skipn n args))) ++ T) open' args (n + holes ps) /\ fuel - length ps <= fuel' /\
    open' + 1 = length ((A ++ x) ++ format (fill ps (skipn n args))) + (if ah' then 1 else 0) /\ (ah' = false -> (A ++ x) ++ format (fill ps (skipn n args)) <> []) /\ ends ((A ++ x) ++ format (fill ps (skipn n args))) /\ (ah' = true -> lasthole false ps = true)).
    { intros x TX NO NX SP2 EN2. rewrite app_nil_r in TX. change (format (p :: ps)) with (text p ++ format ps). rewrite TX.
      assert (LX : 1 <= length x) by (destruct x; [congruence|cbn; lia]). set (FT := format ps ++ T). rewrite <- (app_assoc x). fold FT.
      replace (scan fuel (A ++ x ++ FT) open args n) with (scan fuel (A ++ x ++ FT) (length (A ++ x) - 1) args n).
      - unfold FT. rewrite app_assoc. apply (IH fuel (A ++ x) _ args n false); auto; [rewrite app_length; lia|intros _; destruct A, x; cbn; congruence|lia].
      - symmetry. apply scan_find. rewrite app_length. replace (length A + length x - 1 + 1) with (length A + length x) by lia. rewrite EO.
        assert (FX : forall y B, (forall c, In c y -> c <> OPEN) -> find (B ++ y ++ FT) OPEN (length B) = find (B ++ y ++ FT) OPEN (length B + length y)).
        { induction y as [|c y IHy]; intros B NY; cbn [app length]; [rewrite Nat.add_0_r; auto|]. rewrite find_skip by (apply NY; left; auto). rewrite IHy by (intros; apply NY; right; auto). rewrite <- snoc1. f_equal. rewrite app_length. cbn. lia. }
        destruct ah; [|rewrite Nat.add_0_r; apply FX; auto]. destruct x as [|c x]; [congruence|]. cbn [app length]. rewrite snoc1. replace (length A + 1) with (length (A ++ [c])) by (rewrite app_length; auto).
        rewrite FX by (intros; apply NO; right; auto). f_equal. rewrite app_length. cbn. lia. }
    assert (FLAT : forall x, text p = x -> (forall c, In c x -> c <> OPEN) -> x <> [] -> spaced false ps = true -> ends (A ++ x) -> fill (p :: ps) (skipn n args) = p :: fill ps (skipn n args) -> holes (p :: ps) = holes ps -> lasthole ah (p :: ps) = lasthole false ps ->
              exists (fuel' open' : nat) (ah' : bool), scan fuel (A ++ format (p :: ps) ++ T) open args n = scan fuel' ((A ++ format (fill (p :: ps) (skipn n args))) ++ T) open' args (n + holes (p :: ps)) /\ fuel - length (p :: ps) <= fuel' /\
    open' + 1 = length (A ++ format (fill (p :: ps) (skipn n args))) + (if ah' then 1 else 0) /\ (ah' = false -> A ++ format (fill (p :: ps) (skipn n args)) <> []) /\ ends (A ++ format (fill (p :: ps) (skipn n args))) /\ (ah' = true -> lasthole ah (p :: ps) = true)).
    { intros x TX NO NX SP2 EN2 EF EH EL. rewrite EF, EH, EL. change (format (p :: fill ps (skipn n args))) with (text p ++ format (fill ps (skipn n args))). rewrite TX, (app_assoc A x (format (fill ps (skipn n args)))).
      destruct (PASS x) as (f' & o' & a' & P1 & P2 & P3); auto; [rewrite app_nil_r; auto|]. exists f', o', a'. split; [auto|]. split; [cbn [length]; lia|]. auto. }
    destruct p as [c|c|[|]| |l]; cbn [well_formed] in W1; cbn [spaced] in SP.
    + destruct W1 as (N1 & N2 & N3). apply (FLAT [c]); auto; [|discriminate|apply ends_snoc; auto]. intros x [<-|[]]; auto.
    + destruct W1 as (N1 & N2 & N3). apply (FLAT ["\"%char; c]); auto; [|discriminate|apply ends_snoc2; auto]. intros x [<-|[<-|[]]]; auto. discriminate.
    + (* an escaped opening brace *)
      change (format (Brace true :: ps) ++ T) with (BSL :: OPEN :: format ps ++ T).
      assert (F : find (A ++ BSL :: OPEN :: format ps ++ T) OPEN (open + 1) = Some (length A + 1)).
      { rewrite EO. replace (length A + 1) with (length (A ++ [BSL])) by (rewrite app_length; auto). destruct ah.
        - rewrite snoc1. replace (length A + 1) with (length (A ++ [BSL])) by (rewrite app_length; auto). apply find_hit.
        - rewrite Nat.add_0_r, find_skip by discriminate. apply find_hit. }
      destruct fuel as [|fuel]; [lia|]. cbn [scan]. rewrite F. replace (length A + 1 - 1) with (length A) by lia. rewrite is_char_app. change (Ascii.eqb BSL BSL) with true. cbn iota.
      rewrite snoc2. destruct (IH fuel (A ++ [BSL; OPEN]) (length A + 1) args n false) as (f' & o' & a' & P1 & P2 & P3); auto; [rewrite app_length; cbn; lia|intros _; destruct A; discriminate|lia|apply ends_snoc2; discriminate|].
      exists f', o', a'. cbn [fill]. change (format (Brace true :: fill ps (skipn n args))) with ([BSL; OPEN] ++ format (fill ps (skipn n args))). rewrite (app_assoc A [BSL; OPEN]). split; [exact P1|]. split; [cbn [length]; lia|]. exact P3.
    + apply (FLAT ["\"%char; "}"%char]); auto; [|discriminate|apply ends_snoc2; discriminate]. intros x [<-|[<-|[]]]; discriminate.
    + apply (FLAT ["}"%char]); auto; [|discriminate|apply ends_snoc; discriminate]. intros x [<-|[]]; discriminate.
    + (* a placeholder *)
      apply andb_true_iff in SP as [AH SP]. destruct ah; [discriminate|]. rewrite Nat.add_0_r in EO. specialize (NA eq_refl).
      change (format (Hole l :: ps)) with ((OPEN :: concat (map text1 l) ++ [CLOSE]) ++ format ps). set (tx := concat (map text1 l)).
      replace (((OPEN :: tx ++ [CLOSE]) ++ format ps) ++ T) with (OPEN :: tx ++ CLOSE :: format ps ++ T) by (cbn [app]; rewrite <- !app_assoc; auto).
      destruct fuel as [|fuel]; [lia|]. cbn [scan]. rewrite EO, find_hit. rewrite ends_at by auto.
      assert (FE : find_end (length (A ++ OPEN :: tx ++ CLOSE :: format ps ++ T)) (A ++ OPEN :: tx ++ CLOSE :: format ps ++ T) (length A) = Some (length A + 1 + length tx)).
      { rewrite find_end_skip by discriminate. rewrite snoc1. unfold tx. rewrite find_end_ok; auto; [rewrite app_length; auto|destruct A; discriminate|apply ends_snoc; discriminate|].
        rewrite !app_length. cbn [length]. assert (length l <= length (concat (map text1 l))); [|lia]. clear - W1. induction W1 as [|p l F W IH]; cbn; auto. rewrite app_length. destruct p as [| |[|]| |]; cbn in *; try lia; contradiction. }
      rewrite FE. replace (length A + 1 + length tx - length A) with (1 + length tx) by lia. cbn [fill]. rewrite (skipn_nth args n). destruct (nth_error args n) as [t|] eqn:T1.
      * assert (RP : replace (A ++ OPEN :: tx ++ CLOSE :: format ps ++ T) (length A) (1 + length tx + 1) t = (A ++ t) ++ format ps ++ T).
        { unfold replace. rewrite firstn_app, firstn_all, Nat.sub_diag. cbn [firstn]. rewrite app_nil_r, <- app_assoc. do 2 f_equal. rewrite skipn_app. rewrite skipn_all2 by lia. cbn [app]. replace (length A + (1 + length tx + 1) - length A) with (S (length tx + 1)) by lia. cbn [skipn].
          rewrite skipn_app. rewrite skipn_all2 by lia. replace (length tx + 1 - length tx) with 1 by lia. auto. }
        rewrite RP. assert (CT : clean t) by (rewrite Forall_forall in CL; apply CL; eapply nth_error_In; eauto).
        destruct (IH fuel (A ++ t) (length A + length t) args (n + 1) true) as (f' & o' & a' & P1 & P2 & P3); auto; [rewrite app_length; lia|discriminate|lia|apply ends_clean; auto|].
        exists f', o', a'. rewrite format_app, format_plain, (app_assoc A t). replace (n + 1) with (S n) in * by lia. replace (n + holes (Hole l :: ps)) with (S n + holes ps) by (unfold holes; cbn; lia). split; [exact P1|]. split; [cbn [length]; lia|]. exact P3.
      * replace (A ++ OPEN :: tx ++ CLOSE :: format ps ++ T) with ((A ++ OPEN :: tx ++ [CLOSE]) ++ format ps ++ T) by (rewrite <- app_assoc; cbn [app]; rewrite <- app_assoc; auto).
        destruct (IH fuel (A ++ OPEN :: tx ++ [CLOSE]) (length A + (1 + length tx)) args (n + 1) false) as (f' & o' & a' & P1 & P2 & P3 & P4 & P5 & P6); auto; [rewrite !app_length; cbn [length]; rewrite app_length; cbn; lia|intros _; destruct A; discriminate|apply spaced_weaken; auto|lia| |].
        { change (A ++ OPEN :: tx ++ [CLOSE]) with (A ++ (OPEN :: tx) ++ [CLOSE]). rewrite app_assoc. apply ends_snoc. discriminate. }
        apply nth_error_None in T1. rewrite skipn_all2 in P1, P3, P4, P5 by lia. exists f', o', a'. change (format (Hole l :: fill ps [])) with ((OPEN :: tx ++ [CLOSE]) ++ format (fill ps [])). rewrite (app_assoc A (OPEN :: tx ++ [CLOSE])).
        replace (n + holes (Hole l :: ps)) with (n + 1 + holes ps) by (unfold holes; cbn; lia). split; [exact P1|]. split; [cbn [length]; lia|]. split; [exact P3|]. split; [exact P4|]. split; [exact P5|]. intros X. apply lasthole_mono. auto.
Qed.
Lemma scan_main ps : forall args, Forall well_formed ps -> Forall clean args -> spaced true ps = true ->
  scan (length (format ps)) (format ps) 0 args 0 = inl (format (fill ps args), holes ps).
Proof.
  intros args W C S. destruct (scan_gen ps [] (length (format ps)) [] 0 args 0 true W C eq_refl ltac:(discriminate) S (format_length ps) eq_refl) as (f' & o' & a' & P1 & _ & P3 & _). cbn [app skipn Nat.add] in P1, P3. rewrite !app_nil_r in P1. rewrite P1.
  assert (F : find (format (fill ps args)) OPEN (o' + 1) = None) by (apply find_out; destruct a'; lia). destruct f'; cbn [scan]; rewrite F; auto.
Qed.
Lemma find_end_none l : forall fuel A, Forall flat l -> find_end fuel (A ++ concat (map text1 l)) (length A) = None.
Proof.
  induction l as [|p l IH]; intros fuel A F; cbn [map concat].
  - destruct fuel; cbn [find_end]; rewrite find_out; auto; rewrite app_nil_r; auto.
  - inversion F as [|p1 l1 F1 F2]; subst. destruct p as [c|c|[|]| |]; cbn [flat] in F1; try contradiction; cbn [text1 app].
    + destruct F1 as (_ & F1 & F3). rewrite find_end_skip by auto. auto.
    + destruct F1 as (_ & F1 & F3). rewrite find_end_skip by discriminate. rewrite find_end_skip by auto. auto.
    + rewrite !find_end_skip by discriminate. auto.
    + rewrite find_end_skip by discriminate. change "}"%char with CLOSE.
      assert (BS : is_char ((A ++ ["\"%char]) ++ CLOSE :: concat (map text1 l)) (length (A ++ ["\"%char]) - 1) BSL = true). { rewrite app_length. cbn [length]. replace (length A + 1 - 1) with (length A) by lia. rewrite <- app_assoc. cbn [app]. rewrite is_char_app. auto. }
      destruct fuel as [|fuel]; cbn [find_end]; rewrite find_hit, BS; auto. rewrite (snoc1 (A ++ ["\"%char]) CLOSE). replace (length (A ++ ["\"%char]) + 1) with (length ((A ++ ["\"%char]) ++ [CLOSE])) by (rewrite !app_length; cbn; lia). auto.
Qed.
Lemma scan_unfinished ps l : forall args, Forall well_formed ps -> Forall clean args -> spaced true ps = true -> lasthole true ps = false -> Forall flat l ->
  log_msg (format ps ++ OPEN :: concat (map text1 l)) args = Exits.
Proof.
  intros args W C S LH FL. unfold log_msg. set (T := OPEN :: concat (map text1 l)). set (N := length (format ps ++ T)).
  assert (LN : length ps + 1 <= N) by (unfold N; rewrite app_length; pose proof (format_length ps); unfold T; cbn [length]; lia).
  destruct (scan_gen ps T N [] 0 args 0 true W C eq_refl ltac:(discriminate) S ltac:(lia) eq_refl) as (f' & o' & a' & P1 & P2 & P3 & P4 & P5 & P6). cbn [app skipn Nat.add] in *. rewrite P1. clear P1.
  destruct a'; [rewrite P6 in LH by auto; discriminate|]. specialize (P4 eq_refl). rewrite Nat.add_0_r in P3. set (A := format (fill ps args)) in *. clearbody A. destruct f' as [|f']; [lia|]. cbn [scan]. rewrite P3. unfold T. rewrite find_hit, ends_at by auto.
  rewrite find_end_skip by discriminate. rewrite find_end_none; auto.
Qed.

(** ** Removing the backslashes *)
Definition show (so sc : bool) (p : piece) : list ascii :=
  match p with
  | Brace true => if so then [OPEN] else [BSL; OPEN]
  | Brace false => if sc then [CLOSE] else [BSL; CLOSE]
  | _ => text p
  end.
Definition shows (so sc : bool) (ps : list piece) : list ascii := concat (map (show so sc) ps).
Definition filled (p : piece) : Prop := match p with Hole _ => False | _ => well_formed p end.
Lemma fill_ok ps : forall args, Forall well_formed ps -> Forall clean args -> holes ps = length args -> Forall filled (fill ps args) /\ shows true true (fill ps args) = message ps args.
Proof.
  induction ps as [|p ps IH]; intros args W C E; [cbn; auto|]. inversion W as [|p1 l1 W1 W2]; subst. unfold holes in E. destruct p as [c|c|[|]| |l]; cbn [filter length fill message] in *; try (destruct (IH args W2 C E) as [F S]; split; [constructor; auto|]; unfold shows in *; cbn [map concat show text text1 app]; rewrite S; auto).
  destruct args as [|t args]; [discriminate|]. cbn [length] in E. inversion C as [|? ? C1 C2]; subst. destruct (IH args W2 C2) as [F S]; [unfold holes; lia|]. split.
  - apply Forall_app. split; auto. clear - C1. induction C1; cbn; constructor; auto.
  - unfold shows in *. rewrite map_app, concat_app, S. f_equal. clear. induction t; cbn; auto. f_equal. auto.
Qed.

Lemma strip_pos fuel c s a b : option_map (Nat.add a) (find2 (skipn a s) c) = option_map (Nat.add b) (find2 (skipn b s) c) -> strip fuel c s a = strip fuel c s b.
Proof. intros E. destruct fuel; cbn [strip]; destruct (find2 (skipn a s) c), (find2 (skipn b s) c); cbn in E; try discriminate; auto; inversion E as [E1]; rewrite E1; auto. Qed.
Lemma strip_skip fuel c A x B : (x = BSL -> forall y B', B = y :: B' -> y <> c) -> strip fuel c (A ++ x :: B) (length A) = strip fuel c ((A ++ [x]) ++ B) (length (A ++ [x])).
Proof.
  intros N. rewrite <- snoc1. apply strip_pos. rewrite !skipn_app, skipn_all, Nat.sub_diag. cbn [app skipn find2]. rewrite app_length. cbn [length]. rewrite skipn_all2 by lia. replace (length A + 1 - length A) with 1 by lia. cbn [app skipn].
  destruct (Ascii.eqb x BSL && is_char B 0 c) eqn:E.
  - apply andb_true_iff in E as [E1 E2]. apply Ascii.eqb_eq in E1. unfold is_char in E2. destruct B as [|y B]; [discriminate|]. cbn in E2. apply Ascii.eqb_eq in E2. exfalso. eapply N; eauto.
  - destruct (find2 B c); cbn; auto. f_equal. lia.
Qed.
Lemma strip_hit fuel c A B : c <> BSL -> strip (S fuel) c (A ++ BSL :: c :: B) (length A) = strip fuel c ((A ++ [c]) ++ B) (length (A ++ [c])).
Proof.
  intros N. cbn [strip]. rewrite skipn_app, skipn_all, Nat.sub_diag. cbn [app skipn find2]. rewrite eqb_r. unfold is_char at 1. cbn [nth_error andb]. rewrite eqb_r. rewrite Nat.add_0_r.
  replace (replace (A ++ BSL :: c :: B) (length A) 1 []) with (A ++ c :: B). 2: { unfold replace. rewrite firstn_app, firstn_all, Nat.sub_diag. cbn [firstn]. rewrite app_nil_r. cbn [app]. f_equal. rewrite skipn_app. rewrite skipn_all2 by lia. replace (length A + 1 - length A) with 1 by lia. auto. }
  apply strip_skip. congruence.
Qed.
Lemma strip_none c A fuel : strip fuel c (A ++ []) (length A) = Some (A ++ []).
Proof. destruct fuel; cbn [strip]; rewrite skipn_app, skipn_all, Nat.sub_diag; cbn; auto. Qed.

Lemma shows_cons so sc p ps : shows so sc (p :: ps) = show so sc p ++ shows so sc ps.
Proof. auto. Qed.
Lemma ord_ne c : ordinary c -> c <> BSL /\ c <> OPEN /\ c <> CLOSE.
Proof. intros (A & B & C). auto. Qed.
Ltac noesc := let y := fresh in let B := fresh in let E := fresh in intros ? y B E; injection E; intros; subst; auto; discriminate.
Lemma strip_open ps : forall fuel A, Forall filled ps -> length ps <= fuel -> strip fuel OPEN (A ++ shows false false ps) (length A) = Some (A ++ shows true false ps).
Proof.
  induction ps as [|p ps IH]; intros fuel A F L; [apply strip_none|]. inversion F as [|p1 l1 F1 F2]; subst. cbn [length] in L. rewrite !shows_cons. destruct p as [c|c|[|]| |l]; cbn [show text text1 app]; try contradiction.
  - apply ord_ne in F1 as (N1 & N2 & N3). rewrite strip_skip by congruence. rewrite IH by (auto; lia). rewrite <- snoc1. auto.
  - apply ord_ne in F1 as (N1 & N2 & N3). rewrite strip_skip by noesc. rewrite strip_skip by congruence. rewrite IH by (auto; lia). rewrite <- !snoc1. auto.
  - destruct fuel as [|fuel]; [lia|]. change "\"%char with BSL. change "{"%char with OPEN. rewrite strip_hit by discriminate. rewrite IH by (auto; lia). rewrite <- snoc1. auto.
  - rewrite strip_skip by noesc. rewrite strip_skip by discriminate. rewrite IH by (auto; lia). rewrite <- !snoc1. auto.
  - rewrite strip_skip by discriminate. rewrite IH by (auto; lia). rewrite <- snoc1. auto.
Qed.
Lemma strip_close ps : forall fuel A, Forall filled ps -> length ps <= fuel -> strip fuel CLOSE (A ++ shows true false ps) (length A) = Some (A ++ shows true true ps).
Proof.
  induction ps as [|p ps IH]; intros fuel A F L; [apply strip_none|]. inversion F as [|p1 l1 F1 F2]; subst. cbn [length] in L. rewrite !shows_cons. destruct p as [c|c|[|]| |l]; cbn [show text text1 app]; try contradiction.
  - apply ord_ne in F1 as (N1 & N2 & N3). rewrite strip_skip by congruence. rewrite IH by (auto; lia). rewrite <- snoc1. auto.
  - apply ord_ne in F1 as (N1 & N2 & N3). rewrite strip_skip by noesc. rewrite strip_skip by congruence. rewrite IH by (auto; lia). rewrite <- !snoc1. auto.
  - rewrite strip_skip by discriminate. rewrite IH by (auto; lia). rewrite <- snoc1. auto.
  - destruct fuel as [|fuel]; [lia|]. change "\"%char with BSL. change "}"%char with CLOSE. rewrite strip_hit by discriminate. rewrite IH by (auto; lia). rewrite <- snoc1. auto.
  - rewrite strip_skip by discriminate. rewrite IH by (auto; lia). rewrite <- snoc1. auto.
Qed.
Lemma shows_format ps : Forall filled ps -> shows false false ps = format ps.
Proof. intros F. unfold shows, format. f_equal. apply map_ext. intros [| |[|]| |]; auto. Qed.
Lemma shows_length so sc ps : Forall filled ps -> length ps <= length (shows so sc ps).
Proof. induction 1 as [|p ps F FF IH]; auto. rewrite shows_cons, app_length. destruct p as [| |[|]| |]; cbn in *; try lia; try contradiction; destruct so, sc; cbn; lia. Qed.

Lemma log_msg_ok ps args : Forall well_formed ps -> Forall clean args -> spaced true ps = true -> log_msg (format ps) args = if Nat.eqb (holes ps) (length args) then Logs (message ps args) else Exits.
Proof.
  intros W C S. unfold log_msg. rewrite (scan_main ps args W C S).
  destruct (Nat.eqb_spec (holes ps) (length args)) as [EQ|]; auto. destruct (fill_ok ps args W C EQ) as [F M]. rewrite <- (shows_format _ F).
  pose proof (strip_open (fill ps args) (length (shows false false (fill ps args))) [] F (shows_length _ _ _ F)) as S1. cbn [app length] in S1. rewrite S1.
  pose proof (strip_close (fill ps args) (length (shows true false (fill ps args))) [] F (shows_length _ _ _ F)) as S2. cbn [app length] in S2. rewrite S2, M. auto.
Qed.

(** ** Termination, whatever the strings *)
Lemma index_lt c s i : index_of c s = Some i -> i < length s.
Proof. revert i. induction s as [|x s IH]; intros i E; [discriminate|]. cbn in E. destruct (Ascii.eqb x c); [inversion E; cbn; lia|]. destruct (index_of c s) as [j|]; [|discriminate]. inversion E; subst. specialize (IH j eq_refl). cbn. lia. Qed.
Lemma find_bounds s c p i : find s c p = Some i -> p <= i < length s.
Proof. unfold find. destruct (index_of c (skipn p s)) as [j|] eqn:E; [|discriminate]. intros X. inversion X; subst. apply index_lt in E. rewrite skipn_length in E. lia. Qed.
Lemma find_end_bounds fuel s : forall p e, find_end fuel s p = Some e -> p <= e < length s.
Proof.
  induction fuel as [|fuel IH]; intros p e E; cbn [find_end] in E; destruct (find s CLOSE p) as [i|] eqn:F; try discriminate; apply find_bounds in F; destruct (is_char s (i - 1) BSL); try discriminate; try (inversion E; subst; auto).
  apply IH in E. lia.
Qed.
Lemma replace_length s o n t : o + n <= length s -> length (replace s o n t) = length s - n + length t.
Proof. intros L. unfold replace. rewrite !app_length, firstn_length, skipn_length. lia. Qed.
Lemma scan_ends fuel : forall s o args n, length s - o <= fuel -> scan fuel s o args n <> inr Diverges.
Proof.
  induction fuel as [|fuel IH]; intros s o args n L; cbn [scan].
  - rewrite find_out by lia. discriminate.
  - destruct (find s OPEN (o + 1)) as [i|] eqn:F; [|discriminate]. apply find_bounds in F. destruct (is_char s (i - 1) BSL); [apply IH; lia|].
    destruct (find_end (length s) s i) as [e|] eqn:E; [|discriminate]. apply find_end_bounds in E. destruct (nth_error args n) as [t|]; apply IH; [|lia]. rewrite replace_length; lia.
Qed.
Lemma find2_lt c s i : find2 s c = Some i -> i + 1 < length s.
Proof. revert i. induction s as [|x s IH]; intros i E; [discriminate|]. cbn [find2] in E. destruct (Ascii.eqb x BSL && is_char s 0 c) eqn:B. - inversion E; subst. apply andb_true_iff in B as [_ B]. destruct s; [discriminate|]. cbn. lia. - destruct (find2 s c) as [j|]; [|discriminate]. inversion E; subst. specialize (IH j eq_refl). cbn. lia. Qed.
Lemma strip_ends fuel c : forall s p, length s - p <= fuel -> exists r, strip fuel c s p = Some r.
Proof.
  induction fuel as [|fuel IH]; intros s p L; cbn [strip]; destruct (find2 (skipn p s) c) as [i|] eqn:F; eauto; apply find2_lt in F; rewrite skipn_length in F; [lia|]. apply IH. rewrite replace_length; cbn; lia.
Qed.
Lemma log_msg_ends fmt args : log_msg fmt args <> Diverges.
Proof.
  unfold log_msg. pose proof (scan_ends (length fmt) fmt 0 args 0 ltac:(lia)) as S. destruct (scan (length fmt) fmt 0 args 0) as [[s n]|r]; [|congruence]. destruct (Nat.eqb n (length args)); [|discriminate].
  destruct (strip_ends (length s) OPEN s 0) as (s1 & ->); [lia|]. destruct (strip_ends (length s1) CLOSE s1 0) as (s2 & ->); [lia|]. discriminate.
Qed.
