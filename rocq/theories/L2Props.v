(** * C78: l2_switch *)
From Coq Require Import List Arith NArith Bool Lia.
From Verif Require Import L2Model L2Spec.
Import ListNotations.

Section L2.
Context (W : Type) (parse : phv -> bytes -> phv * bytes) (ingress egress : W -> phv -> W * phv) (deparse : phv -> bytes -> bytes) (reset : phv -> phv) (group1 : W -> list nat).
Context (cap_in cap_out : nat).
Notation Step := (step W parse ingress egress deparse reset group1 cap_in cap_out).
Notation Run := (run W parse ingress egress deparse reset group1 cap_in cap_out).
Notation Sends := (sends W egress deparse).
Notation Alls := (alls W parse ingress egress deparse group1).

Lemma sends_snoc h load w ps w1 os : Sends h load w ps w1 os -> forall p w2 h2, egress w1 h = (w2, h2) -> Sends h load w (ps ++ [p]) w2 (os ++ [(p, deparse h2 load)]).
Proof. induction 1; intros q w2' h2 E; [econstructor; [symmetry; exact E|constructor]|]. cbn [app]. econstructor; eauto. Qed.
Lemma ports_goes w port h ps : ports_of W group1 w port h = Some ps -> goes W group1 w port h ps.
Proof.
  unfold ports_of. destruct (h 2 =? 0) eqn:E2.
  - apply Nat.eqb_eq in E2. destruct (h 1 =? 511) eqn:E1; cbn [andb]; intros H; injection H as <-; [apply Nat.eqb_eq in E1; constructor; auto|apply Nat.eqb_neq in E1; constructor; auto].
  - rewrite andb_false_r. destruct (h 2 =? 1) eqn:E3; [|discriminate]. apply Nat.eqb_eq in E3. intros H. injection H as <-. constructor; auto.
    intros p I. apply filter_In in I. destruct I as [_ I]. apply negb_true_iff, Nat.eqb_neq in I. exact I.
Qed.

(** Packets done, and the one whose copies are being sent *)
Definition Inv (w0 : W) (s : st W) (got : list rx) : Prop :=
  exists fin w1 os ls cur_os cur_ps,
    got = fin ++ s_in W s ++ match s_rx W s with Some p => [p] | None => [] end /\
    s_sent W s ++ map fst (s_out W s) = os ++ cur_os /\
    Sends (k_phv (s_work W s)) (k_load (s_work W s)) w1 cur_ps (s_w W s) cur_os /\
    ((fin = [] /\ w1 = w0 /\ os = [] /\ ls = [] /\ s_learn W s = [] /\ cur_ps = [] /\ k_ports (s_work W s) = []) \/
     exists pre p wp h load h1 lp, fin = pre ++ [p] /\ Alls w0 pre wp os ls /\ parse (with_port (snd p) (fst (fst p))) (snd (fst p)) = (h, load) /\ ingress wp h = (w1, h1) /\
       goes W group1 w1 (fst (fst p)) h1 (cur_ps ++ k_ports (s_work W s)) /\ (forall f, k_phv (s_work W s) f = cleared h1 f) /\ k_load (s_work W s) = load /\
       lp = (if h1 3 =? 0 then [] else [(h1 3, h1)]) /\ s_learn W s = ls ++ lp).

Lemma Inv_done w0 s got : Inv w0 s got -> k_ports (s_work W s) = [] -> exists fin, got = fin ++ s_in W s ++ match s_rx W s with Some p => [p] | None => [] end /\ Alls w0 fin (s_w W s) (s_sent W s ++ map fst (s_out W s)) (s_learn W s).
Proof.
  intros (fin & w1 & os & ls & cos & cps & G & O & S & H) K. exists fin. split; [exact G|]. destruct H as [(-> & -> & -> & -> & -> & -> & _)|(pre & p & wp & h & load & h1 & lp & -> & A & P & I & Go & C & L & -> & ->)].
  - inversion S; subst. rewrite O. constructor.
  - rewrite O. econstructor; [exact A|]. rewrite K, app_nil_r in Go. econstructor; eauto. rewrite <- L. exact S.
Qed.
Lemma step_inv w0 s got l s' : Inv w0 s got -> Step s l = Go W s' -> Inv w0 s' (got ++ match l with LRecv port b => [(port, b, fst (take (s_pool W s)))] | _ => [] end).
Proof.
  intros I H. destruct l as [port b| | | |]; cbn [step] in H.
  - destruct (s_rx W s) eqn:E; [discriminate|]. injection H as <-. destruct I as (fin & w1 & os & ls & cos & cps & G & R). exists fin, w1, os, ls, cos, cps. cbn [s_in s_rx s_sent s_out s_work s_w s_learn]. split; [|exact R].
    rewrite G, E, app_nil_r, app_assoc. reflexivity.
  - destruct (s_rx W s) as [p|] eqn:E; [|discriminate]. destruct (_ <? _); [|discriminate]. injection H as <-. destruct I as (fin & w1 & os & ls & cos & cps & G & R). exists fin, w1, os, ls, cos, cps. cbn [s_in s_rx s_sent s_out s_work s_w s_learn]. split; [|exact R].
    rewrite G, E, !app_nil_r. reflexivity.
  - destruct (k_ports (s_work W s)) as [|] eqn:K; [|discriminate]. destruct (s_in W s) as [|[[port b] h0] r] eqn:Ei; [discriminate|]. destruct (Inv_done _ _ _ I K) as (fin & G & A).
    change (set_f h0 0 port) with (with_port h0 port) in H. destruct (parse (with_port h0 port) b) as [h load] eqn:P. destruct (ingress (s_w W s) h) as [w1 h1] eqn:Eg.
    set (h2 := if 0 <? h1 3 then set_f h1 3 0 else h1) in *. destruct (ports_of W group1 w1 port h2) as [ps|] eqn:Po; [|discriminate]. injection H as <-.
    assert (E1 : h2 1 = h1 1) by (unfold h2; destruct (0 <? h1 3); reflexivity). assert (E2 : h2 2 = h1 2) by (unfold h2; destruct (0 <? h1 3); reflexivity).
    assert (Po' : ports_of W group1 w1 port h1 = Some ps) by (unfold ports_of in *; rewrite E1, E2 in Po; exact Po).
    exists (fin ++ [(port, b, h0)]), w1, (s_sent W s ++ map fst (s_out W s)), (s_learn W s), [], []. cbn [s_in s_rx s_sent s_out s_work s_w s_learn k_phv k_load k_ports].
    split; [rewrite G, Ei, app_nil_r, <- app_assoc; reflexivity|]. split; [symmetry; apply app_nil_r|]. split; [constructor|]. right.
    exists fin, (port, b, h0), (s_w W s), h, load, h1. eexists. cbn [fst snd app]. split; [reflexivity|]. split; [exact A|]. split; [exact P|]. split; [exact Eg|]. split; [apply ports_goes; exact Po'|]. split; [|split; [reflexivity|split; [reflexivity|]]].
    + intros f. rewrite E2. destruct (h1 2 =? 0) eqn:Z.
      * apply Nat.eqb_eq in Z. unfold h2. destruct (0 <? h1 3) eqn:T; [|apply Nat.ltb_ge in T; assert (h1 3 = 0) by lia]; destruct f as [|[|[|[|f]]]]; cbn; auto.
      * unfold h2. destruct (0 <? h1 3) eqn:T; [|apply Nat.ltb_ge in T; assert (h1 3 = 0) by lia]; destruct f as [|[|[|[|f]]]]; cbn; auto.
    + destruct (h1 3) as [|n] eqn:T; cbn [Nat.ltb Nat.leb Nat.eqb]; [rewrite app_nil_r|]; reflexivity.
  - destruct (k_ports (s_work W s)) as [|p r] eqn:K; [discriminate|]. destruct (_ <? _); [|discriminate]. destruct (egress (s_w W s) (k_phv (s_work W s))) as [w2 h2] eqn:Ee. injection H as <-.
    destruct I as (fin & w1 & os & ls & cos & cps & G & O & S & R). exists fin, w1, os, ls, (cos ++ [(p, deparse h2 (k_load (s_work W s)))]), (cps ++ [p]). cbn [s_in s_rx s_sent s_out s_work s_w s_learn k_phv k_load k_ports]. rewrite app_nil_r.
    split; [exact G|]. split; [rewrite map_app; cbn [map fst]; rewrite !app_assoc, O; reflexivity|]. split; [exact (sends_snoc _ _ _ _ _ _ S _ _ _ Ee)|].
    destruct R as [(_ & _ & _ & _ & _ & _ & Z)|R]; [congruence|]. right. rewrite K in R. rewrite <- app_assoc. exact R.
  - destruct (s_out W s) as [|[p ph] r] eqn:E; [discriminate|]. injection H as <-. destruct I as (fin & w1 & os & ls & cos & cps & G & O & R). exists fin, w1, os, ls, cos, cps. cbn [s_in s_rx s_sent s_out s_work s_w s_learn]. rewrite app_nil_r.
    split; [exact G|]. split; [rewrite E in O; rewrite <- app_assoc; exact O|exact R].
Qed.
Lemma run_inv ls : forall w0 s got s' g, Inv w0 s got -> Run s ls = Some (s', g) -> Inv w0 s' (got ++ g).
Proof.
  induction ls as [|l ls IH]; intros w0 s got s' g I R; cbn [run] in R; [injection R as <- <-; rewrite app_nil_r; exact I|].
  destruct (Step s l) as [s1| |] eqn:E; [|eauto|discriminate]. destruct (Run s1 ls) as [[s2 g2]|] eqn:E2; [|discriminate]. injection R as <- <-.
  pose proof (IH _ _ _ _ _ (step_inv _ _ _ _ _ I E) E2) as Q. rewrite <- app_assoc in Q. destruct l; exact Q.
Qed.
Lemma Inv_init w0 : Inv w0 (init W w0) [].
Proof. exists [], w0, [], [], [], []. cbn. repeat split; auto; try constructor. repeat split. Qed.

(** ** Every schedule.  What was sent or waits to be sent is what processing the packets one at a time, in the order received and each with the header vector it got, gives; nothing is lost, duplicated or reordered,
    and a flooded packet does not go back to the port it came from. *)
Theorem C78_in_order : forall w0 ls s got, Run (init W w0) ls = Some (s, got) -> k_ports (s_work W s) = [] ->
  exists fin, got = fin ++ s_in W s ++ match s_rx W s with Some p => [p] | None => [] end /\ Alls w0 fin (s_w W s) (s_sent W s ++ map fst (s_out W s)) (s_learn W s).
Proof. intros w0 ls s got R K. exact (Inv_done _ _ _ (run_inv _ _ _ [] _ _ (Inv_init w0) R) K). Qed.

(** A program that sets the fields it uses gives every packet what it gets alone, with a header vector of zeros *)
Lemma one_clean (I : initialises W parse ingress) w p w2 os ls : one W parse ingress egress deparse group1 w p w2 os ls -> one W parse ingress egress deparse group1 w (fst p, zeros) w2 os ls.
Proof.
  intros H. destruct H as [h load w1 h1 ps w2 os he P Ig Go C S]. destruct (I w (snd p) (fst (fst p)) (snd (fst p))) as [E1 E2]. rewrite P in E1, E2. cbn [fst snd] in E1, E2.
  destruct (parse (with_port zeros (fst (fst p))) (snd (fst p))) as [h' load'] eqn:P'. cbn [fst snd] in E1, E2. subst load'. econstructor; cbn [fst snd]; [exact P'|rewrite <- E2; exact Ig|exact Go|exact C|exact S].
Qed.
Lemma alls_clean (I : initialises W parse ingress) w ps w2 os ls : Alls w ps w2 os ls -> Alls w (clean ps) w2 os ls.
Proof. induction 1; [constructor|]. unfold clean in *. rewrite map_app. cbn [map]. econstructor; [eassumption|]. apply one_clean; assumption. Qed.
Theorem C78_alone : initialises W parse ingress -> forall w0 ls s got, Run (init W w0) ls = Some (s, got) -> k_ports (s_work W s) = [] ->
  exists fin, got = fin ++ s_in W s ++ match s_rx W s with Some p => [p] | None => [] end /\ Alls w0 (clean fin) (s_w W s) (s_sent W s ++ map fst (s_out W s)) (s_learn W s).
Proof. intros I w0 ls s got R K. destruct (C78_in_order w0 ls s got R K) as (fin & G & A). exists fin. split; [exact G|]. apply alls_clean; assumption. Qed.

(** ** The queues keep their bounds *)
Theorem C78_bounded : forall w0 ls s got, Run (init W w0) ls = Some (s, got) -> length (s_in W s) <= cap_in /\ length (s_out W s) <= cap_out.
Proof.
  intros w0 ls. assert (G : forall ls s0 s got, length (s_in W s0) <= cap_in -> length (s_out W s0) <= cap_out -> Run s0 ls = Some (s, got) -> length (s_in W s) <= cap_in /\ length (s_out W s) <= cap_out).
  { clear. induction ls as [|l ls IH]; intros s0 s got A B R; cbn [run] in R; [injection R as <- _; auto|]. destruct (Step s0 l) as [s1| |] eqn:E; [|eauto|discriminate]. destruct (Run s1 ls) as [[s2 g2]|] eqn:E2; [|discriminate]. injection R as <- _.
    assert (Q : length (s_in W s1) <= cap_in /\ length (s_out W s1) <= cap_out); [|destruct Q; eapply IH; eauto].
    destruct l as [port b| | | |]; cbn [step] in E.
    - destruct (s_rx W s0); [discriminate|]. injection E as <-. auto.
    - destruct (s_rx W s0); [|discriminate]. destruct (_ <? _) eqn:C; [|discriminate]. injection E as <-. apply Nat.ltb_lt in C. cbn [s_in s_out]. rewrite app_length. cbn [length]. lia.
    - destruct (k_ports _); [|discriminate]. destruct (s_in W s0) as [|[[port b] h0] r]; [discriminate|]. destruct (parse _ _). destruct (ingress _ _). destruct (ports_of _ _ _ _ _); [|discriminate]. injection E as <-. cbn [s_in s_out length] in *. lia.
    - destruct (k_ports _); [discriminate|]. destruct (_ <? _) eqn:C; [|discriminate]. destruct (egress _ _). injection E as <-. apply Nat.ltb_lt in C. cbn [s_in s_out]. rewrite app_length. cbn [length]. lia.
    - destruct (s_out W s0) as [|[? ?] ?]; [discriminate|]. injection E as <-. cbn [s_in s_out length] in *. lia. }
  intros s got. apply G; cbn; lia.
Qed.

(** ** The threads by themselves deliver everything *)
Definition own (l : label) : Prop := match l with LRecv _ _ => False | _ => True end.
Lemma run_app a : forall s b, Run s (a ++ b) = match Run s a with Some (s1, g1) => match Run s1 b with Some (s2, g2) => Some (s2, g1 ++ g2) | None => None end | None => None end.
Proof.
  induction a as [|l a IH]; intros s b; cbn [app run]; [destruct (Run s b) as [[? ?]|]; reflexivity|]. destruct (Step s l) as [s1| |]; [|apply IH|reflexivity]. rewrite IH. destruct (Run s1 a) as [[s2 g2]|]; [|reflexivity]. destruct (Run s2 b) as [[s3 g3]|]; [|reflexivity]. destruct l; reflexivity.
Qed.
Lemma own_got ls : forall s s' g, Forall own ls -> Run s ls = Some (s', g) -> g = [].
Proof.
  induction ls as [|l ls IH]; intros s s' g F R; cbn [run] in R; [injection R as _ <-; reflexivity|]. inversion F; subst. destruct (Step s l) as [s1| |]; [|eauto|discriminate]. destruct (Run s1 ls) as [[s2 g2]|] eqn:E; [|discriminate]. injection R as _ <-. destruct l; [contradiction| | | |]; eauto.
Qed.
Definition drains (s : st W) (P : st W -> Prop) : Prop := exists ls, Forall own ls /\ (Run s ls = None \/ exists s', Run s ls = Some (s', []) /\ P s').
Lemma drains_trans s P Q : drains s P -> (forall s', P s' -> drains s' Q) -> drains s Q.
Proof.
  intros (a & Fa & [Ra|(s1 & Ra & P1)]) H; [exists a; auto|]. destruct (H s1 P1) as (b & Fb & Rb). exists (a ++ b). split; [apply Forall_app; auto|]. rewrite run_app, Ra.
  destruct Rb as [Rb|(s2 & Rb & Q2)]; rewrite Rb; [left; reflexivity|right; exists s2; auto].
Qed.
Lemma drain_out s : drains s (fun s' => s_out W s' = [] /\ s_work W s' = s_work W s /\ s_in W s' = s_in W s /\ s_rx W s' = s_rx W s).
Proof.
  remember (s_out W s) as o eqn:E. symmetry in E. revert s E. induction o as [|[p ph] o IH]; intros s E; [exists []; split; [constructor|]; right; exists s; auto|].
  destruct (IH (mk_st W (s_w W s) (s_rx W s) (s_in W s) (s_work W s) o (s_sent W s ++ [p]) (s_learn W s) (reset ph :: s_pool W s)) eq_refl) as (ls & F & R). exists (LSend :: ls). split; [constructor; [exact Logic.I|exact F]|]. cbn [run step]. rewrite E.
  destruct R as [R|(s' & R & Q)]; rewrite R; [left; reflexivity|right; exists s'; auto].
Qed.
Lemma drain_work s : 0 < cap_out -> drains s (fun s' => s_out W s' = [] /\ k_ports (s_work W s') = [] /\ s_in W s' = s_in W s /\ s_rx W s' = s_rx W s).
Proof.
  intros C. remember (k_ports (s_work W s)) as o eqn:E. symmetry in E. revert s E. induction o as [|p o IH]; intros s E.
  - eapply drains_trans; [apply drain_out|]. intros s' (A & B & D & F). exists []. split; [constructor|]. right. exists s'. cbn [run]. rewrite B. auto.
  - eapply drains_trans; [apply drain_out|]. intros s1 (A & B & D & F). destruct (egress (s_w W s1) (k_phv (s_work W s1))) as [w2 h2] eqn:Ee.
    destruct (Step s1 LPush) as [s2| |] eqn:St; [|exfalso; cbn [step] in St; rewrite B, E, A in St; cbn [length] in St; rewrite (proj2 (Nat.ltb_lt _ _) C), <- B, Ee in St; discriminate..].
    assert (Q : k_ports (s_work W s2) = o /\ s_in W s2 = s_in W s1 /\ s_rx W s2 = s_rx W s1).
    { cbn [step] in St. rewrite B, E, A in St. cbn [length] in St. rewrite (proj2 (Nat.ltb_lt _ _) C), <- B, Ee in St. injection St as <-. auto. }
    destruct Q as (Q1 & Q2 & Q3).
    destruct (IH s2 Q1) as (ls & Fl & R). exists (LPush :: ls). split; [constructor; [exact Logic.I|exact Fl]|]. cbn [run]. rewrite St. rewrite Q2, Q3, D, F in R.
    destruct R as [R|(s' & R & Q)]; rewrite R; [left; reflexivity|right; exists s'; auto].
Qed.
Lemma drain_in s : 0 < cap_out -> drains s (fun s' => s_out W s' = [] /\ k_ports (s_work W s') = [] /\ s_in W s' = [] /\ s_rx W s' = s_rx W s).
Proof.
  intros C. remember (s_in W s) as o eqn:E. symmetry in E. revert s E. induction o as [|[[port b] h0] o IH]; intros s E.
  - eapply drains_trans; [apply (drain_work s C)|]. intros s' (A & B & D & F). exists []. split; [constructor|]. right. exists s'. cbn [run]. rewrite D, E. auto.
  - eapply drains_trans; [apply (drain_work s C)|]. intros s1 (A & B & D & F). rewrite E in D. destruct (Step s1 LPipe) as [s2| |] eqn:St.
    + assert (Q : s_in W s2 = o /\ s_rx W s2 = s_rx W s).
      { cbn [step] in St. rewrite B, D in St. destruct (parse _ _). destruct (ingress _ _). destruct (ports_of _ _ _ _ _); [|discriminate]. injection St as <-. auto. }
      destruct Q as [Q1 Q2]. destruct (IH s2 Q1) as (ls & Fl & R). exists (LPipe :: ls). split; [constructor; [exact Logic.I|exact Fl]|]. cbn [run]. rewrite St. rewrite Q2 in R. destruct R as [R|(s' & R & Q)]; rewrite R; [left; reflexivity|right; exists s'; auto].
    + exfalso. cbn [step] in St. rewrite B, D in St. destruct (parse _ _). destruct (ingress _ _). destruct (ports_of _ _ _ _ _); discriminate.
    + exists [LPipe]. split; [repeat constructor|]. left. cbn [run]. rewrite St. reflexivity.
Qed.
Theorem C78_all_delivered : 0 < cap_in -> 0 < cap_out -> forall w0 ls s got, Run (init W w0) ls = Some (s, got) ->
  exists more, Forall own more /\ (Run s more = None \/ exists s' w, Run s more = Some (s', []) /\ Alls w0 got w (s_sent W s') (s_learn W s')).
Proof.
  intros Ci Co w0 ls s got R. pose proof (run_inv _ _ _ [] _ _ (Inv_init w0) R) as I. cbn [app] in I.
  assert (D : drains s (fun s' => s_out W s' = [] /\ k_ports (s_work W s') = [] /\ s_in W s' = [] /\ s_rx W s' = None)).
  { eapply drains_trans; [apply (drain_in s Co)|]. intros s1 (A & B & D & F). destruct (s_rx W s1) as [p|] eqn:Er.
    - set (s2 := mk_st W (s_w W s1) None [p] (s_work W s1) (s_out W s1) (s_sent W s1) (s_learn W s1) (s_pool W s1)).
      assert (St : Step s1 LIn = Go W s2). { cbn [step]. rewrite Er, D. cbn [length app]. rewrite (proj2 (Nat.ltb_lt _ _) Ci). reflexivity. }
      destruct (drain_in s2 Co) as (ms & Fm & Rm). exists (LIn :: ms). split; [constructor; [exact Logic.I|exact Fm]|]. cbn [run]. rewrite St. destruct Rm as [Rm|(s' & Rm & Q)]; rewrite Rm; [left; reflexivity|right; exists s'; auto].
    - exists []. split; [constructor|]. right. exists s1. auto. }
  destruct D as (more & F & [Rm|(s' & Rm & A & B & C & E)]); exists more; (split; [exact F|]); [left; exact Rm|right]. exists s', (s_w W s'). split; [exact Rm|].
  pose proof (run_inv _ _ _ _ _ _ I Rm) as I'. rewrite app_nil_r in I'. destruct (Inv_done _ _ _ I' B) as (fin & G & Al). rewrite C, E, app_nil_r in G. rewrite A, app_nil_r in Al. rewrite G. exact Al.
Qed.

(** ** The program ends, in its assertion, exactly when ingress asks for a group other than 1 *)
Theorem C78_abort : forall s l, Step s l = Failed W <-> l = LPipe /\ k_ports (s_work W s) = [] /\
  exists port b h0 r h load w1 h1, s_in W s = (port, b, h0) :: r /\ parse (set_f h0 0 port) b = (h, load) /\ ingress (s_w W s) h = (w1, h1) /\ 1 < h1 2.
Proof.
  intros s l. split.
  - intros H. destruct l as [port b| | | |]; cbn [step] in H.
    + destruct (s_rx W s); discriminate.
    + destruct (s_rx W s); [|discriminate]. destruct (_ <? _); discriminate.
    + destruct (k_ports (s_work W s)); [|discriminate]. destruct (s_in W s) as [|[[port b] h0] r]; [discriminate|]. destruct (parse _ _) as [h load] eqn:P. destruct (ingress _ _) as [w1 h1] eqn:I.
      split; [reflexivity|]. split; [reflexivity|]. exists port, b, h0, r, h, load, w1, h1. split; [reflexivity|]. split; [exact P|]. split; [exact I|].
      destruct (ports_of _ _ _ _ _) eqn:Po; [discriminate|]. unfold ports_of in Po. replace ((if 0 <? h1 3 then set_f h1 3 0 else h1) 2) with (h1 2) in Po by (destruct (0 <? h1 3); reflexivity).
      destruct (h1 2) as [|[|n]]; [|cbn in Po; rewrite andb_false_r in Po; discriminate|lia]. destruct (_ && _); discriminate.
    + destruct (k_ports _); [discriminate|]. destruct (_ <? _); [|discriminate]. destruct (egress _ _). discriminate.
    + destruct (s_out W s) as [|[? ?] ?]; discriminate.
  - intros (-> & K & port & b & h0 & r & h & load & w1 & h1 & E & P & I & L). cbn [step]. rewrite K, E, P, I. unfold ports_of. replace ((if 0 <? h1 3 then set_f h1 3 0 else h1) 2) with (h1 2) by (destruct (0 <? h1 3); reflexivity).
    destruct (h1 2) as [|[|n]]; [lia|lia|]. cbn [Nat.eqb]. rewrite andb_false_r. reflexivity.
Qed.
End L2.

(** ** Metadata of earlier packets *)
(** A program that reads the first byte, and sends to port 7 if it is 1; otherwise it does not set the port *)
Definition ex_parse (h : phv) (b : bytes) : phv * bytes := (set_f h 5 (N.to_nat (hd 0%N b)), tl b).
Definition ex_ingress (w : unit) (h : phv) : unit * phv := (w, if h 5 =? 1 then set_f h 1 7 else if h 5 =? 2 then set_f h 2 1 else if h 5 =? 3 then set_f h 2 2 else h).
Definition ex_egress (w : unit) (h : phv) : unit * phv := (w, h).
Definition ex_deparse (h : phv) (b : bytes) : bytes := N.of_nat (h 5) :: b.
Definition ex_group (w : unit) : list nat := [1; 2; 3].
Notation ex_run c := (run unit ex_parse ex_ingress ex_egress ex_deparse (fun h => h) ex_group c c).
Definition ex_sched : list label := [LRecv 1 [1%N]; LIn; LPipe; LPush; LSend; LRecv 2 [0%N]; LIn; LPipe; LPush; LSend].
Example C78_leak_run : option_map (fun r => s_sent unit (fst r)) (ex_run 4 (init unit tt) ex_sched) = Some [(7, [1%N]); (7, [0%N])].
Proof. reflexivity. Qed.
Example C78_flood_run : option_map (fun r => s_sent unit (fst r)) (ex_run 4 (init unit tt) [LRecv 2 [2%N; 9%N]; LIn; LPipe; LPush; LPush; LSend; LSend]) = Some [(1, [2%N; 9%N]); (3, [2%N; 9%N])].
Proof. reflexivity. Qed.
Example C78_abort_run : ex_run 4 (init unit tt) [LRecv 2 [3%N]; LIn; LPipe] = None.
Proof. reflexivity. Qed.
(** A packet is not processed as if it were alone: header vectors are used again without clearing the metadata, so a packet for which the program does not set the port goes where an earlier packet went. *)
Theorem C78_alone_refuted : ~ (forall W parse ingress egress deparse reset group1 cap_in cap_out w0 ls s got,
  run W parse ingress egress deparse reset group1 cap_in cap_out (init W w0) ls = Some (s, got) -> s_in W s = [] -> s_rx W s = None -> k_ports (s_work W s) = [] -> s_out W s = [] ->
  alls W parse ingress egress deparse group1 w0 (clean got) (s_w W s) (s_sent W s) (s_learn W s)).
Proof.
  intros H. specialize (H unit ex_parse ex_ingress ex_egress ex_deparse (fun h => h) ex_group 4 4 tt ex_sched).
  pose proof (eq_refl : option_map (fun r => (s_sent unit (fst r), clean (snd r), s_in unit (fst r), option_map fst (s_rx unit (fst r)), k_ports (s_work unit (fst r)), map fst (s_out unit (fst r)))) (ex_run 4 (init unit tt) ex_sched)
    = Some ([(7, [1%N]); (7, [0%N])], [(1, [1%N], zeros); (2, [0%N], zeros)], [], None, [], [])) as Q.
  destruct (ex_run 4 (init unit tt) ex_sched) as [[s got]|]; [|discriminate Q]. specialize (H s got eq_refl). cbn [option_map fst snd] in Q. injection Q as Q1 Q2 Q3 Q4 Q5 Q6.
  rewrite Q1, Q2 in H. specialize (H Q3). destruct (s_rx unit s); [discriminate Q4|]. destruct (s_out unit s); [|discriminate Q6]. specialize (H eq_refl Q5 eq_refl).
  inversion H as [|w ps w1 os ls p w2 os2 ls2 A O E1 E2 E3 E4]; subst; clear H.
  change [(1, [1%N], zeros); (2, [0%N], zeros)] with ([(1, [1%N], zeros)] ++ [(2, [0%N], zeros)]) in E2. apply app_inj_tail in E2. destruct E2 as [_ ->].
  inversion O as [h load w3 h1 qs w4 os3 he P I G C S]; subst; clear O. cbn in P. injection P as <- <-. cbn in I. injection I as <- <-.
  inversion G as [? Z|? Z|? Z]; subst; cbn in Z; try discriminate.
  inversion S as [|? ? ? ? ? ? ? ? S2]; subst. inversion S2; subst.
  match goal with E : os ++ _ = _ |- _ => change [(7, [1%N]); (7, [0%N])] with ([(7, [1%N])] ++ [(7, [0%N])]) in E; apply app_inj_tail in E; destruct E as [_ E]; discriminate E end.
Qed.
(** A program that always sets the port is one the theorem is about *)
Example C78_alone_used : initialises unit (fun h b => (h, b)) (fun w h => (w, with_port (set_f zeros 1 7) (h 0))).
Proof. intros w h port b. split; reflexivity. Qed.
Print Assumptions C78_alone.
Print Assumptions C78_alone_refuted.
Print Assumptions C78_in_order.
Print Assumptions C78_bounded.
Print Assumptions C78_all_delivered.
Print Assumptions C78_abort.
