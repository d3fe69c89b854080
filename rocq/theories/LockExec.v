(** An executable scheduler for the machine of LockModel.v, used to exhibit concrete runs. *)
From Coq Require Import List Arith NArith Bool Lia.
From Verif Require Import ProfileModel LockModel.
Import ListNotations.

Section Exec.
Variables (O : Type) (lks : O -> list lk) (bdy : O -> list act) (tbl : O -> nat) (n : nat).

Definition freeb (m : mach O) (k : lk) : bool :=
  forallb (fun t => forallb (fun h => negb (mutex_eqb (fst h) (fst k)) || (negb (snd k) && negb (snd h)))
                            (held_by O (m_t O m t))) (seq 0 n).

(** [(t, Some o)]: thread [t] calls [o]; [(t, None)]: thread [t] goes on. *)
Definition exec1 (m : mach O) (s : nat * option O) : option (list (hev O) * mach O) :=
  let '(t, c) := s in
  if m_dead O m || negb (t <? n) then None
  else
    let go th := mkM O (m_w O m) (put O (m_t O m) t th) false in
    match m_t O m t, c with
    | Idle, Some o => Some ([HCall t o], go (Run o (code_of (lks o) (bdy o)) l0 []))
    | Run o (Acq k :: r) l h, None => if freeb m k then Some ([], go (Run o r l (h ++ [k]))) else None
    | Run o (Act a :: r) l h, None =>
        match act_run (tbl o) a (m_w O m) l with
        | Some (w', l') => Some ([], mkM O w' (put O (m_t O m) t (Run o r l' h)) false)
        | None => Some ([HCrash t], mkM O (m_w O m) (m_t O m) true)
        end
    | Run o (Rel k :: r) l h, None => Some ([], go (Run o r l (drop_lk k h)))
    | Run o [] l h, None => match l_out l with Some x => Some ([HRet t x], go Idle) | None => None end
    | _, _ => None
    end.
Fixpoint exec (m : mach O) (sch : list (nat * option O)) : option (list (hev O) * mach O) :=
  match sch with
  | [] => Some ([], m)
  | s :: r => match exec1 m s with
              | Some (h, m1) => match exec m1 r with
                                | Some (h', m2) => Some (h ++ h', m2) | None => None end
              | None => None end
  end.

Lemma mutex_eqb_refl x : mutex_eqb x x = true.
Proof. destruct x; cbn; auto. apply Nat.eqb_refl. Qed.

Lemma freeb_ok m k : (forall t, n <= t -> m_t O m t = Idle) -> freeb m k = true -> can_take O m k.
Proof.
  intros B F t b I. unfold freeb in F. rewrite forallb_forall in F.
  destruct (Nat.lt_ge_cases t n) as [L|L]; [|rewrite (B t L) in I; destruct I].
  specialize (F t). rewrite in_seq in F. assert (Q : 0 <= t < 0 + n) by lia. specialize (F Q).
  rewrite forallb_forall in F. specialize (F _ I). cbn in F. rewrite mutex_eqb_refl in F. cbn in F.
  apply andb_true_iff in F. destruct F as [F1 F2]. apply negb_true_iff in F1, F2. auto.
Qed.

Lemma exec1_ok m s h m' : (forall t, n <= t -> m_t O m t = Idle) -> exec1 m s = Some (h, m') ->
  mstep O lks bdy tbl m (fst s) h m' /\ (forall t, n <= t -> m_t O m' t = Idle).
Proof.
  intros B E. destruct s as [t c]. unfold exec1 in E. cbn [fst].
  destruct (m_dead O m) eqn:D; [discriminate|]. destruct (t <? n) eqn:L; [|discriminate]. apply Nat.ltb_lt in L. cbn in E.
  assert (Q : forall th u, n <= u -> put O (m_t O m) t th u = Idle).
  { intros th u Lu. unfold put. destruct (Nat.eqb_spec u t); [lia|auto]. }
  destruct (m_t O m t) as [|o [|[k|a|k] r] l hl] eqn:Et; destruct c as [o'|]; try discriminate.
  - injection E as <- <-. split; [apply ms_call; auto|cbn; auto].
  - destruct (l_out l) as [x|] eqn:Ol; [|discriminate]. injection E as <- <-. split; [eapply ms_ret; eauto|cbn; auto].
  - destruct (freeb m k) eqn:F; [|discriminate]. injection E as <- <-.
    split; [eapply ms_acq; eauto; apply freeb_ok; auto|cbn; auto].
  - destruct (act_run (tbl o) a (m_w O m) l) as [[w' l']|] eqn:Ea; injection E as <- <-.
    + split; [eapply ms_act; eauto|cbn; auto].
    + split; [eapply ms_die; eauto|cbn; auto].
  - injection E as <- <-. split; [eapply ms_rel; eauto|cbn; auto].
Qed.

Lemma exec_ok sch : forall m h m', (forall t, n <= t -> m_t O m t = Idle) -> exec m sch = Some (h, m') ->
  mrun O lks bdy tbl m h m'.
Proof.
  induction sch as [|s r IH]; intros m h m' B E; cbn in E; [injection E as <- <-; constructor|].
  destruct (exec1 m s) as [[h1 m1]|] eqn:E1; [|discriminate].
  destruct (exec m1 r) as [[h2 m2]|] eqn:E2; [|discriminate]. injection E as <- <-.
  destruct (exec1_ok _ _ _ _ B E1) as [S B1]. econstructor; eauto.
Qed.
Definition hist (r : option (list (hev O) * mach O)) : list (hev O) :=
  match r with Some (h, _) => h | None => [] end.
Lemma exec_hist sch w : exec (mach0 O w) sch <> None ->
  exists m, mrun O lks bdy tbl (mach0 O w) (hist (exec (mach0 O w) sch)) m.
Proof.
  intros H. destruct (exec (mach0 O w) sch) as [[h m]|] eqn:E; [|congruence]. exists m. cbn.
  eapply exec_ok; eauto.
Qed.
End Exec.
