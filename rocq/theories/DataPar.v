(** * Two-sorted parametricity: a relation for models and another for data, respected by every program *)
From Coq Require Import Lia.
From Verif Require Import Prelude Numeric Matrix Filter Extended History SpecParam Param SpecDataPar.

Section Mixed.
Context {T1 T2 : Type} (esc : Prop) (R0 RD : T1 -> T2 -> Prop) (c : cfg) (N1 : num T1) (N2 : num T2).
Hypothesis HM : num_mixed esc R0 RD N1 N2.
Let HN : num_rel esc R0 N1 N2 := proj1 HM.
Let Hsub : forall a a', R0 a a' -> RD a a' := proj1 (proj2 HM).
Notation LM := (Forall2 R0).
Notation LD := (Forall2 RD).
Notation PM := (@prel esc _ _ LM).
Notation PD := (@prel esc _ _ LD).
Lemma lm_ld a a' : LM a a' -> LD a a'.
Proof. induction 1; constructor; auto. Qed.

Lemma d_mul k k' a a' : R0 k k' -> RD a a' -> @prel esc _ _ RD (n_mul N1 k a) (n_mul N2 k' a').
Proof. intros Hk Ha. apply (prel_opt esc RD). apply HM; assumption. Qed.
Lemma d_add a b a' b' : RD a a' -> RD b b' -> @prel esc _ _ RD (n_add N1 a b) (n_add N2 a' b').
Proof. intros Hk Ha. apply (prel_opt esc RD). apply HM; assumption. Qed.
Lemma d_sub a b a' b' : RD a a' -> RD b b' -> @prel esc _ _ RD (n_sub N1 a b) (n_sub N2 a' b').
Proof. intros Hk Ha. apply (prel_opt esc RD). apply HM; assumption. Qed.
Lemma same_nat (m : res nat) : @prel esc nat nat eq m m.
Proof. apply prel_same. reflexivity. Qed.

Lemma m_gen_rowvector s1 s2 M K a x cm a' x' cm' : LM a a' -> LD x x' -> LD cm cm' ->
  (forall o t o' t', RD o o' -> RD t t' -> @prel esc _ _ RD (s1 o t) (s2 o' t')) -> PD (gen_mult_rowvector c N1 s1 M K a x cm) (gen_mult_rowvector c N2 s2 M K a' x' cm').
Proof.
  intros Ha Hx Hc Hs. unfold gen_mult_rowvector.
  eapply (prel_bind esc RD); [apply (prel_rd esc RD); [exact Hx|reflexivity]|]. intros b0 b0' Hb.
  eapply (prel_bind esc (rel_prod eq LD)).
  - apply prel_for_range; [split; [reflexivity|exact Hc]|]. intros i (ia & cd) (ia' & cd') (E & Hcd). cbn [fst snd] in E, Hcd. hnf in E. subst ia'.
    eapply (prel_bind esc R0); [apply (prel_rd esc R0); [exact Ha|reflexivity]|]. intros av av' Hav.
    eapply (prel_bind esc RD); [apply d_mul; assumption|]. intros t t' Ht.
    eapply (prel_bind esc eq); [apply same_nat|]. intros ia1 ? <-.
    eapply (prel_bind esc (rel_prod eq RD)).
    + apply prel_for_range; [split; [reflexivity|exact Ht]|]. intros j (ib & tt_) (ib' & tt') (E & Htt). cbn [fst snd] in E, Htt. hnf in E. subst ib'.
      eapply (prel_bind esc R0); [apply (prel_rd esc R0); [exact Ha|reflexivity]|]. intros av1 av1' Hav1.
      eapply (prel_bind esc RD); [apply (prel_rd esc RD); [exact Hx|reflexivity]|]. intros xv xv' Hxv.
      eapply (prel_bind esc RD); [apply d_mul; assumption|]. intros p p' Hp.
      eapply (prel_bind esc RD); [apply d_add; assumption|]. intros q q' Hq.
      eapply (prel_bind esc eq); [apply same_nat|]. intros ic ? <-. apply prel_ok. split; [reflexivity|exact Hq].
    + intros (ib & tt_) (ib' & tt') (E & Htt). cbn [fst snd] in E, Htt. hnf in E. subst ib'. 
      eapply (prel_bind esc RD); [apply (prel_rd esc RD); [exact Hcd|reflexivity]|]. intros old old' Hold.
      eapply (prel_bind esc RD); [apply Hs; assumption|]. intros nw nw' Hnw.
      eapply (prel_bind esc LD); [apply (prel_wr esc RD); [exact Hcd|reflexivity|exact Hnw]|]. intros l l' Hl. apply prel_ok. split; [reflexivity|exact Hl].
  - intros (ia & cd) (ia' & cd') (E & Hcd). apply prel_ok. exact Hcd.
Qed.
Lemma m_mult_rowvector M K a x cm a' x' cm' : LM a a' -> LD x x' -> LD cm cm' -> PD (mult_rowvector c N1 M K a x cm) (mult_rowvector c N2 M K a' x' cm').
Proof. intros. apply m_gen_rowvector; auto. intros. apply prel_ok. assumption. Qed.
Lemma m_multadd_rowvector M K a x cm a' x' cm' : LM a a' -> LD x x' -> LD cm cm' -> PD (multadd_rowvector c N1 M K a x cm) (multadd_rowvector c N2 M K a' x' cm').
Proof. intros. apply m_gen_rowvector; auto. intros. apply d_add; assumption. Qed.
Lemma m_sub_inplace_b Rw C a b a' b' : LD a a' -> LD b b' -> PD (sub_inplace_b c N1 Rw C a b) (sub_inplace_b c N2 Rw C a' b').
Proof.
  intros Ha Hb. unfold sub_inplace_b. eapply (prel_bind esc eq); [apply same_nat|]. intros n ? <-. apply (prel_for_down esc LD); [exact Hb|].
  intros i l l' Hl. eapply (prel_bind esc RD); [apply (prel_rd esc RD); [exact Ha|reflexivity]|]. intros av av' Hav.
  eapply (prel_bind esc RD); [apply (prel_rd esc RD); [exact Hl|reflexivity]|]. intros bv bv' Hbv.
  eapply (prel_bind esc RD); [apply d_sub; assumption|]. intros v v' Hv. apply (prel_wr esc RD); [exact Hl|reflexivity|exact Hv].
Qed.
Lemma m_copy_to Rw C a a' d d' : LD a a' -> LD d d' -> PD (copy_to c Rw C a d) (copy_to c Rw C a' d').
Proof. apply (p_copy_to esc RD). Qed.

Lemma m_is_empty r k : @prel esc bool bool eq (is_empty c r k) (is_empty c r k).
Proof. apply prel_same. reflexivity. Qed.
Ltac bM t := eapply (prel_bind esc (Forall2 R0)); [t|].
Ltac bD t := eapply (prel_bind esc (Forall2 RD)); [t|].
Notation KR := (kf_mixed R0 RD).
Lemma m_predict_x n f g : KR f g -> @prel esc _ _ KR (predict_x c N1 n f) (predict_x c N2 n g).
Proof.
  intros (HA & Hx & HP & HQ & Hpx & HtP). unfold predict_x.
  bD ltac:(apply m_mult_rowvector; assumption). intros px px' Hp. bD ltac:(apply m_copy_to; assumption). intros x x' Hx'.
  apply prel_ok. repeat split; assumption.
Qed.
Lemma m_predict_x_nl n h k f g : fun_rel esc RD h k -> KR f g -> @prel esc _ _ KR (predict_x_nonlinear c n h f) (predict_x_nonlinear c n k g).
Proof.
  intros Hh (HA & Hx & HP & HQ & Hpx & HtP). unfold predict_x_nonlinear.
  bD ltac:(exact (Hh _ _ _ _ Hx Hpx)). intros px px' Hp. bD ltac:(apply m_copy_to; assumption). intros x x' Hx'.
  apply prel_ok. repeat split; assumption.
Qed.
Lemma m_predict_P n f g : KR f g -> @prel esc _ _ KR (predict_P c N1 n f) (predict_P c N2 n g).
Proof.
  intros (HA & Hx & HP & HQ & Hpx & HtP). unfold predict_P.
  bM ltac:(apply (p_mult esc R0 c N1 N2 HN); assumption). intros t t' Ht. bM ltac:(apply (p_mult_transb esc R0 c N1 N2 HN); assumption). intros P P' HP'.
  bM ltac:(apply (p_add_inplace_b esc R0 c N1 N2 HN); assumption). intros Q Q' HQ'.
  apply prel_ok. repeat split; assumption.
Qed.
Lemma m_predict_P_tuned n l l' f g : R0 l l' -> KR f g -> @prel esc _ _ KR (predict_P_tuned c N1 n l f) (predict_P_tuned c N2 n l' g).
Proof.
  intros Hl (HA & Hx & HP & HQ & Hpx & HtP). unfold predict_P_tuned.
  eapply (prel_bind esc R0); [apply (prel_mul esc R0 N1 N2 HN); assumption|]. intros l2 l2' Hl2.
  eapply (prel_bind esc R0); [apply (prel_recip esc R0 N1 N2 HN); assumption|]. intros fa fa' Hfa.
  bM ltac:(apply (p_mult esc R0 c N1 N2 HN); assumption). intros t t' Ht. bM ltac:(apply (p_multscale_transb esc R0 c N1 N2 HN); assumption). intros P P' HP'.
  bM ltac:(apply (p_add_inplace_b esc R0 c N1 N2 HN); assumption). intros Q Q' HQ'.
  apply prel_ok. repeat split; assumption.
Qed.
Lemma m_predict n f g : KR f g -> @prel esc _ _ KR (predict c N1 n f) (predict c N2 n g).
Proof. intros. unfold predict. eapply (prel_bind esc KR); [apply m_predict_x; assumption|]. intros. apply m_predict_P; assumption. Qed.
Lemma m_predict_tuned n l l' f g : R0 l l' -> KR f g -> @prel esc _ _ KR (predict_tuned c N1 n l f) (predict_tuned c N2 n l' g).
Proof. intros. unfold predict_tuned. eapply (prel_bind esc KR); [apply m_predict_x; assumption|]. intros. apply m_predict_P_tuned; assumption. Qed.
Lemma m_predict_nl n h k f g : fun_rel esc RD h k -> KR f g -> @prel esc _ _ KR (predict_nonlinear c N1 n h f) (predict_nonlinear c N2 n k g).
Proof. intros. unfold predict_nonlinear. eapply (prel_bind esc KR); [apply m_predict_x_nl; assumption|]. intros. apply m_predict_P; assumption. Qed.
Lemma m_predict_tuned_nl n l l' h k f g : R0 l l' -> fun_rel esc RD h k -> KR f g -> @prel esc _ _ KR (predict_tuned_nonlinear c N1 n l h f) (predict_tuned_nonlinear c N2 n l' k g).
Proof. intros. unfold predict_tuned_nonlinear. eapply (prel_bind esc KR); [apply m_predict_x_nl; assumption|]. intros. apply m_predict_P_tuned; assumption. Qed.

Notation CR := (ct_mixed R0 RD).
Notation OR := (ob_mixed R0 RD).
Lemma m_control n m k k' f g : CR k k' -> KR f g -> @prel esc _ _ (rel_prod CR KR) (control_ c N1 n m k f) (control_ c N2 n m k' g).
Proof.
  intros (HB & Hu & HCQ & HBQ) (HA & Hx & HP & HQ & Hpx & HtP). unfold control_, apply_control.
  eapply (prel_bind esc (rel_prod (rel_prod CR LD) LM)).
  - eapply (prel_bind esc eq); [apply m_is_empty|]. intros e ? <-.
    eapply (prel_bind esc eq); [destruct e; [apply prel_ok; reflexivity|apply m_is_empty]|]. intros e2 ? <-. destruct e2.
    + apply prel_ok. repeat split; assumption.
    + bD ltac:(apply m_multadd_rowvector; assumption). intros x x' Hx'. bM ltac:(apply (p_mult esc R0 c N1 N2 HN); assumption). intros b b' Hb.
      bM ltac:(apply (p_multadd_transb esc R0 c N1 N2 HN); assumption). intros P P' HP'. apply prel_ok. repeat split; assumption.
  - intros ((k1 & x1) & P1) ((k2 & x2) & P2) ((Hk & Hx1) & HP1). cbn [fst snd] in *. apply prel_ok. split; cbn [fst snd]; [exact Hk|]. repeat split; assumption.
Qed.
Lemma m_update n m o o' x x' P P' : OR o o' -> LD x x' -> LM P P' ->
  @prel esc _ _ (rel_prod (rel_prod OR LD) LM) (update_with_innovation c N1 n m o x P) (update_with_innovation c N2 n m o' x' P').
Proof.
  intros (H1 & H2 & H3 & H4 & H5 & H6 & H7 & H8 & H9 & H10) Hx HP. unfold update_with_innovation.
  bM ltac:(apply (p_mult esc R0 c N1 N2 HN); assumption). intros hp hp' Hhp.
  bM ltac:(apply (p_mult_transb esc R0 c N1 N2 HN); assumption). intros s s' Hs.
  bM ltac:(apply (p_add_inplace_a esc R0 c N1 N2 HN); assumption). intros s1 s1' Hs1.
  eapply (prel_bind esc (rel_prod eq LM)); [apply (p_cholesky esc R0 c N1 N2 HN); assumption|]. intros (b & s2) (b' & s2') (_ & Hs2). cbn [fst snd] in Hs2.
  bM ltac:(apply (p_invert esc R0 c N1 N2 HN); assumption). intros si si' Hsi.
  bM ltac:(apply (p_mult_transb esc R0 c N1 N2 HN); assumption). intros ph ph' Hph.
  bM ltac:(apply (p_mult esc R0 c N1 N2 HN); assumption). intros k k' Hk.
  bD ltac:(apply m_multadd_rowvector; assumption). intros x1 x1' Hx1.
  bM ltac:(apply (p_mult esc R0 c N1 N2 HN); assumption). intros h2 h2' Hh2.
  bM ltac:(apply (p_mult esc R0 c N1 N2 HN); assumption). intros kh kh' Hkh.
  bM ltac:(apply (p_sub_inplace_a esc R0 c N1 N2 HN); assumption). intros p1 p1' Hp1.
  apply prel_ok. repeat split; assumption.
Qed.
Lemma m_correct n m o o' f g : OR o o' -> KR f g -> @prel esc _ _ (rel_prod OR KR) (correct c N1 n m o f) (correct c N2 n m o' g).
Proof.
  intros (H1 & H2 & H3 & H4 & H5 & H6 & H7 & H8 & H9 & H10) (HA & Hx & HP & HQ & Hpx & HtP). unfold correct, obs_correct.
  eapply (prel_bind esc (rel_prod (rel_prod OR LD) LM)).
  - bD ltac:(apply m_mult_rowvector; assumption). intros y y' Hy. bD ltac:(apply m_sub_inplace_b; assumption). intros y1 y1' Hy1.
    apply m_update; [repeat split|..]; assumption.
  - intros ((k1 & x1) & P1) ((k2 & x2) & P2) ((Hk & Hx1) & HP1). cbn [fst snd] in *. apply prel_ok. split; cbn [fst snd]; [exact Hk|]. repeat split; assumption.
Qed.
Lemma m_correct_nl n m h k o o' f g : fun_rel esc RD h k -> OR o o' -> KR f g -> @prel esc _ _ (rel_prod OR KR) (correct_nonlinear c N1 n m h o f) (correct_nonlinear c N2 n m k o' g).
Proof.
  intros Hh (H1 & H2 & H3 & H4 & H5 & H6 & H7 & H8 & H9 & H10) (HA & Hx & HP & HQ & Hpx & HtP). unfold correct_nonlinear, obs_correct_nonlinear.
  eapply (prel_bind esc (rel_prod (rel_prod OR LD) LM)).
  - bD ltac:(exact (Hh _ _ _ _ Hx H4)). intros y y' Hy. bD ltac:(apply m_sub_inplace_b; assumption). intros y1 y1' Hy1.
    apply m_update; [repeat split|..]; assumption.
  - intros ((k1 & x1) & P1) ((k2 & x2) & P2) ((Hk & Hx1) & HP1). cbn [fst snd] in *. apply prel_ok. split; cbn [fst snd]; [exact Hk|]. repeat split; assumption.
Qed.

Ltac opens := repeat match goal with
  | H : kf_mixed _ _ _ _ |- _ => unfold kf_mixed in H | H : ob_mixed _ _ _ _ |- _ => unfold ob_mixed in H | H : ct_mixed _ _ _ _ |- _ => unfold ct_mixed in H
  | H : _ /\ _ |- _ => destruct H end.
Lemma m_step n w v o q : world_mixed R0 RD w v -> op_mixed esc R0 RD o q -> res_rel esc (world_mixed R0 RD) (step c N1 n w o) (step c N2 n v q).
Proof.
  intros (Hk & Hc & Ho) Hq. change (@prel esc _ _ (world_mixed R0 RD) (step c N1 n w o) (step c N2 n v q)).
  pose proof (fun i => f2_nth _ _ _ i Hc) as Nc. pose proof (fun i => f2_nth _ _ _ i Ho) as No.
  assert (KF : forall f g, kf_mixed R0 RD f g -> @prel esc _ _ (world_mixed R0 RD) (Ok (set_kf w f)) (Ok (set_kf v g))).
  { intros f g Hfg. apply prel_ok. split; [exact Hfg|]. split; assumption. }
  assert (CT : forall f g i m k k', kf_mixed R0 RD f g -> ct_mixed R0 RD k k' -> @prel esc _ _ (world_mixed R0 RD) (Ok (set_ct (set_kf w f) i (m, k))) (Ok (set_ct (set_kf v g) i (m, k')))).
  { intros f g i m k k' Hfg Hkk. apply prel_ok. split; [exact Hfg|]. split; [|assumption]. apply f2_upd; auto. }
  assert (OB : forall f g i m k k', kf_mixed R0 RD f g -> ob_mixed R0 RD k k' -> @prel esc _ _ (world_mixed R0 RD) (Ok (set_ob (set_kf w f) i (m, k))) (Ok (set_ob (set_kf v g) i (m, k')))).
  { intros f g i m k k' Hfg Hkk. apply prel_ok. split; [exact Hfg|]. split; [assumption|]. apply f2_upd; auto. }
  assert (NO : @prel esc _ _ (world_mixed R0 RD) (Ok w) (Ok v)) by (apply prel_ok; split; [|split]; assumption).
  destruct Hq; cbn [step].
  - eapply prel_bind; [apply m_predict; assumption|]. intros; apply KF; assumption.
  - eapply prel_bind; [apply m_predict_tuned; eassumption|]. intros; apply KF; assumption.
  - eapply prel_bind; [apply m_predict_nl; eassumption|]. intros; apply KF; assumption.
  - eapply prel_bind; [apply m_predict_tuned_nl; eassumption|]. intros; apply KF; assumption.
  - specialize (Nc i). destruct (nth_error (w_ct w) i) as [(m & k)|], (nth_error (w_ct v) i) as [(m' & k')|]; try contradiction; [|apply NO].
    destruct Nc as (E & Nc). cbn in E, Nc. subst m'. eapply prel_bind; [apply m_control; assumption|]. intros (? & ?) (? & ?) (? & ?). apply CT; assumption.
  - specialize (No j). destruct (nth_error (w_ob w) j) as [(m & k)|], (nth_error (w_ob v) j) as [(m' & k')|]; try contradiction; [|apply NO].
    destruct No as (E & No). cbn in E, No. subst m'. eapply prel_bind; [apply m_correct; assumption|]. intros (? & ?) (? & ?) (? & ?). apply OB; assumption.
  - specialize (No j). destruct (nth_error (w_ob w) j) as [(m & k)|], (nth_error (w_ob v) j) as [(m' & k')|]; try contradiction; [|apply NO].
    destruct No as (E & No). cbn in E, No. subst m'. eapply prel_bind; [apply m_correct_nl; eassumption|]. intros (? & ?) (? & ?) (? & ?). apply OB; assumption.
  - apply KF. opens. repeat split; cbn; try assumption. apply p_put; assumption.
  - apply KF. opens. repeat split; cbn; try assumption. apply p_put; assumption.
  - apply KF. opens. repeat split; cbn; try assumption. apply p_put; assumption.
  - apply KF. opens. repeat split; cbn; try assumption. apply p_put; assumption.
  - specialize (Nc i). destruct (nth_error (w_ct w) i) as [(m & k)|], (nth_error (w_ct v) i) as [(m' & k')|]; try contradiction; [|apply NO].
    destruct Nc as (E & Nc). cbn in E, Nc. subst m'. apply (CT (w_kf w) (w_kf v)); [assumption|]. opens. repeat split; cbn; try assumption. apply p_put; assumption.
  - specialize (Nc i). destruct (nth_error (w_ct w) i) as [(m & k)|], (nth_error (w_ct v) i) as [(m' & k')|]; try contradiction; [|apply NO].
    destruct Nc as (E & Nc). cbn in E, Nc. subst m'. apply (CT (w_kf w) (w_kf v)); [assumption|]. opens. repeat split; cbn; try assumption. apply p_put; assumption.
  - specialize (Nc i). destruct (nth_error (w_ct w) i) as [(m & k)|], (nth_error (w_ct v) i) as [(m' & k')|]; try contradiction; [|apply NO].
    destruct Nc as (E & Nc). cbn in E, Nc. subst m'. apply (CT (w_kf w) (w_kf v)); [assumption|]. opens. repeat split; cbn; try assumption. apply p_put; assumption.
  - specialize (No j). destruct (nth_error (w_ob w) j) as [(m & k)|], (nth_error (w_ob v) j) as [(m' & k')|]; try contradiction; [|apply NO].
    destruct No as (E & No). cbn in E, No. subst m'. apply (OB (w_kf w) (w_kf v)); [assumption|]. opens. repeat split; cbn; try assumption. apply p_put; assumption.
  - specialize (No j). destruct (nth_error (w_ob w) j) as [(m & k)|], (nth_error (w_ob v) j) as [(m' & k')|]; try contradiction; [|apply NO].
    destruct No as (E & No). cbn in E, No. subst m'. apply (OB (w_kf w) (w_kf v)); [assumption|]. opens. repeat split; cbn; try assumption. apply p_put; assumption.
  - specialize (No j). destruct (nth_error (w_ob w) j) as [(m & k)|], (nth_error (w_ob v) j) as [(m' & k')|]; try contradiction; [|apply NO].
    destruct No as (E & No). cbn in E, No. subst m'. apply (OB (w_kf w) (w_kf v)); [assumption|]. opens. repeat split; cbn; try assumption. apply p_put; assumption.
Qed.

Theorem run_mixed n os qs : Forall2 (op_mixed esc R0 RD) os qs -> forall w v, world_mixed R0 RD w v -> res_rel esc (world_mixed R0 RD) (run c N1 n w os) (run c N2 n v qs).
Proof.
  induction 1 as [|o q os qs Hq _ IH]; intros w v Hw; cbn [run]; [right; exact Hw|].
  change (@prel esc _ _ (world_mixed R0 RD) (bind (step c N1 n w o) (fun w' => run c N1 n w' os)) (bind (step c N2 n v q) (fun w' => run c N2 n w' qs))).
  apply prel_bind with (r := world_mixed R0 RD); [apply m_step; assumption|]. intros a b Hab. apply IH. exact Hab.
Qed.
End Mixed.
