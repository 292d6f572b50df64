(** * What a caught panic leaves behind does not depend on the build *)
From Coq Require Import Lia.
From Verif Require Import Spec Matrix Filter Extended SpecFilter History SpecGen HistGen BuildSim Crash.

(** [m2] does what [m1] does, unless [m1] trips a check *)
Definition csim {S} (m1 m2 : cr S) : Prop := m1 = m2 \/ exists s e, m1 = Unwound s e /\ build_panic e.

Lemma csim_refl {S} (m : cr S) : csim m m.
Proof. left; reflexivity. Qed.
Lemma csim_calc {A S} (s : S) (m1 m2 : res A) k1 k2 : sim m1 m2 -> (forall a, csim (k1 a) (k2 a)) -> csim (calc s m1 k1) (calc s m2 k2).
Proof. intros [<-|(e & -> & He)] H; [destruct m1; cbn [calc]; [apply H|apply csim_refl]|]. right. exists s, e. auto. Qed.
Lemma csim_lastly {S} (s : S) (m1 m2 : res S) : sim m1 m2 -> csim (lastly s m1) (lastly s m2).
Proof. intros H. apply csim_calc; [exact H|intros; apply csim_refl]. Qed.
Lemma csim_within {B S} (put : B -> S) (m1 m2 : cr B) k1 k2 : csim m1 m2 -> (forall b, csim (k1 b) (k2 b)) -> csim (within put m1 k1) (within put m2 k2).
Proof. intros [<-|(s & e & -> & He)] H; [destruct m1; cbn [within]; [apply H|apply csim_refl]|]. right. exists (put s), e. auto. Qed.
Lemma csim_cmap {B S} (g : B -> S) (m1 m2 : cr B) : csim m1 m2 -> csim (cmap g m1) (cmap g m2).
Proof. intros [<-|(s & e & -> & He)]; [apply csim_refl|]. right. exists (g s), e. auto. Qed.
Lemma csim_up {S} cnt : forall lo (s : S) b1 b2, (forall i s, csim (b1 i s) (b2 i s)) -> csim (cfor_up cnt lo s b1) (cfor_up cnt lo s b2).
Proof. induction cnt as [|cnt IH]; intros lo s b1 b2 H; cbn [cfor_up]; [apply csim_refl|]. apply csim_within; [apply H|intros; apply IH, H]. Qed.
Lemma csim_range {S} lo hi (s : S) b1 b2 : (forall i s, csim (b1 i s) (b2 i s)) -> csim (cfor_range lo hi s b1) (cfor_range lo hi s b2).
Proof. apply csim_up. Qed.
Lemma csim_down {S} cnt : forall (s : S) b1 b2, (forall i s, csim (b1 i s) (b2 i s)) -> csim (cfor_down cnt s b1) (cfor_down cnt s b2).
Proof. induction cnt as [|cnt IH]; intros s b1 b2 H; cbn [cfor_down]; [apply csim_refl|]. apply csim_within; [apply H|intros; apply IH, H]. Qed.
Lemma csim_up_ret {S R} cnt : forall lo (s : S) (b1 b2 : nat -> S -> cr (ctl S R)), (forall i s, csim (b1 i s) (b2 i s)) -> csim (cfor_up_ret cnt lo s b1) (cfor_up_ret cnt lo s b2).
Proof.
  induction cnt as [|cnt IH]; intros lo s b1 b2 H; cbn [cfor_up_ret]; [apply csim_refl|]. apply csim_within; [apply H|]. intros [s'|r]; [apply IH, H|apply csim_refl].
Qed.
Lemma csim_range_ret {S R} lo hi (s : S) (b1 b2 : nat -> S -> cr (ctl S R)) : (forall i s, csim (b1 i s) (b2 i s)) -> csim (cfor_range_ret lo hi s b1) (cfor_range_ret lo hi s b2).
Proof. apply csim_up_ret. Qed.

Section Sim.
Context {T : Type} (N : num T) (c1 c2 : cfg).
Hypothesis Hc : stricter c1 c2.

Ltac pure_step :=
  match goal with
  | |- sim (bind _ _) (bind _ _) => apply sim_bind; [|intros]
  | |- sim (for_range _ _ _ _) _ => apply sim_for_range; intros
  | |- sim (for_down _ _ _) _ => apply sim_for_down; intros
  | |- sim (while_ _ _ _ _) _ => apply sim_while; intros
  | |- sim (uadd _ _ _) _ => apply sim_uadd; exact Hc
  | |- sim (umul _ _ _) _ => apply sim_umul; exact Hc
  | |- sim (usub _ _ _) _ => apply sim_usub; exact Hc
  | |- sim (dassert _ _) _ => apply sim_dassert; exact Hc
  | |- sim (is_empty _ _ _) _ => apply sim_is_empty; exact Hc
  | |- sim (let '(_, _) := ?p in _) _ => destruct p
  | |- sim (if ?b then _ else _) _ => destruct b
  | |- sim ?m ?m => apply sim_refl
  end.
Ltac cs_step :=
  match goal with
  | |- csim (calc _ _ _) _ => apply csim_calc; [repeat pure_step|intros]
  | |- csim (lastly _ _) _ => apply csim_lastly; repeat pure_step
  | |- csim (within _ _ _) _ => apply csim_within; [|intros]
  | |- csim (cmap _ _) _ => apply csim_cmap
  | |- csim (cfor_range _ _ _ _) _ => apply csim_range; intros
  | |- csim (cfor_down _ _ _) _ => apply csim_down; intros
  | |- csim (cfor_range_ret _ _ _ _) _ => apply csim_range_ret; intros
  | |- csim (let '(_, _) := ?p in _) _ => destruct p
  | |- csim (if ?b then _ else _) _ => destruct b
  | |- csim (match ?o with Next _ => _ | Return _ => _ end) _ => destruct o
  | |- csim ?m ?m => apply csim_refl
  end.

Lemma csim_copy_to R C (a b : list T) : csim (copy_to_cr c1 R C a b) (copy_to_cr c2 R C a b).
Proof. unfold copy_to_cr, m_len. repeat cs_step. Qed.
Lemma csim_mult M K U (a b d : list T) : csim (mult_cr c1 N M K U a b d) (mult_cr c2 N M K U a b d).
Proof. unfold mult_cr. repeat cs_step. Qed.
Lemma csim_rowvector st M K (a x d : list T) : csim (gen_mult_rowvector_cr c1 N st M K a x d) (gen_mult_rowvector_cr c2 N st M K a x d).
Proof. unfold gen_mult_rowvector_cr. repeat cs_step. Qed.
Lemma csim_transb st M K U (a b d : list T) : csim (gen_mult_transb_cr c1 N st M K U a b d) (gen_mult_transb_cr c2 N st M K U a b d).
Proof. unfold gen_mult_transb_cr. repeat cs_step. Qed.
Lemma csim_add_b R C (a b : list T) : csim (add_inplace_b_cr c1 N R C a b) (add_inplace_b_cr c2 N R C a b).
Proof. unfold add_inplace_b_cr, m_len. repeat cs_step. Qed.
Lemma csim_sub_b R C (a b : list T) : csim (sub_inplace_b_cr c1 N R C a b) (sub_inplace_b_cr c2 N R C a b).
Proof. unfold sub_inplace_b_cr, m_len. repeat cs_step. Qed.
Lemma csim_add_a R C (a b : list T) : csim (add_inplace_a_cr c1 N R C a b) (add_inplace_a_cr c2 N R C a b).
Proof. unfold add_inplace_a_cr, m_len. repeat cs_step. Qed.
Lemma csim_sub_a R C (a b : list T) : csim (sub_inplace_a_cr c1 N R C a b) (sub_inplace_a_cr c2 N R C a b).
Proof. unfold sub_inplace_a_cr, m_len. repeat cs_step. Qed.
Lemma csim_invert n (a b : list T) : csim (invert_l_cholesky_cr c1 N n a b) (invert_l_cholesky_cr c2 N n a b).
Proof. unfold invert_l_cholesky_cr, invert_phase1_cr, invert_phase2_cr, sum_range. repeat cs_step. Qed.
Lemma csim_cholesky R C (t : list T) : csim (cholesky_cr c1 N R C t) (cholesky_cr c2 N R C t).
Proof. unfold cholesky_cr, chol_body_cr, chol_inner, chol_zero_upper_cr. repeat cs_step. Qed.

Ltac cs_call := repeat first [ apply csim_copy_to | apply csim_mult | apply csim_rowvector | apply csim_transb | apply csim_add_b | apply csim_sub_b | apply csim_add_a | apply csim_sub_a
  | apply csim_invert | apply csim_cholesky | progress cbv zeta | cs_step ].
Ltac cs_un := unfold predict_cr, predict_tuned_cr, predict_nonlinear_cr, predict_tuned_nonlinear_cr, predict_x_cr, predict_x_nonlinear_cr, predict_P_cr, predict_P_tuned_cr, control_cr,
  correct_cr, correct_nonlinear_cr, update_cr, mult_rowvector_cr, multadd_rowvector_cr, mult_transb_cr, multadd_transb_cr, multscale_transb_cr.
Lemma csim_predict n (f : kalman T) : csim (predict_cr c1 N n f) (predict_cr c2 N n f).
Proof. cs_un. cs_call. Qed.
Lemma csim_predict_tuned n l (f : kalman T) : csim (predict_tuned_cr c1 N n l f) (predict_tuned_cr c2 N n l f).
Proof. cs_un. cs_call. Qed.
Lemma csim_predict_nl n h (f : kalman T) : csim (predict_nonlinear_cr c1 N n h f) (predict_nonlinear_cr c2 N n h f).
Proof. cs_un. cs_call. Qed.
Lemma csim_predict_tuned_nl n l h (f : kalman T) : csim (predict_tuned_nonlinear_cr c1 N n l h f) (predict_tuned_nonlinear_cr c2 N n l h f).
Proof. cs_un. cs_call. Qed.
Lemma csim_control n m k (f : kalman T) : csim (control_cr c1 N n m k f) (control_cr c2 N n m k f).
Proof. cs_un. cs_call. Qed.
Lemma csim_correct n m o (f : kalman T) : csim (correct_cr c1 N n m o f) (correct_cr c2 N n m o f).
Proof. cs_un. cs_call. Qed.
Lemma csim_correct_nl n m h o (f : kalman T) : csim (correct_nonlinear_cr c1 N n m h o f) (correct_nonlinear_cr c2 N n m h o f).
Proof. cs_un. cs_call. Qed.
Lemma csim_step n (w : world T) o : csim (step_cr c1 N n w o) (step_cr c2 N n w o).
Proof.
  destruct o; cbn [step_cr].
  - apply csim_cmap, csim_predict.
  - apply csim_cmap, csim_predict_tuned.
  - apply csim_cmap, csim_predict_nl.
  - apply csim_cmap, csim_predict_tuned_nl.
  - destruct (nth_error (w_ct w) i) as [[m k]|]; [|apply csim_refl]. apply csim_cmap, csim_control.
  - destruct (nth_error (w_ob w) j) as [[m k]|]; [|apply csim_refl]. apply csim_cmap, csim_correct.
  - destruct (nth_error (w_ob w) j) as [[m k]|]; [|apply csim_refl]. apply csim_cmap, csim_correct_nl.
  - destruct (is_setter o); [|apply csim_refl]. apply csim_lastly, sim_step_, Hc.
Qed.
End Sim.

Lemma csim_eq {S} (m1 m2 : cr S) r : csim m1 m2 -> m1 = r -> (forall s e, r = Unwound s e -> ~ build_panic e) -> m2 = r.
Proof. intros [<-|(s & e & E & He)] E1 H; [exact E1|]. exfalso. apply (H s e); [congruence|exact He]. Qed.
