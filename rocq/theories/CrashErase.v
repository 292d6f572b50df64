(** * Crash.v forgets to Filter.v and Extended.v *)
From Verif Require Import Wp Crash.

(** the result of a call, without what a panic left behind *)
Definition erase {S} (m : cr S) : res S := match m with Returned s => Ok s | Unwound _ p => Panic p end.

Section Rules.
Context {S : Type}.
Lemma erase_calc {A} (s : S) (m : res A) k : erase (calc s m k) = bind m (fun a => erase (k a)).
Proof. destruct m; reflexivity. Qed.
Lemma calc_bind {A B} (s : S) (m : res A) (f : A -> res B) k : calc s (bind m f) k = calc s m (fun a => calc s (f a) k).
Proof. destruct m; reflexivity. Qed.
Lemma erase_lastly (s : S) (m : res S) : erase (lastly s m) = m.
Proof. destruct m; reflexivity. Qed.
Lemma erase_within {B} (put : B -> S) (m : cr B) k : erase (within put m k) = bind (erase m) (fun b => erase (k b)).
Proof. destruct m; reflexivity. Qed.
Lemma erase_cmap {B} (g : B -> S) (m : cr B) : erase (cmap g m) = bind (erase m) (fun b => Ok (g b)).
Proof. destruct m; reflexivity. Qed.
End Rules.
Section Loops.
Context {S : Type}.
Lemma erase_up cnt lo (s : S) body b : (forall i s, erase (body i s) = b i s) -> erase (cfor_up cnt lo s body) = for_up cnt lo s b.
Proof. intros H. revert lo s; induction cnt as [|cnt IH]; intros lo s; [reflexivity|]. cbn [cfor_up for_up]. rewrite erase_within, H. apply bind_ext; intros; apply IH. Qed.
Lemma erase_range lo hi (s : S) body b : (forall i s, erase (body i s) = b i s) -> erase (cfor_range lo hi s body) = for_range lo hi s b.
Proof. apply erase_up. Qed.
Lemma erase_down n (s : S) body b : (forall i s, erase (body i s) = b i s) -> erase (cfor_down n s body) = for_down n s b.
Proof. intros H. revert s; induction n as [|n IH]; intros s; [reflexivity|]. cbn [cfor_down for_down]. rewrite erase_within, H. apply bind_ext; intros; apply IH. Qed.
Lemma erase_up_ret {R} cnt lo (s : S) body (b : nat -> S -> res (ctl S R)) : (forall i s, erase (body i s) = b i s) ->
  erase (cfor_up_ret cnt lo s body) = for_up_ret cnt lo s b.
Proof. intros H. revert lo s; induction cnt as [|cnt IH]; intros lo s; [reflexivity|]. cbn [cfor_up_ret for_up_ret]. rewrite erase_within, H. apply bind_ext; intros [s'|r] _; [apply IH|reflexivity]. Qed.
Lemma erase_range_ret {R} lo hi (s : S) body (b : nat -> S -> res (ctl S R)) : (forall i s, erase (body i s) = b i s) ->
  erase (cfor_range_ret lo hi s body) = for_range_ret lo hi s b.
Proof. apply erase_up_ret. Qed.
End Loops.

Ltac er1 := first [ rewrite calc_bind | rewrite erase_calc; apply bind_ext; intros | rewrite erase_lastly; reflexivity | apply erase_range; intros | apply erase_down; intros
  | apply erase_range_ret; intros | reflexivity ].
Ltac er := repeat er1.

Section Erase.
Context {T : Type} (c : cfg) (N : num T).

Lemma er_copy_to M K (a t : list T) : erase (copy_to_cr c M K a t) = copy_to c M K a t.
Proof. unfold copy_to_cr, copy_to. er. Qed.
Lemma er_mult M K U (a b cm : list T) : erase (mult_cr c N M K U a b cm) = mult c N M K U a b cm.
Proof. unfold mult_cr, mult. er. rewrite erase_cmap. erewrite erase_range; [|intros; apply erase_lastly]. apply bind_ext; intros [? ?] _; reflexivity. Qed.
Lemma er_gen_mult_rowvector st M K (a x cm : list T) : erase (gen_mult_rowvector_cr c N st M K a x cm) = gen_mult_rowvector c N st M K a x cm.
Proof. unfold gen_mult_rowvector_cr, gen_mult_rowvector. er. rewrite erase_cmap. erewrite erase_range; [|intros; apply erase_lastly]. apply bind_ext; intros [? ?] _; reflexivity. Qed.
Lemma er_gen_mult_transb st M K U (a b cm : list T) : erase (gen_mult_transb_cr c N st M K U a b cm) = gen_mult_transb c N st M K U a b cm.
Proof.
  unfold gen_mult_transb_cr, gen_mult_transb. rewrite erase_cmap.
  match goal with |- bind _ _ = bind (for_range _ _ _ ?b) _ => rewrite (erase_range _ _ _ _ b) end; [apply bind_ext; intros [[? ?] ?] _; reflexivity|].
  intros _ [[ci ai] cd]. rewrite erase_calc. apply bind_ext; intros e _. rewrite erase_within.
  match goal with |- bind _ _ = bind (for_range _ _ _ ?b) _ => rewrite (erase_range _ _ _ _ b) end.
  - apply bind_ext; intros [[ci' ib] cd'] _. er.
  - intros _ [[ci' ib] cd']. rewrite erase_calc. apply bind_ext; intros [[? ib'] tot] _. er.
Qed.
Lemma er_add_inplace_a M K (a b : list T) : erase (add_inplace_a_cr c N M K a b) = add_inplace_a c N M K a b.
Proof. unfold add_inplace_a_cr, add_inplace_a. er. Qed.
Lemma er_add_inplace_b M K (a b : list T) : erase (add_inplace_b_cr c N M K a b) = add_inplace_b c N M K a b.
Proof. unfold add_inplace_b_cr, add_inplace_b. er. Qed.
Lemma er_sub_inplace_a M K (a b : list T) : erase (sub_inplace_a_cr c N M K a b) = sub_inplace_a c N M K a b.
Proof. unfold sub_inplace_a_cr, sub_inplace_a. er. Qed.
Lemma er_sub_inplace_b M K (a b : list T) : erase (sub_inplace_b_cr c N M K a b) = sub_inplace_b c N M K a b.
Proof. unfold sub_inplace_b_cr, sub_inplace_b. er. Qed.
Lemma er_invert1 n (L inv : list T) : erase (invert_phase1_cr c N n L inv) = invert_phase1 c N n L inv.
Proof. unfold invert_phase1_cr, invert_phase1. er. Qed.
Lemma er_invert2 n (L inv : list T) : erase (invert_phase2_cr c N n L inv) = invert_phase2 c N n L inv.
Proof.
  unfold invert_phase2_cr, invert_phase2. er. rewrite erase_within, erase_lastly, bind_assoc. apply bind_ext; intros. rewrite bind_assoc. apply bind_ext; intros. apply bind_ext; intros.
  rewrite erase_lastly. reflexivity.
Qed.
Lemma er_invert n (L inv : list T) : erase (invert_l_cholesky_cr c N n L inv) = invert_l_cholesky c N n L inv.
Proof. unfold invert_l_cholesky_cr, invert_l_cholesky. rewrite erase_within, er_invert1. apply bind_ext; intros; apply er_invert2. Qed.
Lemma er_chol_body n i j (s : list T * T) : erase (chol_body_cr c N n i j s) = chol_body c N n i j s.
Proof. destruct s as [t d]. unfold chol_body_cr, chol_body. er. destruct (i =? j); [|reflexivity]. destruct (n_le N _ _); [reflexivity|]. er. Qed.
Lemma er_chol_zero_upper n (t : list T) : erase (chol_zero_upper_cr c N n t) = chol_zero_upper c N n t.
Proof. unfold chol_zero_upper_cr, chol_zero_upper. er. Qed.
Lemma er_cholesky n m (t : list T) : erase (cholesky_cr c N n m t) = bind (cholesky_decompose_lower c N n m t) (fun r => Ok (snd r)).
Proof.
  unfold cholesky_cr, cholesky_decompose_lower. rewrite calc_bind, erase_calc, bind_assoc. apply bind_ext; intros. rewrite erase_calc, bind_assoc. apply bind_ext; intros.
  rewrite erase_within, bind_assoc. erewrite erase_range_ret; [|intros; apply erase_range_ret; intros; apply er_chol_body].
  apply bind_ext; intros [[t' d]|t'] _; [|reflexivity]. rewrite er_chol_zero_upper, bind_assoc. cbn [bind snd]. symmetry. apply bind_ret.
Qed.

Lemma er_predict_x n (f : kalman T) : erase (predict_x_cr c N n f) = predict_x c N n f.
Proof. unfold predict_x_cr, predict_x, mult_rowvector_cr, mult_rowvector. rewrite erase_within, er_gen_mult_rowvector. apply bind_ext; intros px _. rewrite erase_cmap, er_copy_to. reflexivity. Qed.
Lemma er_predict_P n (f : kalman T) : erase (predict_P_cr c N n f) = predict_P c N n f.
Proof.
  unfold predict_P_cr, predict_P, mult_transb_cr, mult_transb. rewrite erase_within, er_mult. apply bind_ext; intros tP _. cbv zeta. rewrite erase_within, er_gen_mult_transb.
  apply bind_ext; intros P _. rewrite erase_cmap, er_add_inplace_b. reflexivity.
Qed.
Lemma er_predict_P_tuned n lam (f : kalman T) : erase (predict_P_tuned_cr c N n lam f) = predict_P_tuned c N n lam f.
Proof.
  unfold predict_P_tuned_cr, predict_P_tuned, multscale_transb_cr, multscale_transb. rewrite calc_bind, erase_calc. apply bind_ext; intros l2 _. rewrite erase_calc. apply bind_ext; intros fac _.
  rewrite erase_within, er_mult. apply bind_ext; intros tP _. cbv zeta. rewrite erase_within, er_gen_mult_transb.
  apply bind_ext; intros P _. rewrite erase_cmap, er_add_inplace_b. reflexivity.
Qed.
Theorem er_predict n (f : kalman T) : erase (predict_cr c N n f) = predict c N n f.
Proof. unfold predict_cr, predict. rewrite erase_within, er_predict_x. apply bind_ext; intros; apply er_predict_P. Qed.
Theorem er_predict_tuned n lam (f : kalman T) : erase (predict_tuned_cr c N n lam f) = predict_tuned c N n lam f.
Proof. unfold predict_tuned_cr, predict_tuned. rewrite erase_within, er_predict_x. apply bind_ext; intros; apply er_predict_P_tuned. Qed.
(** the closure without what its panics leave behind *)
Definition er_closure (h : list T -> list T -> cr (list T)) (x b : list T) : res (list T) := erase (h x b).
Lemma er_predict_x_nonlinear n h (f : kalman T) : erase (predict_x_nonlinear_cr c n h f) = predict_x_nonlinear c n (er_closure h) f.
Proof. unfold predict_x_nonlinear_cr, predict_x_nonlinear. rewrite erase_within. apply bind_ext; intros px _. rewrite erase_cmap, er_copy_to. reflexivity. Qed.
Theorem er_predict_nonlinear n h (f : kalman T) : erase (predict_nonlinear_cr c N n h f) = predict_nonlinear c N n (er_closure h) f.
Proof. unfold predict_nonlinear_cr, predict_nonlinear. rewrite erase_within, er_predict_x_nonlinear. apply bind_ext; intros; apply er_predict_P. Qed.
Theorem er_predict_tuned_nonlinear n lam h (f : kalman T) : erase (predict_tuned_nonlinear_cr c N n lam h f) = predict_tuned_nonlinear c N n lam (er_closure h) f.
Proof. unfold predict_tuned_nonlinear_cr, predict_tuned_nonlinear. rewrite erase_within, er_predict_x_nonlinear. apply bind_ext; intros; apply er_predict_P_tuned. Qed.
Theorem er_control n m (k : control T) (f : kalman T) : erase (control_cr c N n m k f) = control_ c N n m k f.
Proof.
  unfold control_cr, control_, apply_control. rewrite calc_bind, erase_calc, bind_assoc. apply bind_ext; intros ue _. rewrite erase_calc, bind_assoc. apply bind_ext; intros e _.
  destruct e; [destruct f; reflexivity|]. unfold multadd_rowvector_cr, multadd_rowvector, multadd_transb_cr, multadd_transb.
  rewrite erase_within, er_gen_mult_rowvector, bind_assoc. apply bind_ext; intros x _. cbv zeta. rewrite erase_within, er_mult, bind_assoc. apply bind_ext; intros BQ _.
  rewrite erase_cmap, er_gen_mult_transb, bind_assoc. apply bind_ext; intros P _. reflexivity.
Qed.
Lemma er_update n m (o : observation T) (f : kalman T) : erase (update_cr c N n m o f) =
  bind (update_with_innovation c N n m o (kf_x f) (kf_P f)) (fun r => let '(o, x, P) := r in Ok (o, mk_kalman (kf_A f) x P (kf_Q f) (kf_px f) (kf_tP f))).
Proof.
  unfold update_cr, update_with_innovation, multadd_rowvector_cr, multadd_rowvector, mult_transb_cr, mult_transb.
  rewrite erase_within, er_mult, bind_assoc. apply bind_ext; intros HP _. cbv zeta.
  rewrite erase_within, er_gen_mult_transb, bind_assoc. apply bind_ext; intros Sm _. 
  rewrite erase_within, er_add_inplace_a, bind_assoc. apply bind_ext; intros S1 _.
  rewrite erase_within, er_cholesky, !bind_assoc. apply bind_ext; intros [b S2] _. cbn [bind snd].
  rewrite erase_within, er_invert, bind_assoc. apply bind_ext; intros Si _. 
  rewrite erase_within, er_gen_mult_transb, bind_assoc. apply bind_ext; intros PHt _. 
  rewrite erase_within, er_mult, bind_assoc. apply bind_ext; intros K _. 
  rewrite erase_within, er_gen_mult_rowvector, bind_assoc. apply bind_ext; intros x _. 
  rewrite erase_within, er_mult, bind_assoc. apply bind_ext; intros HP' _. 
  rewrite erase_within, er_mult, bind_assoc. apply bind_ext; intros KHP _. 
  rewrite erase_cmap, er_sub_inplace_a, bind_assoc. apply bind_ext; intros P _. reflexivity.
Qed.
Theorem er_correct n m (o : observation T) (f : kalman T) : erase (correct_cr c N n m o f) = correct c N n m o f.
Proof.
  unfold correct_cr, correct, obs_correct, mult_rowvector_cr, mult_rowvector. rewrite erase_within, er_gen_mult_rowvector, bind_assoc. apply bind_ext; intros y _.
  rewrite erase_within, er_sub_inplace_b, bind_assoc. apply bind_ext; intros y1 _. apply er_update.
Qed.
Theorem er_correct_nonlinear n m h (o : observation T) (f : kalman T) : erase (correct_nonlinear_cr c N n m h o f) = correct_nonlinear c N n m (er_closure h) o f.
Proof.
  unfold correct_nonlinear_cr, correct_nonlinear, obs_correct_nonlinear. rewrite erase_within, bind_assoc. apply bind_ext; intros y _.
  rewrite erase_within, er_sub_inplace_b, bind_assoc. apply bind_ext; intros y1 _. apply er_update.
Qed.

(** the call without the catching of panics; writes that History.v knows as calls stand for no call *)
Definition forget_op (o : cop T) : list (op T) :=
  match o with
  | CPredict => [OPredict]
  | CPredictTuned lam => [OPredictTuned lam]
  | CPredictNonlinear h => [OPredictNonlinear (er_closure h)]
  | CPredictTunedNonlinear lam h => [OPredictTunedNonlinear lam (er_closure h)]
  | CControl i => [OControl i]
  | CCorrect j => [OCorrect j]
  | CCorrectNonlinear j h => [OCorrectNonlinear j (er_closure h)]
  | CWrite o => if is_setter o then [o] else []
  end.
Theorem er_step n (w : world T) (o : cop T) : erase (step_cr c N n w o) = run c N n w (forget_op o).
Proof.
  destruct o; cbn [step_cr forget_op run step]; rewrite ?erase_cmap, ?er_predict, ?er_predict_tuned, ?er_predict_nonlinear, ?er_predict_tuned_nonlinear.
  1-4: symmetry; apply bind_ret.
  - symmetry. rewrite bind_ret. destruct (nth_error (w_ct w) i) as [[m k]|]; [|reflexivity]. rewrite erase_cmap, er_control. apply bind_ext; intros [? ?] _. reflexivity.
  - symmetry. rewrite bind_ret. destruct (nth_error (w_ob w) j) as [[m k]|]; [|reflexivity]. rewrite erase_cmap, er_correct. apply bind_ext; intros [? ?] _. reflexivity.
  - symmetry. rewrite bind_ret. destruct (nth_error (w_ob w) j) as [[m k]|]; [|reflexivity]. rewrite erase_cmap, er_correct_nonlinear. apply bind_ext; intros [? ?] _. reflexivity.
  - destruct (is_setter o); [|reflexivity]. cbn [run]. rewrite bind_ret, erase_lastly. reflexivity.
Qed.
End Erase.
