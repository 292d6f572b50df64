(** * Linear and nonlinear calls have the same covariances and gains *)
From Verif Require Import Spec Matrix Filter Extended SpecFilter History SpecGen SpecTrack Wp Kernels FilterGen FilterTwo HistGen HistTwo.

Section Track.
Context {T : Type} (c : cfg) (N : num T).
Ltac fin := repeat match goal with |- _ /\ _ => split end; auto using st_refl.
Ltac stepv L := eapply rok_bind; [eapply wp_rok; [eapply (L _ c N); eauto|eapply (L _ c N); eauto]|];
  let l := fresh "l" in let l' := fresh "l'" in intros l l' [[? ?] [? ?]] _ _.
Ltac open_kf H := destruct H as ((?vA & ?vx & ?vP & ?vQ & ?vpx & ?vtP) & (?vA & ?vx & ?vP & ?vQ & ?vpx & ?vtP) & (?sA & ?sP & ?sQ)).

Lemma correct_both_cov n m h (o1 o2 : observation T) (f g : kalman T) : 1 <= n -> 1 <= m -> closure_ok c N m n h ->
  ob_cov c n m o1 o2 -> kf_cov c n f g -> rok (cor_cov c n m) (correct c N n m o1 f) (correct_nonlinear c N n m h o2 g).
Proof.
  intros Hn Hm C2 Ho H. open_kf H. pose proof Ho as ((vH & vz & vR & vy & _) & (vH' & vz' & vR' & vy' & _) & _).
  unfold correct, correct_nonlinear, obs_correct, obs_correct_nonlinear. eapply rok_bind.
  - eapply rok_bind; [eapply wp_rok; [eapply (@mult_rowvector_wp _ c N); eauto|apply C2; auto]|]. intros p1 p2 [[? ?] ?] _ _.
    stepv (@sub_inplace_b_wp). apply update_cov; auto using mk_mrel', set_y_cov.
  - intros [[k1' x1'] P1'] [[k2' x2'] P2'] (H1 & ? & ? & (?&?&?) & ?) _ _. cbn [rok]. unfold cor_cov, kf_cov, kf_valid; cbn [fst snd kf_A kf_x kf_P kf_Q kf_px kf_tP]. fin.
Qed.
Lemma predict_x_both n h (f g : kalman T) : 1 <= n -> closure_ok c N n n h -> kf_cov c n f g -> rok (kf_cov c n) (predict_x c N n f) (predict_x_nonlinear c n h g).
Proof.
  intros Hn C2 H. open_kf H. unfold predict_x, predict_x_nonlinear.
  eapply rok_bind; [eapply wp_rok; [eapply (@mult_rowvector_wp _ c N); eauto|apply C2; auto]|]. intros p1 p2 [[? ?] ?] _ _.
  stepv (@copy_to_wp). cbn [rok]. unfold kf_cov, kf_valid; cbn. fin.
Qed.
Lemma predict_both n h (f g : kalman T) : 1 <= n -> closure_ok c N n n h -> kf_cov c n f g -> rok (kf_cov c n) (predict c N n f) (predict_nonlinear c N n h g).
Proof. intros Hn C2 H. unfold predict, predict_nonlinear. eapply rok_bind; [apply predict_x_both; auto|]. intros. apply predict_P_cov; auto. Qed.
Lemma predict_tuned_both n lam h (f g : kalman T) : 1 <= n -> closure_ok c N n n h -> kf_cov c n f g ->
  rok (kf_cov c n) (predict_tuned c N n lam f) (predict_tuned_nonlinear c N n lam h g).
Proof. intros Hn C2 H. unfold predict_tuned, predict_tuned_nonlinear. eapply rok_bind; [apply predict_x_both; auto|]. intros. apply predict_P_tuned_cov; auto. Qed.

Context (n : nat).
Lemma kf_cov_sym (f g : kalman T) : kf_cov c n f g -> kf_cov c n g f.
Proof. intros H. open_kf H. unfold kf_cov, kf_valid. fin; intros p Hp; symmetry; auto. Qed.
Lemma ct_cov_sym m (f g : control T) : ct_cov c n m f g -> ct_cov c n m g f.
Proof. intros (A & B & C & D). unfold ct_cov. fin; intros p Hp; symmetry; auto. Qed.
Lemma ob_cov_sym m (f g : observation T) : ob_cov c n m f g -> ob_cov c n m g f.
Proof. intros (A & B & C & D). unfold ob_cov. fin; intros p Hp; symmetry; auto. Qed.
Lemma world_cov_sym (w1 w2 : world T) : world_cov c n w1 w2 -> world_cov c n w2 w1.
Proof.
  intros (H1 & H2 & H3). split; [apply kf_cov_sym, H1|]. split.
  - clear H3. induction H2 as [|a b l l' (E & R) H IH]; constructor; auto. rewrite <- E. split; [reflexivity|]. apply ct_cov_sym, R.
  - clear H2. induction H3 as [|a b l l' (E & R) H IH]; constructor; auto. rewrite <- E. split; [reflexivity|]. apply ob_cov_sym, R.
Qed.
Lemma world_cov_dims (w1 w2 : world T) : world_cov c n w1 w2 -> ob_dims w1 = ob_dims w2.
Proof. intros (_ & _ & H3). unfold ob_dims. induction H3 as [|a b l l' (E & _) H IH]; cbn; [reflexivity|]. rewrite E. f_equal. exact IH. Qed.
Lemma rok_sym {A} (Rel : A -> A -> Prop) m1 m2 : (forall a b, Rel a b -> Rel b a) -> rok Rel m1 m2 -> rok Rel m2 m1.
Proof. intros HS. destruct m1, m2; cbn; auto. Qed.

(** one call of the regular filter against one of the extended *)
Lemma step_mixed (w1 w2 : world T) o : 1 <= n -> Forall (fun m => 1 <= m) (ob_dims w1) -> world_cov c n w1 w2 -> op_safe c N n (ob_dims w1) o ->
  forall o1, op_cov o1 (linearised o) -> op_safe c N n (ob_dims w1) o1 -> rok (world_cov c n) (step c N n w1 o1) (step c N n w2 o).
Proof.
  intros Hn Hd Hw S o1 Ho S1. pose proof Hw as (Hf & _ & _).
  destruct o as [|lam|h|lam h|i|j|j h|l|l|l|l|i l|i l|i l|j l|j l|j l]; cbn [linearised] in Ho; try (apply step_cov; assumption).
  - assert (o1 = OPredict) by (destruct o1; cbn in Ho; congruence || contradiction). subst o1. cbn [step op_safe] in *. apply kf_cov2; auto. apply predict_both; auto.
  - assert (o1 = OPredictTuned lam) by (destruct o1; cbn in Ho; congruence || contradiction). subst o1. cbn [step op_safe] in *. apply kf_cov2; auto. apply predict_tuned_both; auto.
  - assert (o1 = OCorrect j) by (destruct o1; cbn in Ho; congruence || contradiction). subst o1. cbn [step op_safe] in *.
    pose proof (cov_ob_nth c n w1 w2 j Hw) as E. destruct (nth_error (w_ob w1) j) as [[m1 k1]|] eqn:E1, (nth_error (w_ob w2) j) as [[m2 k2]|]; try contradiction; [|cbn [rok]; auto].
    destruct E as [<- E]. pose proof (HistGen.Forall_nth _ _ _ _ Hd (ob_dims_nth _ _ _ _ E1)) as Hm. rewrite (ob_dims_nth _ _ _ _ E1) in S.
    apply ob_cov2; auto. apply correct_both_cov; auto.
Qed.
Lemma step_track (w1 w2 : world T) o1 o2 : 1 <= n -> Forall (fun m => 1 <= m) (ob_dims w1) -> world_cov c n w1 w2 ->
  op_track o1 o2 -> op_safe c N n (ob_dims w1) o1 -> op_safe c N n (ob_dims w1) o2 -> rok (world_cov c n) (step c N n w1 o1) (step c N n w2 o2).
Proof.
  intros Hn Hd Hw Ho S1 S2. unfold op_track in Ho.
  assert (D : (linearised o1 = o1) \/ (linearised o2 = o2) \/ op_cov o1 o2).
  { destruct o1; cbn [linearised] in *; auto; right; destruct o2; cbn [linearised] in *; auto; right; cbn in *; try exact I; congruence. }
  destruct D as [D|[D|D]].
  - rewrite D in Ho. apply step_mixed; auto.
  - apply rok_sym; [apply world_cov_sym|]. rewrite (world_cov_dims w1 w2 Hw) in *. apply step_mixed; auto; [apply world_cov_sym, Hw|]. rewrite D in Ho.
    destruct (linearised o1); destruct o2; cbn in *; try exact I; congruence || contradiction || auto.
  - apply step_cov; assumption.
Qed.
Lemma run_track (w1 w2 : world T) os1 os2 : 1 <= n -> Forall (fun m => 1 <= m) (ob_dims w1) -> world_cov c n w1 w2 ->
  Forall2 op_track os1 os2 -> Forall (op_safe c N n (ob_dims w1)) os1 -> Forall (op_safe c N n (ob_dims w1)) os2 ->
  rok (world_cov c n) (run c N n w1 os1) (run c N n w2 os2).
Proof.
  intros Hn Hd Hw Ho. revert w1 w2 Hd Hw. induction Ho as [|o1 o2 os1 os2 Ho1 Ho2 IH]; intros w1 w2 Hd Hw S1 S2.
  - cbn [run rok]. auto.
  - inversion S1; subst. inversion S2; subst. cbn [run]. eapply rok_bind; [apply step_track; auto|].
    intros w1' w2' Hw' E1 E2. destruct (step_dims c N n w1 o1 w1' E1) as [_ D]. apply IH; [rewrite D; auto|auto|rewrite D; auto|rewrite D; auto].
Qed.
(** a program and its linearised counterpart, from the same state *)
Lemma run_linearised (w : world T) os : world_ok c n w -> Forall (op_safe c N n (ob_dims w)) os ->
  rok (world_cov c n) (run c N n w os) (run c N n w (map linearised os)).
Proof.
  intros (Hn & (Vk & Vc & Vo) & Hd) S. apply run_track; auto.
  - split; [split; [exact Vk|split; [exact Vk|repeat split; intros p Hp; reflexivity]]|]. split.
    + clear - Vc. induction Vc; constructor; auto. split; [reflexivity|]. split; [assumption|split; [assumption|split; intros p Hp; reflexivity]].
    + clear - Vo. induction Vo; constructor; auto. split; [reflexivity|]. split; [assumption|split; [assumption|split; intros p Hp; reflexivity]].
  - clear S. induction os as [|o os IH]; constructor; auto. unfold op_track. destruct o; cbn; auto.
  - clear - S. induction S as [|o os Ho S IH]; constructor; auto. destruct o; cbn in *; auto.
Qed.
(** when the arithmetic does not panic, both programs return *)
Lemma run_track_total (w1 w2 : world T) os1 os2 : never_panics N -> world_ok c n w1 -> world_ok c n w2 -> world_cov c n w1 w2 ->
  Forall2 op_track os1 os2 -> Forall (op_safe c N n (ob_dims w1)) os1 -> Forall (op_safe c N n (ob_dims w1)) os2 ->
  exists w1' w2', run c N n w1 os1 = Ok w1' /\ run c N n w2 os2 = Ok w2' /\ world_cov c n w1' w2'.
Proof.
  intros HN W1 W2 Hw Ho S1 S2. pose proof W1 as (Hn & _ & Hd). pose proof (run_track w1 w2 os1 os2 Hn Hd Hw Ho S1 S2) as R.
  rewrite (world_cov_dims w1 w2 Hw) in S2. pose proof (run_wp c N n w1 os1 W1 S1) as P1. pose proof (run_wp c N n w2 os2 W2 S2) as P2.
  destruct (run c N n w1 os1) as [w1'|e1]; [|exfalso; cbn in P1; destruct P1 as (_ & Q); exact (Q HN)].
  destruct (run c N n w2 os2) as [w2'|e2]; [|exfalso; cbn in P2; destruct P2 as (_ & Q); exact (Q HN)].
  exists w1', w2'. split; [reflexivity|]. split; [reflexivity|exact R].
Qed.
End Track.
