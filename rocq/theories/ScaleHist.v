(** * Units that differ by powers of two: calls and histories *)
From Coq Require Import ZArith Bool Lia List Floats.SpecFloat.
From Verif Require Import Prelude Numeric FloatNum Matrix Filter Extended Spec SpecFilter History SpecGen SpecBits SpecFloats SpecReal BitsProof Wp Kernels FilterTwo HistGen NumSim SpecMute SpecScale Scale ScaleBits.
Import ListNotations.
Local Open Scope nat_scope.

Section Hist.
Variables (c : cfg) (prec emax : Z) (sz : bool).
Hypothesis Hprec : (1 < prec)%Z.
Hypothesis Hpmax : (prec < emax)%Z.
Notation N := (sf_roomy prec emax sz).
Notation sf := spec_float.
Variables (n : nat) (U : units).
Hypothesis Hn : 1 <= n.
Notation ex := (u_x U).
Notation msc := (msc prec emax).
Notation scaled := (scaled prec emax).
Notation kf_scaled := (kf_scaled prec emax n U).
Notation world_scaled := (world_scaled prec emax n U).
Notation ct_scaled := (ct_scaled prec emax n U).
Notation ob_scaled := (ob_scaled prec emax n U).

Lemma roomy_refines : refines N (sf_num prec emax sz).
Proof.
  repeat split; cbn [o_add o_sub o_mul o_neg o_recip o_sqrt sf_roomy sf_num]; cbv zeta.
  - intros a b r H. apply room_inv in H as [-> _]. reflexivity.
  - intros a b r H. apply room_inv in H as [-> _]. reflexivity.
  - intros a b r H. destruct (_ && _)%bool; [discriminate|]. apply room_inv in H as [-> _]. reflexivity.
  - intros a r H. exact H.
  - intros a r H. destruct (is_zero _); [discriminate|]. apply room_inv in H as [-> _]. reflexivity.
  - intros a r H. apply room_inv in H as [-> _]. reflexivity.
Qed.

Lemma to_msc R C e l l' : scaled R C e l l' -> msc R C e (cell C l) (cell C l').
Proof. intros H i j Hi Hj v v' E E'. exact (H i j v v' Hi Hj E E'). Qed.
Lemma of_msc R C e l l' : msc R C e (cell C l) (cell C l') -> scaled R C e l l'.
Proof. intros H i j v v' Hi Hj E E'. exact (H i j Hi Hj v v' E E'). Qed.
Lemma closure_val m h (x y out : list sf) : closure_ok c N m n h -> valid c n 1 x -> valid c m 1 y -> h x y = Ok out -> valid c m 1 out.
Proof. intros H Vx Vy E. pose proof (H x y Vx Vy) as W. rewrite E in W. exact W. Qed.

(** the covariance of a prediction *)
Lemma cov_sc A A' P P' Q Q' : msc n n (fun i j => ex i - ex j)%Z A A' -> msc n n (fun i j => ex i + ex j)%Z P P' -> msc n n (fun i j => ex i + ex j)%Z Q Q' ->
  msc n n (fun i j => ex i + ex j)%Z (fun i j => b_prodt N n (b_prod N n A P) A i j) (fun i j => b_prodt N n (b_prod N n A' P') A' i j).
Proof.
  intros HA HP HQ. apply (msc_prodt prec emax sz Hprec Hpmax n n n ex ex ex); [|eapply msc_eq; [|exact HA]; intros; cbn beta; lia].
  apply (msc_prod prec emax sz Hprec Hpmax n n n ex (fun j => - ex j)%Z ex); [eapply msc_eq; [|exact HA]; intros; cbn beta; lia|eapply msc_eq; [|exact HP]; intros; cbn beta; lia].
Qed.
Lemma kf_new (f f' g g' : kalman sf) : kf_scaled f f' -> kf_same_model f g -> kf_same_model f' g' ->
  (forall i, i < n -> osc prec emax (ex i) (cell 1 (kf_x g) i 0) (cell 1 (kf_x g') i 0)) ->
  (forall i j, i < n -> j < n -> osc prec emax (ex i + ex j) (cell n (kf_P g) i j) (cell n (kf_P g') i j)) -> kf_scaled g g'.
Proof.
  intros (HA & Hx & HP & HQ) [EA EQ] [EA' EQ'] X P. unfold SpecScale.kf_scaled. rewrite EA, EQ, EA', EQ'. split; [exact HA|]. split; [|split; [|exact HQ]].
  - apply of_msc. intros i j Hi Hj. assert (j = 0) by lia. subst j. apply X, Hi.
  - apply of_msc. exact P.
Qed.
Lemma x_sc (f f' : kalman sf) : kf_scaled f f' -> forall i, i < n -> osc prec emax (ex i) (b_prodv N n (cell n (kf_A f)) (cell 1 (kf_x f)) i 0) (b_prodv N n (cell n (kf_A f')) (cell 1 (kf_x f')) i 0).
Proof.
  intros (HA & Hx & HP & HQ). apply to_msc in HA, Hx. apply (msc_prodv prec emax sz Hprec Hpmax n n ex (fun j => - ex j)%Z); eapply msc_eq; eauto; intros; cbn beta; lia.
Qed.
Lemma P_sc (f f' : kalman sf) : kf_scaled f f' -> forall i j, i < n -> j < n ->
  osc prec emax (ex i + ex j) (b_add N (b_prodt N n (b_prod N n (cell n (kf_A f)) (cell n (kf_P f))) (cell n (kf_A f)) i j) (cell n (kf_Q f) i j))
    (b_add N (b_prodt N n (b_prod N n (cell n (kf_A f')) (cell n (kf_P f'))) (cell n (kf_A f')) i j) (cell n (kf_Q f') i j)).
Proof.
  intros (HA & Hx & HP & HQ) i j Hi Hj. apply to_msc in HA, HP, HQ. apply osc_add; [exact Hprec|exact Hpmax| |apply HQ; assumption]. apply (cov_sc _ _ _ _ _ _ HA HP HQ); assumption.
Qed.
Lemma Pt_sc lam lam' l2 l2' fac fac' (f f' : kalman sf) : times_pow2 prec emax 0 lam lam' -> o_mul N lam lam = Some l2 -> o_recip N l2 = Some fac -> o_mul N lam' lam' = Some l2' -> o_recip N l2' = Some fac' ->
  kf_scaled f f' -> forall i j, i < n -> j < n ->
  osc prec emax (ex i + ex j) (b_add N (b_mul N (b_prodt N n (b_prod N n (cell n (kf_A f)) (cell n (kf_P f))) (cell n (kf_A f)) i j) (Some fac)) (cell n (kf_Q f) i j))
    (b_add N (b_mul N (b_prodt N n (b_prod N n (cell n (kf_A f')) (cell n (kf_P f'))) (cell n (kf_A f')) i j) (Some fac')) (cell n (kf_Q f') i j)).
Proof.
  intros HL E1 E2 E1' E2' (HA & Hx & HP & HQ) i j Hi Hj. apply to_msc in HA, HP, HQ. apply osc_add; [exact Hprec|exact Hpmax| |apply HQ; assumption].
  pose proof (tp_mul prec emax Hprec Hpmax sz 0 0 lam lam' lam lam' l2 l2' HL HL E1 E1') as T2. pose proof (tp_recip prec emax Hprec Hpmax sz _ l2 l2' fac fac' T2 E2 E2') as T3.
  eapply osc_eq; [|apply (osc_mul prec emax sz Hprec Hpmax (ex i + ex j) 0); [apply (cov_sc _ _ _ _ _ _ HA HP HQ); assumption|apply osc_some; exact T3]]. lia.
Qed.

Section Calls.
Variables (f f' g g' : kalman sf).
Hypothesis Vf : kf_valid c n f.
Hypothesis Vf' : kf_valid c n f'.
Hypothesis HS : kf_scaled f f'.
Lemma predict_sc : predict c N n f = Ok g -> predict c N n f' = Ok g' -> kf_scaled g g'.
Proof.
  intros E E'. pose proof (predict_wp c N n f Hn Vf) as W. rewrite E in W. pose proof (predict_wp c N n f' Hn Vf') as W'. rewrite E' in W'.
  destruct (predict_bits c N n f g Hn Vf E) as [X P]. destruct (predict_bits c N n f' g' Hn Vf' E') as [X' P'].
  apply (kf_new f f'); [exact HS|apply W|apply W'| |].
  - intros i Hi. rewrite X, X' by assumption. apply x_sc; assumption.
  - intros i j Hi Hj. rewrite P, P' by assumption. apply P_sc; assumption.
Qed.
Lemma predict_tuned_sc lam lam' : times_pow2 prec emax 0 lam lam' -> predict_tuned c N n lam f = Ok g -> predict_tuned c N n lam' f' = Ok g' -> kf_scaled g g'.
Proof.
  intros HL E E'. pose proof (predict_tuned_wp c N n lam f Hn Vf) as W. rewrite E in W. pose proof (predict_tuned_wp c N n lam' f' Hn Vf') as W'. rewrite E' in W'.
  destruct (predict_tuned_bits c N n lam f g Hn Vf E) as [X (l2 & fac & E1 & E2 & P)]. destruct (predict_tuned_bits c N n lam' f' g' Hn Vf' E') as [X' (l2' & fac' & E1' & E2' & P')].
  apply (kf_new f f'); [exact HS|apply W|apply W'| |].
  - intros i Hi. rewrite X, X' by assumption. apply x_sc; assumption.
  - intros i j Hi Hj. rewrite P, P' by assumption. exact (Pt_sc lam lam' l2 l2' fac fac' f f' HL E1 E2 E1' E2' HS i j Hi Hj).
Qed.
Lemma closure_cells m e h h' y y' out out' : closure_scaled prec emax n U m e h h' -> h (kf_x f) y = Ok out -> h' (kf_x f') y' = Ok out' -> forall i, i < m -> osc prec emax (e i) (cell 1 out i 0) (cell 1 out' i 0).
Proof. intros HC E E' i Hi v v' Ev Ev'. destruct HS as (_ & Hx & _). exact (HC _ _ _ _ _ _ Hx E E' i 0 v v' Hi (le_n 1) Ev Ev'). Qed.
Lemma predict_nl_sc h h' : closure_ok c N n n h -> closure_ok c N n n h' -> closure_scaled prec emax n U n (fun i => ex i) h h' ->
  predict_nonlinear c N n h f = Ok g -> predict_nonlinear c N n h' f' = Ok g' -> kf_scaled g g'.
Proof.
  intros Ch Ch' HC E E'. pose proof (predict_nonlinear_wp c N n h f Hn Vf Ch) as W. rewrite E in W. pose proof (predict_nonlinear_wp c N n h' f' Hn Vf' Ch') as W'. rewrite E' in W'.
  assert (V : forall out, h (kf_x f) (kf_px f) = Ok out -> valid c n 1 out) by (intros out; apply closure_val; [exact Ch|apply Vf|apply Vf]).
  assert (V' : forall out, h' (kf_x f') (kf_px f') = Ok out -> valid c n 1 out) by (intros out; apply closure_val; [exact Ch'|apply Vf'|apply Vf']).
  destruct (predict_nl_bits c N n h f g Hn Vf V E) as [(out & Eo & X) P]. destruct (predict_nl_bits c N n h' f' g' Hn Vf' V' E') as [(out' & Eo' & X') P'].
  apply (kf_new f f'); [exact HS|apply W|apply W'| |].
  - intros i Hi. rewrite X, X' by assumption. exact (closure_cells n _ h h' _ _ out out' HC Eo Eo' i Hi).
  - intros i j Hi Hj. rewrite P, P' by assumption. apply P_sc; assumption.
Qed.
Lemma predict_tuned_nl_sc lam lam' h h' : times_pow2 prec emax 0 lam lam' -> closure_ok c N n n h -> closure_ok c N n n h' -> closure_scaled prec emax n U n (fun i => ex i) h h' ->
  predict_tuned_nonlinear c N n lam h f = Ok g -> predict_tuned_nonlinear c N n lam' h' f' = Ok g' -> kf_scaled g g'.
Proof.
  intros HL Ch Ch' HC E E'. pose proof (predict_tuned_nonlinear_wp c N n lam h f Hn Vf Ch) as W. rewrite E in W. pose proof (predict_tuned_nonlinear_wp c N n lam' h' f' Hn Vf' Ch') as W'. rewrite E' in W'.
  assert (V : forall out, h (kf_x f) (kf_px f) = Ok out -> valid c n 1 out) by (intros out; apply closure_val; [exact Ch|apply Vf|apply Vf]).
  assert (V' : forall out, h' (kf_x f') (kf_px f') = Ok out -> valid c n 1 out) by (intros out; apply closure_val; [exact Ch'|apply Vf'|apply Vf']).
  destruct (predict_tuned_nl_bits c N n lam h f g Hn Vf V E) as [(out & Eo & X) (l2 & fac & E1 & E2 & P)].
  destruct (predict_tuned_nl_bits c N n lam' h' f' g' Hn Vf' V' E') as [(out' & Eo' & X') (l2' & fac' & E1' & E2' & P')].
  apply (kf_new f f'); [exact HS|apply W|apply W'| |].
  - intros i Hi. rewrite X, X' by assumption. exact (closure_cells n _ h h' _ _ out out' HC Eo Eo' i Hi).
  - intros i j Hi Hj. rewrite P, P' by assumption. exact (Pt_sc lam lam' l2 l2' fac fac' f f' HL E1 E2 E1' E2' HS i j Hi Hj).
Qed.
Lemma control_sc m ec (k k' k1 k1' : control sf) : 1 <= m -> ct_valid c n m k -> ct_valid c n m k' -> ct_scaled m ec k k' ->
  control_ c N n m k f = Ok (k1, g) -> control_ c N n m k' f' = Ok (k1', g') -> ct_scaled m ec k1 k1' /\ kf_scaled g g'.
Proof.
  intros Hm Vk Vk' HK E E'. pose proof (control_wp c N n m k f Vk Vf) as W. rewrite E in W. pose proof (control_wp c N n m k' f' Vk' Vf') as W'. rewrite E' in W'.
  destruct (control_bits c N n m k k1 f g Hn Hm Vf Vk E) as [X P]. destruct (control_bits c N n m k' k1' f' g' Hn Hm Vf' Vk' E') as [X' P'].
  destruct W as (_ & (B1 & B2 & B3) & _ & M & _). destruct W' as (_ & (B1' & B2' & B3') & _ & M' & _). split.
  { unfold SpecScale.ct_scaled. rewrite B1, B2, B3, B1', B2', B3'. exact HK. }
  destruct HK as (HB & Hu & HQ). apply to_msc in HB, Hu, HQ. pose proof HS as (_ & Hx & HP & _). apply to_msc in Hx, HP.
  apply (kf_new f f'); [exact HS|exact M|exact M'| |].
  - intros i Hi. rewrite X, X' by assumption. apply osc_add; [exact Hprec|exact Hpmax|apply (Hx i 0); lia|].
    apply (msc_prodv prec emax sz Hprec Hpmax n m ex (fun j => - ec j)%Z); [| |exact Hi]; eapply msc_eq; eauto; intros; cbn beta; lia.
  - intros i j Hi Hj. rewrite P, P' by assumption. apply osc_add; [exact Hprec|exact Hpmax|apply HP; assumption|].
    apply (msc_prodt prec emax sz Hprec Hpmax n m n ex ec ex); [|eapply msc_eq; [|exact HB]; intros; cbn beta; lia|exact Hi|exact Hj].
    apply (msc_prod prec emax sz Hprec Hpmax n m m ex (fun j => - ec j)%Z ec); eapply msc_eq; eauto; intros; cbn beta; lia.
Qed.
Section Obs.
Variables (m : nat) (eo : nat -> Z) (o o' o1 o1' : observation sf).
Hypothesis Hm : 1 <= m.
Hypothesis Vo : ob_valid c n m o.
Hypothesis Vo' : ob_valid c n m o'.
Hypothesis HO : ob_scaled m eo o o'.
Hypothesis DE : decomposed N n m o o1 f.
Definition ob_result : Prop :=
  decomposed N n m o' o1' f' /\ ob_scaled m eo o1 o1' /\ kf_scaled g g' /\ scaled m 1 (fun i _ => eo i) (ob_y o1) (ob_y o1') /\ scaled n m (fun i j => ex i - eo j)%Z (ob_K o1) (ob_K o1').
Lemma ob_finish : ob_same_model o o1 -> ob_same_model o' o1' -> kf_same_model f g -> kf_same_model f' g' ->
  (forall i, i < m -> osc prec emax (eo i) (cell 1 (ob_y o1) i 0) (cell 1 (ob_y o1') i 0)) ->
  b_update N n m (cell n (ob_H o)) (cell m (ob_R o)) (cell n (kf_P f)) (cell 1 (kf_x f)) (cell 1 (ob_y o1)) (cell m (ob_S o1)) (cell m (ob_Sinv o1)) (cell m (ob_K o1)) (cell 1 (kf_x g)) (cell n (kf_P g)) ->
  b_update N n m (cell n (ob_H o')) (cell m (ob_R o')) (cell n (kf_P f')) (cell 1 (kf_x f')) (cell 1 (ob_y o1')) (cell m (ob_S o1')) (cell m (ob_Sinv o1')) (cell m (ob_K o1')) (cell 1 (kf_x g')) (cell n (kf_P g')) ->
  ob_result.
Proof.
  intros (B1 & B2 & B3) (B1' & B2' & B3') M M' HY UP UP'. pose proof HO as (HH & Hz & HR). apply to_msc in HH, Hz, HR. pose proof HS as (_ & Hx & HP & _). apply to_msc in Hx, HP.
  assert (HY' : msc m 1 (fun i _ => eo i) (cell 1 (ob_y o1)) (cell 1 (ob_y o1'))) by (intros i j Hi Hj; assert (j = 0) by lia; subst j; apply HY, Hi).
  destruct (update_sc prec emax sz Hprec Hpmax n m ex eo _ _ _ _ _ _ _ _ _ _ _ _ _ _ _ _ _ _ _ _ HH HR HP Hx HY' UP UP' DE) as (D & K & X & P).
  split; [exact D|]. split; [unfold SpecScale.ob_scaled; rewrite B1, B2, B3, B1', B2', B3'; exact HO|]. split; [|split; [apply of_msc, HY'|apply of_msc, K]].
  apply (kf_new f f'); [exact HS|exact M|exact M'|intros i Hi; apply X; lia|exact P].
Qed.
Lemma correct_sc : correct c N n m o f = Ok (o1, g) -> correct c N n m o' f' = Ok (o1', g') -> ob_result.
Proof.
  intros E E'. pose proof (correct_wp c N n m o f Hn Hm Vo Vf) as W. rewrite E in W. pose proof (correct_wp c N n m o' f' Hn Hm Vo' Vf') as W'. rewrite E' in W'.
  destruct (correct_bits' _ c N n m o o1 f g Hn Hm Vo Vf E) as [Y UP]. destruct (correct_bits' _ c N n m o' o1' f' g' Hn Hm Vo' Vf' E') as [Y' UP'].
  destruct W as (_ & B & _ & M & _). destruct W' as (_ & B' & _ & M' & _). apply ob_finish; auto.
  intros i Hi. rewrite Y, Y' by assumption. pose proof HO as (HH & Hz & HR). apply to_msc in HH, Hz. pose proof HS as (_ & Hx & HP & _). apply to_msc in Hx.
  apply osc_sub; [exact Hprec|exact Hpmax|apply (Hz i 0); lia|]. apply (msc_prodv prec emax sz Hprec Hpmax m n eo (fun j => - ex j)%Z); [| |exact Hi]; eapply msc_eq; eauto; intros; cbn beta; lia.
Qed.
Lemma correct_nl_sc h h' : closure_ok c N m n h -> closure_ok c N m n h' -> closure_scaled prec emax n U m eo h h' ->
  correct_nonlinear c N n m h o f = Ok (o1, g) -> correct_nonlinear c N n m h' o' f' = Ok (o1', g') -> ob_result.
Proof.
  intros Ch Ch' HC E E'. pose proof (correct_nonlinear_wp c N n m h o f Hn Hm Vo Vf Ch) as W. rewrite E in W. pose proof (correct_nonlinear_wp c N n m h' o' f' Hn Hm Vo' Vf' Ch') as W'. rewrite E' in W'.
  assert (V : forall out, h (kf_x f) (ob_y o) = Ok out -> valid c m 1 out) by (intros out; apply closure_val; [exact Ch|apply Vf|apply Vo]).
  assert (V' : forall out, h' (kf_x f') (ob_y o') = Ok out -> valid c m 1 out) by (intros out; apply closure_val; [exact Ch'|apply Vf'|apply Vo']).
  destruct (correct_nl_bits' _ c N n m h o o1 f g Hn Hm Vo Vf V E) as [(out & Eo & Y) UP]. destruct (correct_nl_bits' _ c N n m h' o' o1' f' g' Hn Hm Vo' Vf' V' E') as [(out' & Eo' & Y') UP'].
  destruct W as (_ & B & _ & M & _). destruct W' as (_ & B' & _ & M' & _). apply ob_finish; auto.
  intros i Hi. rewrite Y, Y' by assumption. pose proof HO as (HH & Hz & HR). apply to_msc in Hz.
  apply osc_sub; [exact Hprec|exact Hpmax|apply (Hz i 0); lia|]. exact (closure_cells m eo h h' _ _ out out' HC Eo Eo' i Hi).
Qed.
End Obs.
End Calls.

(** ** histories *)
Lemma put_nth (old new : list sf) p v : nth_error (put old new) p = Some v -> (p < length new /\ nth_error new p = Some v) \/ (length new <= p /\ nth_error old p = Some v).
Proof.
  unfold put. intros H. destruct (Nat.lt_ge_cases p (length new)) as [Hp|Hp].
  - left. split; [exact Hp|]. destruct (Nat.lt_ge_cases p (length old)) as [Ho|Ho].
    + rewrite nth_error_app1 in H by (rewrite firstn_length; lia). rewrite <- (firstn_skipn (length old) new), nth_error_app1 by (rewrite firstn_length; lia). exact H.
    + exfalso. assert (L : length (firstn (length old) new ++ skipn (length new) old) <= p) by (rewrite app_length, firstn_length, skipn_length; lia).
      apply nth_error_None in L. congruence.
  - right. split; [exact Hp|]. destruct (Nat.lt_ge_cases (length old) (length new)) as [Ho|Ho].
    + exfalso. assert (L : length (firstn (length old) new ++ skipn (length new) old) <= p) by (rewrite app_length, firstn_length, skipn_length; lia).
      apply nth_error_None in L. congruence.
    + rewrite firstn_all2 in H by exact Ho. rewrite nth_error_app2 in H by exact Hp. rewrite <- (firstn_skipn (length new) old), nth_error_app2 by (rewrite firstn_length; lia).
      rewrite firstn_length, Nat.min_l by exact Ho. exact H.
Qed.
Lemma put_sc R C e old old' l l' : scaled R C e old old' -> put_scaled prec emax R C e l l' -> scaled R C e (put old l) (put old' l').
Proof.
  intros H [L H2] i j v v' Hi Hj E E'. unfold cell in E, E'. apply put_nth in E as [[A E]|[A E]]; apply put_nth in E' as [[A' E']|[A' E']]; try (exfalso; lia).
  - exact (H2 i j v v' Hi Hj E E').
  - exact (H i j v v' Hi Hj E E').
Qed.
Lemma world_kf (w w' : world sf) f f' : world_scaled w w' -> kf_scaled f f' -> world_scaled (set_kf w f) (set_kf w' f').
Proof. intros (A & B) H. split; [exact H|exact B]. Qed.
Lemma world_ct (w w' : world sf) i m k k' k0 k0' : world_scaled w w' -> nth_error (w_ct w) i = Some (m, k0) -> nth_error (w_ct w') i = Some (m, k0') -> 1 <= m -> ct_scaled m (u_c U i) k k' ->
  world_scaled (set_ct w i (m, k)) (set_ct w' i (m, k')).
Proof.
  intros (A & B & D & F & G) E E' Hm H. split; [exact A|]. split; [cbn; rewrite !length_upd; exact B|]. split; [exact D|]. split; [|exact G].
  intros i0 m0 m0' q q' Q Q'. cbn in Q, Q'. destruct (Nat.eq_dec i0 i) as [->|Hi].
  - rewrite nth_error_upd_same in Q by (apply nth_error_Some; congruence). rewrite nth_error_upd_same in Q' by (apply nth_error_Some; congruence).
    injection Q as <- <-. injection Q' as <- <-. auto.
  - rewrite nth_error_upd_other in Q, Q' by exact Hi. exact (F i0 m0 m0' q q' Q Q').
Qed.
Lemma world_ob (w w' : world sf) j m b b' b0 b0' : world_scaled w w' -> nth_error (w_ob w) j = Some (m, b0) -> nth_error (w_ob w') j = Some (m, b0') -> ob_scaled m (u_o U j) b b' ->
  world_scaled (set_ob w j (m, b)) (set_ob w' j (m, b')).
Proof.
  intros (A & B & D & F & G) E E' H. split; [exact A|]. split; [exact B|]. split; [cbn; rewrite !length_upd; exact D|]. split; [exact F|].
  intros i0 m0 m0' q q' Q Q'. cbn in Q, Q'. destruct (Nat.eq_dec i0 j) as [->|Hi].
  - rewrite nth_error_upd_same in Q by (apply nth_error_Some; congruence). rewrite nth_error_upd_same in Q' by (apply nth_error_Some; congruence).
    injection Q as <- <-. injection Q' as <- <-. auto.
  - rewrite nth_error_upd_other in Q, Q' by exact Hi. exact (G i0 m0 m0' q q' Q Q').
Qed.
Lemma ct_both (w w' : world sf) i : world_scaled w w' -> (nth_error (w_ct w) i = None /\ nth_error (w_ct w') i = None) \/
  exists m k k', nth_error (w_ct w) i = Some (m, k) /\ nth_error (w_ct w') i = Some (m, k') /\ 1 <= m /\ ct_scaled m (u_c U i) k k'.
Proof.
  intros (A & B & D & F & G). destruct (nth_error (w_ct w) i) as [[m k]|] eqn:E; destruct (nth_error (w_ct w') i) as [[m' k']|] eqn:E'.
  - right. destruct (F i m m' k k' E E') as (H1 & -> & H2). exists m, k, k'. auto.
  - exfalso. apply nth_error_None in E'. assert (i < length (w_ct w)) by (apply nth_error_Some; congruence). lia.
  - exfalso. apply nth_error_None in E. assert (i < length (w_ct w')) by (apply nth_error_Some; congruence). lia.
  - left. auto.
Qed.
Lemma ob_both (w w' : world sf) i : world_scaled w w' -> (nth_error (w_ob w) i = None /\ nth_error (w_ob w') i = None) \/
  exists m k k', nth_error (w_ob w) i = Some (m, k) /\ nth_error (w_ob w') i = Some (m, k') /\ ob_scaled m (u_o U i) k k'.
Proof.
  intros (A & B & D & F & G). destruct (nth_error (w_ob w) i) as [[m k]|] eqn:E; destruct (nth_error (w_ob w') i) as [[m' k']|] eqn:E'.
  - right. destruct (G i m m' k k' E E') as (-> & H2). exists m, k, k'. auto.
  - exfalso. apply nth_error_None in E'. assert (i < length (w_ob w)) by (apply nth_error_Some; congruence). lia.
  - exfalso. apply nth_error_None in E. assert (i < length (w_ob w')) by (apply nth_error_Some; congruence). lia.
  - left. auto.
Qed.
Lemma bind_ok {A B} (m : res A) (k : A -> res B) r : bind m k = Ok r -> exists a, m = Ok a /\ k a = Ok r.
Proof. destruct m; [intros H; eexists; split; [reflexivity|exact H]|discriminate]. Qed.

Definition now_decomposed (w w1 : world sf) (o : op sf) : Prop :=
  match o with
  | OCorrect j | OCorrectNonlinear j _ =>
      match nth_error (w_ob w) j, nth_error (w_ob w1) j with Some (m, b), Some (_, b') => decomposed N n m b b' (w_kf w) | _, _ => True end
  | _ => True
  end.
Lemma step_sc (w w' w1 w1' : world sf) o o' : world_ok c n w -> world_ok c n w' -> op_safe c N n (ob_dims w) o -> op_safe c N n (ob_dims w') o' ->
  world_scaled w w' -> op_scaled prec emax n U (ct_dims w) (ob_dims w) o o' -> step c N n w o = Ok w1 -> step c N n w' o' = Ok w1' -> now_decomposed w w1 o ->
  world_scaled w1 w1' /\ now_decomposed w' w1' o'.
Proof.
  intros (_ & (Vf & Vc & Vo) & Hd) (_ & (Vf' & Vc' & Vo') & Hd') So So' HW HO E E' DE. pose proof HW as (HK & _).
  destruct o as [|lam|h|lam h|i|j|j h|l|l|l|l|i l|i l|i l|j l|j l|j l]; destruct o' as [|lam'|h'|lam' h'|i'|j'|j' h'|l'|l'|l'|l'|i' l'|i' l'|i' l'|j' l'|j' l'|j' l']; cbn [op_scaled] in HO; try contradiction; cbn [step op_safe now_decomposed] in *.
  - apply bind_ok in E as (g & E & Q). injection Q as <-. apply bind_ok in E' as (g' & E' & Q). injection Q as <-. split; [|exact I]. apply world_kf; [exact HW|]. eapply (predict_sc (w_kf w) (w_kf w')); eassumption.
  - apply bind_ok in E as (g & E & Q). injection Q as <-. apply bind_ok in E' as (g' & E' & Q). injection Q as <-. split; [|exact I]. apply world_kf; [exact HW|]. eapply (predict_tuned_sc (w_kf w) (w_kf w')); eassumption.
  - apply bind_ok in E as (g & E & Q). injection Q as <-. apply bind_ok in E' as (g' & E' & Q). injection Q as <-. split; [|exact I]. apply world_kf; [exact HW|]. exact (predict_nl_sc (w_kf w) (w_kf w') g g' Vf Vf' HK h h' So So' HO E E').
  - apply bind_ok in E as (g & E & Q). injection Q as <-. apply bind_ok in E' as (g' & E' & Q). injection Q as <-. split; [|exact I]. apply world_kf; [exact HW|]. destruct HO as [HL HC]. exact (predict_tuned_nl_sc (w_kf w) (w_kf w') g g' Vf Vf' HK lam lam' h h' HL So So' HC E E').
  - subst i'. split; [|exact I]. destruct (ct_both w w' i HW) as [[Q Q']|(m & k & k' & Q & Q' & Hm & HC)]; rewrite Q in E; rewrite Q' in E'.
    { injection E as <-. injection E' as <-. exact HW. }
    pose proof (HistGen.Forall_nth _ _ _ _ Vc Q) as Vk. pose proof (HistGen.Forall_nth _ _ _ _ Vc' Q') as Vk'. cbn [fst snd] in Vk, Vk'.
    apply bind_ok in E as ([k1 g] & E & R). injection R as <-. apply bind_ok in E' as ([k1' g'] & E' & R). injection R as <-.
    destruct (control_sc (w_kf w) (w_kf w') g g' Vf Vf' HK m _ k k' k1 k1' Hm Vk Vk' HC E E') as [A B].
    apply (world_ct (set_kf w g) (set_kf w' g') i m k1 k1' k k'); auto. apply world_kf; assumption.
  - subst j'. destruct (ob_both w w' j HW) as [[Q Q']|(m & b & b' & Q & Q' & HC)]; rewrite Q in E; rewrite Q' in E'.
    { injection E as <-. injection E' as <-. rewrite Q'. auto. }
    pose proof (HistGen.Forall_nth _ _ _ _ Vo Q) as Vb. pose proof (HistGen.Forall_nth _ _ _ _ Vo' Q') as Vb'. cbn [fst snd] in Vb, Vb'. pose proof (HistGen.Forall_nth _ _ _ _ Hd (ob_dims_nth _ _ _ _ Q)) as Hm.
    apply bind_ok in E as ([b1 g] & E & R). injection R as <-. apply bind_ok in E' as ([b1' g'] & E' & R). injection R as <-.
    rewrite Q in DE. cbn [set_ob set_kf w_ob w_kf] in DE |- *. rewrite nth_error_upd_same in DE by (apply nth_error_Some; congruence). rewrite Q', nth_error_upd_same by (apply nth_error_Some; congruence).
    destruct (correct_sc (w_kf w) (w_kf w') g g' Vf Vf' HK m _ b b' b1 b1' Hm Vb Vb' HC DE E E') as (A & B & D & _). split; [|exact A].
    apply (world_ob (set_kf w g) (set_kf w' g') j m b1 b1' b b'); auto. apply world_kf; assumption.
  - destruct HO as [-> HCl]. destruct (ob_both w w' j HW) as [[Q Q']|(m & b & b' & Q & Q' & HC)]; rewrite Q in E; rewrite Q' in E'.
    { injection E as <-. injection E' as <-. rewrite Q'. auto. }
    pose proof (HistGen.Forall_nth _ _ _ _ Vo Q) as Vb. pose proof (HistGen.Forall_nth _ _ _ _ Vo' Q') as Vb'. cbn [fst snd] in Vb, Vb'. pose proof (HistGen.Forall_nth _ _ _ _ Hd (ob_dims_nth _ _ _ _ Q)) as Hm.
    rewrite (ob_dims_nth _ _ _ _ Q) in So. rewrite (ob_dims_nth _ _ _ _ Q') in So'. specialize (HCl m (ob_dims_nth _ _ _ _ Q)).
    apply bind_ok in E as ([b1 g] & E & R). injection R as <-. apply bind_ok in E' as ([b1' g'] & E' & R). injection R as <-.
    rewrite Q in DE. cbn [set_ob set_kf w_ob w_kf] in DE |- *. rewrite nth_error_upd_same in DE by (apply nth_error_Some; congruence). rewrite Q', nth_error_upd_same by (apply nth_error_Some; congruence).
    destruct (correct_nl_sc (w_kf w) (w_kf w') g g' Vf Vf' HK m _ b b' b1 b1' Hm Vb Vb' HC DE h h' So So' HCl E E') as (A & B & D & _). split; [|exact A].
    apply (world_ob (set_kf w g) (set_kf w' g') j m b1 b1' b b'); auto. apply world_kf; assumption.
  - injection E as <-. injection E' as <-. split; [|exact I]. apply world_kf; [exact HW|]. destruct HK as (A & B & D & F). split; [|split; [|split]]; cbn; try assumption; apply put_sc; assumption.
  - injection E as <-. injection E' as <-. split; [|exact I]. apply world_kf; [exact HW|]. destruct HK as (A & B & D & F). split; [|split; [|split]]; cbn; try assumption; apply put_sc; assumption.
  - injection E as <-. injection E' as <-. split; [|exact I]. apply world_kf; [exact HW|]. destruct HK as (A & B & D & F). split; [|split; [|split]]; cbn; try assumption; apply put_sc; assumption.
  - injection E as <-. injection E' as <-. split; [|exact I]. apply world_kf; [exact HW|]. destruct HK as (A & B & D & F). split; [|split; [|split]]; cbn; try assumption; apply put_sc; assumption.
  - destruct HO as [-> HP]. split; [|exact I]. destruct (ct_both w w' i HW) as [[Q Q']|(m & k & k' & Q & Q' & Hm & (A & B & D))]; rewrite Q in E; rewrite Q' in E'; injection E as <-; injection E' as <-; [exact HW|].
    specialize (HP m (ct_dims_nth _ _ _ _ Q)). apply (world_ct w w' i m _ _ k k'); auto. split; [|split]; cbn; try assumption; apply put_sc; assumption.
  - destruct HO as [-> HP]. split; [|exact I]. destruct (ct_both w w' i HW) as [[Q Q']|(m & k & k' & Q & Q' & Hm & (A & B & D))]; rewrite Q in E; rewrite Q' in E'; injection E as <-; injection E' as <-; [exact HW|].
    specialize (HP m (ct_dims_nth _ _ _ _ Q)). apply (world_ct w w' i m _ _ k k'); auto. split; [|split]; cbn; try assumption; apply put_sc; assumption.
  - destruct HO as [-> HP]. split; [|exact I]. destruct (ct_both w w' i HW) as [[Q Q']|(m & k & k' & Q & Q' & Hm & (A & B & D))]; rewrite Q in E; rewrite Q' in E'; injection E as <-; injection E' as <-; [exact HW|].
    specialize (HP m (ct_dims_nth _ _ _ _ Q)). apply (world_ct w w' i m _ _ k k'); auto. split; [|split]; cbn; try assumption; apply put_sc; assumption.
  - destruct HO as [-> HP]. split; [|exact I]. destruct (ob_both w w' j HW) as [[Q Q']|(m & k & k' & Q & Q' & (A & B & D))]; rewrite Q in E; rewrite Q' in E'; injection E as <-; injection E' as <-; [exact HW|].
    specialize (HP m (ob_dims_nth _ _ _ _ Q)). apply (world_ob w w' j m _ _ k k'); auto. split; [|split]; cbn; try assumption; apply put_sc; assumption.
  - destruct HO as [-> HP]. split; [|exact I]. destruct (ob_both w w' j HW) as [[Q Q']|(m & k & k' & Q & Q' & (A & B & D))]; rewrite Q in E; rewrite Q' in E'; injection E as <-; injection E' as <-; [exact HW|].
    specialize (HP m (ob_dims_nth _ _ _ _ Q)). apply (world_ob w w' j m _ _ k k'); auto. split; [|split]; cbn; try assumption; apply put_sc; assumption.
  - destruct HO as [-> HP]. split; [|exact I]. destruct (ob_both w w' j HW) as [[Q Q']|(m & k & k' & Q & Q' & (A & B & D))]; rewrite Q in E; rewrite Q' in E'; injection E as <-; injection E' as <-; [exact HW|].
    specialize (HP m (ob_dims_nth _ _ _ _ Q)). apply (world_ob w w' j m _ _ k k'); auto. split; [|split]; cbn; try assumption; apply put_sc; assumption.
Qed.
Lemma run_sc os : forall os' (w w' w1 w1' : world sf), world_ok c n w -> world_ok c n w' -> Forall (op_safe c N n (ob_dims w)) os -> Forall (op_safe c N n (ob_dims w')) os' ->
  world_scaled w w' -> Forall2 (op_scaled prec emax n U (ct_dims w) (ob_dims w)) os os' -> run c N n w os = Ok w1 -> run c N n w' os' = Ok w1' -> all_decomposed c N n w os ->
  world_scaled w1 w1'.
Proof.
  induction os as [|o os IH]; intros os' w w' w1 w1' Ok Ok' So So' HW HO E E' DE; inversion HO as [|? o' ? os2 H1 H2]; subst; cbn [run] in E, E'.
  - injection E as <-. injection E' as <-. exact HW.
  - apply bind_ok in E as (w2 & E2 & E). apply bind_ok in E' as (w2' & E2' & E'). inversion So as [|? ? S1 S2]; subst. inversion So' as [|? ? S1' S2']; subst.
    cbn [all_decomposed] in DE. destruct (DE w2 E2) as [D1 D2].
    destruct (step_sc w w' w2 w2' o o' Ok Ok' S1 S1' HW H1 E2 E2' D1) as [HW2 _].
    pose proof (step_wp c N n w o Ok S1) as W. rewrite E2 in W. destruct W as (K1 & [C1 C2] & _). pose proof (step_wp c N n w' o' Ok' S1') as W'. rewrite E2' in W'. destruct W' as (K1' & [C1' C2'] & _).
    apply (IH os2 w2 w2' w1 w1' K1 K1'); auto; try (rewrite C2; assumption); try (rewrite C2'; assumption). rewrite C1, C2. exact H2.
Qed.
End Hist.
Lemma run_scaled_plain (prec emax : Z) (sz : bool) (c : cfg) (n : nat) (U : units) (w w' w1 w1' : world spec_float) os os' :
  (1 < prec)%Z -> (prec < emax)%Z -> world_ok c n w -> world_ok c n w' -> world_scaled prec emax n U w w' ->
  Forall (op_safe c (sf_roomy prec emax sz) n (ob_dims w)) os -> Forall (op_safe c (sf_roomy prec emax sz) n (ob_dims w')) os' ->
  Forall2 (op_scaled prec emax n U (ct_dims w) (ob_dims w)) os os' ->
  run c (sf_roomy prec emax sz) n w os = Ok w1 -> run c (sf_roomy prec emax sz) n w' os' = Ok w1' -> all_decomposed c (sf_roomy prec emax sz) n w os ->
  run c (sf_num prec emax sz) n w os = Ok w1 /\ run c (sf_num prec emax sz) n w' os' = Ok w1' /\ world_scaled prec emax n U w1 w1'.
Proof.
  intros Hp Hm Ok1 Ok2 HW S1 S2 HO E E' DE.
  split; [eapply nsim_ok; [apply nsim_run, (roomy_refines prec emax sz)|exact E]|]. split; [eapply nsim_ok; [apply nsim_run, (roomy_refines prec emax sz)|exact E']|].
  eapply (run_sc c prec emax sz Hp Hm n U (proj1 Ok1) os os' w w'); eassumption.
Qed.
Lemma correct_scaled_plain (prec emax : Z) (sz : bool) (c : cfg) (n m : nat) (U : units) (eo : nat -> Z) (o o' o1 o1' : observation spec_float) (f f' f1 f1' : kalman spec_float) :
  (1 < prec)%Z -> (prec < emax)%Z -> 1 <= n -> 1 <= m -> kf_valid c n f -> kf_valid c n f' -> ob_valid c n m o -> ob_valid c n m o' ->
  kf_scaled prec emax n U f f' -> ob_scaled prec emax n U m eo o o' ->
  correct c (sf_roomy prec emax sz) n m o f = Ok (o1, f1) -> correct c (sf_roomy prec emax sz) n m o' f' = Ok (o1', f1') -> decomposed (sf_roomy prec emax sz) n m o o1 f ->
  correct c (sf_num prec emax sz) n m o f = Ok (o1, f1) /\ correct c (sf_num prec emax sz) n m o' f' = Ok (o1', f1') /\
  kf_scaled prec emax n U f1 f1' /\ scaled prec emax m 1 (fun i _ => eo i) (ob_y o1) (ob_y o1') /\ scaled prec emax n m (fun i j => u_x U i - eo j)%Z (ob_K o1) (ob_K o1').
Proof.
  intros Hp Hm Hn H1 Vf Vf' Vo Vo' HK HO E E' DE.
  split; [eapply nsim_ok; [apply nsim_correct, (roomy_refines prec emax sz)|exact E]|]. split; [eapply nsim_ok; [apply nsim_correct, (roomy_refines prec emax sz)|exact E']|].
  destruct (correct_sc c prec emax sz Hp Hm n U Hn f f' f1 f1' Vf Vf' HK m eo o o' o1 o1' H1 Vo Vo' HO DE E E') as (_ & _ & A & B & D). auto.
Qed.
