(** * Fixed-point witnesses (I16F16), for every build with at least 16-bit pointers *)
From Coq Require Import Lia ZArith.
From Verif Require Import Spec Matrix Filter SpecFilter BuildSim FloatWit FixedNum SpecFixed.
Open Scope Z_scope.

Section Wit.
Variables (c : cfg).
Hypothesis Hc : (255 <= usize_max c)%nat.

Lemma sim_eq {A} (m1 m2 : res A) r : sim m1 m2 -> m1 = r -> r <> Panic UsizeOverflow -> r <> Panic IsizeOverflow -> r <> Panic AssertFailed -> m2 = r.
Proof. intros [->|(e & -> & [->|[-> | ->]])] E H1 H2 H3; congruence. Qed.
Lemma predict_tinyZ N n (f : kalman Z) r : predict tiny N n f = Ok r -> predict c N n f = Ok r.
Proof. apply sim_ok, sim_predict, tiny_stricter, Hc. Qed.
Lemma predict_tiny_panic N n (f : kalman Z) : predict tiny N n f = Panic NumPanic -> predict c N n f = Panic NumPanic.
Proof. intros E. eapply sim_eq; [apply sim_predict, tiny_stricter, Hc|exact E|discriminate..]. Qed.
Lemma correct_tinyZ N n m o (f : kalman Z) r : correct tiny N n m o f = Ok r -> correct c N n m o f = Ok r.
Proof. apply sim_ok, sim_correct, tiny_stricter, Hc. Qed.
Lemma correct_tiny_panic N n m o (f : kalman Z) : correct tiny N n m o f = Panic NumPanic -> correct c N n m o f = Panic NumPanic.
Proof. intros E. eapply sim_eq; [apply sim_correct, tiny_stricter, Hc|exact E|discriminate..]. Qed.

Notation one := 65536.
(** one state *)
Definition kfz (a x p q : Z) : kalman Z := mk_kalman [a] [x] [p] [q] [0] [0].
Definition obz (h z r : Z) : observation Z := mk_obs [h] [z] [r] [0] [0] [0] [0] [0] [0] [0].
Lemma kfz_valid a x p q : kf_valid c 1 (kfz a x p q).
Proof. red. vt Hc. Qed.
Lemma obz_valid h z r : ob_valid c 1 1 (obz h z r).
Proof. red. vt Hc. Qed.

(** a variance of 200 multiplied by 20^2 does not fit: 80000 becomes 14464 *)
Lemma silent_overflow : exists f f', kf_valid c 1 f /\ kf_A f = [20 * one] /\ kf_P f = [200 * one] /\ kf_Q f = [0] /\
  predict c (i16f16_num true true) 1 f = Panic NumPanic /\
  predict c (i16f16_num false false) 1 f = Ok f' /\ kf_P f' = [14464 * one].
Proof.
  exists (kfz (20 * one) 0 (200 * one) 0).
  assert (E : exists f', predict tiny (i16f16_num false false) 1 (kfz (20 * one) 0 (200 * one) 0) = Ok f' /\ kf_P f' = [14464 * one]).
  { vm_compute. eexists. split; reflexivity. }
  destruct E as (f' & E & EP). exists f'. split; [apply kfz_valid|]. do 3 (split; [reflexivity|]).
  split; [apply predict_tiny_panic; vm_compute; reflexivity|]. split; [apply predict_tinyZ, E|exact EP].
Qed.

(** a variance and a measurement noise of one unit in the last place: the gain of 1/2 comes out as about -1/2 *)
Lemma gain_overflow : exists o f o' f', kf_valid c 1 f /\ ob_valid c 1 1 o /\
  ob_H o = [one] /\ ob_z o = [one] /\ ob_R o = [1] /\ kf_x f = [0] /\ kf_P f = [1] /\
  correct c (i16f16_num true true) 1 1 o f = Panic NumPanic /\
  correct c (i16f16_num false false) 1 1 o f = Ok (o', f') /\ ob_K o' = [-32762] /\ kf_x f' = [-32762] /\ kf_P f' = [2].
Proof.
  exists (obz one one 1), (kfz one 0 1 0).
  assert (E : exists o' f', correct tiny (i16f16_num false false) 1 1 (obz one one 1) (kfz one 0 1 0) = Ok (o', f') /\ ob_K o' = [-32762] /\ kf_x f' = [-32762] /\ kf_P f' = [2]).
  { vm_compute. do 2 eexists. repeat split. }
  destruct E as (o' & f' & E & EP). exists o', f'. split; [apply kfz_valid|]. split; [apply obz_valid|]. do 5 (split; [reflexivity|]).
  split; [apply correct_tiny_panic; vm_compute; reflexivity|]. split; [apply correct_tinyZ, E|exact EP].
Qed.

(** rounding alone, no overflow: variance 635401/65536 = 9.695..., h = 1/4, noise one unit: the variance becomes negative *)
Lemma fx_negative_variance : exists o f o' f', kf_valid c 1 f /\ ob_valid c 1 1 o /\
  ob_H o = [16384] /\ ob_R o = [1] /\ kf_P f = [635401] /\
  (forall oc da, correct c (i16f16_num oc da) 1 1 o f = Ok (o', f')) /\ kf_P f' = [-6].
Proof.
  exists (obz 16384 one 1), (kfz one 0 635401 0).
  assert (E : exists o' f', (forall oc da, correct tiny (i16f16_num oc da) 1 1 (obz 16384 one 1) (kfz one 0 635401 0) = Ok (o', f')) /\ kf_P f' = [-6]).
  { do 2 eexists. split; [intros [] []; vm_compute; reflexivity|reflexivity]. }
  destruct E as (o' & f' & E & EP). exists o', f'. split; [apply kfz_valid|]. split; [apply obz_valid|]. do 3 (split; [reflexivity|]).
  split; [intros oc da; apply correct_tinyZ, E|exact EP].
Qed.

(** a prediction makes a symmetric covariance asymmetric *)
Lemma fx_asymmetric : exists f f', kf_valid c 2 f /\ cell 2 (kf_P f) 0 1 = cell 2 (kf_P f) 1 0 /\ kf_Q f = [0; 0; 0; 0] /\
  (forall oc da, predict c (i16f16_num oc da) 2 f = Ok f') /\ cell 2 (kf_P f') 0 1 = Some 131075 /\ cell 2 (kf_P f') 1 0 = Some 131076.
Proof.
  set (f := mk_kalman [one; 16384; 98304; one] [0; 0] [one; 3; 3; 2 * one] [0; 0; 0; 0] [0; 0] [0; 0; 0; 0]).
  assert (E : exists f', (forall oc da, predict tiny (i16f16_num oc da) 2 f = Ok f') /\ cell 2 (kf_P f') 0 1 = Some 131075 /\ cell 2 (kf_P f') 1 0 = Some 131076).
  { eexists. split; [intros [] []; vm_compute; reflexivity|split; reflexivity]. }
  destruct E as (f' & E & EP). exists f, f'. split; [red; vt Hc|]. split; [reflexivity|]. split; [reflexivity|].
  split; [intros oc da; apply predict_tinyZ, E|exact EP].
Qed.

(** ordinary use: two states, position and velocity; a prediction and a correction in range *)
Definition kf_fx : kalman Z := mk_kalman [one; one; 0; one] [3 * one; 32768] [2 * one; one; one; one] [6554; 0; 0; 6554] [0; 0] [0; 0; 0; 0].
Definition ob_fx : observation Z := mk_obs [one; 0] [4 * one] [32768] [0] [0] [0; 0] [0] [0; 0] [0; 0] [0; 0; 0; 0].
Lemma fx_example : kf_valid c 2 kf_fx /\ ob_valid c 2 1 ob_fx /\ integral 16 2 2 (kf_A kf_fx) /\
  (exists f', predict c (i16f16_num true true) 2 kf_fx = Ok f' /\ kf_x f' = [229376; 32768]) /\
  (exists o' f', correct c (i16f16_num true true) 2 1 ob_fx kf_fx = Ok (o', f') /\ kf_x f' = [249034; 58981]).
Proof.
  split; [red; vt Hc|]. split; [red; vt Hc|]. split.
  { intros i j z Hi Hj. destruct i as [|[|i]]; [| |lia]; (destruct j as [|[|j]]; [| |lia]); cbn; intros E; injection E as <-;
      [exists 1|exists 1|exists 0|exists 1]; reflexivity. }
  split.
  - assert (E : exists f', predict tiny (i16f16_num true true) 2 kf_fx = Ok f' /\ kf_x f' = [229376; 32768]) by (vm_compute; eexists; split; reflexivity).
    destruct E as (f' & E & EP). exists f'. split; [apply predict_tinyZ, E|exact EP].
  - assert (E : exists o' f', correct tiny (i16f16_num true true) 2 1 ob_fx kf_fx = Ok (o', f') /\ kf_x f' = [249034; 58981]).
    { vm_compute. do 2 eexists. split; [reflexivity|]. reflexivity. }
    destruct E as (o' & f' & E & EP). exists o', f'. split; [apply correct_tinyZ, E|exact EP].
Qed.
Lemma fx_chol_example : valid c 2 2 [4 * one; 2 * one; 2 * one; 5 * one] /\
  forall oc da, cholesky_decompose_lower c (i16f16_num oc da) 2 2 [4 * one; 2 * one; 2 * one; 5 * one] = Ok (true, [2 * one; 0; one; 2 * one]).
Proof.
  split; [vt Hc|]. intros oc da.
  assert (E : cholesky_decompose_lower tiny (i16f16_num oc da) 2 2 [4 * one; 2 * one; 2 * one; 5 * one] = Ok (true, [2 * one; 0; one; 2 * one])) by (destruct oc, da; vm_compute; reflexivity).
  eapply sim_ok; [apply sim_cholesky, tiny_stricter, Hc|exact E].
Qed.
End Wit.
