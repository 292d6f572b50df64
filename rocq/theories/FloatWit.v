(** * Floating-point witnesses, for every build with at least 16-bit pointers *)
From Coq Require Import Lia.
From Verif Require Import Spec Matrix Filter SpecFilter BuildSim FloatNum SpecFloats.

(** computations are done in this tiny but cautious configuration and carry over to every real one *)
Definition tiny : cfg := {| usize_max := 100; overflow_checks := true; debug_assertions := true; no_assert := false |}.
Lemma tiny_stricter c : 255 <= usize_max c -> stricter tiny c.
Proof. intros H. repeat split. change (100 <= usize_max c). lia. Qed.

Lemma valid_tiny {T} c R C (l : list T) : 255 <= usize_max c -> Nat.leb (R * C) (length l) = true -> Nat.leb (length l) 100 = true -> valid c R C l.
Proof.
  intros Hc H1 H2. apply Nat.leb_le in H1, H2. split; [exact H1|]. unfold slice_ok, imax, umaxZ.
  assert (H : (100 <= Z.of_nat (usize_max c) / 2)%Z) by (apply Z.div_le_lower_bound; lia). lia.
Qed.
Ltac vt H := repeat match goal with |- _ /\ _ => split end; apply valid_tiny; (exact H || reflexivity).

Section Wit.
Variables (c : cfg) (sz : bool).
Hypothesis Hc : 255 <= usize_max c.
Notation z0 := (S754_zero false).

Lemma correct_tiny N n m (o : observation spec_float) f r : correct tiny N n m o f = Ok r -> correct c N n m o f = Ok r.
Proof. apply sim_ok, sim_correct, tiny_stricter, Hc. Qed.
Lemma predict_tiny N n (f : kalman spec_float) r : predict tiny N n f = Ok r -> predict c N n f = Ok r.
Proof. apply sim_ok, sim_predict, tiny_stricter, Hc. Qed.
Lemma cholesky_tiny N n (m : list spec_float) r : cholesky_decompose_lower tiny N n n m = Ok r -> cholesky_decompose_lower c N n n m = Ok r.
Proof. apply sim_ok, sim_cholesky, tiny_stricter, Hc. Qed.

(** one state with variance p, measured directly with noise r *)
Definition kf1 (one two p : spec_float) : kalman spec_float := mk_kalman [one] [two] [p] [z0] [z0] [z0].
Definition ob1 (one r : spec_float) : observation spec_float := mk_obs [one] [one] [r] [z0] [z0] [z0] [z0] [z0] [z0] [z0].
Lemma kf1_valid one two p : kf_valid c 1 (kf1 one two p).
Proof. red. vt Hc. Qed.
Lemma ob1_valid one r : ob_valid c 1 1 (ob1 one r).
Proof. red. vt Hc. Qed.

(** variance 17, noise 2^-20: the corrected variance is negative (f32) *)
Lemma negative_variance32 : exists o f o' f' p p', kf_valid c 1 f /\ ob_valid c 1 1 o /\
  kf_P f = [p] /\ sf_pos p = true /\ sf_finite p = true /\ ob_R o = [f32 1 (-20)] /\ ob_H o = [f32 1 0] /\
  correct c (f32_num sz) 1 1 o f = Ok (o', f') /\ kf_P f' = [p'] /\ sf_neg p' = true.
Proof.
  assert (E : exists o' f' p', correct tiny (f32_num sz) 1 1 (ob1 (f32 1 0) (f32 1 (-20))) (kf1 (f32 1 0) (f32 2 0) (f32 17 0)) = Ok (o', f') /\
    kf_P f' = [p'] /\ sf_neg p' = true).
  { destruct sz; vm_compute; do 3 eexists; repeat split. }
  destruct E as (o' & f' & p' & E & H1 & H2). apply correct_tiny in E.
  exists (ob1 (f32 1 0) (f32 1 (-20))), (kf1 (f32 1 0) (f32 2 0) (f32 17 0)), o', f', (f32 17 0), p'. split; [apply kf1_valid|]. split; [apply ob1_valid|]. split; [reflexivity|]. split; [vm_compute; reflexivity|].
  split; [vm_compute; reflexivity|]. split; [reflexivity|]. split; [reflexivity|]. split; [exact E|]. split; [exact H1|exact H2].
Qed.
(** variance 18, noise 2^-49 (f64) *)
Lemma negative_variance64 : exists o f o' f' p p', kf_valid c 1 f /\ ob_valid c 1 1 o /\
  kf_P f = [p] /\ sf_pos p = true /\ sf_finite p = true /\ ob_R o = [f64 1 (-49)] /\ ob_H o = [f64 1 0] /\
  correct c (f64_num sz) 1 1 o f = Ok (o', f') /\ kf_P f' = [p'] /\ sf_neg p' = true.
Proof.
  assert (E : exists o' f' p', correct tiny (f64_num sz) 1 1 (ob1 (f64 1 0) (f64 1 (-49))) (kf1 (f64 1 0) (f64 2 0) (f64 18 0)) = Ok (o', f') /\
    kf_P f' = [p'] /\ sf_neg p' = true).
  { destruct sz; vm_compute; do 3 eexists; repeat split. }
  destruct E as (o' & f' & p' & E & H1 & H2). apply correct_tiny in E.
  exists (ob1 (f64 1 0) (f64 1 (-49))), (kf1 (f64 1 0) (f64 2 0) (f64 18 0)), o', f', (f64 18 0), p'. split; [apply kf1_valid|]. split; [apply ob1_valid|]. split; [reflexivity|]. split; [vm_compute; reflexivity|].
  split; [vm_compute; reflexivity|]. split; [reflexivity|]. split; [reflexivity|]. split; [exact E|]. split; [exact H1|exact H2].
Qed.

(** applying the same good sensor twice destroys the state *)
Lemma destroyed32 : exists o f o1 f1 o2 f2 x, kf_valid c 1 f /\ ob_valid c 1 1 o /\
  kf_P f = [f32 17 0] /\ kf_x f = [f32 2 0] /\ ob_R o = [f32 1 (-20)] /\ ob_H o = [f32 1 0] /\ ob_z o = [f32 1 0] /\
  correct c (f32_num sz) 1 1 o f = Ok (o1, f1) /\ correct c (f32_num sz) 1 1 o1 f1 = Ok (o2, f2) /\
  kf_x f2 = [x] /\ sf_finite x = false.
Proof.
  assert (E : exists o1 f1 o2 f2 x, correct tiny (f32_num sz) 1 1 (ob1 (f32 1 0) (f32 1 (-20))) (kf1 (f32 1 0) (f32 2 0) (f32 17 0)) = Ok (o1, f1) /\
    correct tiny (f32_num sz) 1 1 o1 f1 = Ok (o2, f2) /\ kf_x f2 = [x] /\ sf_finite x = false).
  { destruct sz; do 5 eexists; (split; [vm_compute; reflexivity|]); (split; [vm_compute; reflexivity|]); split; vm_compute; reflexivity. }
  destruct E as (o1 & f1 & o2 & f2 & x & E1 & E2 & H1 & H2). apply correct_tiny in E1, E2.
  exists (ob1 (f32 1 0) (f32 1 (-20))), (kf1 (f32 1 0) (f32 2 0) (f32 17 0)), o1, f1, o2, f2, x. split; [apply kf1_valid|]. split; [apply ob1_valid|]. repeat (split; [reflexivity|]).
  split; [exact E1|]. split; [exact E2|]. split; [exact H1|exact H2].
Qed.

(** a state known exactly, measured exactly: S = 0, and the state becomes NaN without any sign *)
Lemma singular32 : exists o f o' f', kf_valid c 1 f /\ ob_valid c 1 1 o /\
  kf_x f = [f32 2 0] /\ kf_P f = [z0] /\ ob_R o = [z0] /\
  correct c (f32_num sz) 1 1 o f = Ok (o', f') /\ kf_x f' = [S754_nan] /\ kf_P f' = [S754_nan].
Proof.
  assert (E : exists o' f', correct tiny (f32_num sz) 1 1 (ob1 (f32 1 0) z0) (kf1 (f32 1 0) (f32 2 0) z0) = Ok (o', f') /\
    kf_x f' = [S754_nan] /\ kf_P f' = [S754_nan]).
  { destruct sz; vm_compute; do 2 eexists; repeat split. }
  destruct E as (o' & f' & E & H1 & H2). apply correct_tiny in E.
  exists (ob1 (f32 1 0) z0), (kf1 (f32 1 0) (f32 2 0) z0), o', f'. split; [apply kf1_valid|]. split; [apply ob1_valid|]. repeat (split; [reflexivity|]).
  split; [exact E|]. split; [exact H1|exact H2].
Qed.

(** two equal sensors with small positive noise: S is positive definite, but not after rounding *)
Definition ob_twin (r : spec_float) : observation spec_float :=
  mk_obs [f32 1 0; f32 1 0] [f32 1 0; f32 1 0] [r; z0; z0; r] [z0; z0] [z0; z0; z0; z0] [z0; z0] [z0; z0; z0; z0] [z0; z0] [z0; z0] [z0].
Lemma twin32 : exists o f o' f', kf_valid c 1 f /\ ob_valid c 1 2 o /\
  kf_x f = [f32 2 0] /\ kf_P f = [f32 1 0] /\ ob_H o = [f32 1 0; f32 1 0] /\ ob_R o = [f32 1 (-30); z0; z0; f32 1 (-30)] /\ ob_z o = [f32 1 0; f32 1 0] /\
  correct c (f32_num sz) 1 2 o f = Ok (o', f') /\ kf_x f' = [S754_nan] /\ kf_P f' = [S754_nan].
Proof.
  assert (E : exists o' f', correct tiny (f32_num sz) 1 2 (ob_twin (f32 1 (-30))) (kf1 (f32 1 0) (f32 2 0) (f32 1 0)) = Ok (o', f') /\
    kf_x f' = [S754_nan] /\ kf_P f' = [S754_nan]).
  { destruct sz; vm_compute; do 2 eexists; repeat split. }
  destruct E as (o' & f' & E & H1 & H2). apply correct_tiny in E.
  exists (ob_twin (f32 1 (-30))), (kf1 (f32 1 0) (f32 2 0) (f32 1 0)), o', f'. split; [apply kf1_valid|]. split; [red; vt Hc|]. repeat (split; [reflexivity|]).
  split; [exact E|]. split; [exact H1|exact H2].
Qed.

(** symmetry is lost *)
Definition kf2 (a b d e p q r : spec_float) : kalman spec_float :=
  mk_kalman [a; b; d; e] [z0; z0] [p; q; q; r] [z0; z0; z0; z0] [z0; z0] [z0; z0; z0; z0].
Lemma kf2_valid a b d e p q r : kf_valid c 2 (kf2 a b d e p q r).
Proof. red. vt Hc. Qed.
Lemma kf2_sym a b d e p q r : sf_sym 2 (kf_P (kf2 a b d e p q r)).
Proof. intros [|[|i]] [|[|j]] Hi Hj; try reflexivity; lia. Qed.
Definition frac32 (a b : Z) : spec_float := SFdiv 24 128 (f32 a 0) (f32 b 0).
Definition frac64 (a b : Z) : spec_float := SFdiv 53 1024 (f64 a 0) (f64 b 0).
Lemma predict_asym32 : exists f f', kf_valid c 2 f /\ sf_sym 2 (kf_P f) /\ predict c (f32_num sz) 2 f = Ok f' /\ ~ sf_sym 2 (kf_P f').
Proof.
  pose (f := kf2 (f32 1 0) (frac32 1 3) (frac32 1 5) (f32 1 0) (f32 2 0) (f32 1 0) (f32 2 0)).
  assert (E : exists f', predict tiny (f32_num sz) 2 f = Ok f' /\ cell 2 (kf_P f') 0 1 <> cell 2 (kf_P f') 1 0).
  { destruct sz; vm_compute; eexists; (split; [reflexivity|]); vm_compute; discriminate. }
  destruct E as (f' & E & H). apply predict_tiny in E.
  exists f, f'. split; [apply kf2_valid|]. split; [apply kf2_sym|]. split; [exact E|]. intros S. apply H, S; lia.
Qed.
Lemma predict_asym64 : exists f f', kf_valid c 2 f /\ sf_sym 2 (kf_P f) /\ predict c (f64_num sz) 2 f = Ok f' /\ ~ sf_sym 2 (kf_P f').
Proof.
  pose (f := kf2 (f64 1 0) (frac64 1 3) (frac64 1 5) (f64 1 0) (f64 3 0) (f64 1 0) (f64 2 0)).
  assert (E : exists f', predict tiny (f64_num sz) 2 f = Ok f' /\ cell 2 (kf_P f') 0 1 <> cell 2 (kf_P f') 1 0).
  { destruct sz; vm_compute; eexists; (split; [reflexivity|]); vm_compute; discriminate. }
  destruct E as (f' & E & H). apply predict_tiny in E.
  exists f, f'. split; [apply kf2_valid|]. split; [apply kf2_sym|]. split; [exact E|]. intros S. apply H, S; lia.
Qed.
Definition ob_sum (h g r : spec_float) : observation spec_float :=
  mk_obs [h; g] [h] [r] [z0] [z0] [z0; z0] [z0] [z0; z0] [z0; z0] [z0; z0; z0; z0].
Lemma correct_asym32 : exists o f o' f', kf_valid c 2 f /\ ob_valid c 2 1 o /\ sf_sym 2 (kf_P f) /\ correct c (f32_num sz) 2 1 o f = Ok (o', f') /\ ~ sf_sym 2 (kf_P f').
Proof.
  pose (f := kf2 (f32 1 0) z0 z0 (f32 1 0) (f32 11 0) (f32 3 0) (f32 3 0)). pose (o := ob_sum (f32 1 0) z0 (f32 1 0)).
  assert (E : exists o' f', correct tiny (f32_num sz) 2 1 o f = Ok (o', f') /\ cell 2 (kf_P f') 0 1 <> cell 2 (kf_P f') 1 0).
  { destruct sz; vm_compute; do 2 eexists; (split; [reflexivity|]); vm_compute; discriminate. }
  destruct E as (o' & f' & E & H). apply correct_tiny in E.
  exists o, f, o', f'. split; [apply kf2_valid|]. split; [red; vt Hc|]. split; [apply kf2_sym|]. split; [exact E|]. intros S. apply H, S; lia.
Qed.
Lemma correct_asym64 : exists o f o' f', kf_valid c 2 f /\ ob_valid c 2 1 o /\ sf_sym 2 (kf_P f) /\ correct c (f64_num sz) 2 1 o f = Ok (o', f') /\ ~ sf_sym 2 (kf_P f').
Proof.
  pose (f := kf2 (f64 1 0) z0 z0 (f64 1 0) (f64 4 0) (f64 2 0) (f64 3 0)). pose (o := ob_sum (f64 1 0) (f64 1 0) (f64 1 0)).
  assert (E : exists o' f', correct tiny (f64_num sz) 2 1 o f = Ok (o', f') /\ cell 2 (kf_P f') 0 1 <> cell 2 (kf_P f') 1 0).
  { destruct sz; vm_compute; do 2 eexists; (split; [reflexivity|]); vm_compute; discriminate. }
  destruct E as (o' & f' & E & H). apply correct_tiny in E.
  exists o, f, o', f'. split; [apply kf2_valid|]. split; [red; vt Hc|]. split; [apply kf2_sym|]. split; [exact E|]. intros S. apply H, S; lia.
Qed.

(** a NaN passes for positive definite *)
Lemma cholesky_nan32 : exists l, cholesky_decompose_lower c (f32_num sz) 1 1 [S754_nan] = Ok (true, l) /\ l = [S754_nan].
Proof.
  eexists. split; [apply cholesky_tiny; destruct sz; vm_compute; reflexivity|reflexivity].
Qed.
End Wit.
Lemma scalar_negative (sz : bool) : let f := kf1 (f32 1 0) (f32 2 0) (f32 1 0) in let o := ob1 (f32 1 0) (f32 (-2) 0) in
  exists s, scalar_S (f32_num sz) 1 (ob_H o) (kf_P f) (ob_R o) = Some s /\ sf_pos s = false.
Proof. destruct sz; vm_compute; eexists; split; reflexivity. Qed.
