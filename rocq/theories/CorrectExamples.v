(** * A concrete f64 filter with two measured components meeting the hypotheses of PropCorrect.v *)
From Coq Require Import ZArith Reals Lia Lra Psatz.
From Flocq Require Import Core BinarySingleNaN.
From Verif Require Import Prelude Spec Matrix Filter SpecFilter BuildSim FloatNum SpecFloats FloatWit SpecReal SpecRange SpecSolve SpecCorrect FloatFlocq FloatInt FloatErr FloatModerate BitsExamples RealExamples RoundExamples RangeExamples StableExamples.
Import SpecFloat.
Open Scope R_scope.

Definition zz : spec_float := S754_zero false.
(** P = [2 1; 1 2], H = [1 0; 1 1], R = 1: the innovation covariance is [3 3; 3 7] *)
Definition kf_two : kalman spec_float :=
  mk_kalman [f64 1 0; f64 1 0; zz; f64 1 0] [f64 3 0; f64 1 0] [f64 2 0; f64 1 0; f64 1 0; f64 2 0] [f64 1 0; zz; zz; f64 1 0] [zz; zz] [zz; zz; zz; zz].
Definition ob_two : observation spec_float :=
  mk_obs [f64 1 0; zz; f64 1 0; f64 1 0] [f64 2 0; f64 3 0] [f64 1 0; zz; zz; f64 1 0] [zz; zz] [zz; zz; zz; zz] [zz; zz; zz; zz] [zz; zz; zz; zz] [zz; zz; zz; zz] [zz; zz; zz; zz] [zz; zz; zz; zz].
Lemma uro53 : uro 53 = / 9007199254740992. Proof. unfold uro. cbn. lra. Qed.
Lemma big1024 : 2 ^ 60 < too_big 1024.
Proof. eapply Rlt_trans; [apply big128|]. unfold too_big. apply bpow_lt. lia. Qed.
Lemma v1 : val (f64 1 0) = 1. Proof. replace (f64 1 0) with (S754_finite false 4503599627370496 (-52)) by (vm_compute; reflexivity). unfold val, SF2R, F2R. cbn. lra. Qed.
Lemma v2 : val (f64 2 0) = 2. Proof. replace (f64 2 0) with (S754_finite false 4503599627370496 (-51)) by (vm_compute; reflexivity). unfold val, SF2R, F2R. cbn. lra. Qed.
Lemma v0 : val zz = 0. Proof. reflexivity. Qed.
Lemma b2 : bpow radix2 2 = 4. Proof. cbn. lra. Qed.
Ltac s2 := first [apply (small_list 2)]; [vm_compute; reflexivity|cbn; lia].
Ltac fe := unfold rcell, cell; cbn [Nat.mul Nat.add nth_error kf_x kf_P kf_two ob_H ob_z ob_R ob_two]; rewrite ?v0, ?v1, ?v2.
Lemma hrow i : (i < 2)%nat -> rsum 2 (fun l => Rabs (rcell 2 (ob_H ob_two) i l)) <= 2.
Proof. intros Hi. destruct i as [|[|i]]; [..|lia]; cbn [rsum]; fe; rewrite ?Rabs_R0, ?Rabs_R1; lra. Qed.
Lemma two_cov : inn_cov 2 (rcell 2 (ob_H ob_two)) (rcell 2 (kf_P kf_two)) (rcell 2 (ob_R ob_two)) 0 0 = 3 /\
  inn_cov 2 (rcell 2 (ob_H ob_two)) (rcell 2 (kf_P kf_two)) (rcell 2 (ob_R ob_two)) 0 1 = 3 /\ inn_cov 2 (rcell 2 (ob_H ob_two)) (rcell 2 (kf_P kf_two)) (rcell 2 (ob_R ob_two)) 1 1 = 7.
Proof. unfold inn_cov. cbn [rsum]. repeat split; fe; lra. Qed.
Lemma two_eig : eig_above 2 (upper_of (inn_cov 2 (rcell 2 (ob_H ob_two)) (rcell 2 (kf_P kf_two)) (rcell 2 (ob_R ob_two)))) (2 * / 2).
Proof.
  destruct two_cov as (E1 & E2 & E3). intros v. unfold quad, upper_of. cbn [rsum Nat.min Nat.max]. rewrite E1, E2, E3.
  pose proof (Rle_0_sqr (v 0%nat + 3 / 2 * v 1%nat)) as Q. pose proof (Rle_0_sqr (v 1%nat)) as Q2. unfold Rsqr in Q, Q2. lra.
Qed.
Lemma two_moderate : moderate 53 1024 2 2 4 (/ 2) (rcell 2 (ob_H ob_two)) (rcell 2 (kf_P kf_two)) (rcell 2 (ob_R ob_two)) (fun i => rcell 1 (kf_x kf_two) i 0) (fun i => rcell 1 (ob_z ob_two) i 0).
Proof.
  split; [cbn; lra|]. split; [cbn; lra|]. split; [intros i Hi; pose proof (hrow i Hi); lra|]. rewrite <- b2.
  split; [apply (small_list 2); [vm_compute; reflexivity|cbn; lia]|]. split; [apply (small_list 2); [vm_compute; reflexivity|cbn; lia]|].
  split; [intros i Hi; apply (small_list 2 2 1 (kf_x kf_two)); [vm_compute; reflexivity|cbn; lia|exact Hi|lia]|].
  split; [intros i Hi; apply (small_list 2 2 1 (ob_z ob_two)); [vm_compute; reflexivity|cbn; lia|exact Hi|lia]|]. rewrite b2.
  split; [exact two_eig|]. rewrite uro53. split; [cbn [pow]; lra|]. eapply Rlt_trans; [|apply big1024]. cbn [pow]. lra.
Qed.
Lemma two_example (c : cfg) : (255 <= usize_max c)%nat ->
  (ob_valid c 2 2 ob_two /\ kf_valid c 2 kf_two /\ kf_format 53 1024 kf_two /\ all_in_format 53 1024 (kf_px kf_two) /\ all_in_format 53 1024 (kf_tP kf_two) /\ ob_format 53 1024 ob_two) /\
  (fin_matrix 2 1 (kf_x kf_two) /\ fin_matrix 2 2 (kf_P kf_two) /\ fin_matrix 2 2 (ob_H ob_two) /\ fin_matrix 2 1 (ob_z ob_two) /\ fin_matrix 2 2 (ob_R ob_two)) /\
  moderate 53 1024 2 2 4 (/ 2) (rcell 2 (ob_H ob_two)) (rcell 2 (kf_P kf_two)) (rcell 2 (ob_R ob_two)) (fun i => rcell 1 (kf_x kf_two) i 0) (fun i => rcell 1 (ob_z ob_two) i 0) /\
  sym_on 2 (rcell 2 (kf_P kf_two)) /\ 8192 * 4 ^ 11 * uro 53 / (/ 2) ^ 2 <= / 60000.
Proof.
  intros Hc. split; [|split; [|split; [exact two_moderate|split]]].
  - split; [unfold ob_valid; vt Hc|]. split; [unfold kf_valid; vt Hc|]. split; [repeat split; af|]. split; [af|]. split; [af|]. repeat split; af.
  - repeat split; s2.
  - intros i j Hi Hj. destruct i as [|[|i]]; [..|lia]; (destruct j as [|[|j]]; [..|lia]); reflexivity.
  - rewrite uro53. cbn [pow]. lra.
Qed.
(** the same filter with the detailed bounds *)
Lemma two_ready : within 53 1024 2 2 (mk_corr 4 4 4 4 4 (/ 2)) (rcell 2 (ob_H ob_two)) (rcell 2 (kf_P kf_two)) (rcell 2 (ob_R ob_two)) (fun i => rcell 1 (kf_x kf_two) i 0) (fun i => rcell 1 (ob_z ob_two) i 0) /\
  corr_ready 53 1024 2 2 (mk_corr 4 4 4 4 4 (/ 2)).
Proof. apply moderate_within; [split; lia|lia|lia|lia|exact two_moderate]. Qed.
