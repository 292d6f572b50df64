(** * A concrete I16F16 filter with two measured components meeting the simple conditions *)
From Coq Require Import ZArith QArith Reals Qreals Lia Lra.
From Verif Require Import Prelude Spec Matrix Filter SpecFilter Extended BuildSim FixedNum SpecFixed SpecFixedRange SpecFixedFactor SpecReal SpecSolve SpecFixedSolve SpecFixedInv SpecCorrect SpecFixedCorrect SpecRange SpecFixedModerate FixedModerate MatExamples FloatWit.
Open Scope R_scope.

(** P = [1 1/2; 1/2 1], x = [1; 2], H = [1 0; 1 1], z = [2; 2], R = 1: the innovation covariance is [2 3/2; 3/2 4] *)
Definition kf_fm : kalman Z := mk_kalman [65536; 65536; 0; 65536]%Z [65536; 131072]%Z [65536; 32768; 32768; 65536]%Z [65536; 0; 0; 65536]%Z [0; 0]%Z [0; 0; 0; 0]%Z.
Definition ob_fm : observation Z := mk_obs [65536; 0; 65536; 65536]%Z [131072; 131072]%Z [65536; 0; 0; 65536]%Z [0; 0]%Z [0; 0; 0; 0]%Z [0; 0; 0; 0]%Z [0; 0; 0; 0]%Z [0; 0; 0; 0]%Z [0; 0; 0; 0]%Z [0; 0; 0; 0]%Z.
Lemma m1' : Q2R (fval 16 65536) = 1. Proof. unfold fval, Q2R; cbn; lra. Qed.
Lemma m2' : Q2R (fval 16 131072) = 2. Proof. unfold fval, Q2R; cbn; lra. Qed.
Lemma mh' : Q2R (fval 16 32768) = / 2. Proof. unfold fval, Q2R; cbn; lra. Qed.
Lemma m0' : Q2R (fval 16 0) = 0. Proof. unfold fval, Q2R; cbn; lra. Qed.
Lemma w16 : fx_w 16 = / 65536. Proof. unfold fx_w, ulp, Q2R. cbn. lra. Qed.
Lemma lim16 : fx_limit 32 16 = 32768. Proof. unfold fx_limit, fx_top, fval, Q2R. cbn. lra. Qed.
Ltac fe := unfold fcell, qcell, cell; cbn [Nat.mul Nat.add nth_error kf_x kf_P kf_fm ob_H ob_z ob_R ob_fm]; rewrite ?m0', ?m1', ?m2', ?mh'.
Ltac two i Hi := destruct i as [|[|i]]; [..|exfalso; clear - Hi; lia].
Lemma fm_example (c : cfg) : (255 <= usize_max c)%nat -> ob_valid c 2 2 ob_fm /\ kf_valid c 2 kf_fm /\ 0 < / 2 /\
  fc_moderate 32 16 2 2 2 (/ 2) (fcell 16 2 (ob_H ob_fm)) (fcell 16 2 (kf_P kf_fm)) (fcell 16 2 (ob_R ob_fm)) (fun i => fcell 16 1 (kf_x kf_fm) i 0) /\
  (forall i, (i < 2)%nat -> Rabs (fcell 16 1 (ob_z ob_fm) i 0) <= 2).
Proof.
  intros Hc. split; [unfold ob_valid; vt Hc|]. split; [unfold kf_valid; vt Hc|]. split; [lra|].
  split; [|intros i Hi; two i Hi; fe; apply Rabs_le; lra].
  unfold fc_moderate. split; [cbn [INR]; lra|]. split; [cbn [INR]; lra|].
  split; [intros i Hi; two i Hi; cbn [rsum]; fe; rewrite ?Rabs_R0, ?Rabs_R1; lra|].
  split; [intros i j Hi Hj; two i Hi; two j Hj; fe; apply Rabs_le; lra|]. split; [intros i j Hi Hj; two i Hi; two j Hj; fe; apply Rabs_le; lra|].
  split; [intros i Hi; two i Hi; fe; apply Rabs_le; lra|].
  split. 2:{ rewrite w16, lim16. cbn [pow]. split; [split|]; lra. }
  assert (E : let C := inn_cov 2 (fcell 16 2 (ob_H ob_fm)) (fcell 16 2 (kf_P kf_fm)) (fcell 16 2 (ob_R ob_fm)) in C 0%nat 0%nat = 2 /\ C 0%nat 1%nat = 3 / 2 /\ C 1%nat 1%nat = 4).
  { cbv zeta. unfold inn_cov. cbn [rsum]. repeat split; fe; lra. }
  destruct E as (E1 & E2 & E3). intros v. unfold quad, upper_of. cbn [rsum Nat.min Nat.max]. rewrite E1, E2, E3.
  pose proof (Rle_0_sqr (v 0%nat + 3 / 2 * v 1%nat)) as Q. pose proof (Rle_0_sqr (v 1%nat)) as Q2. unfold Rsqr in Q, Q2. lra.
Qed.
Lemma fm_run (c : cfg) : (255 <= usize_max c)%nat -> exists o' f', correct c (fx_num 32 16 true true) 2 2 ob_fm kf_fm = Ok (o', f') /\ kf_x f' = [68385; 102578]%Z.
Proof.
  intros Hc. assert (E : exists o' f', correct tiny (fx_num 32 16 true true) 2 2 ob_fm kf_fm = Ok (o', f') /\ kf_x f' = [68385; 102578]%Z).
  { eexists _, _. split; [vm_compute; reflexivity|]. reflexivity. }
  destruct E as (o' & f' & E & H). exists o', f'. split; [|exact H]. eapply sim_ok; [apply sim_correct, tiny_stricter, Hc|exact E].
Qed.

(** an extended filter: h(x) = [x_0^2 / 2; x_0 + x_1] has the Jacobian H = [1 0; 1 1] at x = [1; 2] *)
Definition h_fm (x _ : list Z) : res (list Z) := match x with [a; b] => Ok [a * a / 65536 / 2; a + b]%Z | _ => Panic IndexOOB end.
Lemma fm_nl_example (c : cfg) : (255 <= usize_max c)%nat -> h_fm (kf_x kf_fm) (ob_y ob_fm) = Ok [32768; 196608]%Z /\ valid c 2 1 [32768; 196608]%Z /\
  (forall i, (i < 2)%nat -> Rabs (fcell 16 1 (ob_z ob_fm) i 0 - fcell 16 1 [32768; 196608]%Z i 0) <= 2) /\
  exists o' f', correct_nonlinear c (fx_num 32 16 true true) 2 2 h_fm ob_fm kf_fm = Ok (o', f') /\ kf_x f' = [78357; 101152]%Z.
Proof.
  intros Hc. split; [reflexivity|]. split; [vt Hc|]. split.
  { assert (A : Q2R (fval 16 196608) = 3) by (unfold fval, Q2R; cbn; lra). intros i Hi. two i Hi; fe; rewrite ?A; apply Rabs_le; lra. }
  assert (E : exists o' f', correct_nonlinear tiny (fx_num 32 16 true true) 2 2 h_fm ob_fm kf_fm = Ok (o', f') /\ kf_x f' = [78357; 101152]%Z).
  { eexists _, _. split; [vm_compute; reflexivity|]. reflexivity. }
  destruct E as (o' & f' & E & H). exists o', f'. split; [|exact H]. eapply sim_ok; [apply sim_correct_nl, tiny_stricter, Hc|exact E].
Qed.

Lemma fm_sym (c : cfg) : (255 <= usize_max c)%nat -> sym_on 2 (fcell 16 2 (kf_P kf_fm)) /\
  exists o' f', correct c (fx_num 32 16 true true) 2 2 ob_fm kf_fm = Ok (o', f') /\ kf_P f' = [19950; -2846; -2845; 28498]%Z.
Proof.
  intros Hc. split; [intros i j Hi Hj; two i Hi; two j Hj; reflexivity|].
  assert (E : exists o' f', correct tiny (fx_num 32 16 true true) 2 2 ob_fm kf_fm = Ok (o', f') /\ kf_P f' = [19950; -2846; -2845; 28498]%Z).
  { eexists _, _. split; [vm_compute; reflexivity|]. reflexivity. }
  destruct E as (o' & f' & E & H). exists o', f'. split; [|exact H]. eapply sim_ok; [apply sim_correct, tiny_stricter, Hc|exact E].
Qed.
Lemma w32' : fx_w 32 = / 4294967296. Proof. unfold fx_w, ulp, Q2R. cbn. lra. Qed.
Lemma fm_margin : 512 * 2 ^ 13 * fx_w 32 / (/ 2) ^ 2 <= / 256 /\
  forall W, inverse_of 2 (upper_of (inn_cov 2 (fcell 16 2 (ob_H ob_fm)) (fcell 16 2 (kf_P kf_fm)) (fcell 16 2 (ob_R ob_fm)))) W ->
  let v := corr_P 2 2 (gain_of 2 2 (fcell 16 2 (ob_H ob_fm)) (fcell 16 2 (kf_P kf_fm)) W) (fcell 16 2 (ob_H ob_fm)) (fcell 16 2 (kf_P kf_fm)) in v 0%nat 0%nat = 7 / 23 /\ v 1%nat 1%nat = 10 / 23.
Proof.
  split; [rewrite w32'; cbn [pow]; lra|]. intros W IW.
  assert (E : let C := inn_cov 2 (fcell 16 2 (ob_H ob_fm)) (fcell 16 2 (kf_P kf_fm)) (fcell 16 2 (ob_R ob_fm)) in C 0%nat 0%nat = 2 /\ C 0%nat 1%nat = 3 / 2 /\ C 1%nat 1%nat = 4).
  { cbv zeta. unfold inn_cov. cbn [rsum]. repeat split; fe; lra. }
  destruct E as (E1 & E2 & E3).
  pose proof (IW 0 0 ltac:(lia) ltac:(lia))%nat as W00. pose proof (IW 0 1 ltac:(lia) ltac:(lia))%nat as W01. pose proof (IW 1 0 ltac:(lia) ltac:(lia))%nat as W10. pose proof (IW 1 1 ltac:(lia) ltac:(lia))%nat as W11.
  unfold upper_of in W00, W01, W10, W11. cbn [rsum Nat.min Nat.max Nat.eqb] in W00, W01, W10, W11. cbv zeta in E1, E2, E3.
  rewrite ?E1, ?E2, ?E3 in W00. rewrite ?E1, ?E2, ?E3 in W01. rewrite ?E1, ?E2, ?E3 in W10. rewrite ?E1, ?E2, ?E3 in W11.
  set (a := W 0%nat 0%nat) in *. set (b := W 0%nat 1%nat) in *. set (d := W 1%nat 0%nat) in *. set (e := W 1%nat 1%nat) in *.
  unfold corr_P, gain_of. cbn [rsum]. fold a b d e. cbv zeta. split; fe; lra.
Qed.
