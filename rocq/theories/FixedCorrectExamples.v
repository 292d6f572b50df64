(** * A concrete I32F32 filter with two measured components meeting the hypotheses of PropFixedCorrect.v *)
From Coq Require Import ZArith QArith Qabs Reals Qreals Lia Lra Psatz.
From Verif Require Import Prelude Spec SpecBits Matrix Filter SpecFilter Extended BuildSim FixedNum SpecFixed SpecFixedRange SpecFixedFactor SpecReal SpecSolve SpecFixedSolve SpecFixedInv SpecCorrect SpecFixedCorrect FixedProof FixedSolve MatExamples FloatWit.
Open Scope R_scope.

Definition i1 : Z := 4294967296%Z.
(** P = [2 1; 1 2], x = [3; 1], H = [1 0; 1 1], z = [2; 3], R = 1: the innovation covariance is [3 3; 3 7] *)
Definition kf_fc : kalman Z := mk_kalman [i1; i1; 0; i1]%Z [3 * i1; i1]%Z [2 * i1; i1; i1; 2 * i1]%Z [i1; 0; 0; i1]%Z [0; 0]%Z [0; 0; 0; 0]%Z.
Definition ob_fc : observation Z := mk_obs [i1; 0; i1; i1]%Z [2 * i1; 3 * i1]%Z [i1; 0; 0; i1]%Z [0; 0]%Z [0; 0; 0; 0]%Z [0; 0; 0; 0]%Z [0; 0; 0; 0]%Z [0; 0; 0; 0]%Z [0; 0; 0; 0]%Z [0; 0; 0; 0]%Z.
Definition fc_data : corr_data := mk_corr 2 2 1 3 3 1.
Definition fc_inv (i j : nat) : R := match i, j with O, O => 7 / 12 | S O, S O => 3 / 12 | _, _ => - 3 / 12 end.
Lemma g1 : Q2R (fval 32 i1) = 1. Proof. unfold fval, Q2R, i1; cbn; lra. Qed.
Lemma g2 : Q2R (fval 32 (2 * i1)) = 2. Proof. unfold fval, Q2R, i1; cbn; lra. Qed.
Lemma g3 : Q2R (fval 32 (3 * i1)) = 3. Proof. unfold fval, Q2R, i1; cbn; lra. Qed.
Lemma g0 : Q2R (fval 32 0) = 0. Proof. unfold fval, Q2R; cbn; lra. Qed.
Lemma w32 : fx_w 32 = / 4294967296. Proof. unfold fx_w, ulp, Q2R. cbn. lra. Qed.
Lemma lim32 : fx_limit 64 32 = 2147483648. Proof. unfold fx_limit, fx_top, fval, Q2R. cbn. lra. Qed.
Ltac fe := unfold fcell, qcell, cell; cbn [Nat.mul Nat.add nth_error kf_x kf_P kf_fc ob_H ob_z ob_R ob_fc]; rewrite ?g0, ?g1, ?g2, ?g3.
Ltac two i Hi := destruct i as [|[|i]]; [..|exfalso; clear - Hi; lia].
Notation Hm := (fcell 32 2 (ob_H ob_fc)). Notation Pm := (fcell 32 2 (kf_P kf_fc)). Notation Rm := (fcell 32 2 (ob_R ob_fc)).
Lemma fc_cov : inn_cov 2 Hm Pm Rm 0 0 = 3 /\ inn_cov 2 Hm Pm Rm 0 1 = 3 /\ inn_cov 2 Hm Pm Rm 1 1 = 7.
Proof. unfold inn_cov. cbn [rsum]. repeat split; fe; lra. Qed.
Lemma fc_inverse : inverse_of 2 (upper_of (inn_cov 2 Hm Pm Rm)) fc_inv.
Proof.
  destruct fc_cov as (E1 & E2 & E3). intros i j Hi Hj. unfold upper_of, fc_inv. cbn [rsum]. two i Hi; two j Hj; cbn [Nat.min Nat.max Nat.eqb]; rewrite ?E1, ?E2, ?E3; lra.
Qed.
Lemma fc_in : fc_within 32 2 2 fc_data Hm Pm Rm (fun i => fcell 32 1 (kf_x kf_fc) i 0) (fun i => fcell 32 1 (ob_z ob_fc) i 0).
Proof.
  unfold fc_within, fc_model. cbn [cd_rho cd_p cd_r cd_x cd_z cd_lam fc_data].
  split; [|intros i Hi; two i Hi; fe; apply Rabs_le; lra].
  split; [intros i Hi; two i Hi; cbn [rsum]; fe; rewrite ?Rabs_R0, ?Rabs_R1; lra|].
  split; [intros i j Hi Hj; two i Hi; two j Hj; fe; apply Rabs_le; lra|]. split; [intros i j Hi Hj; two i Hi; two j Hj; fe; apply Rabs_le; lra|].
  split; [intros i Hi; two i Hi; fe; apply Rabs_le; lra|].
  destruct fc_cov as (E1 & E2 & E3). intros v. unfold quad, upper_of. cbn [rsum Nat.min Nat.max]. rewrite E1, E2, E3.
  unfold fc_s_err. rewrite w32. cbn [INR cd_rho fc_data]. 
  pose proof (Rle_0_sqr (v 0%nat + 30 / 19 * v 1%nat)) as Q. pose proof (Rle_0_sqr (v 1%nat)) as Q2. pose proof (Rle_0_sqr (v 0%nat)) as Q3. unfold Rsqr in Q, Q2, Q3. lra.
Qed.
Lemma fc_serr : fc_s_err 32 2 fc_data = 6 / 4294967296. Proof. unfold fc_s_err. rewrite w32. cbn [INR cd_rho fc_data]. lra. Qed.
Lemma fc_stop : fc_s_top 32 2 fc_data = 9 + 6 / 4294967296. Proof. unfold fc_s_top. rewrite fc_serr. cbn [cd_r cd_rho cd_p fc_data]. lra. Qed.
Lemma fc_we : 0 <= fc_w_err 32 2 2 fc_data <= / 2000000.
Proof.
  unfold fc_w_err, fx_inv_err. rewrite fc_stop, fc_serr. unfold fx_rho, fx_eps, fx_tau. rewrite w32. cbn [INR pow cd_lam fc_data].
  match goal with |- context [sqrt ?a] => assert (H : 0 <= sqrt a <= 28) end.
  { split; [apply sqrt_pos|]. replace 28 with (sqrt (28 * 28)) by (apply sqrt_square; lra). apply sqrt_le_1_alt. lra. }
  set (s := sqrt _) in *. lra.
Qed.
Lemma fc_ke : 0 <= fc_k_err 32 2 2 fc_data <= / 200000.
Proof. pose proof fc_we as H. unfold fc_k_err, fc_si_top. rewrite w32. set (e := fc_w_err 32 2 2 fc_data) in *. cbn [INR cd_rho cd_p cd_lam fc_data]. rewrite Rinv_1. lra. Qed.
Lemma fc_can : fc_ready 64 32 2 2 fc_data.
Proof.
  pose proof fc_we as H. pose proof fc_ke as H2. unfold fc_ready, fc_ready_y, fx_inv_ready, fx_ch_ready, fc_y_top, fc_y_err, fc_k_top, fc_si_top, k_exact. rewrite fc_stop, lim32.
  unfold fx_rho, fx_eps, fx_tau. rewrite w32. cbn [INR pow cd_lam cd_rho cd_p cd_x cd_z fc_data].
  set (e := fc_w_err 32 2 2 fc_data) in *. set (k := fc_k_err 32 2 2 fc_data) in *.
  repeat split; lra.
Qed.
Lemma fc_small : fc_k_err 32 2 2 fc_data <= / 200000 /\ fc_x_err 32 2 2 fc_data <= / 10000 /\ fc_P_err 32 2 2 fc_data <= / 10000.
Proof.
  pose proof fc_ke as H2. split; [apply H2|]. unfold fc_x_err, fc_x_err_y, fc_P_err, fc_y_top, fc_y_err, fc_k_top, k_exact. rewrite w32. cbn [INR cd_lam cd_rho cd_p cd_x cd_z fc_data].
  set (k := fc_k_err 32 2 2 fc_data) in *. split; lra.
Qed.
Lemma fc_example (c : cfg) : (255 <= usize_max c)%nat -> ob_valid c 2 2 ob_fc /\ kf_valid c 2 kf_fc /\
  fc_within 32 2 2 fc_data Hm Pm Rm (fun i => fcell 32 1 (kf_x kf_fc) i 0) (fun i => fcell 32 1 (ob_z ob_fc) i 0) /\ fc_ready 64 32 2 2 fc_data /\
  inverse_of 2 (upper_of (inn_cov 2 Hm Pm Rm)) fc_inv.
Proof.
  intros Hc. split; [unfold ob_valid; vt Hc|]. split; [unfold kf_valid; vt Hc|]. split; [exact fc_in|]. split; [exact fc_can|exact fc_inverse].
Qed.
Lemma fc_run (c : cfg) : (255 <= usize_max c)%nat -> exists o' f', correct c (fx_num 64 32 true true) 2 2 ob_fc kf_fc = Ok (o', f') /\
  kf_x f' = [10021590363; 2863311535]%Z /\ kf_P f' = [1789569721; -715827871; -715827871; 2863311541]%Z.
Proof.
  intros Hc. assert (E : exists o' f', correct tiny (fx_num 64 32 true true) 2 2 ob_fc kf_fc = Ok (o', f') /\ kf_x f' = [10021590363; 2863311535]%Z /\ kf_P f' = [1789569721; -715827871; -715827871; 2863311541]%Z).
  { eexists _, _. split; [vm_compute; reflexivity|]. split; reflexivity. }
  destruct E as (o' & f' & E & H). exists o', f'. split; [|exact H]. eapply sim_ok; [apply sim_correct, tiny_stricter, Hc|exact E].
Qed.

(** an extended filter: h(x) = [x_0^2 / 6; x_0 + x_1] has the Jacobian H = [1 0; 1 1] at x = [3; 1] *)
Definition h_fc (x _ : list Z) : res (list Z) := match x with [a; b] => Ok [a * a / i1 / 6; a + b]%Z | _ => Panic IndexOOB end.
Definition out_fc : list Z := [6442450944; 17179869184]%Z.
Lemma fc_nl_example (c : cfg) : (255 <= usize_max c)%nat -> ob_valid c 2 2 ob_fc /\ kf_valid c 2 kf_fc /\ h_fc (kf_x kf_fc) (ob_y ob_fc) = Ok out_fc /\ valid c 2 1 out_fc /\
  fc_model 32 2 2 fc_data Hm Pm Rm (fun i => fcell 32 1 (kf_x kf_fc) i 0) /\ (forall i, (i < 2)%nat -> Rabs (fcell 32 1 (ob_z ob_fc) i 0 - fcell 32 1 out_fc i 0) <= cd_z fc_data) /\
  fc_ready_y 64 32 2 2 fc_data (cd_z fc_data) /\ fc_x_err_y 32 2 2 fc_data (cd_z fc_data) 0 <= / 10000.
Proof.
  intros Hc. split; [unfold ob_valid; vt Hc|]. split; [unfold kf_valid; vt Hc|]. split; [reflexivity|]. split; [vt Hc|]. split; [exact (proj1 fc_in)|].
  assert (A : Q2R (fval 32 6442450944) = 3 / 2) by (unfold fval, Q2R; cbn; lra). assert (B : Q2R (fval 32 17179869184) = 4) by (unfold fval, Q2R; cbn; lra).
  split. { intros i Hi. cbn [cd_z fc_data]. two i Hi; unfold fcell, qcell, cell, out_fc; cbn [Nat.mul Nat.add nth_error ob_z ob_fc]; rewrite ?g2, ?g3, ?A, ?B; apply Rabs_le; lra. }
  pose proof fc_we as H. pose proof fc_ke as H2. split.
  - unfold fc_ready_y, fx_inv_ready, fx_ch_ready, fc_k_top, fc_si_top, k_exact. rewrite fc_stop, lim32.
    unfold fx_rho, fx_eps, fx_tau. rewrite w32. cbn [INR pow cd_lam cd_rho cd_p cd_x cd_z fc_data].
    set (e := fc_w_err 32 2 2 fc_data) in *. set (k := fc_k_err 32 2 2 fc_data) in *. repeat split; lra.
  - unfold fc_x_err_y, k_exact. rewrite w32. cbn [INR pow cd_lam cd_rho cd_p cd_x cd_z fc_data]. set (k := fc_k_err 32 2 2 fc_data) in *. lra.
Qed.
Lemma fc_nl_run (c : cfg) : (255 <= usize_max c)%nat -> exists o' f', correct_nonlinear c (fx_num 64 32 true true) 2 2 h_fc ob_fc kf_fc = Ok (o', f') /\ kf_x f' = [12705944919; 1789569709]%Z.
Proof.
  intros Hc. assert (E : exists o' f', correct_nonlinear tiny (fx_num 64 32 true true) 2 2 h_fc ob_fc kf_fc = Ok (o', f') /\ kf_x f' = [12705944919; 1789569709]%Z).
  { eexists _, _. split; [vm_compute; reflexivity|]. reflexivity. }
  destruct E as (o' & f' & E & H). exists o', f'. split; [|exact H]. eapply sim_ok; [apply sim_correct_nl, tiny_stricter, Hc|exact E].
Qed.
