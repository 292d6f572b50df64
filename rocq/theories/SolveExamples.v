(** * Concrete f32 matrices meeting the hypotheses of PropSolve.v *)
From Coq Require Import ZArith Reals Lia Lra Psatz.
From Flocq Require Import Core BinarySingleNaN.
From Verif Require Import Prelude Spec Matrix Filter SpecFilter BuildSim FloatNum SpecFloats FloatWit SpecReal SpecRange SpecSolve FloatFlocq FloatInt FloatErr FloatSolvable FloatInvert BitsExamples RealExamples RoundExamples RangeExamples StableExamples.
Import SpecFloat.
Open Scope R_scope.

Definition a_solve : list spec_float := [f32 2 0; f32 1 0; f32 1 0; f32 2 0].
Lemma pow5 : (1 + / 16777216) ^ 5 <= 1 + / 2000000.
Proof. cbn [pow]. lra. Qed.
Lemma ready22 : ch_ready 24 128 2 2 1.
Proof.
  pose proof e_small as He. pose proof (eta_pos 24 128) as He0. pose proof pow5 as H5. assert (H1 : 1 <= (1 + / 16777216) ^ 5) by (apply pow_R1_Rle; lra). pose proof big128 as HB.
  red. unfold ch_eps, ch_tau, ch_gam, ch_h. rewrite uro24. cbn [Nat.add INR]. set (g := (1 + / 16777216) ^ 5) in *. 
  assert (Hh : 0 <= (1 + / 16777216) ^ 2 * eta 24 128 <= / 1000000) by (cbn [pow]; nra). set (h := (1 + / 16777216) ^ 2 * eta 24 128) in *.
  split; [lra|]. split; [lra|]. split; [nra|]. eapply Rle_lt_trans; [|exact HB]. cbn [pow]. nra.
Qed.
Lemma solve_cells : (forall i, (i < 2)%nat -> rcell 2 a_solve i i = 2) /\ rcell 2 a_solve 0 1 = 1.
Proof.
  split; [intros [|[|i]] Hi; [..|lia]|]; unfold rcell, cell; cbn [Nat.mul Nat.add nth_error a_solve]; rewrite val_int by (cbn; lia); reflexivity.
Qed.
Lemma solve_eig : eig_above 2 (upper_sym 2 a_solve) 1.
Proof.
  destruct solve_cells as (H1 & H2). intros v. unfold quad, upper_sym. cbn [rsum Nat.min Nat.max]. rewrite H2, (H1 0%nat), (H1 1%nat) by lia.
  pose proof (Rle_0_sqr (v 0%nat + v 1%nat)) as Q. unfold Rsqr in Q. lra.
Qed.
Lemma solve_example (c : cfg) : (255 <= usize_max c)%nat ->
  valid c 2 2 a_solve /\ all_in_format 24 128 a_solve /\ (forall i j, (i <= j < 2)%nat -> exists x, cell 2 a_solve i j = Some x /\ sf_finite x = true) /\
  (forall i, (i < 2)%nat -> rcell 2 a_solve i i <= 2) /\ eig_above 2 (upper_sym 2 a_solve) 1 /\ ch_ready 24 128 2 2 1.
Proof.
  intros Hc. split; [vt Hc|]. split; [af|]. split; [|split; [|split; [exact solve_eig|exact ready22]]].
  - intros i j Hij. assert (F : fin_matrix 2 2 a_solve) by (apply (small_list 1); [vm_compute; reflexivity|cbn; lia]). apply F; lia.
  - intros i Hi. rewrite (proj1 solve_cells i Hi). lra.
Qed.
(** and it is accepted with a finite factor *)
Lemma accept_example (c : cfg) (sz : bool) : (255 <= usize_max c)%nat -> exists L, cholesky_decompose_lower c (f32_num sz) 2 2 a_solve = Ok (true, L) /\ fin_matrix 2 2 L.
Proof.
  intros Hc. destruct (solve_example c Hc) as (H1 & H2 & H3 & H4 & H5 & H6).
  destruct (factor_exists c 24 128 sz ltac:(split; lia) 2 a_solve 2 1 ltac:(lia) ltac:(lia) H1 H2 H3 H4 H5 H6) as (L & E & F & _). exists L. split; [exact E|exact F].
Qed.

Lemma inv_ready22 : inv_ready 24 128 2 2 1.
Proof.
  split; [exact ready22|]. pose proof e_small as He. pose proof (eta_pos 24 128) as He0. pose proof big128 as HB.
  unfold ch_eps, ch_tau, ch_h. rewrite uro24. cbn [Nat.add INR].
  assert (Hh : 0 <= (1 + / 16777216) ^ 2 * eta 24 128 <= / 1000000) by (cbn [pow]; nra). set (h := (1 + / 16777216) ^ 2 * eta 24 128) in *.
  split; [nra|]. eapply Rle_lt_trans; [|exact HB]. cbn [pow]. rewrite Rinv_1. nra.
Qed.
(** the inverse of [2 1; 1 2] *)
Definition w_solve (i j : nat) : R := if Nat.eqb i j then 2 / 3 else - 1 / 3.
Lemma solve_inverse : inverse_of 2 (upper_sym 2 a_solve) w_solve.
Proof.
  destruct solve_cells as (H1 & H2). intros i j Hi Hj. unfold upper_sym, w_solve.
  destruct i as [|[|i]]; [..|lia]; (destruct j as [|[|j]]; [..|lia]); cbn [rsum Nat.min Nat.max Nat.eqb]; rewrite ?H2, ?(H1 0%nat), ?(H1 1%nat) by lia; lra.
Qed.
Lemma invert_example (c : cfg) : (255 <= usize_max c)%nat ->
  valid c 2 2 a_solve /\ all_in_format 24 128 a_solve /\ (forall i j, (i <= j < 2)%nat -> exists x, cell 2 a_solve i j = Some x /\ sf_finite x = true) /\
  (forall i, (i < 2)%nat -> rcell 2 a_solve i i <= 2) /\ eig_above 2 (upper_sym 2 a_solve) 1 /\ inv_ready 24 128 2 2 1 /\ inverse_of 2 (upper_sym 2 a_solve) w_solve.
Proof.
  intros Hc. destruct (solve_example c Hc) as (H1 & H2 & H3 & H5 & H6 & _). repeat (split; [assumption|]). split; [exact inv_ready22|exact solve_inverse].
Qed.
(** the bound is not vacuous: at most one part in ten thousand here *)
Lemma invert_example_bound : inv_err 24 128 2 2 1 (ch_gam 24 2 * ch_tau 24 128 2 2 + ch_eps 24 128 2 2) <= / 10000.
Proof.
  pose proof e_small as He. pose proof (eta_pos 24 128) as He0. pose proof pow5 as H5. assert (H1 : 1 <= (1 + / 16777216) ^ 5) by (apply pow_R1_Rle; lra).
  unfold inv_err, sub_err2, ch_eps, ch_tau, ch_gam, ch_h. rewrite uro24. cbn [Nat.add INR]. set (g := (1 + / 16777216) ^ 5 - 1) in *.
  assert (Hg : 0 <= g <= / 2000000) by (unfold g; lra).
  assert (Hh : 0 <= (1 + / 16777216) ^ 2 * eta 24 128 <= / 10000000) by (cbn [pow]; nra). set (h := (1 + / 16777216) ^ 2 * eta 24 128) in *.
  assert (S : sqrt (256 * (g * g) * (1 + 1) * (2 * (2 + h * (1 + 1 + 1))) / 1 ^ 3 + 8 * (1 + 1) * (h * (1 + 1 + 1 + 2 * (2 + h * (1 + 1 + 1))) * (h * (1 + 1 + 1 + 2 * (2 + h * (1 + 1 + 1))))) * (2 / 1 + 1) / 1) <= / 20000).
  { rewrite <- (sqrt_Rsqr (/ 20000)) by lra. apply sqrt_le_1_alt. unfold Rsqr. 
    assert (G2 : g * g <= / 2000000 * / 2000000) by (apply Rmult_le_compat; lra).
    set (q := h * (1 + 1 + 1 + 2 * (2 + h * (1 + 1 + 1)))). assert (Q : 0 <= q <= / 1000000) by (unfold q; nra).
    assert (Q2 : q * q <= / 1000000 * / 1000000) by (apply Rmult_le_compat; lra). assert (0 <= g * g) by nra. 
    cbn [pow]. replace (1 * (1 * (1 * 1))) with 1 by ring. 
    assert (256 * (g * g) * (1 + 1) * (2 * (2 + h * (1 + 1 + 1))) <= 2560 * (g * g)) by nra. lra. }
  cbn [pow] in *. nra.
Qed.
