(** * Concrete I16F16 matrices meeting the hypotheses of PropFixedSolve.v *)
From Coq Require Import ZArith QArith Qabs Reals Qreals Lia Lra Psatz.
From Verif Require Import Prelude Spec SpecBits Matrix Filter SpecFilter BuildSim FixedNum SpecFixed SpecFixedRange SpecFixedFactor SpecReal SpecSolve SpecFixedSolve FixedProof FixedSolve MatExamples FloatWit.
Open Scope R_scope.

Definition fx_sol : list Z := [131072; 65536; 65536; 131072]%Z.
Definition fx_ind : list Z := [65536; 131072; 131072; 65536]%Z.
Lemma fx_sol_cells : (forall i, (i < 2)%nat -> fcell 16 2 fx_sol i i = 2) /\ fcell 16 2 fx_sol 0 1 = 1.
Proof.
  assert (E2 : Q2R (fval 16 131072) = 2) by (unfold fval, Q2R; cbn; lra). assert (E1 : Q2R (fval 16 65536) = 1) by (unfold fval, Q2R; cbn; lra).
  split; [intros [|[|i]] Hi; [exact E2|exact E2|lia]|exact E1].
Qed.
Lemma fx_sol_eig : eig_above 2 (fx_upper_sym 16 2 fx_sol) 1.
Proof.
  destruct fx_sol_cells as (H1 & H2). intros v. unfold quad, fx_upper_sym. cbn [rsum Nat.min Nat.max]. rewrite H2, (H1 0%nat), (H1 1%nat) by lia.
  pose proof (Rle_0_sqr (v 0%nat + v 1%nat)) as Q. unfold Rsqr in Q. lra.
Qed.
Lemma fx_w16 : fx_w 16 = / 65536.
Proof. unfold fx_w, ulp, Q2R. cbn. lra. Qed.
Lemma fx_limit16 : fx_limit 32 16 = 32768.
Proof. unfold fx_limit, fx_top, fval, Q2R. cbn. lra. Qed.
Lemma fx_sol_ready : fx_ch_ready 32 16 2 2 1.
Proof. unfold fx_ch_ready, fx_eps, fx_tau. rewrite fx_w16, fx_limit16. cbn [INR pow]. lra. Qed.
Lemma fx_solve_example (c : cfg) : (255 <= usize_max c)%nat -> valid c 2 2 fx_sol /\ (forall i, (i < 2)%nat -> fcell 16 2 fx_sol i i <= 2) /\
  eig_above 2 (fx_upper_sym 16 2 fx_sol) 1 /\ fx_ch_ready 32 16 2 2 1 /\ fx_eps 16 2 2 <= / 5000.
Proof.
  intros Hc. split; [vt Hc|]. split; [intros i Hi; rewrite (proj1 fx_sol_cells i Hi); lra|]. split; [exact fx_sol_eig|]. split; [exact fx_sol_ready|].
  unfold fx_eps, fx_tau. rewrite fx_w16. cbn [INR pow]. lra.
Qed.
Lemma fx_factor_example (c : cfg) : (255 <= usize_max c)%nat -> valid c 2 2 fx_sol /\ valid c 2 2 fx_ind /\
  cholesky_decompose_lower c (i16f16_num true true) 2 2 fx_sol = Ok (true, [92681; 0; 46341; 80264]%Z) /\
  cholesky_decompose_lower c (i16f16_num true true) 2 2 fx_ind = Ok (false, [65536; 131072; 131072; -196608]%Z).
Proof.
  intros Hc. split; [vt Hc|]. split; [vt Hc|]. split.
  - assert (E : cholesky_decompose_lower tiny (i16f16_num true true) 2 2 fx_sol = Ok (true, [92681; 0; 46341; 80264]%Z)) by (vm_compute; reflexivity).
    eapply sim_ok; [apply sim_cholesky, tiny_stricter, Hc|exact E].
  - assert (E : cholesky_decompose_lower tiny (i16f16_num true true) 2 2 fx_ind = Ok (false, [65536; 131072; 131072; -196608]%Z)) by (vm_compute; reflexivity).
    eapply sim_ok; [apply sim_cholesky, tiny_stricter, Hc|exact E].
Qed.
