(** * A concrete I16F16 matrix meeting the hypotheses of PropFixedInverse.v *)
From Coq Require Import ZArith QArith Qabs Reals Qreals Lia Lra Psatz.
From Verif Require Import Prelude Spec SpecBits Matrix Filter SpecFilter BuildSim FixedNum SpecFixed SpecFixedRange SpecFixedFactor SpecReal SpecSolve SpecFixedSolve SpecFixedInv FixedProof FixedSolve FixedSolveExamples MatExamples FloatWit.
Open Scope R_scope.

(** the inverse of [2 1; 1 2] *)
Definition fx_sol_inv (i j : nat) : R := if Nat.eqb i j then 2 / 3 else - / 3.
Lemma fx_sol_inverse : inverse_of 2 (fx_upper_sym 16 2 fx_sol) fx_sol_inv.
Proof.
  destruct fx_sol_cells as (H1 & H2). intros i j Hi Hj. unfold fx_upper_sym, fx_sol_inv. cbn [rsum].
  destruct i as [|[|i]]; [| |lia]; (destruct j as [|[|j]]; [| |lia]); cbn [Nat.min Nat.max Nat.eqb]; rewrite ?H2, ?(H1 0%nat), ?(H1 1%nat) by lia; lra.
Qed.
Lemma fx_sol_inv_ready : fx_inv_ready 32 16 2 2 1.
Proof.
  split; [exact fx_sol_ready|]. unfold fx_rho, fx_tau. rewrite fx_w16, fx_limit16. cbn [INR pow]. split; [lra|]. split; [lra|]. lra.
Qed.
Lemma fx_inverse_example (c : cfg) : (255 <= usize_max c)%nat -> valid c 2 2 fx_sol /\ (forall i, (i < 2)%nat -> fcell 16 2 fx_sol i i <= 2) /\
  eig_above 2 (fx_upper_sym 16 2 fx_sol) 1 /\ fx_inv_ready 32 16 2 2 1 /\ inverse_of 2 (fx_upper_sym 16 2 fx_sol) fx_sol_inv /\
  invert_l_cholesky c (i16f16_num true true) 2 [92681; 0; 46341; 80264]%Z fx_sol = Ok [43691; -21847; -21847; 43690]%Z.
Proof.
  intros Hc. split; [vt Hc|]. split; [intros i Hi; rewrite (proj1 fx_sol_cells i Hi); lra|]. split; [exact fx_sol_eig|]. split; [exact fx_sol_inv_ready|]. split; [exact fx_sol_inverse|].
  assert (E : invert_l_cholesky tiny (i16f16_num true true) 2 [92681; 0; 46341; 80264]%Z fx_sol = Ok [43691; -21847; -21847; 43690]%Z) by (vm_compute; reflexivity).
  eapply sim_ok; [apply sim_invert, tiny_stricter, Hc|exact E].
Qed.
Lemma fx_inverse_bound : fx_inv_err 16 2 2 1 (fx_eps 16 2 2) <= / 200.
Proof.
  unfold fx_inv_err, fx_rho, fx_eps, fx_tau. rewrite fx_w16. cbn [INR pow].
  assert (H : sqrt (8 * (1 + 1 + 1) / 1 + 16 * (1 + 1) / (1 * (1 * 1)) + 720 / (1 * (1 * (1 * 1)))) <= 28).
  { replace 28 with (sqrt (28 * 28)) by (apply sqrt_square; lra). apply sqrt_le_1_alt. lra. }
  set (s := sqrt _) in *. lra.
Qed.
