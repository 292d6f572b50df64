(** * A random system quieter than the filter has been told: hypotheses of C89 and C90 *)
From Verif Require Import Spec Matrix Filter Extended SpecFilter History SpecGen SpecExact SpecHistory SpecWorld SpecProb SpecRobust Zmod Psd KMath HistGen FilterExact HistExact WorldMath ProbMath.
From Verif Require Import ExampleData Represent ExactExamples ProbMain ProbExamples Robust.
From mathcomp Require Import all_ssreflect all_algebra.
Set Implicit Arguments.
Unset Strict Implicit.
Unset Printing Implicit Defensive.
Import Order.TTheory GRing.Theory Num.Theory.
Local Open Scope ring_scope.

Section RobustExamples.
Variable R : rcfType.
Local Notation two m := (2%:R *: (1%:M : 'M[R]_m)).
(** every covariance the filter is told is twice the true one *)
Definition x_loud : tworld R 2 := x_gen (const_mx 2%:R) (two 2) (two 2) (const_mx 3) (two 1) (const_mx 5) (two 1) (const_mx 7) (two 2).
Definition x_sim3 (g : est R 2 -> noise R) : seq (sop R 2) := [:: STuned 2%:R^-1 (x_D R); SInput 0 g; SControl 0 (x_D R); SMeasure 0 (x_D R)].

Lemma quiet m (D : dist R (noise R)) : centred D (1%:M : 'M[R]_m) -> at_most D (two m).
Proof. by move=> [T [m0 c0]]; split=> //; split=> //; rewrite c0; exact: le2 (one_psd R m). Qed.
Lemma psd_two m : psd (two m). Proof. exact: psd2 (one_psd R m). Qed.
Lemma pd_two m : pd (two m). Proof. exact: pd2 (pd1 R m). Qed.

Lemma x_loud_start : safe_start x_loud (x_D0 R).
Proof.
have [T [m0 c0]] := x_start R.
split; first exact: psd_two.
split=> //; split; first exact: m0.
have -> : expect (x_D0 R) (fun xt => (e_x (tw_s x_loud) - xt) *m (e_x (tw_s x_loud) - xt)^T) = 1%:M by exact: c0.
exact: le2 (one_psd R 2).
Qed.
Lemma half_sq : (2%:R^-1 : R) ^+ 2 <= 1.
Proof.
have h0 : 0 <= (2%:R^-1 : R) by rewrite invr_ge0 ler0n.
by rewrite exprn_ile1 // invf_le1 ?ltr0n // ler1n.
Qed.
Lemma x_sim3_ok g : sops_safe x_loud (x_sim3 g).
Proof.
split.
  split; first by rewrite invr_neq0 // two_neq0.
  split; first exact: half_sq.
  by split; [exact: psd_two|exact: quiet (x_D_2 R)].
split; first exact I.
split; first by split; [exact: psd_two|exact: quiet (x_D_1 R)].
by split=> //; split=> //; split; [exact: pd_two|exact: quiet (x_D_1 R)].
Qed.
Theorem robust_example g : exists (w : world R) (prog : seq (top R 2) -> seq (op R)), world_ok cfg64 2 w /\ safe_start (world_abs 2 w) (x_D0 R) /\
  sops_safe (world_abs 2 w) (x_sim3 g) /\ forall ts, List.Forall2 (@denotes R cfg64 2 w) (prog ts) ts.
Proof.
exists (rep x_loud), (fun ts => List.map (rep_op (ct_dims (rep x_loud)) (ob_dims (rep x_loud))) ts).
rewrite rep_abs; split; first by apply: rep_ok; exact: x_gen_fits.
split; first exact: x_loud_start.
split; first exact: x_sim3_ok.
by elim=> [|t ts IH] /=; constructor=> //; apply: rep_denotes.
Qed.
(** the covariance is positive definite in both runs, so that it can be inverted in C90 *)
Lemma x_sim1_pd g : pd (e_P (tw_s (srun (x_rand R) (x_sim1 g)))).
Proof. by apply: pdDr; [apply: pdD; [exact: psd_congr (one_psd R 2)|exact: pd1]|exact: psd_congr (one_psd R 1)]. Qed.
Lemma x_sim3_pd g : pd (e_P (tw_s (srun x_loud (take 3 (x_sim3 g))))).
Proof.
apply: pdDr; last exact: psd_congr (psd_two 1).
apply: pdD; last exact: pd_two.
apply: psdZ; first by rewrite invr_ge0 exprn_ge0 // invr_ge0 ler0n.
exact: psd_congr (psd_two 2).
Qed.
Theorem nees_example g : exists (w : world R) (prog : seq (top R 2) -> seq (op R)), world_ok cfg64 2 w /\ good_start (world_abs 2 w) (x_D0 R) /\ sops_ok (world_abs 2 w) (x_sim1 g) /\ pd (e_P (tw_s (srun (world_abs 2 w) (x_sim1 g)))) /\ forall ts, List.Forall2 (@denotes R cfg64 2 w) (prog ts) ts.
Proof.
exists (rep (x_rand R)), (@x_prog R); rewrite rep_abs; split; first by apply: rep_ok; exact: x_gen_fits.
split; first exact: x_start.
split; first by have /sops_ok_cat [] := x_sim_ok g; rewrite -cats1 => /sops_ok_cat [].
by split; [exact: x_sim1_pd|exact: x_prog_den].
Qed.
Theorem nees_le_example g : exists (w : world R) (prog : seq (top R 2) -> seq (op R)), world_ok cfg64 2 w /\ safe_start (world_abs 2 w) (x_D0 R) /\ sops_safe (world_abs 2 w) (take 3 (x_sim3 g)) /\ pd (e_P (tw_s (srun (world_abs 2 w) (take 3 (x_sim3 g))))) /\ forall ts, List.Forall2 (@denotes R cfg64 2 w) (prog ts) ts.
Proof.
exists (rep x_loud), (fun ts => List.map (rep_op (ct_dims (rep x_loud)) (ob_dims (rep x_loud))) ts).
rewrite rep_abs; split; first by apply: rep_ok; exact: x_gen_fits.
split; first exact: x_loud_start.
split; first by have [h1 [h2 [h3 _]]] := x_sim3_ok g.
split; first exact: x_sim3_pd.
by elim=> [|t ts IH] /=; constructor=> //; apply: rep_denotes.
Qed.
End RobustExamples.
