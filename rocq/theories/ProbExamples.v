(** * A random system meeting the hypotheses of C70-C72 *)
From Verif Require Import Spec Matrix Filter Extended SpecFilter History SpecGen SpecExact SpecHistory SpecWorld SpecProb Zmod Psd KMath HistGen FilterExact HistExact WorldMath ProbMath.
From Verif Require Import ExampleData Represent ExactExamples ProbMain.
From mathcomp Require Import all_ssreflect all_algebra.
Set Implicit Arguments.
Unset Strict Implicit.
Unset Printing Implicit Defensive.
Import Order.TTheory GRing.Theory Num.Theory.
Local Open Scope ring_scope.

Section ProbExamples.
Variable R : rcfType.

(** four equally likely outcomes: two independent signs *)
Definition x_v (a b : R) : noise R := fun m => \col_i (if odd i then a else b).
Definition x_D : dist R (noise R) := [:: (4%:R^-1, x_v 1 1); (4%:R^-1, x_v 1 (-1)); (4%:R^-1, x_v (-1) 1); (4%:R^-1, x_v (-1) (-1))].
Definition x_D0 : dist R 'cV[R]_2 := [seq (o.1, const_mx 2%:R + (o.2 : noise R) 2%N) | o <- x_D].

Lemma quarter : (4%:R^-1 + (4%:R^-1 + (4%:R^-1 + 4%:R^-1)) : R) = 1.
Proof.
have E (x : R) : x + (x + (x + x)) = x *+ 4 by rewrite !mulrS mulr0n addr0.
by rewrite E -[X in X *+ 4]mulr1 -mulrnAr mulVf // pnatr_eq0.
Qed.
Lemma two_ord (P : 'I_2 -> Prop) : P 0 -> P 1 -> forall i, P i.
Proof.
move=> H0 H1 [[|[|//]] H].
  by have -> : Ordinal H = 0 by apply: val_inj.
by have -> : Ordinal H = 1 by apply: val_inj.
Qed.
Lemma x_D_mass : mass x_D = 1.
Proof. by rewrite /mass /x_D !big_cons big_nil /= addr0 quarter. Qed.
Lemma x_D_1 : centred x_D (1%:M : 'M[R]_1).
Proof.
split; first exact: x_D_mass.
split; rewrite /expect /x_D !big_cons big_nil /=; apply/matrixP => i j; rewrite !ord1 !mxE ?big_ord1 ?mxE /=.
  by rewrite addr0 !mulr1 !mulrN1; zmod.
by rewrite !mulr1 !mulrNN !mulr1 addr0 quarter.
Qed.
Lemma x_D_2 : centred x_D (1%:M : 'M[R]_2).
Proof.
split; first exact: x_D_mass.
split; rewrite /expect /x_D !big_cons big_nil /=; apply/matrixP => i j.
  rewrite ord1; move: i; apply: two_ord; rewrite !mxE /= addr0 !mulr1 !mulrN1; zmod.
move: i j; apply: two_ord; apply: two_ord; rewrite !mxE ?big_ord1 ?mxE /= ?addr0 ?mulr1 ?mulrNN ?mulrN ?mulNr ?mulr1 ?quarter ?mulr0n //.
all: rewrite ?mulr0n; zmod.
Qed.

Definition x_rand : tworld R 2 := x_gen (const_mx 2%:R) 1%:M 1%:M (const_mx 3) 1%:M (const_mx 5) 1%:M (const_mx 7) 1%:M.
Lemma x_rand_good : tw_good x_rand.
Proof. exact: x_gen_good (one_psd _ _) (one_psd _ _) (one_psd _ _) (pd1 _ _) (pd1 _ _). Qed.
Lemma x_start : good_start x_rand x_D0.
Proof.
have [T [m0 c0]] := x_D_2.
have EE k l (f : 'cV[R]_2 -> 'M[R]_(k, l)) : expect x_D0 f = expect x_D (fun o => f (const_mx 2%:R + o 2%N)).
  by rewrite /expect /x_D0 big_map.
split; first by rewrite /mass /x_D0 big_map -/(mass _).
rewrite !EE /=; split.
  rewrite (@eq_expect _ _ _ _ _ _ (fun v => - 1%:M *m v 2%N)); first by rewrite expectM m0 mulmx0.
  by move=> v; rewrite mulNmx mul1mx; mxzmod.
rewrite -c0; apply: eq_expect => v; have -> : const_mx 2%:R - (const_mx 2%:R + v 2%N) = - v 2%N by mxzmod.
by rewrite linearN /= mulmxN mulNmx opprK.
Qed.

(** predict, choose the input from the estimate (any law), apply it, then two measurements *)
Definition x_sim1 (g : est R 2 -> noise R) : seq (sop R 2) := [:: SPredict x_D; SInput 0 g; SControl 0 x_D].
Definition x_sim2 : seq (sop R 2) := [:: SSet (TSetQ 1%:M); SPredict x_D].

Lemma x_sim_ok g : sops_ok x_rand (rcons (x_sim1 g) (SMeasure 0 x_D) ++ rcons x_sim2 (SMeasure 1 x_D)).
Proof.
have g0 := x_rand_good.
have st (w : tworld R 2) t : tw_good w -> op_good w t -> tw_good (tstep w t) by move=> a b; have [] := step_good a b.
have g1 := @st _ (@TPredict R 2) g0 I.
have g2 := @st _ (TSetU 0 (g (tw_s (tstep x_rand (@TPredict R 2))))) g1 I.
have g3 := @st _ (@TControl R 2 0) g2 I.
set w3 := tstep _ _ in g3.
have g4 := @st _ (TSetZ 0 (fun m' => conform_mx 0 ((delta_mx 0 0 : 'M[R]_(1, 2)) *m 0 + @no_noise R 1%N))) g3 I.
have g5 := @st _ (@TCorrect R 2 0) g4 I.
have g6 := @st _ (TSetQ 1%:M) g5 (one_psd R 2).
have g7 := @st _ (@TPredict R 2) g6 I.
set w7 := tstep _ _ in g7.
split; first exact: x_D_2.
split; first exact I.
split; first exact: x_D_1.
split.
  split; first exact: x_D_1.
  split=> //; apply: (S_pd _ _ (pd1 R 1)); exact: (proj1 g3).
split; first exact I.
split; first exact: x_D_2.
split=> //; split; first exact: x_D_2.
by split=> //; apply: (S_pd _ _ (pd1 R 2)); exact: (proj1 g7).
Qed.

Definition x_prog (ts : seq (top R 2)) : seq (op R) := List.map (rep_op (ct_dims (rep x_rand)) (ob_dims (rep x_rand))) ts.
Lemma x_prog_den ts : List.Forall2 (@denotes R cfg64 2 (rep x_rand)) (x_prog ts) ts.
Proof. by elim: ts => [|t ts IH] /=; constructor=> //; apply: rep_denotes. Qed.

Theorem prob_example g : exists (w : world R) (prog : seq (top R 2) -> seq (op R)), world_ok cfg64 2 w /\ good_start (world_abs 2 w) x_D0 /\
  sops_ok (world_abs 2 w) (rcons (x_sim1 g) (SMeasure 0 x_D) ++ rcons x_sim2 (SMeasure 1 x_D)) /\
  sops_ok (world_abs 2 w) (rcons (x_sim1 g) (SMeasure 0 x_D)) /\
  (exists z, nth_error (tw_ob (srun (world_abs 2 w) (x_sim1 g))) 0 = Some (TObs (delta_mx 0 0 : 'M[R]_(1, 2)) z 1%:M)) /\
  (exists z, nth_error (tw_ob (srun (world_abs 2 w) (rcons (x_sim1 g) (SMeasure 0 x_D) ++ x_sim2))) 1 = Some (TObs (x_A R : 'M[R]_2) z 1%:M)) /\
  forall ts, List.Forall2 (@denotes R cfg64 2 w) (prog ts) ts.
Proof.
exists (rep x_rand), x_prog; rewrite rep_abs; split; first by apply: rep_ok; exact: x_gen_fits.
split; first exact: x_start.
split; first exact: x_sim_ok.
split; first by have /sops_ok_cat [] := x_sim_ok g.
split; first by eexists; reflexivity.
split; first by eexists; reflexivity.
exact: x_prog_den.
Qed.
End ProbExamples.
