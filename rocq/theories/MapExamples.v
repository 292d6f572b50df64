(** * A history meeting the hypotheses of C73 *)
From Verif Require Import Spec Matrix Filter Extended SpecFilter History SpecGen SpecExact SpecHistory SpecWorld SpecMap Zmod Psd KMath HistGen FilterExact HistExact WorldMath.
From Verif Require Import ExampleData Represent ExactExamples MapMath.
From mathcomp Require Import all_ssreflect all_algebra.
Set Implicit Arguments.
Unset Strict Implicit.
Unset Printing Implicit Defensive.
Import Order.TTheory GRing.Theory Num.Theory.
Local Open Scope ring_scope.

Section MapExamples.
Variable R : rcfType.
Lemma predict_pd n (A Q P : 'M[R]_n) : pd P -> psd Q -> A \in unitmx -> pd (A *m P *m A^T + Q).
Proof. by move=> pP pQ uA; apply: pdDr => //; apply: pd_congr. Qed.
Lemma pdZ n a (P : 'M[R]_n) : 0 < a -> pd P -> pd (a *: P).
Proof.
by move=> a0 [sP pP]; split=> [|v v0]; [rewrite /sym linearZ /= sP|rewrite qfZ mulr_gt0 // pP].
Qed.
Lemma tuned_pd n l (A Q P : 'M[R]_n) : l != 0 -> pd P -> psd Q -> A \in unitmx -> pd ((l ^+ 2)^-1 *: (A *m P *m A^T) + Q).
Proof. by move=> l0 pP pQ uA; apply: pdDr => //; apply: pdZ; [rewrite invr_gt0 exprn_even_gt0|apply: pd_congr]. Qed.

(** every linear call; at the end the process noise is switched off, so that the disturbances are singular *)
Definition x_ls : seq (top R 2) :=
  [:: TPredict; TControl 0; TCorrect 0; TSetZ 1 (fun m => const_mx 9%:R); TCorrect 1; TTuned 2%:R; TSetQ 0; TPredict; TCorrect 0].
Lemma x_ls_ok : ls_ops (x_tw R) x_ls.
Proof.
have uA := x_A_unit R; have q1 := one_psd R 2; have q0 := psd0 R 2.
have st (w : tworld R 2) t : pd (e_P (tw_s w)) -> ls_op w t -> pd (e_P (tw_s (tstep w t))) by move=> a b; have [] := step_ls 0 a b.
have p0 := x_P_pd R 2; have r1 := x_P_pd R 1; have r2 := x_P_pd R 2; have c1 := x_P_psd R 1.
have h1 : (0 < 1)%N by []. have h2 : (0 < 2)%N by [].
have o1 : ls_op (x_tw R) TPredict by split; [exact: q1|exact: predict_pd].
have p1 := st (x_tw R) _ p0 o1; set w1 := tstep _ _ in p1.
have o2 : ls_op w1 (TControl 0) by exact: c1.
have p2 := st _ _ p1 o2; set w2 := tstep _ _ in p2.
have o3 : ls_op w2 (TCorrect 0) by exact: (conj h1 r1).
have p3 := st _ _ p2 o3; set w3 := tstep _ _ in p3.
have o4 : ls_op w3 (TSetZ 1 (fun m => const_mx 9%:R)) by exact I.
have p4 := st _ _ p3 o4; set w4 := tstep _ _ in p4.
have o5 : ls_op w4 (TCorrect 1) by exact: (conj h2 r2).
have p5 := st _ _ p4 o5; set w5 := tstep _ _ in p5.
have o6 : ls_op w5 (TTuned 2%:R) by split; [exact: two_neq0|split; [exact: q1|apply: tuned_pd => //; exact: two_neq0]].
have p6 := st _ _ p5 o6; set w6 := tstep _ _ in p6.
have o7 : ls_op w6 (TSetQ 0) by exact I.
have p7 := st _ _ p6 o7; set w7 := tstep _ _ in p7.
have o8 : ls_op w7 TPredict by split; [exact: q0|exact: predict_pd].
have p8 := st _ _ p7 o8; set w8 := tstep _ _ in p8.
have o9 : ls_op w8 (TCorrect 0) by exact: (conj h1 r1).
exact: (conj o1 (conj o2 (conj o3 (conj o4 (conj o5 (conj o6 (conj o7 (conj o8 (conj o9 I))))))))).
Qed.
Lemma map_example : exists (w : world R) os, world_ok cfg64 2 w /\ List.Forall2 (@denotes R cfg64 2 w) os x_ls /\
  pd (mx 2 2 (kf_P (w_kf w))) /\ ls_ops (world_abs 2 w) x_ls.
Proof.
have [w [os [W [A D]]]] := rep_program x_ls (x_tw_fits R).
exists w, os; split=> //; split=> //; rewrite -[mx _ _ _]/(e_P (tw_s (world_abs 2 w))) A; split; first exact: x_P_pd.
exact: x_ls_ok.
Qed.
End MapExamples.
