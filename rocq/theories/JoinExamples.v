(** * Two two-state systems in one four-state filter: hypotheses of C91 *)
From Verif Require Import Spec Matrix Filter Extended SpecFilter History SpecGen SpecExact SpecHistory SpecWorld SpecJoin Zmod Psd KMath HistGen FilterExact HistExact WorldMath JoinMath.
From Verif Require Import ExampleData Represent ExactExamples.
From mathcomp Require Import all_ssreflect all_algebra.
Set Implicit Arguments.
Unset Strict Implicit.
Unset Printing Implicit Defensive.
Import Order.TTheory GRing.Theory Num.Theory.
Local Open Scope ring_scope.

Ltac conjs tac := repeat match goal with |- _ => apply: conj; [solve [tac]|] end; try exact I.
Section JoinExamples.
Variable R : rcfType.
Definition x_js : seq (jop R 2 2) :=
  [:: JPredict; JOne (TControl 0); JTwo (TCorrect 0); JTuned 2%:R; JTwo (TSetR 0 (fun m => x_P R m)); JOne (TCorrect 1); JTwo (TControl 0);
      JTwo (TSetX (const_mx 8%:R)); JOne (TSetA (x_A R)); JPredictNl (fun x => x + x) (fun x => - x); JOne (TCorrectNl 1 (fun m x => const_mx (x 0 0)));
      JTwo (TSetZ 1 (fun m => const_mx 9%:R)); JTwo (TCorrect 1); JPredict].
Lemma x_js_1 : ops_ok (x_tw R) (all_1 x_js).
Proof.
apply: (proj1 (run_good (x_tw_good R) _)).
conjs ltac:(first [exact I|exact: two_neq0|exact: (x_P_psd R 2)|exact: (x_P_pd R 1)|exact: (x_P_pd R 2)]).
Qed.
Lemma x_js_2 : ops_ok (x_tw2 R) (all_2 x_js).
Proof.
apply: (proj1 (run_good (x_tw2_good R) _)).
conjs ltac:(first [exact I|exact: two_neq0|exact: (x_P_psd R 2)|exact: (x_P_pd R 1)|exact: (x_P_pd R 2)]).
Qed.
Lemma x_js_ok : jops_ok (x_tw R) (x_tw2 R) x_js.
Proof. by do !split. Qed.
Lemma x_join_fits : tw_fits cfg64 (join (x_tw R) (x_tw2 R)).
Proof.
have F r s : (r * s <= 16)%N -> fits cfg64 r s by move=> H; apply: fits64; exact: leq_trans H _.
have C m (B : 'M[R]_(2 + 2, m)) u Q : (m <= 2)%N -> ct_fits cfg64 (TCtl B u Q).
  move=> Hm; have H1 : ((2 + 2) * m <= 16)%N by apply: (@leq_trans ((2 + 2) * 2)); rewrite ?leq_mul.
  have H2 : (m * 1 <= 16)%N by apply: (@leq_trans (2 * 1)); rewrite ?leq_mul.
  have H3 : (m * m <= 16)%N by apply: (@leq_trans (2 * 2)); rewrite ?leq_mul.
  exact (conj (F _ _ H1) (conj (F _ _ H2) (F _ _ H3))).
have O m (H : 'M[R]_(m, 2 + 2)) z Q : (0 < m)%N -> (m <= 2)%N -> ob_fits cfg64 (TObs H z Q).
  move=> H0 Hm; have H1 : ((2 + 2) * m <= 16)%N by apply: (@leq_trans ((2 + 2) * 2)); rewrite ?leq_mul.
  have H1' : (m * (2 + 2) <= 16)%N by apply: (@leq_trans (2 * (2 + 2))); rewrite ?leq_mul.
  have H2 : (m * 1 <= 16)%N by apply: (@leq_trans (2 * 1)); rewrite ?leq_mul.
  have H3 : (m * m <= 16)%N by apply: (@leq_trans (2 * 2)); rewrite ?leq_mul.
  exact (conj H0 (conj (F _ _ H1) (conj (F _ _ H1') (conj (F _ _ H2) (F _ _ H3))))).
refine (conj (erefl : (0 < 2 + 2)%N) (conj (F _ _ (erefl : ((2 + 2) * 1 <= 16)%N)) (conj (F _ _ (erefl : ((2 + 2) * (2 + 2) <= 16)%N)) (conj _ _)))).
  apply: List.Forall_cons; [exact: C _ _ _ _ (erefl : (1 <= 2)%N)|apply: List.Forall_cons; [exact: C _ _ _ _ (erefl : (1 <= 2)%N)|exact: List.Forall_nil]].
apply: List.Forall_cons; first exact: O _ _ _ _ (erefl : (0 < 1)%N) (erefl : (1 <= 2)%N).
apply: List.Forall_cons; first exact: O _ _ _ _ (erefl : (0 < 2)%N) (erefl : (2 <= 2)%N).
apply: List.Forall_cons; first exact: O _ _ _ _ (erefl : (0 < 1)%N) (erefl : (1 <= 2)%N).
apply: List.Forall_cons; first exact: O _ _ _ _ (erefl : (0 < 2)%N) (erefl : (2 <= 2)%N).
exact: List.Forall_nil.
Qed.
Theorem decoupled_example : exists w w1 w2 os os1 os2, world_ok cfg64 (2 + 2) w /\ world_ok cfg64 2 w1 /\ world_ok cfg64 2 w2 /\
  world_abs (2 + 2) w = join (world_abs 2 w1) (world_abs 2 w2) /\ jops_ok (world_abs 2 w1) (world_abs 2 w2) x_js /\
  List.Forall2 (@denotes R cfg64 (2 + 2) w) os (joint_ops (world_abs 2 w1) (world_abs 2 w2) x_js) /\
  List.Forall2 (@denotes R cfg64 2 w1) os1 (all_1 x_js) /\ List.Forall2 (@denotes R cfg64 2 w2) os2 (all_2 x_js) /\
  ops_ok (world_abs 2 w1) (all_1 x_js) /\ ops_ok (world_abs 2 w2) (all_2 x_js).
Proof.
have [w1 [os1 [W1 [A1 D1]]]] := @rep_program R cfg64 2 (x_tw R) (all_1 x_js) (x_tw_fits R).
have [w2 [os2 [W2 [A2 D2]]]] := @rep_program R cfg64 2 (x_tw2 R) (all_2 x_js) (x_tw2_fits R).
have [w [os [W [A D]]]] := @rep_program R cfg64 (2 + 2) (join (x_tw R) (x_tw2 R)) (joint_ops (x_tw R) (x_tw2 R) x_js) x_join_fits.
exists w, w1, w2, os, os1, os2; rewrite A A1 A2.
exact (conj W (conj W1 (conj W2 (conj erefl (conj x_js_ok (conj D (conj D1 (conj D2 (conj x_js_1 x_js_2))))))))).
Qed.
End JoinExamples.
