(** * Data meeting the hypotheses of C92 and C93 *)
From Verif Require Import Spec Matrix Filter Extended SpecFilter History SpecGen SpecExact SpecHistory SpecWorld SpecShift Zmod Psd KMath HistGen FilterExact HistExact WorldMath ShiftMath.
From Verif Require Import ExampleData Represent ExactExamples.
From mathcomp Require Import all_ssreflect all_algebra.
Set Implicit Arguments.
Unset Strict Implicit.
Unset Printing Implicit Defensive.
Import Order.TTheory GRing.Theory Num.Theory.
Local Open Scope ring_scope.

Section ShiftExamples.
Variable R : rcfType.
Definition x_s : 'cV[R]_2 := const_mx 273%:R.
Definition x_d (j m : nat) : 'cV[R]_m := const_mx j.+1%:R.
Theorem origin_example : exists w1 w2 os1 os2, world_ok cfg64 2 w1 /\ world_ok cfg64 2 w2 /\
  List.Forall2 (@denotes R cfg64 2 w1) os1 (x_ts R) /\ List.Forall2 (@denotes R cfg64 2 w2) os2 (ops_shift x_s x_d (x_tw R) (x_ts R)) /\
  ops_ok (x_tw R) (x_ts R) /\ world_abs 2 w1 = x_tw R /\ world_abs 2 w2 = tw_shift x_s x_d (x_tw R).
Proof.
have [w1 [os1 [W1 [A1 D1]]]] := @rep_program R cfg64 2 (x_tw R) (x_ts R) (x_tw_fits R).
have [w2 [os2 [W2 [A2 D2]]]] := @rep_program R cfg64 2 (tw_shift x_s x_d (x_tw R)) (ops_shift x_s x_d (x_tw R) (x_ts R)) (x_gen_fits _ _ _ _ _ _ _ _ _).
exists w1, w2, os1, os2.
exact (conj W1 (conj W2 (conj D1 (conj D2 (conj (proj1 (run_good (x_tw_good R) (x_ts_good R))) (conj A1 A2)))))).
Qed.
Definition x_ms : seq (top R 2) :=
  [:: TCorrect 0; TSetZ 0 (fun m => const_mx 9%:R); TCorrect 1; TCorrect 0; TSetX (const_mx 4%:R); TCorrectNl 0 (fun m x => const_mx (x 0 0))].
Theorem repeated_example : exists w os m b, world_ok cfg64 2 w /\ tw_good (world_abs 2 w) /\ List.Forall2 (@denotes R cfg64 2 w) os x_ms /\
  all (@measuring R 2) x_ms /\ nth_error (w_ob w) 0 = Some (m, b) /\ count (uses 0) x_ms = 3%N.
Proof.
have [w [os [W [A D]]]] := @rep_program R cfg64 2 (x_tw R) x_ms (x_tw_fits R).
exists w, os; case E: (w_ob w) => [|[m b] l].
  by have := congr1 (fun t => size (tw_ob t)) A; rewrite /= E.
by exists m, b; rewrite A; split=> //; split; [exact: x_tw_good|].
Qed.
End ShiftExamples.
