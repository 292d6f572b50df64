(** * The filter of CorrectExamples.v with a nonlinear sensor: the first state and the product of both *)
From Coq Require Import ZArith Reals List Lia Lra Psatz.
From Flocq Require Import Core BinarySingleNaN.
From Verif Require Import Prelude Spec Matrix Filter SpecFilter BuildSim FloatNum SpecFloats FloatWit SpecReal SpecRange SpecSolve SpecCorrect FloatFlocq FloatInt FloatErr FloatModerate BitsExamples RealExamples RoundExamples RangeExamples StableExamples CorrectExamples.
Import SpecFloat ListNotations.
Open Scope R_scope.

Definition h_prod : list spec_float -> list spec_float -> res (list spec_float) :=
  fun x y => match x with a :: b :: _ => Ok [a; SFmul 53 1024 a b] | _ => Ok y end.
Definition out_prod : list spec_float := [f64 3 0; f64 3 0].
Lemma v3 : val (f64 3 0) = 3. Proof. replace (f64 3 0) with (S754_finite false 6755399441055744 (-51)) by (vm_compute; reflexivity). unfold val, SF2R, F2R. cbn. lra. Qed.
Lemma prod_example (c : cfg) (sz : bool) : (255 <= usize_max c)%nat ->
  closure_ok c (sf_num 53 1024 sz) 2 2 h_prod /\ h_prod (kf_x kf_two) (ob_y ob_two) = Ok out_prod /\ all_in_format 53 1024 out_prod /\ fin_matrix 2 1 out_prod /\
  (forall i, (i < 2)%nat -> Rabs (rcell 1 (ob_z ob_two) i 0 - rcell 1 out_prod i 0) <= 4).
Proof.
  intros Hc. split; [|split; [|split; [|split]]].
  - intros x y (Lx & _) Vy. destruct x as [|a [|b x]]; [exact Vy|exact Vy|]. cbn [h_prod wp]. vt Hc.
  - vm_compute. reflexivity.
  - unfold out_prod. af.
  - s2.
  - intros i Hi. destruct i as [|[|i]]; [..|lia]; unfold rcell, cell; cbn [Nat.mul Nat.add nth_error ob_z ob_two out_prod]; unfold oval; rewrite ?v2, ?v3; split_Rabs; lra.
Qed.
