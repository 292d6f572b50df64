(** * Specification: a rival estimate that adds any linear combination of the innovations.

    The innovation of a correction is z - H x, with the measurement z, the observation matrix H and the estimate x before the correction.
    Every estimator that is linear in the measurements can be written as the filter's estimate plus such a combination plus a constant.
    Nothing here refers to the model's functions. *)
From Verif Require Import Spec SpecExact SpecHistory.
From mathcomp Require Import all_ssreflect all_algebra.
Set Implicit Arguments.
Unset Strict Implicit.
Unset Printing Implicit Defensive.
Import Order.TTheory GRing.Theory Num.Theory.
Local Open Scope ring_scope.

Section SpecBest.
Variable R : rcfType.
Variable n : nat.

(** weights for the innovation of the k-th call, for whatever number of measured components (ignored if that call is no correction) *)
Definition weights : Type := nat -> forall m : nat, 'M[R]_(n, m).
Definition innovation_part (w : tworld R n) (t : top R n) (L : forall m, 'M[R]_(n, m)) : 'cV[R]_n :=
  match t with
  | TCorrect j => if nth_error (tw_ob w) j is Some (TObs m H z Rm) then L m *m (z - H *m e_x (tw_s w)) else 0
  | _ => 0
  end.
Fixpoint innovation_sum (L : weights) (w : tworld R n) (ts : seq (top R n)) : 'cV[R]_n :=
  match ts with
  | [::] => 0
  | t :: ts => innovation_part w t (L 0%N) + innovation_sum (fun k => L k.+1) (tstep w t) ts
  end.
End SpecBest.
