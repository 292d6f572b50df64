(** * Vocabulary: a fixed-point Cholesky factor compared with the matrix *)
From Coq Require Export Qabs.
From Verif Require Export SpecFixed.
Open Scope Q_scope.

(** column i of the lower factor l reproduces row i of a, up to rounding, w being the distance of neighbouring numbers: the diagonal entry
    exceeds l_i0^2 + ... + l_ii^2 by at most (2 l_ii + w) w and falls short of it by at most i w;  each entry right of it is
    l_i0 l_j0 + ... + l_ii l_ji up to i w + (1 + |a_ij| + |l_i0 l_j0| + ... + |l_i,i-1 l_j,i-1| + i w) l_ii w *)
Definition q_column (w : Q) (n : nat) (a l : nat -> nat -> Q) (i : nat) : Prop :=
  0 < l i i /\
  - (qn i * w) <= a i i - qsum (S i) (fun k => l i k * l i k) <= (2 * l i i + w) * w /\
  forall j, (i < j < n)%nat ->
    Qabs (a i j - qsum (S i) (fun k => l i k * l j k)) <=
      qn i * w + (1 + Qabs (a i j) + qsum i (fun k => Qabs (l i k * l j k)) + qn i * w) * (l i i * w).
