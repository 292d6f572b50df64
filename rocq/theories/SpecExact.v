(** * Specification: exact real arithmetic, matrices, the textbook Kalman filter.

    [R] is any real closed field (e.g. the real algebraic numbers, or the reals).
    Apart from [exact_num] (the element type "exact reals" for the generic model) and
    [mx] (how a buffer is read as a matrix) nothing here refers to the model. *)
From Verif Require Import Numeric.
From mathcomp Require Import all_ssreflect all_algebra.
Set Implicit Arguments.
Unset Strict Implicit.
Unset Printing Implicit Defensive.
Import Order.TTheory GRing.Theory Num.Theory.
Local Open Scope ring_scope.

Section Spec.
Variable R : rcfType.

(** Exact real arithmetic as an element type; the reciprocal of zero and the square
    root of a negative number do not exist: using them counts as a panic. *)
Definition exact_num : num R := {|
  n_zero := 0; n_one := 1;
  o_add := fun a b => Some (a + b);
  o_sub := fun a b => Some (a - b);
  o_mul := fun a b => Some (a * b);
  o_neg := fun a => Some (- a);
  o_recip := fun a => if a == 0 then None else Some a^-1;
  o_sqrt := fun a => if a < 0 then None else Some (Num.sqrt a);
  n_le := fun a b => a <= b;
  n_sum0 := 0 |}.

(** The m x n matrix stored row-major in a buffer. *)
Definition mx (m n : nat) (l : seq R) : 'M[R]_(m, n) :=
  \matrix_(i, j) nth 0 l (i * n + j)%N.

(** Symmetric, positive (semi-)definite, semi-definite order. *)
Definition sym n (M : 'M[R]_n) : Prop := M^T = M.
Definition qf n (M : 'M[R]_n) (v : 'cV[R]_n) : R := (v^T *m M *m v) 0 0.
Definition psd n (M : 'M[R]_n) : Prop := sym M /\ forall v, 0 <= qf M v.
Definition pd n (M : 'M[R]_n) : Prop := sym M /\ forall v, v != 0 -> 0 < qf M v.
(** A <= B *)
Definition lemx n (A B : 'M[R]_n) : Prop := psd (B - A).

(** Lower triangular with positive diagonal. *)
Definition chol_factor n (L : 'M[R]_n) : Prop :=
  (forall i j : 'I_n, (i < j)%N -> L i j = 0) /\ (forall i, 0 < L i i).

(** The textbook filter: estimate and covariance. *)
Record est (n : nat) : Type := Est { e_x : 'cV[R]_n; e_P : 'M[R]_n }.

Definition t_predict n (A Q : 'M[R]_n) (s : est n) : est n :=
  Est (A *m e_x s) (A *m e_P s *m A^T + Q).
Definition t_predict_tuned n (lam : R) (A Q : 'M[R]_n) (s : est n) : est n :=
  Est (A *m e_x s) ((lam ^+ 2)^-1 *: (A *m e_P s *m A^T) + Q).
Definition t_control n m (B : 'M[R]_(n, m)) (u : 'cV[R]_m) (Qc : 'M[R]_m) (s : est n) : est n :=
  Est (e_x s + B *m u) (e_P s + B *m Qc *m B^T).
(** innovation covariance and gain *)
Definition t_S n m (H : 'M[R]_(m, n)) (Rm : 'M[R]_m) (P : 'M[R]_n) : 'M[R]_m := H *m P *m H^T + Rm.
Definition t_K n m (H : 'M[R]_(m, n)) (Rm : 'M[R]_m) (P : 'M[R]_n) : 'M[R]_(n, m) :=
  P *m H^T *m invmx (t_S H Rm P).
(** update for innovation y *)
Definition t_update n m (H : 'M[R]_(m, n)) (Rm : 'M[R]_m) (y : 'cV[R]_m) (s : est n) : est n :=
  let K := t_K H Rm (e_P s) in
  Est (e_x s + K *m y) (e_P s - K *m (H *m e_P s)).
Definition t_correct n m (H : 'M[R]_(m, n)) (Rm : 'M[R]_m) (z : 'cV[R]_m) (s : est n) : est n :=
  t_update H Rm (z - H *m e_x s) s.

(** covariance obtained with an arbitrary gain K (Joseph form) *)
Definition joseph n m (H : 'M[R]_(m, n)) (Rm : 'M[R]_m) (P : 'M[R]_n) (K : 'M[R]_(n, m)) : 'M[R]_n :=
  (1%:M - K *m H) *m P *m (1%:M - K *m H)^T + K *m Rm *m K^T.

(** the weighted least squares cost of state [xi], given the prior (x, P) and measurement z with noise R *)
Definition wls n m (H : 'M[R]_(m, n)) (Rm : 'M[R]_m) (z : 'cV[R]_m) (s : est n) (xi : 'cV[R]_n) : R :=
  qf (invmx (e_P s)) (xi - e_x s) + qf (invmx Rm) (z - H *m xi).

(** A^k *)
Definition mxpow n (A : 'M[R]_n) (k : nat) : 'M[R]_n := iter k (mulmx A) 1%:M.

End Spec.
Arguments exact_num {R}.
Arguments Est {R n}.
