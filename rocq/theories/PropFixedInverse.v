(** * C135: the fixed-point inverse - no overflow, and how accurate.
    [fx_num bits frac oc da] is the [bits]-bit type with [frac] fractional bits, with or without checks; I16F16 is (32, 16), I32F32 is (64, 32).  [fcell] is the real number
    in a cell, [fx_upper_sym frac n A] the symmetric matrix with the upper triangle of A, [eig_above n a lam] says lam |v|^2 <= v' a v for every v, [inverse_of n a W] says a W = 1.
    [fx_rho frac n sig] is about (n + 1 + 3 sig) w for the distance w of neighbouring numbers; [fx_inv_ready] says that a factor exists (C134), that 4 n fx_rho is at most 1 and at
    most lam, and that nothing comes near the end of the range; [fx_inv_err] is fx_rho times the square root of 8 (n + 1) / lam + 16 n / lam^2 + 720 / lam^3, plus 2 n d / lam^2
    (SpecFixedInv.v). *)
From Coq Require Import ZArith Reals.
From Verif Require Import Prelude Spec Matrix Filter FixedNum SpecFixed SpecFixedRange SpecReal SpecSolve SpecFixedSolve SpecFixedInv FixedInvert FixedSolveExamples FixedInvertExamples.
Open Scope R_scope.

(** every build accepts the matrix and inverts it without overflow, to the same bits, and the result is close to the inverse in the reals *)
Theorem C135_inverse : forall (bits frac : Z), (0 <= frac)%Z -> forall (c : cfg) (n : nat) (A inv0 : list Z) (sig lam : R), (1 <= n)%nat -> valid c n n A -> valid c n n inv0 ->
  (forall i, (i < n)%nat -> fcell frac n A i i <= sig) -> eig_above n (fx_upper_sym frac n A) lam -> fx_inv_ready bits frac n sig lam ->
  exists L X, (forall oc da, cholesky_decompose_lower c (fx_num bits frac oc da) n n A = Ok (true, L) /\ invert_l_cholesky c (fx_num bits frac oc da) n L inv0 = Ok X) /\
    forall W, inverse_of n (fx_upper_sym frac n A) W -> forall i j, (i < n)%nat -> (j < n)%nat -> Rabs (fcell frac n X i j - W i j) <= fx_inv_err frac n sig lam (fx_eps frac n sig).
Proof. exact fx_inverse. Qed.
Print Assumptions C135_inverse.
(** the I16F16 matrix [2 1; 1 2], with eigenvalues 1 and 3: the entries 2/3 and -1/3 of the inverse come out as 43691 / 65536, 43690 / 65536 and -21847 / 65536 *)
Example C135_example : forall c : cfg, (255 <= usize_max c)%nat -> valid c 2 2 fx_sol /\ (forall i, (i < 2)%nat -> fcell 16 2 fx_sol i i <= 2) /\
  eig_above 2 (fx_upper_sym 16 2 fx_sol) 1 /\ fx_inv_ready 32 16 2 2 1 /\ inverse_of 2 (fx_upper_sym 16 2 fx_sol) fx_sol_inv /\
  invert_l_cholesky c (i16f16_num true true) 2 [92681; 0; 46341; 80264]%Z fx_sol = Ok [43691; -21847; -21847; 43690]%Z.
Proof. exact fx_inverse_example. Qed.
(** for it the guaranteed accuracy is better than 1/200 *)
Example C135_example_bound : fx_inv_err 16 2 2 1 (fx_eps 16 2 2) <= / 200.
Proof. exact fx_inverse_bound. Qed.
