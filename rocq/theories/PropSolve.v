(** * C98, C99: which matrices the floating-point Cholesky decomposition accepts, and how accurate the inverse is
    [sf_num prec emax] is f32 for (24, 128) and f64 for (53, 1024).  [upper_sym n A] is the symmetric matrix whose upper triangle is that of A,
    [eig_above n a lam] says lam |v|^2 <= v' a v for every vector v (no eigenvalue below lam); [ch_gam] is about (n+3) u, [ch_tau] about twice the
    largest diagonal entry, [ch_h] and [ch_eps] account for underflow; [ch_ready] says that lam exceeds 8 n ch_gam ch_tau (and the underflow), and that
    nothing comes near the overflow threshold.  Vocabulary: SpecSolve.v. *)
From Coq Require Import ZArith Reals.
From Flocq Require Import Core BinarySingleNaN.
From Verif Require Import Prelude Spec Matrix Filter FloatNum SpecFloats SpecReal SpecRange SpecSolve FloatSolvable FloatInvert SolveExamples.
Open Scope R_scope.

(** a positive definite matrix whose smallest eigenvalue is well above the rounding errors is accepted, its factor is finite and reproduces it *)
Theorem C98_accepts : forall (c : cfg) (prec emax : Z) (sz : bool), format_ok prec emax -> forall (n : nat) (A : list spec_float) (sig lam : R),
  (1 <= n)%nat -> (4 <= emax)%Z -> valid c n n A -> all_in_format prec emax A ->
  (forall i j, (i <= j < n)%nat -> exists x, cell n A i j = Some x /\ sf_finite x = true) ->
  (forall i, (i < n)%nat -> rcell n A i i <= sig) -> eig_above n (upper_sym n A) lam -> ch_ready prec emax n sig lam ->
  exists L, cholesky_decompose_lower c (sf_num prec emax sz) n n A = Ok (true, L) /\ fin_matrix n n L /\
    (forall i, (i < n)%nat -> 0 < rcell n L i i /\ lam / 4 <= rcell n L i i * rcell n L i i) /\
    (forall i, (i < n)%nat -> rsum n (fun k => rcell n L i k * rcell n L i k) <= ch_tau prec emax n sig) /\
    (forall i j, (i < n)%nat -> (j < n)%nat -> Rabs (upper_sym n A i j - rsum n (fun k => rcell n L i k * rcell n L j k)) <= ch_gam prec n * ch_tau prec emax n sig + ch_eps prec emax n sig).
Proof. exact factor_exists. Qed.
Print Assumptions C98_accepts.
(** conversely a matrix accepted with a finite factor has no eigenvalue below minus the rounding error: clearly indefinite matrices are refused (or overflow) *)
Theorem C98_accepted : forall (c : cfg) (prec emax : Z) (sz : bool), format_ok prec emax -> forall (n : nat) (A L : list spec_float) (sig : R),
  (1 <= n)%nat -> (4 <= emax)%Z -> valid c n n A -> all_in_format prec emax A ->
  cholesky_decompose_lower c (sf_num prec emax sz) n n A = Ok (true, L) -> fin_matrix n n L ->
  (forall i, (i < n)%nat -> rcell n A i i <= sig) -> ch_gam prec n + ch_h prec emax n <= / 2 ->
  eig_above n (upper_sym n A) (- (INR n * (ch_gam prec n * ch_tau prec emax n sig + ch_eps prec emax n sig))).
Proof. exact accepted_psd. Qed.
Print Assumptions C98_accepted.

(** the f32 matrix [2 1; 1 2]: diagonal 2, eigenvalues 1 and 3 *)
Example C98_example : forall (c : cfg), (255 <= usize_max c)%nat ->
  valid c 2 2 a_solve /\ all_in_format 24 128 a_solve /\ (forall i j, (i <= j < 2)%nat -> exists x, cell 2 a_solve i j = Some x /\ sf_finite x = true) /\
  (forall i, (i < 2)%nat -> rcell 2 a_solve i i <= 2) /\ eig_above 2 (upper_sym 2 a_solve) 1 /\ ch_ready 24 128 2 2 1.
Proof. exact solve_example. Qed.
Example C98_example_accepted : forall (c : cfg) (sz : bool), (255 <= usize_max c)%nat ->
  exists L, cholesky_decompose_lower c (f32_num sz) 2 2 a_solve = Ok (true, L) /\ fin_matrix 2 2 L.
Proof. exact accept_example. Qed.

(** the inverse computed from the factor is finite and close to the inverse in the reals.  [inverse_of n a W]: a W = 1 in exact arithmetic *)
Theorem C99_inverse : forall (prec emax : Z) (sz : bool), format_ok prec emax -> (4 <= emax)%Z -> forall (c : cfg) (n : nat) (A inv0 : list spec_float) (sig lam : R),
  (1 <= n)%nat -> valid c n n A -> valid c n n inv0 -> all_in_format prec emax A ->
  (forall i j, (i <= j < n)%nat -> exists x, cell n A i j = Some x /\ sf_finite x = true) ->
  (forall i, (i < n)%nat -> rcell n A i i <= sig) -> eig_above n (upper_sym n A) lam -> inv_ready prec emax n sig lam ->
  exists L X, cholesky_decompose_lower c (sf_num prec emax sz) n n A = Ok (true, L) /\ invert_l_cholesky c (sf_num prec emax sz) n L inv0 = Ok X /\
    fin_matrix n n X /\ at_most n n X (5 / lam) /\
    forall W, inverse_of n (upper_sym n A) W -> forall i j, (i < n)%nat -> (j < n)%nat ->
      Rabs (rcell n X i j - W i j) <= inv_err prec emax n sig lam (ch_gam prec n * ch_tau prec emax n sig + ch_eps prec emax n sig).
Proof. exact invert_accurate. Qed.
Print Assumptions C99_inverse.
Example C99_example : forall (c : cfg), (255 <= usize_max c)%nat ->
  valid c 2 2 a_solve /\ all_in_format 24 128 a_solve /\ (forall i j, (i <= j < 2)%nat -> exists x, cell 2 a_solve i j = Some x /\ sf_finite x = true) /\
  (forall i, (i < 2)%nat -> rcell 2 a_solve i i <= 2) /\ eig_above 2 (upper_sym 2 a_solve) 1 /\ inv_ready 24 128 2 2 1 /\ inverse_of 2 (upper_sym 2 a_solve) w_solve.
Proof. exact invert_example. Qed.
(** for that matrix the guaranteed accuracy is better than one part in ten thousand *)
Example C99_example_bound : inv_err 24 128 2 2 1 (ch_gam 24 2 * ch_tau 24 128 2 2 + ch_eps 24 128 2 2) <= / 10000.
Proof. exact invert_example_bound. Qed.
