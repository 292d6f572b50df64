(** * C133, C134: the fixed-point Cholesky decomposition - what a factor, an acceptance and a refusal say about the matrix.
    [fx_num bits frac true true] is the [bits]-bit type with [frac] fractional bits and all checks on; I16F16 is (32, 16), I32F32 is (64, 32).
    [q_column w n a l i]: column i of l reproduces row i of a up to rounding (SpecFixedFactor.v).  [fcell] is the real number in a cell,
    [fx_upper_sym frac n A] the symmetric matrix with the upper triangle of A, [eig_above n a lam] says lam |v|^2 <= v' a v for every v,
    [fx_eps frac n sig] is (n + (1 + sig + n w)^2) w for the distance w of neighbouring numbers, [fx_ch_ready] says that lam is at least
    2 (n + 1) fx_eps and that nothing comes near the end of the range (SpecFixedSolve.v). *)
From Coq Require Import ZArith QArith Qabs Reals.
From Verif Require Import Prelude Spec Matrix Filter FixedNum SpecFixed SpecFixedRange SpecFixedFactor SpecReal SpecSolve SpecFixedSolve FixedChol FixedSolve FixedSolveExamples.

(** ** C133: a factor reproduces the matrix up to rounding *)
Theorem C133_factor : forall (c : cfg) (bits frac : Z), (0 <= frac)%Z -> forall (n : nat) (A L : list Z) (b : bool), (1 <= n)%nat -> valid c n n A ->
  cholesky_decompose_lower c (fx_num bits frac true true) n n A = Ok (b, L) ->
  if b then (forall i, (i < n)%nat -> q_column (ulp frac) n (qcell frac n A) (qcell frac n L) i) /\ (forall i j, (i < j < n)%nat -> cell n L i j = Some 0%Z)
  (** a refusal: with the columns before i so, a_ii does not exceed l_i0^2 + ... + l_i,i-1^2 *)
  else exists i, (i < n)%nat /\ (forall k, (k < i)%nat -> q_column (ulp frac) n (qcell frac n A) (qcell frac n L) k) /\
         (qcell frac n A i i <= qsum i (fun k => qcell frac n L i k * qcell frac n L i k))%Q.
Proof. exact fx_factor. Qed.
Print Assumptions C133_factor.
(** [2 1; 1 2] has the factor [1.41420 0; 0.70711 1.22473]; [1 2; 2 1] is refused *)
Example C133_example : forall c : cfg, (255 <= usize_max c)%nat -> valid c 2 2 fx_sol /\ valid c 2 2 fx_ind /\
  cholesky_decompose_lower c (i16f16_num true true) 2 2 fx_sol = Ok (true, [92681; 0; 46341; 80264]%Z) /\
  cholesky_decompose_lower c (i16f16_num true true) 2 2 fx_ind = Ok (false, [65536; 131072; 131072; -196608]%Z).
Proof. exact fx_factor_example. Qed.

(** ** C134: a positive definite matrix whose smallest eigenvalue is well above the rounding errors is accepted, without overflow, by every build *)
Open Scope R_scope.
Theorem C134_accepts : forall (c : cfg) (bits frac : Z), (0 <= frac)%Z -> forall (n : nat) (A : list Z) (sig lam : R), (1 <= n)%nat -> valid c n n A ->
  (forall i, (i < n)%nat -> fcell frac n A i i <= sig) -> eig_above n (fx_upper_sym frac n A) lam -> fx_ch_ready bits frac n sig lam ->
  exists L, (forall oc da, cholesky_decompose_lower c (fx_num bits frac oc da) n n A = Ok (true, L)) /\
    (forall i, (i < n)%nat -> 0 < fcell frac n L i i /\ lam / 2 <= fcell frac n L i i * fcell frac n L i i) /\
    (forall i, (i < n)%nat -> rsum n (fun k => fcell frac n L i k * fcell frac n L i k) <= fx_tau frac n sig) /\
    (forall i j, (i < n)%nat -> (j < n)%nat -> Rabs (fx_upper_sym frac n A i j - rsum n (fun k => fcell frac n L i k * fcell frac n L j k)) <= fx_eps frac n sig).
Proof. exact fx_accepts. Qed.
Print Assumptions C134_accepts.
(** conversely an accepted matrix has no eigenvalue below minus the rounding errors: clearly indefinite matrices are refused (or make the checked build panic) *)
Theorem C134_accepted : forall (c : cfg) (bits frac : Z), (0 <= frac)%Z -> forall (n : nat) (A L : list Z) (sig : R), (1 <= n)%nat -> valid c n n A ->
  cholesky_decompose_lower c (fx_num bits frac true true) n n A = Ok (true, L) ->
  (forall i j, (i <= j < n)%nat -> Rabs (fcell frac n A i j) <= sig) ->
  eig_above n (fx_upper_sym frac n A) (- (INR n * fx_eps frac n sig)).
Proof. exact fx_accepted. Qed.
Print Assumptions C134_accepted.
Example C134_example : forall c : cfg, (255 <= usize_max c)%nat -> valid c 2 2 fx_sol /\ (forall i, (i < 2)%nat -> fcell 16 2 fx_sol i i <= 2) /\
  eig_above 2 (fx_upper_sym 16 2 fx_sol) 1 /\ fx_ch_ready 32 16 2 2 1 /\ fx_eps 16 2 2 <= / 5000.
Proof. exact fx_solve_example. Qed.
