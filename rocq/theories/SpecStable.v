(** * Vocabulary: long runs of a system whose transition matrix contracts *)
From Flocq Require Import Core BinarySingleNaN.
From Verif Require Export SpecRange History.
Open Scope R_scope.

(** one turn of the program: predict; if inputs are given, write them to the input vector of the control and apply it *)
Definition turn : Type := option (list spec_float).
Definition turn_ops (t : turn) : list (op spec_float) :=
  match t with None => [OPredict] | Some u => [OPredict; OSetU 0 u; OControl 0] end.
Definition turns_ops (ts : list turn) : list (op spec_float) := flat_map turn_ops ts.
(** m representable, finite inputs, none above U in magnitude *)
Definition turn_ok (prec emax : Z) (m : nat) (U : R) (t : turn) : Prop :=
  match t with None => True | Some u => length u = m /\ all_in_format prec emax u /\ fin_matrix m 1 u /\ at_most m 1 u U end.

(** the same turn in real arithmetic: x := A x + B u, P := A P A' + Q + B Qu B' *)
Definition ideal_turn (n m : nat) (A Q B Qu : nat -> nat -> R) (t : turn) (s : (nat -> R) * (nat -> nat -> R)) : (nat -> R) * (nat -> nat -> R) :=
  (fun i => rsum n (fun k => A i k * fst s k) + match t with None => 0 | Some u => rsum m (fun k => B i k * rcell 1 u k 0) end,
   fun i j => pred_P n A (snd s) Q i j + match t with None => 0 | Some _ => rsum m (fun k => rsum m (fun l => B i l * Qu l k) * B j k) end).
Definition ideal (n m : nat) (A Q B Qu : nat -> nat -> R) (ts : list turn) (s : (nat -> R) * (nat -> nat -> R)) : (nat -> R) * (nat -> nat -> R) :=
  fold_left (fun s t => ideal_turn n m A Q B Qu t s) ts s.

(** no row of the matrix has entries adding up (in magnitude) to more than b *)
Definition rows_within (ROWS COLS : nat) (l : list spec_float) (b : R) : Prop :=
  forall i, (i < ROWS)%nat -> rsum COLS (fun k => Rabs (rcell COLS l i k)) <= b.

(** a bound for the accumulated rounding factors of one call *)
Definition growth (prec : Z) (n m : nat) : R := (1 + uro prec) ^ (2 * (n + m) + 1).
(** states up to X and covariances up to M lead to such again: rho bounds the rows of A, beta those of B, U the inputs, q and qu the entries of Q and Qu *)
Definition keeps (prec emax : Z) (n m : nat) (rho beta U q qu X M : R) : Prop :=
  let G := growth prec n m in let e := eta prec emax in let N := INR n in let K := INR m in
  G * (G * (rho * X + N * e) + (beta * U + K * e)) <= X /\ X < too_big emax /\
  G * (G * (rho * rho * M + q + (N * rho + N) * e) + (beta * beta * qu + (K * beta + K) * e)) <= M /\ M < too_big emax /\
  G * (rho * M + N * e) < too_big emax /\ G * (beta * qu + K * e) < too_big emax.
(** what one turn of calls adds to the distance between the computed and the ideal state, and covariance *)
Definition turn_err (prec emax : Z) (n m : nat) (rho beta U X : R) : R :=
  let G := growth prec n m in let e := eta prec emax in
  ((G - 1) * (rho * X) + G * INR n * e) + ((G - 1) * (X + beta * U) + G * INR m * e).
Definition turn_cov_err (prec emax : Z) (n m : nat) (rho beta q qu M : R) : R :=
  let G := growth prec n m in let e := eta prec emax in let N := INR n in let K := INR m in
  ((G - 1) * (rho * rho * M + q) + G * (N * rho + N) * e) + ((G - 1) * (M + beta * beta * qu) + G * (K * beta + K) * e).

(** the filter and its control hold representable floats everywhere *)
Definition kf_all_format (prec emax : Z) (f : kalman spec_float) : Prop := kf_format prec emax f /\ all_in_format prec emax (kf_px f) /\ all_in_format prec emax (kf_tP f).
Definition ct_all_format (prec emax : Z) (k : control spec_float) : Prop := ct_format prec emax k /\ all_in_format prec emax (ct_BQ k).
(** the buffers are big enough and hold finite floats; A, B, Q and Qu are within their bounds, the state and the covariance start within X and M *)
Definition stable_setup (c : cfg) (prec emax : Z) (n m : nat) (f : kalman spec_float) (k : control spec_float) (rho beta U q qu X M : R) : Prop :=
  kf_valid c n f /\ ct_valid c n m k /\ kf_all_format prec emax f /\ ct_all_format prec emax k /\
  fin_matrix n n (kf_A f) /\ fin_matrix n n (kf_Q f) /\ fin_matrix n m (ct_B k) /\ fin_matrix m m (ct_Q k) /\
  rows_within n n (kf_A f) rho /\ at_most n n (kf_Q f) q /\ rows_within n m (ct_B k) beta /\ at_most m m (ct_Q k) qu /\ 0 <= U /\
  fin_matrix n 1 (kf_x f) /\ at_most n 1 (kf_x f) X /\ fin_matrix n n (kf_P f) /\ at_most n n (kf_P f) M.
