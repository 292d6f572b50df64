(** * Vocabulary: room in the range of a fixed-point type, and long runs of contracting fixed-point systems *)
From Coq Require Export Qabs.
From Verif Require Export SpecFixed History.
Open Scope Q_scope.

(** the smallest number too large for the type, 2^(bits-1-frac): I16F16 holds -32768 <= v < 32768 *)
Definition fx_top (bits frac : Z) : Q := fval frac (2 ^ (bits - 1)).

(** q + f 0 * g 0 + ... + f (K-1) * g (K-1): the magnitudes of the terms and one unit in the last place per product fit in the range *)
Definition fx_vec_room (bits frac : Z) (K : nat) (q : Q) (f g : nat -> Q) : Prop :=
  Qabs q + qsum K (fun k => Qabs (f k * g k)) + qn K * ulp frac <= fx_top bits frac.
(** q + (s T) a for a row s of K1 numbers, a K1 x K2 matrix T and a column a of K2 numbers, the row s T being computed first *)
Definition fx_mat_room (bits frac : Z) (K1 K2 : nat) (q : Q) (s : nat -> Q) (t : nat -> nat -> Q) (a : nat -> Q) : Prop :=
  (forall k, (k < K2)%nat -> fx_vec_room bits frac K1 0 s (fun l => t l k)) /\
  Qabs q + qsum K2 (fun k => (qsum K1 (fun l => Qabs (s l * t l k)) + qn K1 * ulp frac) * Qabs (a k)) + qn K2 * ulp frac <= fx_top bits frac.

(** no entry of the ROWS x COLS matrix exceeds M in magnitude; no row adds up (in magnitude) to more than b *)
Definition q_at_most (frac : Z) (ROWS COLS : nat) (l : list Z) (M : Q) : Prop :=
  forall i j, (i < ROWS)%nat -> (j < COLS)%nat -> Qabs (qcell frac COLS l i j) <= M.
Definition q_rows_within (frac : Z) (ROWS COLS : nat) (l : list Z) (b : Q) : Prop :=
  forall i, (i < ROWS)%nat -> qsum COLS (fun k => Qabs (qcell frac COLS l i k)) <= b.

(** one turn of the program: predict; if inputs are given, write them to the input vector of the control and apply it *)
Definition fx_turn : Type := option (list Z).
Definition fx_turn_ops (t : fx_turn) : list (op Z) :=
  match t with None => [OPredict] | Some u => [OPredict; OSetU 0 u; OControl 0] end.
Definition fx_turns_ops (ts : list fx_turn) : list (op Z) := flat_map fx_turn_ops ts.
Definition fx_turn_ok (frac : Z) (m : nat) (U : Q) (t : fx_turn) : Prop :=
  match t with None => True | Some u => length u = m /\ q_at_most frac m 1 u U end.

(** the same turn in exact arithmetic: x := A x + B u, P := A P A' + Q + B Qu B' *)
Definition q_turn (frac : Z) (n m : nat) (A Qn B Qu : nat -> nat -> Q) (t : fx_turn) (s : (nat -> Q) * (nat -> nat -> Q)) : (nat -> Q) * (nat -> nat -> Q) :=
  (fun i => qsum n (fun k => A i k * fst s k) + match t with None => 0 | Some u => qsum m (fun k => B i k * qcell frac 1 u k 0) end,
   fun i j => qsum n (fun k => qsum n (fun l => A i l * snd s l k) * A j k) + Qn i j +
     match t with None => 0 | Some _ => qsum m (fun k => qsum m (fun l => B i l * Qu l k) * B j k) end).
Definition q_ideal (frac : Z) (n m : nat) (A Qn B Qu : nat -> nat -> Q) (ts : list fx_turn) (s : (nat -> Q) * (nat -> nat -> Q)) : (nat -> Q) * (nat -> nat -> Q) :=
  fold_left (fun s t => q_turn frac n m A Qn B Qu t s) ts s.

(** states up to X and covariances up to M lead to such again, and everything fits: rho bounds the rows of A, beta those of B, U the inputs,
    q and qu the entries of Q and Qu; w is the distance of neighbouring numbers *)
Definition fx_keeps (bits frac : Z) (n m : nat) (rho beta U q qu X M : Q) : Prop :=
  let w := ulp frac in let top := fx_top bits frac in
  rho * X + beta * U + (qn n + qn m) * w <= X /\ X <= top /\
  rho * rho * M + q + beta * beta * qu + (qn n * (1 + rho) + qn m * (1 + beta)) * w <= M /\ M <= top /\
  rho * M + qn n * w <= top /\ beta * qu + qn m * w <= top.
(** what one turn of calls adds to the distance between the computed and the exact state, and covariance *)
Definition fx_turn_err (frac : Z) (n m : nat) : Q := (qn n + qn m) * ulp frac.
Definition fx_turn_cov_err (frac : Z) (n m : nat) (rho beta : Q) : Q := (qn n * (1 + rho) + qn m * (1 + beta)) * ulp frac.

Definition fx_setup (c : cfg) (frac : Z) (n m : nat) (f : kalman Z) (k : control Z) (rho beta U q qu X M : Q) : Prop :=
  kf_valid c n f /\ ct_valid c n m k /\ 0 <= U /\
  q_rows_within frac n n (kf_A f) rho /\ q_at_most frac n n (kf_Q f) q /\ q_rows_within frac n m (ct_B k) beta /\ q_at_most frac m m (ct_Q k) qu /\
  q_at_most frac n 1 (kf_x f) X /\ q_at_most frac n n (kf_P f) M.

(** the exact correction of an n-component state by one measured number: S = H P H' + R, K = P H' / S, x + K (z - H x), P - K (H P) *)
Definition q_innovation_variance (n : nat) (H : nat -> Q) (P : nat -> nat -> Q) (R : Q) : Q := qsum n (fun k => qsum n (fun l => H l * P l k) * H k) + R.
Definition q_correct1 (n : nat) (H : nat -> Q) (z R : Q) (x : nat -> Q) (P : nat -> nat -> Q) : (nat -> Q) * (nat -> nat -> Q) :=
  let K := fun i => qsum n (fun l => P i l * H l) / q_innovation_variance n H P R in
  (fun i => x i + K i * (z - qsum n (fun l => H l * x l)), fun i j => P i j - K i * qsum n (fun l => H l * P l j)).
(** no number of the filter and of the observation exceeds M *)
Definition fx_scalar_setup (c : cfg) (frac : Z) (n : nat) (o : observation Z) (f : kalman Z) (M : Q) : Prop :=
  kf_valid c n f /\ ob_valid c n 1 o /\ q_at_most frac n 1 (kf_x f) M /\ q_at_most frac n n (kf_P f) M /\
  q_at_most frac 1 n (ob_H o) M /\ q_at_most frac 1 1 (ob_z o) M /\ q_at_most frac 1 1 (ob_R o) M.
