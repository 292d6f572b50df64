(** * Vocabulary: how much room an exact expression leaves below the overflow threshold *)
From Flocq Require Import Core BinarySingleNaN.
From Verif Require Export SpecReal.
Open Scope R_scope.

(** the format's overflow threshold, 2^emax: twice the largest power of two that is representable *)
Definition too_big (emax : Z) : R := bpow radix2 emax.
(** room for sum f g (K terms), for q + sum f g, and for q + sum_k (sum_l s t) a with K1 inner and K2 outer terms *)
Definition cell_room (prec emax : Z) (K : nat) (f g : nat -> R) : Prop :=
  (1 + uro prec) ^ K * (rsum K (fun k => Rabs (f k) * Rabs (g k)) + INR K * eta prec emax) < too_big emax.
Definition vec_room (prec emax : Z) (K : nat) (q : R) (f g : nat -> R) : Prop :=
  (1 + uro prec) ^ (K + 1) * (Rabs q + rsum K (fun k => Rabs (f k) * Rabs (g k)) + INR K * eta prec emax) < too_big emax.
Definition mat_room (prec emax : Z) (K1 K2 : nat) (q : R) (s t : nat -> nat -> R) (a : nat -> R) : Prop :=
  (forall k, (k < K2)%nat -> cell_room prec emax K1 (s k) (t k)) /\
  (1 + uro prec) ^ (K1 + K2 + 1) * (Rabs q + rsum K2 (fun k => rsum K1 (fun l => Rabs (s k l) * Rabs (t k l)) * Rabs (a k))
     + (INR K1 * rsum K2 (fun k => Rabs (a k)) + INR K2) * eta prec emax) < too_big emax.

(** every cell of the R x C matrix exists and is finite *)
Definition fin_matrix (R C : nat) (l : list spec_float) : Prop :=
  forall i j, (i < R)%nat -> (j < C)%nat -> exists x, cell C l i j = Some x /\ sf_finite x = true.
(** every entry is at most M in magnitude *)
Definition at_most (ROWS COLS : nat) (l : list spec_float) (M : R) : Prop := forall i j, (i < ROWS)%nat -> (j < COLS)%nat -> Rabs (rcell COLS l i j) <= M.

(** a single measured component with sensor row [H], sensor variance [r], prior covariance [P]:
    the innovation variance H P H' + r, a bound on its rounding error, and a bound on the gain of the state i *)
Definition in_var (n : nat) (r : R) (H : nat -> R) (P : nat -> nat -> R) : R := r + rsum n (fun k => rsum n (fun l => H l * P l k) * H k).
Definition in_var_err (prec emax : Z) (n : nat) (r : R) (H : nat -> R) (P : nat -> nat -> R) : R := let u := uro prec in
  ((1 + u) ^ (n + n + 1) - 1) * (Rabs r + rsum n (fun k => rsum n (fun l => Rabs (H l) * Rabs (P l k)) * Rabs (H k)))
  + (1 + u) ^ (n + n + 1) * eta prec emax * (INR n * rsum n (fun k => Rabs (H k)) + INR n).
Definition inv_max (prec emax : Z) (n : nat) (r : R) (H : nat -> R) (P : nat -> nat -> R) : R :=
  (1 + uro prec) ^ 5 / (in_var n r H P - in_var_err prec emax n r H P) + eta prec emax.
Definition gain_max (prec emax : Z) (n : nat) (r : R) (H : nat -> R) (P : nat -> nat -> R) (i : nat) : R := let u := uro prec in
  (1 + u) * ((1 + u) ^ n * (rsum n (fun l => Rabs (P i l) * Rabs (H l)) + INR n * eta prec emax)) * inv_max prec emax n r H P + eta prec emax.
(** a bound on the innovation z - H x *)
Definition inn_max (prec emax : Z) (n : nat) (z : R) (H x : nat -> R) : R :=
  (1 + uro prec) ^ (n + 1) * (Rabs z + rsum n (fun l => Rabs (H l) * Rabs (x l)) + INR n * eta prec emax).

(** the innovation variance exceeds its rounding error, and nothing computed from these numbers comes near the overflow threshold *)
Definition scalar_room (prec emax : Z) (n : nat) (r z : R) (H x : nat -> R) (P : nat -> nat -> R) : Prop :=
  in_var_err prec emax n r H P < in_var n r H P /\
  mat_room prec emax n n r (fun k l => H l) (fun k l => P l k) H /\
  inv_max prec emax n r H P < too_big emax /\
  vec_room prec emax n z H x /\
  forall i, (i < n)%nat -> cell_room prec emax n (P i) H /\ gain_max prec emax n r H P i < too_big emax /\
    vec_room prec emax 1 (x i) (fun _ => gain_max prec emax n r H P i) (fun _ => inn_max prec emax n z H x) /\
    forall j, (j < n)%nat -> mat_room prec emax n 1 (P i j) (fun _ l => H l) (fun _ l => P l j) (fun _ => gain_max prec emax n r H P i).

(** the exact update of a single measured component: gain numerators P H' and H P, innovation z - H x, then
    x + (P H') (z - H x) / S  and  P - (P H') (H P) / S *)
Definition ph (n : nat) (H : nat -> R) (P : nat -> nat -> R) (i : nat) : R := rsum n (fun l => P i l * H l).
Definition hp (n : nat) (H : nat -> R) (P : nat -> nat -> R) (j : nat) : R := rsum n (fun l => H l * P l j).
Definition innov (n : nat) (z : R) (H x : nat -> R) : R := z - rsum n (fun l => H l * x l).
Definition post_x (n : nat) (r z : R) (H x : nat -> R) (P : nat -> nat -> R) (i : nat) : R := x i + ph n H P i * innov n z H x / in_var n r H P.
Definition post_P (n : nat) (r : R) (H : nat -> R) (P : nat -> nat -> R) (i j : nat) : R := P i j - ph n H P i * hp n H P j / in_var n r H P.
(** bounds, from the data alone, for the errors of the gain (times S), of the innovation, of the state and of the covariance *)
Definition gain_err (prec emax : Z) (n : nat) (r : R) (H : nat -> R) (P : nat -> nat -> R) (i : nat) : R := let u := uro prec in let e := eta prec emax in
  let aC := rsum n (fun l => Rabs (P i l) * Rabs (H l)) in let C1 := (1 + u) ^ n * (aC + INR n * e) in let eS := in_var_err prec emax n r H P in
  gain_max prec emax n r H P i * eS + ((1 + u) ^ 6 * C1 - aC) + e * (Rabs (in_var n r H P) + eS) * (2 * C1 + 1).
Definition inn_err (prec emax : Z) (n : nat) (z : R) (H x : nat -> R) : R := let u := uro prec in
  ((1 + u) ^ (n + 1) - 1) * (Rabs z + rsum n (fun l => Rabs (H l) * Rabs (x l))) + (1 + u) ^ (n + 1) * eta prec emax * INR n.
Definition state_err (prec emax : Z) (n : nat) (r z : R) (H x : nat -> R) (P : nat -> nat -> R) (i : nat) : R := let u := uro prec in let k := gain_max prec emax n r H P i in
  ((1 + u) ^ 2 - 1) * (Rabs (x i) + k * inn_max prec emax n z H x) + (1 + u) ^ 2 * eta prec emax
  + k * inn_err prec emax n z H x + gain_err prec emax n r H P i * Rabs (innov n z H x) / in_var n r H P.
Definition cov_err (prec emax : Z) (n : nat) (r : R) (H : nat -> R) (P : nat -> nat -> R) (i j : nat) : R := let u := uro prec in let k := gain_max prec emax n r H P i in
  ((1 + u) ^ (n + 2) - 1) * (Rabs (P i j) + rsum n (fun l => Rabs (H l) * Rabs (P l j)) * k) + (1 + u) ^ (n + 2) * eta prec emax * (INR n * k + 1)
  + gain_err prec emax n r H P i * Rabs (hp n H P j) / in_var n r H P.
(** the same for the prediction A P A' + Q *)
Definition pred_P (n : nat) (A P Q : nat -> nat -> R) (i j : nat) : R := Q i j + rsum n (fun k => rsum n (fun l => A i l * P l k) * A j k).
Definition pred_err (prec emax : Z) (n : nat) (A P Q : nat -> nat -> R) (i j : nat) : R := let u := uro prec in
  ((1 + u) ^ (n + n + 1) - 1) * (Rabs (Q i j) + rsum n (fun k => rsum n (fun l => Rabs (A i l) * Rabs (P l k)) * Rabs (A j k)))
  + (1 + u) ^ (n + n + 1) * eta prec emax * (INR n * rsum n (fun k => Rabs (A j k)) + INR n).
Definition sym_on (n : nat) (P : nat -> nat -> R) : Prop := forall i j, (i < n)%nat -> (j < n)%nat -> P i j = P j i.
