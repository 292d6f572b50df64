(** * Vocabulary: floating-point results compared with real numbers *)
From Coq Require Export Reals.
From Flocq Require Import Core BinarySingleNaN.
From Verif Require Export SpecFloats SpecFilter.
Open Scope R_scope.

(** the real number a finite float stands for (0 for infinities and NaN) *)
Definition val (x : spec_float) : R := SF2R radix2 x.
(** unit roundoff 2^-prec, smallest positive normal number 2^(2-emax), half of the smallest positive number: 2^(2-emax-prec) *)
Definition uro (prec : Z) : R := bpow radix2 (- prec).
Definition min_normal (emax : Z) : R := bpow radix2 (2 - emax).
Definition eta (prec emax : Z) : R := bpow radix2 (2 - emax - prec).

(** a representable float of the format: mantissa and exponent in range (always true of a Rust f32 / f64) *)
Definition in_format (prec emax : Z) (x : spec_float) : Prop := valid_binary prec emax x = true.
Definition all_in_format (prec emax : Z) (l : list spec_float) : Prop := Forall (in_format prec emax) l.

(** f 0 + ... + f (K-1) in the reals *)
Fixpoint rsum (K : nat) (f : nat -> R) : R := match K with O => 0 | S k => rsum k f + f k end.

(** the value of a cell (0 where there is none) *)
Definition rcell (C : nat) (l : list spec_float) (i j : nat) : R := match cell C l i j with Some x => val x | None => 0 end.

(** binary32 and binary64 are meant by [prec], [emax] = 24, 128 and 53, 1024; every format has these two properties *)
Definition format_ok (prec emax : Z) : Prop := (1 < prec)%Z /\ (prec < emax)%Z.

(** no product f k * g k is so small that it underflows *)
Definition no_underflow (emax : Z) (K : nat) (f g : nat -> R) : Prop :=
  forall k, (k < K)%nat -> f k * g k = 0 \/ min_normal emax <= Rabs (f k * g k).

(** the classical a-priori bound for a computed sum of products [r] of K terms: a representable number and, if it is finite,
      |r - sum f g| <= ((1+u)^K - 1) * sum |f||g|   when no product underflows,
    and at most K (1+u)^K eta more otherwise *)
Definition cell_bound (prec emax : Z) (K : nat) (f g : nat -> R) (r : spec_float) : Prop :=
  in_format prec emax r /\ (sf_finite r = true ->
    Rabs (val r - rsum K (fun k => f k * g k)) <= ((1 + uro prec) ^ K - 1) * rsum K (fun k => Rabs (f k) * Rabs (g k)) + INR K * (1 + uro prec) ^ K * eta prec emax
    /\ (no_underflow emax K f g ->
       Rabs (val r - rsum K (fun k => f k * g k)) <= ((1 + uro prec) ^ K - 1) * rsum K (fun k => Rabs (f k) * Rabs (g k)))).

(** the cell holds an integer of the mathematical value z *)
Definition is_int (x : spec_float) (z : Z) : Prop := sf_finite x = true /\ val x = IZR z.
(** [l] is an ROWS x COLS matrix of the integers [A] *)
Definition int_matrix (ROWS COLS : nat) (l : list spec_float) (A : nat -> nat -> Z) : Prop :=
  forall i j, (i < ROWS)%nat -> (j < COLS)%nat -> exists x, cell COLS l i j = Some x /\ is_int x (A i j).
(** f 0 + ... + f (K-1) in the integers *)
Fixpoint zsum (K : nat) (f : nat -> Z) : Z := match K with O => 0%Z | S k => (zsum k f + f k)%Z end.

(** the filter's matrices hold representable floats (always so in Rust) *)
Definition kf_format (prec emax : Z) (f : kalman spec_float) : Prop :=
  all_in_format prec emax (kf_A f) /\ all_in_format prec emax (kf_x f) /\ all_in_format prec emax (kf_P f) /\ all_in_format prec emax (kf_Q f).

(** the computed value of q + sum_k f k * g k (K terms, any signs) *)
Definition vec_bound (prec emax : Z) (K : nat) (q : R) (f g : nat -> R) (r : spec_float) : Prop :=
  in_format prec emax r /\ (sf_finite r = true -> let u := uro prec in
    Rabs (val r - (q + rsum K (fun k => f k * g k))) <=
      ((1 + u) ^ (K + 1) - 1) * (Rabs q + rsum K (fun k => Rabs (f k) * Rabs (g k))) + (1 + u) ^ (K + 1) * eta prec emax * INR K).
(** the computed value of q + sum_k (sum_l s k l * t k l) * a k (K1 inner, K2 outer terms) *)
Definition mat_bound (prec emax : Z) (K1 K2 : nat) (q : R) (s t : nat -> nat -> R) (a : nat -> R) (r : spec_float) : Prop :=
  in_format prec emax r /\ (sf_finite r = true -> let u := uro prec in
    Rabs (val r - (q + rsum K2 (fun k => rsum K1 (fun l => s k l * t k l) * a k))) <=
      ((1 + u) ^ (K1 + K2 + 1) - 1) * (Rabs q + rsum K2 (fun k => rsum K1 (fun l => Rabs (s k l) * Rabs (t k l)) * Rabs (a k)))
      + (1 + u) ^ (K1 + K2 + 1) * eta prec emax * (INR K1 * rsum K2 (fun k => Rabs (a k)) + INR K2)).

(** all the buffers of a control, of an observation, hold representable floats (always so in Rust) *)
Definition ct_format (prec emax : Z) (k : control spec_float) : Prop :=
  all_in_format prec emax (ct_B k) /\ all_in_format prec emax (ct_u k) /\ all_in_format prec emax (ct_Q k).
Definition ob_format (prec emax : Z) (o : observation spec_float) : Prop :=
  all_in_format prec emax (ob_H o) /\ all_in_format prec emax (ob_z o) /\ all_in_format prec emax (ob_R o) /\
  all_in_format prec emax (ob_y o) /\ all_in_format prec emax (ob_S o) /\ all_in_format prec emax (ob_K o) /\ all_in_format prec emax (ob_Sinv o) /\
  all_in_format prec emax (ob_HP o) /\ all_in_format prec emax (ob_PHt o) /\ all_in_format prec emax (ob_KHP o).
