(** * Floating-point results against real numbers: C46 (diagonal), C47, C64, C65.

    [sf_num prec emax] is f32 for (24, 128) and f64 for (53, 1024); [val] is the real number a float stands for, u = 2^-prec the unit
    roundoff.  Vocabulary: SpecReal.v.  These theorems rest on the standard library's real numbers. *)
From Coq Require Import ZArith Reals.
From Verif Require Import Spec Matrix Filter SpecFilter FloatNum SpecFloats SpecReal FloatErr FloatInt FloatPredict FloatChol BitsExamples RealExamples.
Open Scope R_scope.

(** ** C46: what a successful decomposition guarantees: every diagonal entry is positive or a NaN *)
Theorem C46_diagonal_partial : forall (c : cfg) (prec emax : Z) (sz : bool), format_ok prec emax -> forall (n : nat) (A L : list spec_float),
  (1 <= n)%nat -> valid c n n A -> all_in_format prec emax A ->
  cholesky_decompose_lower c (sf_num prec emax sz) n n A = Ok (true, L) ->
  forall i, (i < n)%nat -> exists d, cell n L i i = Some d /\ (sf_pos d = true \/ sf_nan d = true).
Proof. exact cholesky_diag. Qed.
Print Assumptions C46_diagonal_partial.
(** and a finite, symmetric matrix that is far from positive definite (2^-126 * 1 < 2^127 * 2^127) can be accepted, with a NaN *)
Theorem C46_finite_accepted_refuted : forall (c : cfg) (sz : bool), (255 <= usize_max c)%nat ->
  exists A L, valid c 3 3 A /\ all_finite A /\ sf_sym 3 A /\
    cell 3 A 0 0 = Some (f32 1 (-126)) /\ cell 3 A 2 2 = Some (f32 1 0) /\ cell 3 A 0 2 = Some (f32 1 127) /\
    cholesky_decompose_lower c (f32_num sz) 3 3 A = Ok (true, L) /\ cell 3 L 2 2 = Some S754_nan.
Proof. exact indef_accepted. Qed.
Print Assumptions C46_finite_accepted_refuted.
Example C46_example : forall (c : cfg) (sz : bool), (255 <= usize_max c)%nat -> valid c 2 2 (kf_P kf_ex) /\ all_in_format 24 128 (kf_P kf_ex) /\
  exists L, cholesky_decompose_lower c (f32_num sz) 2 2 (kf_P kf_ex) = Ok (true, L).
Proof. exact chol_example. Qed.

(** ** C47: the a-priori error bound for products *)
Theorem C47_mult : forall (c : cfg) (prec emax : Z) (sz : bool), format_ok prec emax -> forall (M K U : nat) (a b out : list spec_float),
  valid c M K a -> valid c K U b -> valid c M U out -> all_in_format prec emax a -> all_in_format prec emax b ->
  exists out', mult c (sf_num prec emax sz) M K U a b out = Ok out' /\ forall i j, (i < M)%nat -> (j < U)%nat ->
    exists r, cell U out' i j = Some r /\ cell_bound prec emax K (fun k => rcell K a i k) (fun k => rcell U b k j) r.
Proof. exact mult_err. Qed.
Print Assumptions C47_mult.
Theorem C47_mult_transb : forall (c : cfg) (prec emax : Z) (sz : bool), format_ok prec emax -> forall (M K U : nat) (a b out : list spec_float),
  valid c M K a -> valid c U K b -> valid c M U out -> all_in_format prec emax a -> all_in_format prec emax b ->
  exists out', mult_transb c (sf_num prec emax sz) M K U a b out = Ok out' /\ forall i j, (i < M)%nat -> (j < U)%nat ->
    exists r, cell U out' i j = Some r /\ cell_bound prec emax K (fun k => rcell K a i k) (fun k => rcell K b j k) r.
Proof. exact mult_transb_err. Qed.
Print Assumptions C47_mult_transb.
Theorem C47_mult_rowvector : forall (c : cfg) (prec emax : Z) (sz : bool), format_ok prec emax -> forall (M K : nat) (a x out : list spec_float),
  (1 <= K)%nat -> valid c M K a -> valid c K 1 x -> valid c M 1 out -> all_in_format prec emax a -> all_in_format prec emax x ->
  exists out', mult_rowvector c (sf_num prec emax sz) M K a x out = Ok out' /\ forall i, (i < M)%nat ->
    exists r, cell 1 out' i 0 = Some r /\ cell_bound prec emax K (fun k => rcell K a i k) (fun k => rcell 1 x k 0) r.
Proof. exact mult_rowvector_err. Qed.
Print Assumptions C47_mult_rowvector.

Example C47_formats : format_ok 24 128 /\ format_ok 53 1024.
Proof. exact formats_ok. Qed.
Example C47_C65_example : forall c : cfg, (255 <= usize_max c)%nat -> kf_valid c 2 kf_ex /\ kf_format 24 128 kf_ex /\ valid c 2 2 (kf_tP kf_ex).
Proof. exact err_example. Qed.

(** ** C64: integers up to 2^prec are computed without any error *)
Theorem C64_mult : forall (c : cfg) (prec emax : Z) (sz : bool), format_ok prec emax -> forall (M K U : nat) (a b out : list spec_float) (A B : nat -> nat -> Z),
  valid c M K a -> valid c K U b -> valid c M U out -> all_in_format prec emax a -> all_in_format prec emax b ->
  int_matrix M K a A -> int_matrix K U b B ->
  (forall i j, (i < M)%nat -> (j < U)%nat -> (zsum K (fun k => Z.abs (A i k * B k j)) <= 2 ^ prec)%Z) ->
  exists out', mult c (sf_num prec emax sz) M K U a b out = Ok out' /\ int_matrix M U out' (fun i j => zsum K (fun k => A i k * B k j)%Z).
Proof. exact mult_int. Qed.
Print Assumptions C64_mult.
Theorem C64_mult_transb : forall (c : cfg) (prec emax : Z) (sz : bool), format_ok prec emax -> forall (M K U : nat) (a b out : list spec_float) (A B : nat -> nat -> Z),
  valid c M K a -> valid c U K b -> valid c M U out -> all_in_format prec emax a -> all_in_format prec emax b ->
  int_matrix M K a A -> int_matrix U K b B ->
  (forall i j, (i < M)%nat -> (j < U)%nat -> (zsum K (fun k => Z.abs (A i k * B j k)) <= 2 ^ prec)%Z) ->
  exists out', mult_transb c (sf_num prec emax sz) M K U a b out = Ok out' /\ int_matrix M U out' (fun i j => zsum K (fun k => A i k * B j k)%Z).
Proof. exact mult_transb_int. Qed.
Print Assumptions C64_mult_transb.
Theorem C64_predict : forall (c : cfg) (prec emax : Z) (sz : bool), format_ok prec emax -> forall (n : nat) (f : kalman spec_float)
    (A : nat -> nat -> Z) (x : nat -> Z) (P Q : nat -> nat -> Z),
  (1 <= n)%nat -> kf_valid c n f -> kf_format prec emax f ->
  int_matrix n n (kf_A f) A -> int_matrix n 1 (kf_x f) (fun i _ => x i) -> int_matrix n n (kf_P f) P -> int_matrix n n (kf_Q f) Q ->
  (forall i, (i < n)%nat -> (zsum n (fun k => Z.abs (A i k * x k)) <= 2 ^ prec)%Z) ->
  (forall i k, (i < n)%nat -> (k < n)%nat -> (zsum n (fun l => Z.abs (A i l * P l k)) <= 2 ^ prec)%Z) ->
  (forall i j, (i < n)%nat -> (j < n)%nat -> (zsum n (fun k => Z.abs (zsum n (fun l => A i l * P l k) * A j k)) + Z.abs (Q i j) <= 2 ^ prec)%Z) ->
  exists f', predict c (sf_num prec emax sz) n f = Ok f' /\
    int_matrix n 1 (kf_x f') (fun i _ => zsum n (fun k => A i k * x k)%Z) /\
    int_matrix n n (kf_P f') (fun i j => (zsum n (fun k => zsum n (fun l => A i l * P l k) * A j k) + Q i j)%Z).
Proof. exact predict_int. Qed.
Print Assumptions C64_predict.
Example C64_example : forall c : cfg, (255 <= usize_max c)%nat ->
  kf_valid c 2 kf_int /\ kf_format 24 128 kf_int /\ int_matrix 2 2 (kf_A kf_int) zA /\ int_matrix 2 1 (kf_x kf_int) (fun i _ => zx i) /\
  int_matrix 2 2 (kf_P kf_int) zP /\ int_matrix 2 2 (kf_Q kf_int) zA /\
  (forall i, (i < 2)%nat -> (zsum 2 (fun k => Z.abs (zA i k * zx k)) <= 2 ^ 24)%Z) /\
  (forall i k, (i < 2)%nat -> (k < 2)%nat -> (zsum 2 (fun l => Z.abs (zA i l * zP l k)) <= 2 ^ 24)%Z) /\
  (forall i j, (i < 2)%nat -> (j < 2)%nat -> (zsum 2 (fun k => Z.abs (zsum 2 (fun l => zA i l * zP l k) * zA j k)) + Z.abs (zA i j) <= 2 ^ 24)%Z).
Proof. exact int_example. Qed.

(** ** C65: the error of one prediction: x as in C47; P' against A P A' + Q *)
Theorem C65_predict : forall (c : cfg) (prec emax : Z) (sz : bool), format_ok prec emax -> forall (n : nat) (f : kalman spec_float),
  (1 <= n)%nat -> kf_valid c n f -> kf_format prec emax f ->
  exists f', predict c (sf_num prec emax sz) n f = Ok f' /\
  (forall i, (i < n)%nat -> exists r, cell 1 (kf_x f') i 0 = Some r /\
     cell_bound prec emax n (fun k => rcell n (kf_A f) i k) (fun k => rcell 1 (kf_x f) k 0) r) /\
  (forall i j, (i < n)%nat -> (j < n)%nat -> exists r, cell n (kf_P f') i j = Some r /\ in_format prec emax r /\ (sf_finite r = true ->
     let u := uro prec in let A := rcell n (kf_A f) in let P := rcell n (kf_P f) in let q := rcell n (kf_Q f) i j in
     Rabs (val r - (rsum n (fun k => rsum n (fun l => A i l * P l k) * A j k) + q)) <=
       ((1 + u) ^ (2 * n + 1) - 1) * (rsum n (fun k => rsum n (fun l => Rabs (A i l) * Rabs (P l k)) * Rabs (A j k)) + Rabs q)
       + INR n * (1 + u) ^ (n + 1) * eta prec emax * ((1 + u) ^ n * rsum n (fun k => Rabs (A j k)) + 1))).
Proof. exact predict_err. Qed.
Print Assumptions C65_predict.
