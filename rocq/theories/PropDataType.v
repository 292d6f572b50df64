(** * C94: Cargo features and the implementations for f32 and f64.  C95: double precision under every maths feature.

    [features] says which of std, libm and micromath are switched on; [selected f] is [Some (Some a)] if the code compiles and f32 / f64 have the
    implementation [a], [Some None] if they have none, [None] if the crate does not compile (DataType.v). *)
From Coq Require Import ZArith List Bool Reals.
From Verif Require Import Spec Matrix Filter SpecFilter SpecFloats SpecReal FloatNum DataType DataTypeProof.
Import SpecFloat ListNotations.
Open Scope R_scope.

(** ** C94 *)
(** false of the code: adding the feature micromath to libm stops the crate from compiling *)
Theorem C94_additive_refuted : exists f g : features, (exists a, selected f = Some (Some a)) /\
  ft_std g = ft_std f /\ ft_libm g = ft_libm f /\ ft_micromath f = false /\ ft_micromath g = true /\ selected g = None.
Proof. exact feature_breaks. Qed.
Print Assumptions C94_additive_refuted.
(** exactly when there is an implementation, and exactly when the crate does not compile *)
Theorem C94_works_partial : forall f : features, (exists a, selected f = Some (Some a)) <->
  ft_std f = true \/ (ft_libm f = true /\ ft_micromath f = false) \/ (ft_libm f = false /\ ft_micromath f = true).
Proof. exact selected_iff. Qed.
Print Assumptions C94_works_partial.
Theorem C94_fails_partial : forall f : features, selected f = None <-> ft_std f = false /\ ft_libm f = true /\ ft_micromath f = true.
Proof. exact selected_fails. Qed.
Print Assumptions C94_fails_partial.
(** never two competing blocks, and std always wins *)
Theorem C94_unique_partial : forall f : features, (length (arms f) <= 1)%nat.
Proof. exact one_arm. Qed.
Print Assumptions C94_unique_partial.
Theorem C94_std_partial : forall f : features, ft_std f = true -> selected f = Some (Some ArmStd).
Proof. exact std_wins. Qed.
Print Assumptions C94_std_partial.

(** ** C95: false of the code with micromath, whatever its square root [q] computes *)
(** there is a number between 1 and 2 whose square root is wrong by more than 2^-29 (double precision is 2^-53) *)
Theorem C95_precision_refuted : forall q : spec_float -> spec_float,
  exists x, in_format 53 1024 x /\ sf_finite x = true /\ 1 <= val x <= 2 /\
    (sf_finite (micro_sqrt q x) = false \/ Rabs (val (micro_sqrt q x) - sqrt (val x)) > / 536870912 * sqrt (val x)).
Proof. exact micro_precision. Qed.
Print Assumptions C95_precision_refuted.
(** there is one for which not even the order of magnitude is right *)
Theorem C95_range_refuted : forall q : spec_float -> spec_float,
  exists x, in_format 53 1024 x /\ sf_finite x = true /\ 0 < val x /\
    (sf_finite (micro_sqrt q x) = false \/ Rabs (val (micro_sqrt q x) - sqrt (val x)) > / 2 * sqrt (val x)).
Proof. exact micro_range. Qed.
Print Assumptions C95_range_refuted.
(** a correction with measurement noise 1/2 and one with 1/2 + 2^-26 cannot be told apart *)
Theorem C95_correct_refuted : forall (q : spec_float -> spec_float) (c : cfg) (sz : bool), (255 <= usize_max c)%nat ->
  exists f o1 o2 r1 r2, kf_valid c 1 f /\ ob_valid c 1 1 o1 /\ ob_valid c 1 1 o2 /\
    kf_P f = [r1] /\ ob_H o1 = [f64 1 0] /\ ob_H o2 = ob_H o1 /\ ob_z o2 = ob_z o1 /\ ob_R o1 = [r1] /\ ob_R o2 = [r2] /\ val r1 = / 2 /\ val r2 = / 2 + / 67108864 /\
    exists o1' o2' f1' f2', correct c (micro64_num q sz) 1 1 o1 f = Ok (o1', f1') /\ correct c (micro64_num q sz) 1 1 o2 f = Ok (o2', f2') /\
      ob_K o1' = ob_K o2' /\ kf_x f1' = kf_x f2' /\ kf_P f1' = kf_P f2'.
Proof. exact micro_blind. Qed.
Print Assumptions C95_correct_refuted.
(** what holds: with std or libm the square root of a positive number is right to the precision of the type, over its whole range ... *)
Theorem C95_sqrt_partial : forall (prec emax : Z) (sz : bool), format_ok prec emax -> forall x : spec_float,
  in_format prec emax x -> sf_finite x = true -> 0 < val x ->
  exists r, o_sqrt (sf_num prec emax sz) x = Some r /\ sf_finite r = true /\ Rabs (val r - sqrt (val x)) <= uro prec * sqrt (val x).
Proof. exact full_sqrt. Qed.
Print Assumptions C95_sqrt_partial.
(** ... and everything but the square root is the same with micromath *)
Theorem C95_else_partial : forall (q : spec_float -> spec_float) (sz : bool), let N := micro64_num q sz in let M := f64_num sz in
  n_zero N = n_zero M /\ n_one N = n_one M /\ n_sum0 N = n_sum0 M /\
  (forall a b, o_add N a b = o_add M a b /\ o_sub N a b = o_sub M a b /\ o_mul N a b = o_mul M a b /\ n_le N a b = n_le M a b) /\
  (forall a, o_neg N a = o_neg M a /\ o_recip N a = o_recip M a).
Proof. exact micro_else. Qed.
Print Assumptions C95_else_partial.
Example C95_example : in_format 53 1024 y1 /\ sf_finite y1 = true /\ val y1 = 1 + / 67108864.
Proof. exact sqrt_example. Qed.
