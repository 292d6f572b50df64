(** * Concrete matrices meeting the hypotheses of PropReal.v *)
From Coq Require Import ZArith Reals Lia Lra Psatz.
From Flocq Require Import Core BinarySingleNaN.
From Verif Require Import Prelude Spec SpecBits Matrix Filter SpecFilter BuildSim FloatNum SpecFloats FloatWit SpecReal FloatFlocq FloatInt BitsExamples.
Import SpecFloat.
Open Scope R_scope.

Lemma formats_ok : format_ok 24 128 /\ format_ok 53 1024.
Proof. unfold format_ok. lia. Qed.

Lemma p24 : Prec_gt_0 24. Proof. reflexivity. Qed.
Lemma e128 : Prec_lt_emax 24 128. Proof. reflexivity. Qed.

Lemma f32_int z : (Z.abs z <= 2 ^ 24)%Z -> in_format 24 128 (f32 z 0) /\ is_int (f32 z 0) z.
Proof.
  intros H. unfold f32, in_format, is_int, val. rewrite (binary_normalize_equiv 24 128 p24 e128). split; [apply valid_binary_B2SF|].
  rewrite fin_B, SF2R_B2SF. pose proof (binary_normalize_correct 24 128 p24 e128 mode_NE z 0 false) as HB.
  replace (F2R (Float radix2 z 0)) with (IZR z) in HB by (unfold F2R; cbn; ring).
  cbv zeta in HB. change (round_mode mode_NE) with ZnearestE in HB. rewrite round_generic in HB; [|auto with typeclass_instances|apply (int_format 24 128 p24 e128), H].
  rewrite Rlt_bool_true in HB by (apply (int_small 24 128 p24 e128), H). destruct HB as (HR & HFin & _). auto.
Qed.

Definition ia : list spec_float := [f32 1 0; f32 1 0; f32 0 0; f32 1 0].
Definition kf_int : kalman spec_float := mk_kalman ia [f32 3 0; f32 (-4) 0] [f32 5 0; f32 1 0; f32 1 0; f32 2 0] ia [f32 0 0; f32 0 0] [f32 0 0; f32 0 0; f32 0 0; f32 0 0].
Definition zA (i j : nat) : Z := if (i =? 1)%nat then (if (j =? 0)%nat then 0%Z else 1%Z) else 1%Z.
Definition zP (i j : nat) : Z := if (i =? j)%nat then (if (i =? 0)%nat then 5%Z else 2%Z) else 1%Z.
Definition zx (i : nat) : Z := if (i =? 0)%nat then 3%Z else (-4)%Z.

Ltac im := let i := fresh "i" in let j := fresh "j" in intros i j ? ?;
  do 2 (destruct i as [|i]; [do 2 (destruct j as [|j]; [first [exfalso; lia | eexists; split; [reflexivity|apply f32_int; cbn; lia]]|]); lia|]); lia.
Ltac af := repeat (apply Forall_cons; [vm_compute; reflexivity|]); apply Forall_nil.

Lemma int_example (c : cfg) : (255 <= usize_max c)%nat ->
  kf_valid c 2 kf_int /\ kf_format 24 128 kf_int /\ int_matrix 2 2 (kf_A kf_int) zA /\ int_matrix 2 1 (kf_x kf_int) (fun i _ => zx i) /\
  int_matrix 2 2 (kf_P kf_int) zP /\ int_matrix 2 2 (kf_Q kf_int) zA /\
  (forall i, (i < 2)%nat -> (zsum 2 (fun k => Z.abs (zA i k * zx k)) <= 2 ^ 24)%Z) /\
  (forall i k, (i < 2)%nat -> (k < 2)%nat -> (zsum 2 (fun l => Z.abs (zA i l * zP l k)) <= 2 ^ 24)%Z) /\
  (forall i j, (i < 2)%nat -> (j < 2)%nat -> (zsum 2 (fun k => Z.abs (zsum 2 (fun l => zA i l * zP l k) * zA j k)) + Z.abs (zA i j) <= 2 ^ 24)%Z).
Proof.
  intros Hc. split; [red; vt Hc|]. split; [unfold kf_format, all_in_format; cbn [kf_A kf_x kf_P kf_Q kf_int]; repeat split; af|].
  split; [im|]. split; [im|]. split; [im|]. split; [im|].
  assert (H2 : forall i, (i < 2)%nat -> i = 0%nat \/ i = 1%nat) by (intros; lia).
  split; [intros i Hi; destruct (H2 i Hi) as [->| ->]; vm_compute; discriminate|].
  split; intros i j Hi Hj; destruct (H2 i Hi) as [->| ->], (H2 j Hj) as [->| ->]; vm_compute; discriminate.
Qed.
Lemma err_example (c : cfg) : (255 <= usize_max c)%nat -> kf_valid c 2 kf_ex /\ kf_format 24 128 kf_ex /\ valid c 2 2 (kf_tP kf_ex).
Proof.
  intros Hc. split; [apply kf_ex_valid, Hc|]. split; [|vt Hc]. unfold kf_format, all_in_format; cbn [kf_A kf_x kf_P kf_Q kf_ex]. repeat split; af.
Qed.
Lemma chol_example (c : cfg) (sz : bool) : (255 <= usize_max c)%nat -> valid c 2 2 (kf_P kf_ex) /\ all_in_format 24 128 (kf_P kf_ex) /\
  exists L, cholesky_decompose_lower c (f32_num sz) 2 2 (kf_P kf_ex) = Ok (true, L).
Proof.
  intros Hc. split; [apply (kf_ex_valid c Hc)|]. split; [apply (err_example c Hc)|].
  assert (E : exists L, cholesky_decompose_lower tiny (f32_num sz) 2 2 (kf_P kf_ex) = Ok (true, L)) by (destruct sz; vm_compute; eexists; reflexivity).
  destruct E as (L & E). exists L. exact (cholesky_tiny c Hc _ _ _ _ E).
Qed.
