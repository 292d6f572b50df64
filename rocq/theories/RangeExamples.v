(** * Concrete filters meeting the hypotheses of PropRange.v *)
From Coq Require Import ZArith Reals Lia Lra.
From Flocq Require Import Core BinarySingleNaN.
From Verif Require Import Prelude Spec Matrix Filter SpecFilter BuildSim FloatNum SpecFloats FloatWit SpecReal SpecRange FloatFlocq FloatInt FloatErr BitsExamples RealExamples RoundExamples.
Import SpecFloat.
Open Scope R_scope.

(** [x] is finite and at most 2^k *)
Definition smallb (k : Z) (x : spec_float) : bool :=
  match x with S754_zero _ => true | S754_finite _ m e => (Z.leb 0 (k - e)) && (Z.leb (Z.pos m) (2 ^ (k - e))) | _ => false end.
Lemma smallb_ok k x : smallb k x = true -> sf_finite x = true /\ Rabs (val x) <= bpow radix2 k.
Proof.
  destruct x as [s|s| |s m e]; cbn; try discriminate; intros H.
  - split; [reflexivity|]. unfold val; cbn. rewrite Rabs_R0. apply bpow_ge_0.
  - split; [reflexivity|]. apply andb_prop in H. destruct H as (He & Hm). apply Z.leb_le in He, Hm. unfold val, SF2R. rewrite <- F2R_Zabs, abs_cond_Zopp. unfold F2R. cbn [Fnum Fexp Z.abs].
    replace k with ((k - e) + e)%Z at 1 by lia. rewrite bpow_plus. apply Rmult_le_compat_r; [apply bpow_ge_0|]. rewrite <- (IZR_Zpower radix2) by lia. apply IZR_le. exact Hm.
Qed.
Lemma small_list k R C l : forallb (smallb k) l = true -> (R * C <= length l)%nat -> fin_matrix R C l /\ at_most R C l (bpow radix2 k).
Proof.
  intros H HL. assert (G : forall i j, (i < R)%nat -> (j < C)%nat -> exists x, cell C l i j = Some x /\ sf_finite x = true /\ Rabs (val x) <= bpow radix2 k).
  { intros i j Hi Hj. destruct (cell C l i j) as [x|] eqn:E.
    - exists x. split; [reflexivity|]. apply smallb_ok. unfold cell in E. apply nth_error_In in E. rewrite forallb_forall in H. apply H, E.
    - exfalso. unfold cell in E. apply nth_error_None in E. pose proof (row_bound R C i j Hi Hj). lia. }
  split; intros i j Hi Hj; destruct (G i j Hi Hj) as (x & E & F & B); [exists x; auto|]. unfold rcell. rewrite E. exact B.
Qed.
Ltac sm := first [apply small_list | apply (small_list 3)]; [vm_compute; reflexivity|cbn; lia].

Lemma b3 : bpow radix2 3 = 8. Proof. cbn. lra. Qed.
Lemma uro24 : uro 24 = / 16777216. Proof. unfold uro. cbn. lra. Qed.
Lemma big128 : 2 ^ 60 < too_big 128.
Proof. unfold too_big. replace (2 ^ 60) with (bpow radix2 60); [apply bpow_lt; lia|]. unfold bpow, radix_val, radix2. rewrite pow_IZR. f_equal. Qed.

Lemma range_predict_example (c : cfg) : (255 <= usize_max c)%nat ->
  kf_valid c 2 kf_ex /\ kf_format 24 128 kf_ex /\ fin_matrix 2 2 (kf_A kf_ex) /\ fin_matrix 2 1 (kf_x kf_ex) /\ fin_matrix 2 2 (kf_P kf_ex) /\ fin_matrix 2 2 (kf_Q kf_ex) /\
  at_most 2 2 (kf_A kf_ex) 8 /\ at_most 2 1 (kf_x kf_ex) 8 /\ at_most 2 2 (kf_P kf_ex) 8 /\ at_most 2 2 (kf_Q kf_ex) 8 /\
  INR (4 * 2 + 2) * uro 24 <= 1 /\ 8 * INR 2 ^ 2 * 8 ^ 3 < too_big 128.
Proof.
  intros Hc. rewrite <- b3. split; [apply kf_ex_valid, Hc|]. split; [apply kf_fmt_ex|]. repeat (split; [sm|]). rewrite uro24. split; [cbn; lra|].
  eapply Rlt_trans; [|apply big128]. rewrite b3. cbn. lra.
Qed.
Lemma val_half : val (f32 1 (-1)) = / 2.
Proof. replace (f32 1 (-1)) with (S754_finite false 8388608 (-24)) by (vm_compute; reflexivity). unfold val, SF2R, F2R. cbn. lra. Qed.
Lemma val_eighth : val (f32 1 (-3)) = / 8.
Proof. replace (f32 1 (-3)) with (S754_finite false 8388608 (-26)) by (vm_compute; reflexivity). unfold val, SF2R, F2R. cbn. lra. Qed.
Lemma val_int z : (Z.abs z <= 2 ^ 24)%Z -> val (f32 z 0) = IZR z.
Proof. intros H. apply f32_int, H. Qed.
Lemma range_scalar_example (c : cfg) : (255 <= usize_max c)%nat ->
  kf_valid c 2 kf_ex /\ ob_valid c 2 1 ob_one /\ kf_format 24 128 kf_ex /\ ob_format 24 128 ob_one /\
  fin_matrix 2 1 (kf_x kf_ex) /\ fin_matrix 2 2 (kf_P kf_ex) /\ fin_matrix 1 2 (ob_H ob_one) /\ fin_matrix 1 1 (ob_z ob_one) /\ fin_matrix 1 1 (ob_R ob_one) /\
  at_most 2 1 (kf_x kf_ex) 8 /\ at_most 2 2 (kf_P kf_ex) 8 /\ at_most 1 2 (ob_H ob_one) 8 /\ at_most 1 1 (ob_z ob_one) 8 /\ at_most 1 1 (ob_R ob_one) 8 /\
  INR (8 * 2 + 4) * uro 24 <= 1 /\ 1 <= in_var 2 (rcell 1 (ob_R ob_one) 0 0) (rcell 2 (ob_H ob_one) 0) (rcell 2 (kf_P kf_ex)) /\
  32 * INR 2 ^ 3 * 8 ^ 3 * uro 24 <= 1 <= 1 /\ 256 * INR 2 ^ 2 * 8 ^ 4 / 1 < too_big 128.
Proof.
  intros Hc. split; [apply kf_ex_valid, Hc|]. split; [apply ob_one_valid, Hc|]. split; [apply kf_fmt_ex|]. split; [apply ob_one_fmt|]. rewrite <- b3. repeat (split; [sm|]). rewrite uro24, b3.
  split; [cbn; lra|]. split.
  - unfold in_var, rcell, cell. cbn [rsum Nat.mul Nat.add nth_error ob_R ob_H ob_one kf_P kf_ex]. rewrite val_half, val_eighth, !val_int by (cbn; lia). lra.
  - split; [cbn; lra|]. eapply Rlt_trans; [|apply big128]. cbn. lra.
Qed.
Lemma range_other_example (c : cfg) : (255 <= usize_max c)%nat ->
  (kf_valid c 2 kf_ex /\ ct_valid c 2 1 ct_ex /\ ob_valid c 2 2 ob_ex) /\
  (kf_format 24 128 kf_ex /\ ct_format 24 128 ct_ex /\ ob_format 24 128 ob_ex) /\
  (fin_matrix 2 1 (kf_x kf_ex) /\ fin_matrix 2 2 (kf_P kf_ex) /\ fin_matrix 2 1 (ct_B ct_ex) /\ fin_matrix 1 1 (ct_u ct_ex) /\ fin_matrix 1 1 (ct_Q ct_ex) /\
   fin_matrix 2 2 (ob_H ob_ex) /\ fin_matrix 2 1 (ob_z ob_ex)) /\
  vec_room 24 128 1 (rcell 1 (kf_x kf_ex) 0 0) (fun l => rcell 1 (ct_B ct_ex) 0 l) (fun l => rcell 1 (ct_u ct_ex) l 0).
Proof.
  intros Hc. split; [split; [apply kf_ex_valid, Hc|]; split; [apply ct_ex_valid, Hc|apply ob_ex_valid, Hc]|]. split; [split; [apply kf_fmt_ex|]; split; [apply ct_fmt_ex|apply ob_fmt_ex]|].
  split; [repeat (split; [sm|]); sm|].
  unfold vec_room, rcell, cell. cbn [rsum Nat.mul Nat.add nth_error ct_B ct_u ct_ex kf_x kf_ex]. rewrite val_half, !val_int by (cbn; lia). rewrite uro24.
  eapply Rle_lt_trans; [|apply big128]. assert (He : eta 24 128 <= 1) by (unfold eta; change 1 with (bpow radix2 0); apply bpow_le; lia). rewrite !Rabs_pos_eq by lra. cbn [INR pow Nat.add]. lra.
Qed.
