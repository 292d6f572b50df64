(** * Features and the single-precision square root (C94, C95) *)
From Coq Require Import ZArith List Bool Reals Lra Psatz Floats.SpecFloat.
From Flocq Require Import Core BinarySingleNaN.
From Verif Require Import Spec Matrix SpecFloats SpecReal FloatNum DataType FloatOps FloatScalar FloatWit BitsExamples.
Import ListNotations.
Open Scope R_scope.

Lemma one_arm f : (length (arms f) <= 1)%nat.
Proof. destruct f as [[|] [|] [|]]; cbn; auto. Qed.
Lemma selected_iff f : (exists a, selected f = Some (Some a)) <->
  ft_std f = true \/ (ft_libm f = true /\ ft_micromath f = false) \/ (ft_libm f = false /\ ft_micromath f = true).
Proof.
  destruct f as [[|] [|] [|]]; cbn; split.
  all: try (intros [a H]; try discriminate H; auto; fail).
  all: try (intros; eexists; reflexivity).
  all: intros [H|[[H1 H2]|[H1 H2]]]; try discriminate.
Qed.
Lemma selected_fails f : selected f = None <-> ft_std f = false /\ ft_libm f = true /\ ft_micromath f = true.
Proof. destruct f as [[|] [|] [|]]; cbn; split; try (intros (?&?&?)); try discriminate; auto. Qed.
Lemma feature_breaks : exists f g, (exists a, selected f = Some (Some a)) /\ ft_std g = ft_std f /\ ft_libm g = ft_libm f /\ ft_micromath f = false /\ ft_micromath g = true /\ selected g = None.
Proof.
  exists {| ft_std := false; ft_libm := true; ft_micromath := false |}, {| ft_std := false; ft_libm := true; ft_micromath := true |}.
  repeat split. eexists; reflexivity.
Qed.

(** ** the square root *)
Lemma val_fin s m e : val (S754_finite s m e) = IZR (if s then Zneg m else Zpos m) * bpow radix2 e.
Proof. unfold val, SF2R, F2R. cbn. destruct s; reflexivity. Qed.
Definition y0 : spec_float := f64 1 0.
Definition y1 : spec_float := f64 67108865 (-26).
Lemma val_y0 : val y0 = 1.
Proof. change y0 with (S754_finite false 4503599627370496 (-52)). rewrite val_fin. cbn. lra. Qed.
Lemma val_y1 : val y1 = 1 + / 67108864.
Proof. change y1 with (S754_finite false 4503599694479360 (-52)). rewrite val_fin. cbn. lra. Qed.
Lemma same_y q : micro_sqrt q y0 = micro_sqrt q y1.
Proof. reflexivity. Qed.

Lemma sqrt_y1 : 1 + / 134217728 - / 1073741824 < sqrt (1 + / 67108864).
Proof.
  rewrite <- (sqrt_square (1 + / 134217728 - / 1073741824)) by lra. apply sqrt_lt_1; nra.
Qed.
Lemma micro_precision (q : spec_float -> spec_float) :
  exists x, in_format 53 1024 x /\ sf_finite x = true /\ 1 <= val x <= 2 /\ (sf_finite (micro_sqrt q x) = false \/ Rabs (val (micro_sqrt q x) - sqrt (val x)) > / 536870912 * sqrt (val x)).
Proof.
  destruct (Rle_lt_dec (Rabs (val (micro_sqrt q y0) - sqrt (val y0))) (/ 536870912 * sqrt (val y0))) as [H0|H0].
  2: { exists y0. repeat split; try reflexivity; rewrite ?val_y0; try lra. right. rewrite val_y0 in H0. exact H0. }
  exists y1. repeat split; try reflexivity; rewrite ?val_y1; try lra. right. rewrite <- same_y.
  rewrite val_y0, sqrt_1 in H0. pose proof sqrt_y1 as H1. set (r := val (micro_sqrt q y0)) in *.
  set (t := sqrt (1 + / 67108864)) in *. assert (Ht : t < 2).
  { unfold t. rewrite <- (sqrt_square 2) by lra. apply sqrt_lt_1; lra. }
  assert (r <= 1 + / 536870912) by (unfold Rabs in H0; destruct (Rcase_abs (r - 1)); lra).
  rewrite Rabs_minus_sym, Rabs_pos_eq; [|lra].
  assert (t < 1 + / 134217728 + / 1000000000) by (unfold t; rewrite <- (sqrt_square (1 + / 134217728 + / 1000000000)) by lra; apply sqrt_lt_1; nra).
  lra.
Qed.

(** numbers beyond the range of f32 *)
Definition z0 : spec_float := f64 1 200.
Definition z1 : spec_float := f64 1 400.
Lemma same_z q : micro_sqrt q z0 = micro_sqrt q z1.
Proof. reflexivity. Qed.
Lemma val_z0 : val z0 = bpow radix2 200.
Proof. change z0 with (S754_finite false 4503599627370496 148). rewrite val_fin. change 4503599627370496%Z with (Zpower radix2 52). rewrite IZR_Zpower by lia. rewrite <- bpow_plus. reflexivity. Qed.
Lemma val_z1 : val z1 = bpow radix2 400.
Proof. change z1 with (S754_finite false 4503599627370496 348). rewrite val_fin. change 4503599627370496%Z with (Zpower radix2 52). rewrite IZR_Zpower by lia. rewrite <- bpow_plus. reflexivity. Qed.
Lemma sqrt_bpow2 e : sqrt (bpow radix2 (e + e)) = bpow radix2 e.
Proof. rewrite bpow_plus. apply sqrt_square, bpow_ge_0. Qed.
Lemma micro_range (q : spec_float -> spec_float) :
  exists x, in_format 53 1024 x /\ sf_finite x = true /\ 0 < val x /\ (sf_finite (micro_sqrt q x) = false \/ Rabs (val (micro_sqrt q x) - sqrt (val x)) > / 2 * sqrt (val x)).
Proof.
  assert (B : bpow radix2 100 * 4 < bpow radix2 200).
  { change 4 with (bpow radix2 2). rewrite <- bpow_plus. apply bpow_lt. lia. }
  pose proof (bpow_gt_0 radix2 100). pose proof (bpow_gt_0 radix2 200). pose proof (bpow_gt_0 radix2 400).
  destruct (Rle_lt_dec (Rabs (val (micro_sqrt q z0) - sqrt (val z0))) (/ 2 * sqrt (val z0))) as [H2|H2].
  2: { exists z0. repeat split; try reflexivity; rewrite ?val_z0; try lra. right. rewrite val_z0 in H2. exact H2. }
  exists z1. repeat split; try reflexivity; rewrite ?val_z1; try lra. right. rewrite <- same_z.
  rewrite val_z0 in H2. change 200%Z with (100 + 100)%Z in H2. change 400%Z with (200 + 200)%Z. rewrite sqrt_bpow2 in *.
  set (r := val (micro_sqrt q z0)) in *.
  assert (r <= 2 * bpow radix2 100) by (unfold Rabs in H2; destruct (Rcase_abs (r - bpow radix2 100)); lra).
  rewrite Rabs_minus_sym, Rabs_pos_eq; lra.
Qed.
(** one state, one measured component: the result depends on the innovation variance through its square root only *)
Section Scalar.
Variable T : Type.
Variables (zero one : T) (add sub mul : T -> T -> T) (neg recip sq : T -> T) (le : T -> T -> bool) (s0 : T).
Definition tot_num : num T := {| n_zero := zero; n_one := one; o_add := fun a b => Some (add a b); o_sub := fun a b => Some (sub a b); o_mul := fun a b => Some (mul a b);
  o_neg := fun a => Some (neg a); o_recip := fun a => Some (recip a); o_sqrt := fun a => Some (sq a); n_le := le; n_sum0 := s0 |}.
Variables h z p x a b a' : T.
Definition sc_o r := mk_obs [h] [z] [r] [a] [a] [a] [a] [a] [a] [a].
Definition sc_f := mk_kalman [b] [x] [p] [a'] [a'] [a'].
Definition sc_S r := add (add zero (mul (add zero (mul h p)) h)) r.
Lemma scalar_sqrt r1 r2 : le (sc_S r1) zero = false -> le (sc_S r2) zero = false -> sq (sc_S r1) = sq (sc_S r2) ->
  exists o1' o2' f1' f2', correct tiny tot_num 1 1 (sc_o r1) sc_f = Ok (o1', f1') /\ correct tiny tot_num 1 1 (sc_o r2) sc_f = Ok (o2', f2') /\
    ob_K o1' = ob_K o2' /\ kf_x f1' = kf_x f2' /\ kf_P f1' = kf_P f2'.
Proof.
  unfold sc_S. intros H1 H2 E. do 4 eexists.
  split; [vm_compute; rewrite H1; reflexivity|]. split; [vm_compute; rewrite H2; reflexivity|].
  cbn [ob_K kf_x kf_P]. rewrite E. repeat split; reflexivity.
Qed.
End Scalar.

(** measurement noise the filter cannot tell apart: 1/2 and 1/2 + 2^-26 *)
Definition mf : kalman spec_float := kf1 (f64 1 0) (f64 2 0) (f64 1 (-1)).
Definition mo (r : spec_float) : observation spec_float := ob1 (f64 1 0) r.
Lemma val_half64 : val (f64 1 (-1)) = / 2.
Proof. change (f64 1 (-1)) with (S754_finite false 4503599627370496 (-53)). rewrite val_fin. cbn. lra. Qed.
Lemma val_half64' : val (f64 33554433 (-26)) = / 2 + / 67108864.
Proof. change (f64 33554433 (-26)) with (S754_finite false 4503599761588224 (-53)). rewrite val_fin. cbn. lra. Qed.
Lemma micro_blind (q : spec_float -> spec_float) (c : cfg) (sz : bool) : (255 <= usize_max c)%nat ->
  exists f o1 o2 r1 r2, kf_valid c 1 f /\ ob_valid c 1 1 o1 /\ ob_valid c 1 1 o2 /\
    kf_P f = [r1] /\ ob_H o1 = [f64 1 0] /\ ob_H o2 = ob_H o1 /\ ob_z o2 = ob_z o1 /\ ob_R o1 = [r1] /\ ob_R o2 = [r2] /\ val r1 = / 2 /\ val r2 = / 2 + / 67108864 /\
    exists o1' o2' f1' f2', correct c (micro64_num q sz) 1 1 o1 f = Ok (o1', f1') /\ correct c (micro64_num q sz) 1 1 o2 f = Ok (o2', f2') /\
      ob_K o1' = ob_K o2' /\ kf_x f1' = kf_x f2' /\ kf_P f1' = kf_P f2'.
Proof.
  intros Hc. exists mf, (mo (f64 1 (-1))), (mo (f64 33554433 (-26))), (f64 1 (-1)), (f64 33554433 (-26)).
  assert (E : exists o1' o2' f1' f2', correct tiny (micro64_num q sz) 1 1 (mo (f64 1 (-1))) mf = Ok (o1', f1') /\
    correct tiny (micro64_num q sz) 1 1 (mo (f64 33554433 (-26))) mf = Ok (o2', f2') /\
    ob_K o1' = ob_K o2' /\ kf_x f1' = kf_x f2' /\ kf_P f1' = kf_P f2').
  { refine (scalar_sqrt spec_float (S754_zero false) (sf_one 53) (SFadd 53 1024) (SFsub 53 1024) (SFmul 53 1024) SFopp (SFdiv 53 1024 (sf_one 53)) (micro_sqrt q) SFleb (S754_zero sz)
      (f64 1 0) (f64 1 0) (f64 1 (-1)) (f64 2 0) (S754_zero false) (f64 1 0) (S754_zero false) (f64 1 (-1)) (f64 33554433 (-26)) _ _ _); vm_compute; reflexivity. }
  destruct E as (o1' & o2' & f1' & f2' & E1 & E2 & E3). apply (correct_tiny c Hc) in E1, E2.
  split; [apply kf1_valid, Hc|]. split; [apply ob1_valid, Hc|]. split; [apply ob1_valid, Hc|].
  do 6 (split; [reflexivity|]). split; [apply val_half64|]. split; [apply val_half64'|]. exists o1', o2', f1', f2'. auto.
Qed.

(** the correctly rounded square root of std and libm *)
Lemma full_sqrt (prec emax : Z) (sz : bool) (HF : format_ok prec emax) (x : spec_float) : in_format prec emax x -> sf_finite x = true -> 0 < val x ->
  exists r, o_sqrt (sf_num prec emax sz) x = Some r /\ sf_finite r = true /\ Rabs (val r - sqrt (val x)) <= uro prec * sqrt (val x).
Proof.
  intros V F H. exists (SFsqrt prec emax x). split; [reflexivity|].
  destruct (sqrt_fin prec emax HF x V F H) as [F1 L1]. split; [exact F1|].
  destruct (sqrt_val prec emax (hprec prec emax HF) (hmax prec emax HF) x V F1 L1) as (_ & _ & E). rewrite E.
  pose proof (sqrt_lower prec emax (hmax prec emax HF) x V H) as HL.
  destruct (rnd_err_normal prec emax (hprec prec emax HF) (sqrt (val x))) as [HR _].
  { rewrite Rabs_pos_eq by apply sqrt_pos. exact HL. }
  rewrite (Rabs_pos_eq (sqrt (val x))) in HR by apply sqrt_pos. exact HR.
Qed.
(** the reciprocal is the correctly rounded quotient under every feature that gives f64 an implementation *)
Lemma micro_else (q : spec_float -> spec_float) (sz : bool) : let N := micro64_num q sz in let M := f64_num sz in
  n_zero N = n_zero M /\ n_one N = n_one M /\ n_sum0 N = n_sum0 M /\ (forall a b, o_add N a b = o_add M a b /\ o_sub N a b = o_sub M a b /\ o_mul N a b = o_mul M a b /\ n_le N a b = n_le M a b) /\
  (forall a, o_neg N a = o_neg M a /\ o_recip N a = o_recip M a).
Proof. cbn. repeat split. Qed.
(** a prediction or a control uses no square root: micromath makes no difference *)
Lemma micro_predict (q : spec_float -> spec_float) (c : cfg) (sz : bool) n f : predict c (micro64_num q sz) n f = predict c (f64_num sz) n f.
Proof. reflexivity. Qed.
Lemma std_wins f : ft_std f = true -> selected f = Some (Some ArmStd).
Proof. destruct f as [[|] [|] [|]]; cbn; try discriminate; reflexivity. Qed.
Lemma sqrt_example : in_format 53 1024 y1 /\ sf_finite y1 = true /\ val y1 = 1 + / 67108864.
Proof. split; [reflexivity|]. split; [reflexivity|]. exact val_y1. Qed.
