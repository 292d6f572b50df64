(** * A concrete f32 filter meeting the hypotheses of PropStable.v *)
From Coq Require Import ZArith Reals Lia Lra.
From Flocq Require Import Core BinarySingleNaN.
From Verif Require Import Prelude Spec Matrix Filter SpecFilter BuildSim FloatNum SpecFloats FloatWit SpecReal SpecRange SpecStable FloatFlocq FloatInt FloatErr BitsExamples RealExamples RoundExamples RangeExamples.
Import SpecFloat.
Open Scope R_scope.

(** two states coupled one way, one input; every row of A adds up to at most 5/8 *)
Definition kf_st : kalman spec_float := mk_kalman [f32 1 (-1); f32 1 (-3); f32 0 0; f32 1 (-1)] [f32 1 0; f32 2 0] [f32 1 0; f32 0 0; f32 0 0; f32 1 0]
  [f32 1 (-3); f32 0 0; f32 0 0; f32 1 (-3)] [f32 0 0; f32 0 0] [f32 0 0; f32 0 0; f32 0 0; f32 0 0].
Definition ct_st : control spec_float := mk_ctl [f32 1 0; f32 1 (-1)] [f32 0 0] [f32 1 (-3)] [f32 0 0; f32 0 0].

Lemma e_small : eta 24 128 <= / 16777216.
Proof. rewrite <- uro24. unfold eta, uro. apply bpow_le. lia. Qed.
Lemma pow7 : (1 + / 16777216) ^ 7 <= 1 + / 2000000.
Proof. cbn [pow]. lra. Qed.
Lemma stable_example (c : cfg) : (255 <= usize_max c)%nat ->
  stable_setup c 24 128 2 1 kf_st ct_st (5/8) 1 4 (/ 8) (/ 8) 16 2 /\ keeps 24 128 2 1 (5/8) 1 4 (/ 8) (/ 8) 16 2 /\
  turn_ok 24 128 1 4 (Some [f32 (-3) 0]) /\ turn_ok 24 128 1 4 None /\
  turn_err 24 128 2 1 (5/8) 1 4 16 / (1 - 5/8) <= / 10000 /\ turn_cov_err 24 128 2 1 (5/8) 1 (/ 8) (/ 8) 2 / (1 - 5/8 * (5/8)) <= / 10000.
Proof.
  intros Hc. assert (E4 : bpow radix2 4 = 16) by (cbn; lra). assert (E2 : bpow radix2 2 = 4) by (cbn; lra). assert (E1 : bpow radix2 1 = 2) by (cbn; lra). assert (Em : bpow radix2 (-3) = / 8) by (cbn; lra).
  pose proof e_small as He. pose proof (eta_pos 24 128) as He0. pose proof pow7 as H7.
  assert (H1 : 1 <= (1 + / 16777216) ^ 7) by (apply pow_R1_Rle; lra). pose proof big128 as HB.
  repeat match goal with |- _ /\ _ => split end.
  - red. split; [red; vt Hc|]. split; [red; vt Hc|]. split; [repeat split; af|]. split; [repeat split; af|].
    repeat match goal with |- fin_matrix _ _ _ /\ _ => split; [apply (small_list 2); [vm_compute; reflexivity|cbn; lia]|] end.
    split; [|split; [|split; [|split]]].
    + intros [|[|i]] Hi; [..|lia]; unfold rcell, cell; cbn [rsum Nat.mul Nat.add nth_error kf_A kf_st]; rewrite ?val_half, ?val_eighth, ?val_int by (cbn; lia); rewrite ?Rabs_R0, ?Rabs_pos_eq by lra; lra.
    + rewrite <- Em. apply (small_list (-3)); [vm_compute; reflexivity|cbn; lia].
    + intros [|[|i]] Hi; [..|lia]; unfold rcell, cell; cbn [rsum Nat.mul Nat.add nth_error ct_B ct_st]; rewrite ?val_half, ?val_eighth, ?val_int by (cbn; lia); rewrite ?Rabs_R0, ?Rabs_pos_eq by lra; lra.
    + rewrite <- Em. apply (small_list (-3)); [vm_compute; reflexivity|cbn; lia].
    + split; [lra|]. rewrite <- E4, <- E1. split; [|split; [|split]]; [apply (small_list 2)|apply (small_list 4)|apply (small_list 2)|apply (small_list 1)]; try (vm_compute; reflexivity); cbn; lia.
  - red. cbv zeta. unfold growth. rewrite uro24. cbn [Nat.mul Nat.add INR]. set (g := (1 + / 16777216) ^ 7) in *. set (e := eta 24 128) in *.
    repeat match goal with |- _ /\ _ => split end; nra.
  - red. split; [reflexivity|]. split; [af|]. rewrite <- E2. apply (small_list 2); [vm_compute; reflexivity|cbn; lia].
  - exact I.
  - unfold turn_err, growth. cbv zeta. rewrite uro24. cbn [Nat.mul Nat.add INR]. set (g := (1 + / 16777216) ^ 7) in *. set (e := eta 24 128) in *. nra.
  - unfold turn_cov_err, growth. cbv zeta. rewrite uro24. cbn [Nat.mul Nat.add INR]. set (g := (1 + / 16777216) ^ 7) in *. set (e := eta 24 128) in *. nra.
Qed.
