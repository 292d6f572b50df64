(** * A concrete filter meeting the hypotheses of the single-component theorems of PropRange.v, with a margin *)
From Coq Require Import ZArith Reals Lia Lra Psatz.
From Flocq Require Import Core BinarySingleNaN.
From Verif Require Import Prelude Spec Matrix Filter SpecFilter BuildSim FloatNum SpecFloats FloatWit SpecReal SpecRange FloatFlocq FloatInt FloatErr FloatPredict FloatRange FloatScalar BitsExamples RealExamples RoundExamples RangeExamples.
Import SpecFloat.
Open Scope R_scope.

(** H = (1, 1/2), P = ((5, 1), (1, 2)), R = 1/8, x = (3, 1), z = 2 *)
Notation Hx := (rcell 2 (ob_H ob_one) 0). Notation Px := (rcell 2 (kf_P kf_ex)). Notation rx := (rcell 1 (ob_R ob_one) 0 0).
Lemma cells_ex : (Hx 0%nat = 1 /\ Hx 1%nat = / 2) /\ (Px 0%nat 0%nat = 5 /\ Px 0%nat 1%nat = 1 /\ Px 1%nat 0%nat = 1 /\ Px 1%nat 1%nat = 2) /\ rx = / 8.
Proof.
  unfold rcell, cell. cbn [Nat.mul Nat.add nth_error ob_R ob_H ob_one kf_P kf_ex]. rewrite val_half, val_eighth, !val_int by (cbn; lia). repeat split; lra.
Qed.
Lemma room_ex (c : cfg) : (255 <= usize_max c)%nat -> scalar_room 24 128 2 rx (rcell 1 (ob_z ob_one) 0 0) Hx (fun i => rcell 1 (kf_x kf_ex) i 0) Px.
Proof.
  intros Hc. destruct (range_scalar_example c Hc) as (_ & _ & _ & _ & _ & _ & _ & _ & _ & Bx & BP & BH & Bz & BR & Hu & Hs & H1 & H2).
  apply (small_room 24 128 ltac:(apply formats_ok) 2 _ _ _ _ _ 8 1); auto; try lia; try lra.
Qed.
Lemma sym_ex : sym_on 2 Px.
Proof. destruct cells_ex as (_ & (A & B & D & E) & _). intros i j Hi Hj. destruct i as [|[|i]], j as [|[|j]]; try lia; rewrite ?A, ?B, ?D, ?E; reflexivity. Qed.
Lemma margin_ex : cov_err 24 128 2 rx Hx Px 0 0 < post_P 2 rx Hx Px 0 0.
Proof.
  destruct cells_ex as ((H0 & H1) & (P00 & P01 & P10 & P11) & Hr). pose proof uro24 as Hu. pose proof (eta_pos 24 128) as He.
  assert (He1 : eta 24 128 <= uro 24 * / 16777216). { unfold eta, uro. replace (/ 16777216) with (bpow radix2 (-24)) by (cbn; lra). rewrite <- bpow_plus. apply bpow_le. lia. }
  rewrite Hu in He1. set (e := eta 24 128) in *.
  assert (PW : forall K, (K <= 20)%nat -> 1 <= (1 + uro 24) ^ K <= 1 + 2 * INR K * uro 24).
  { intros K HK. split; [apply pow_R1_Rle; rewrite Hu; lra|]. assert (INR (2 * K) * uro 24 <= 1) as HH. { apply le_INR in HK. rewrite mult_INR, Hu. cbn [INR] in *. lra. }
    pose proof (pow_lin 24 K HH). lra. }
  rewrite Hu in PW. set (v := / 16777216) in *. assert (Hv : 0 < v <= / 1000000) by (unfold v; lra). assert (Hev : e <= v * / 1000000) by nra. assert (Hev' : e <= v) by lra. clear He1.
  assert (S0 : in_var 2 rx Hx Px = 53 / 8). { unfold in_var. cbn [rsum]. rewrite H0, H1, P00, P01, P10, P11, Hr. lra. }
  assert (E0 : 0 <= in_var_err 24 128 2 rx Hx Px <= 100 * v).
  { unfold in_var_err. cbv zeta. cbn [rsum]. rewrite H0, H1, P00, P01, P10, P11, Hr, Hu. fold e v. rewrite !Rabs_pos_eq by lra. pose proof (PW 5%nat ltac:(lia)) as Q. cbn [Nat.add INR] in *.
    set (q := (1 + v) ^ 5) in *. assert (0 <= q * e <= 2 * v) by (split; nra). nra. }
  set (eS := in_var_err 24 128 2 rx Hx Px) in *.
  assert (I0 : 0 <= inv_max 24 128 2 rx Hx Px <= 16 / 100).
  { unfold inv_max. rewrite S0, Hu. fold eS e v. pose proof (PW 5%nat ltac:(lia)) as Q. cbn [INR] in Q. set (q := (1 + v) ^ 5) in *. assert (HL : 66 / 10 <= 53 / 8 - eS) by lra.
    assert (HI : / (53 / 8 - eS) <= / (66 / 10)) by (apply Rinv_le; lra). assert (0 < / (53 / 8 - eS)) by (apply Rinv_0_lt_compat; lra). 
    set (w := / (53 / 8 - eS)) in *. change (0 <= q * w + e <= 16 / 100). split; [apply Rplus_le_le_0_compat; [apply Rmult_le_pos; lra|lra]|]. replace (/ (66 / 10)) with (10 / 66) in HI by field. assert (q * w <= (1 + 10 * v) * (10 / 66)) by (apply Rmult_le_compat; lra). lra. }
  assert (A0 : rsum 2 (fun l => Rabs (Px 0 l) * Rabs (Hx l)) = 11 / 2). { cbn [rsum]. rewrite H0, H1, P00, P01, !Rabs_pos_eq by lra. lra. }
  assert (G0 : 0 <= gain_max 24 128 2 rx Hx Px 0 <= 95 / 100).
  { unfold gain_max. cbv zeta. rewrite A0, Hu. fold e v. pose proof (PW 2%nat ltac:(lia)) as Q. cbn [INR] in *. set (q := (1 + v) ^ 2) in *. set (w := inv_max 24 128 2 rx Hx Px) in *.
    assert (B : 0 <= q * (11 / 2 + (1 + 1) * e) <= 56 / 10) by (split; nra). set (b := q * _) in *. assert (B2 : 0 <= (1 + v) * b <= 57 / 10) by (split; nra). set (b2 := (1 + v) * b) in *.
    assert (0 <= b2 * w <= 57 / 10 * (16 / 100)) by (split; [apply Rmult_le_pos; lra|apply Rmult_le_compat; lra]). lra. }
  set (g := gain_max 24 128 2 rx Hx Px 0) in *.
  assert (R0 : 0 <= gain_err 24 128 2 rx Hx Px 0 <= 300 * v).
  { unfold gain_err. cbv zeta. fold g. rewrite A0, S0, Hu. fold e v eS. rewrite (Rabs_pos_eq (53 / 8)) by lra. pose proof (PW 2%nat ltac:(lia)) as Q2. pose proof (PW 6%nat ltac:(lia)) as Q6. cbn [INR] in *.
    set (q2 := (1 + v) ^ 2) in *. set (q6 := (1 + v) ^ 6) in *. assert (B : 11 / 2 <= q2 * (11 / 2 + (1 + 1) * e) <= 11 / 2 + 40 * v) by (split; nra). set (b := q2 * _) in *.
    assert (B6 : 11 / 2 <= q6 * b <= 11 / 2 + 150 * v) by (split; nra). assert (0 <= g * eS <= 95 / 100 * (100 * v)) by (split; [apply Rmult_le_pos; lra|apply Rmult_le_compat; lra]).
    assert (0 <= e * (53 / 8 + eS) <= v * / 1000) by (split; nra). assert (0 <= e * (53 / 8 + eS) * (2 * b + 1) <= v) by (split; nra). lra. }
  set (ge := gain_err 24 128 2 rx Hx Px 0) in *.
  assert (D0 : hp 2 Hx Px 0 = 11 / 2). { unfold hp. cbn [rsum]. rewrite H0, H1, P00, P10. lra. }
  assert (D1 : ph 2 Hx Px 0 = 11 / 2). { unfold ph. cbn [rsum]. rewrite H0, H1, P00, P01. lra. }
  unfold cov_err, post_P. cbv zeta. fold g ge. rewrite D0, D1, S0, P00, Hu. fold e v. cbn [rsum]. rewrite H0, H1, P00, P10. rewrite !Rabs_pos_eq by lra.
  pose proof (PW 4%nat ltac:(lia)) as Q4. cbn [INR Nat.add] in *. set (q := (1 + v) ^ 4) in *.
  assert (T1 : 0 <= (q - 1) * (5 + (0 + 1 * 5 + / 2 * 1) * g) <= 100 * v) by (split; nra).
  assert (T2 : 0 <= q * e * ((1 + 1) * g + 1) <= v). { assert (0 <= q * e <= v * / 1000) by (split; nra). split; nra. }
  assert (T3 : ge * (11 / 2) / (53 / 8) <= 300 * v) by (unfold Rdiv; rewrite Rmult_assoc; nra). lra.
Qed.
Lemma forward_example (c : cfg) : (255 <= usize_max c)%nat ->
  (kf_valid c 2 kf_ex /\ ob_valid c 2 1 ob_one /\ kf_format 24 128 kf_ex /\ all_in_format 24 128 (kf_px kf_ex) /\ all_in_format 24 128 (kf_tP kf_ex) /\ ob_format 24 128 ob_one) /\
  (fin_matrix 2 1 (kf_x kf_ex) /\ fin_matrix 2 2 (kf_P kf_ex) /\ fin_matrix 1 2 (ob_H ob_one) /\ fin_matrix 1 1 (ob_z ob_one) /\ fin_matrix 1 1 (ob_R ob_one)) /\
  scalar_room 24 128 2 (rcell 1 (ob_R ob_one) 0 0) (rcell 1 (ob_z ob_one) 0 0) (rcell 2 (ob_H ob_one) 0) (fun i => rcell 1 (kf_x kf_ex) i 0) (rcell 2 (kf_P kf_ex)) /\
  sym_on 2 (rcell 2 (kf_P kf_ex)) /\
  cov_err 24 128 2 (rcell 1 (ob_R ob_one) 0 0) (rcell 2 (ob_H ob_one) 0) (rcell 2 (kf_P kf_ex)) 0 0 < post_P 2 (rcell 1 (ob_R ob_one) 0 0) (rcell 2 (ob_H ob_one) 0) (rcell 2 (kf_P kf_ex)) 0 0.
Proof.
  intros Hc. destruct (range_scalar_example c Hc) as (A1 & A2 & A3 & A4 & A5 & A6 & A7 & A8 & A9 & _). destruct kf_fmt_ex as (_ & B1 & B2).
  split; [exact (conj A1 (conj A2 (conj A3 (conj B1 (conj B2 A4)))))|]. split; [exact (conj A5 (conj A6 (conj A7 (conj A8 A9))))|].
  split; [exact (room_ex c Hc)|]. split; [exact sym_ex|exact margin_ex].
Qed.
