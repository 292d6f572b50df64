(** * A single measured component with sound data: the correction stays finite *)
From Coq Require Import ZArith Reals Lia Lra Psatz.
From Flocq Require Import Core BinarySingleNaN.
From Verif Require Import Prelude Spec SpecBits Matrix Filter SpecFilter Kernels FilterGen FilterTwo HistGen FloatNum SpecFloats SpecReal SpecRange FloatGen FloatFlocq FloatOps FloatErr FloatInt FloatPredict FloatChol FloatFmt FloatUpdate FloatFactor FloatGain FloatRange BitsProof.
Import SpecFloat.
Open Scope R_scope.

Section Scalar.
Variables (c : cfg) (prec emax : Z) (sz : bool).
Hypothesis HF : format_ok prec emax.
Notation NN := (sf_num prec emax sz).
#[local] Instance hprec : Prec_gt_0 prec. Proof. unfold Prec_gt_0. destruct HF. lia. Qed.
#[local] Instance hmax : Prec_lt_emax prec emax. Proof. apply HF. Qed.
Notation vf := (valid_binary prec emax).
Notation u := (uro prec). Notation eta := (eta prec emax).

Lemma sqrt_fin s : vf s = true -> sf_finite s = true -> 0 < val s -> sf_finite (SFsqrt prec emax s) = true /\ SFleb s (S754_zero false) = false.
Proof.
  intros V F H. destruct s as [b|b| |b m e]; try discriminate; try (unfold val in H; cbn in H; lra).
  destruct b. { unfold val in H; cbn in H. unfold F2R in H; cbn in H. pose proof (bpow_gt_0 radix2 e). pose proof (IZR_lt _ _ (Pos2Z.neg_is_neg m)). cbn in H1. nra. }
  split; [|reflexivity]. apply vf_B in V. destruct V as [x Ex]. rewrite Ex, (sqrt_equiv prec emax _ _), fin_B.
  destruct (Bsqrt_correct prec emax _ _ mode_NE x) as (_ & HFin & _). rewrite HFin. destruct x as [sx|sx| |sx mx ex Bx]; try discriminate Ex. cbn in Ex. injection Ex as <- _ _. reflexivity.
Qed.
(** the square root is at least the smallest normal number, so its reciprocal does not overflow *)
Lemma recip_fin s l : vf s = true -> sf_finite s = true -> 0 < val s -> l = SFsqrt prec emax s -> sf_finite (SFdiv prec emax (sf_one prec) l) = true.
Proof.
  intros V F H ->. destruct (sqrt_fin s V F H) as (Fl & Hle). destruct (sqrt_val prec emax _ _ s V Fl Hle) as (_ & _ & E).
  assert (V1 : vf (sf_one prec) = true) by (apply one_format; [exact hmax|apply HF]). pose proof (one_val prec ltac:(apply HF)) as E1.
  assert (F1 : sf_finite (sf_one prec) = true) by reflexivity.
  assert (Vl : vf (SFsqrt prec emax s) = true) by (apply vf_sqrt; auto with typeclass_instances).
  assert (HL : min_normal emax <= val (SFsqrt prec emax s)).
  { rewrite E. apply round_ge_generic; [apply fexp_correct, hprec|auto with typeclass_instances| |apply (sqrt_lower prec emax _ _); auto].
    apply generic_format_bpow. unfold SpecFloat.fexp, SpecFloat.emin. destruct HF. lia. }
  set (l := SFsqrt prec emax s) in *. clearbody l. set (one := sf_one prec) in *. clearbody one.
  assert (Hp : 0 < min_normal emax) by apply bpow_gt_0.
  assert (HD : Rabs (round radix2 (SpecFloat.fexp prec emax) ZnearestE (val one / val l)) < bpow radix2 emax).
  { rewrite E1. apply Rle_lt_trans with (bpow radix2 (emax - 2)); [|apply bpow_lt; lia]. apply abs_round_le_generic; [apply fexp_correct, hprec|auto with typeclass_instances| |].
    - apply generic_format_bpow. unfold SpecFloat.fexp, SpecFloat.emin. destruct HF. lia.
    - unfold Rdiv. rewrite Rmult_1_l, Rabs_pos_eq by (left; apply Rinv_0_lt_compat; lra). replace (emax - 2)%Z with (- (2 - emax))%Z by lia. rewrite bpow_opp. apply Rinv_le; auto. }
  apply vf_B in V1, Vl. destruct V1 as [a ->], Vl as [b ->]. rewrite (div_equiv prec emax _ _). rewrite fin_B in *. unfold val in *. rewrite !SF2R_B2SF in *.
  assert (Hb : B2R b <> 0) by lra. pose proof (Bdiv_correct prec emax _ _ mode_NE a b Hb) as HB. rewrite Rlt_bool_true in HB by exact HD. destruct HB as (_ & HB & _). rewrite HB. exact F1.
Qed.
Lemma abs_err x y e : Rabs (x - y) <= u * Rabs y + e -> Rabs x <= (1 + u) * Rabs y + e.
Proof. intros H. replace x with ((x - y) + y) by ring. eapply Rle_trans; [apply Rabs_triang|]. lra. Qed.

Lemma mat_room_mono K1 q s t a b : Rabs a <= b -> mat_room prec emax K1 1 q s t (fun _ => b) -> mat_room prec emax K1 1 q s t (fun _ => a).
Proof.
  intros Hab (H1 & H2). split; [exact H1|]. eapply Rle_lt_trans; [|exact H2]. pose proof (uro_pos prec) as Hu. pose proof (eta_pos prec emax) as He. apply Rmult_le_compat_l; [apply pow_le; lra|].
  cbn [rsum]. rewrite !Rplus_0_l. assert (Hb : Rabs a <= Rabs b) by (eapply Rle_trans; [exact Hab|apply Rle_abs]). pose proof (pos_INR K1). pose proof (pos_INR 1).
  assert (0 <= rsum K1 (fun l => Rabs (s 0%nat l) * Rabs (t 0%nat l))) by (apply rsum_pos; intros; apply Rmult_le_pos; apply Rabs_pos).
  apply Rplus_le_compat; [apply Rplus_le_compat_l, Rmult_le_compat_l; auto|]. apply Rmult_le_compat_r; [lra|]. apply Rplus_le_compat_r, Rmult_le_compat_l; auto.
Qed.

Lemma scalar_fin n (o : observation spec_float) (f : kalman spec_float) : (4 <= emax)%Z -> (1 <= n)%nat -> ob_valid c n 1 o -> kf_valid c n f ->
  kf_format prec emax f -> all_in_format prec emax (kf_px f) -> all_in_format prec emax (kf_tP f) -> ob_format prec emax o ->
  fin_matrix n 1 (kf_x f) -> fin_matrix n n (kf_P f) -> fin_matrix 1 n (ob_H o) -> fin_matrix 1 1 (ob_z o) -> fin_matrix 1 1 (ob_R o) ->
  let H := rcell n (ob_H o) 0 in let P := rcell n (kf_P f) in let r := rcell 1 (ob_R o) 0 0 in
  scalar_room prec emax n r (rcell 1 (ob_z o) 0 0) H (fun i => rcell 1 (kf_x f) i 0) P ->
  exists o' f', correct c NN n 1 o f = Ok (o', f') /\ fin_matrix 1 1 (ob_S o') /\ fin_matrix n 1 (ob_K o') /\ fin_matrix n 1 (kf_x f') /\ fin_matrix n n (kf_P f') /\
    forall i, (i < n)%nat -> Rabs (rcell 1 (ob_K o') i 0) <= gain_max prec emax n r H P i.
Proof.
  intros He Hn Ho Hf Ff F1 F2 Fo Ix IP IH Iz IR H P r (SV & SR & SI & SY & SG).
  destruct (correct_fin c prec emax sz HF n 1 o f Hn (le_n 1) Ho Hf Ff F1 F2 Fo Ix IP IH Iz) as (o' & f' & E & FY & _ & FX & FP'). exists o', f'. split; [exact E|].
  destruct (correct_err c prec emax sz HF n 1 o f Hn (le_n 1) Ho Hf Ff F1 F2 Fo) as (o2 & f2 & E2 & BY & _). rewrite E in E2. injection E2 as <- <-.
  destruct (correct_fmt c prec emax sz HF n 1 o o' f f' F1 F2 Ff Fo E) as (Fo' & Ff').
  assert (Hv : ob_valid c n 1 o') by (pose proof (correct_wp c NN n 1 o f Hn (le_n 1) Ho Hf) as HH; rewrite E in HH; apply HH).
  destruct (correct_bits' spec_float c NN n 1 o o' f f' Hn (le_n 1) Ho Hf E) as (_ & HU). destruct HU as (Sm & HS & HL & HI & HK & _ & _).
  destruct Hf as (VA & (Vx & _) & (VP & _) & _). destruct Ho as ((VH & _) & (Vz & _) & (VR & _) & _). destruct Hv as (_ & _ & _ & (Vy & _) & _ & (VK & _) & (VSi & _) & _).
  destruct Fo as (FH & Fz & FR & _). destruct Fo' as (_ & _ & _ & Fy & _ & FK & FSi & _). destruct Ff as (FA & Fx & FP & FQ).
  pose proof (u_small prec emax HF) as Hu. pose proof (eta_pos prec emax) as Heta.
  (* the innovation variance *)
  specialize (HS 0%nat 0%nat (le_n 1) (le_n 1)). destruct (one_given prec emax 1 1 (ob_R o) 0 0 FR VR (le_n 1) (le_n 1)) as (rr & Err & Vrr).
  destruct (IR 0%nat 0%nat (le_n 1) (le_n 1)) as (rr' & Err' & Frr). assert (rr' = rr) by congruence. subst rr'.
  assert (Rr : r = val rr) by (unfold r, rcell; rewrite Err; reflexivity).
  destruct (mat_err_r prec emax sz HF n n rr (fun k l => cell n (ob_H o) 0 l) (fun k l => cell n (kf_P f) l k) (fun k => cell n (ob_H o) 0 k) Vrr) as (s & Es & (Vs & Bs)).
  { intros k Hk. apply (row_given prec emax 1); auto. } { intros k Hk. apply (col_given prec emax n); auto. } { apply (row_given prec emax 1); auto. }
  assert (ES : Sm 0%nat 0%nat = Some s). { rewrite HS, Err. unfold b_prodt, b_prod. exact Es. }
  assert (Fs : sf_finite s = true).
  { apply (mat_fin_r prec emax sz HF n n rr (fun k l => cell n (ob_H o) 0 l) (fun k l => cell n (kf_P f) l k) (fun k => cell n (ob_H o) 0 k)); auto.
    + intros k Hk. apply (row_given prec emax 1); auto. + intros k Hk. apply (col_given prec emax n); auto. + apply (row_given prec emax 1); auto.
    + intros k Hk. apply (row_fin 1); auto. + intros k Hk. apply (col_fin n); auto. + apply (row_fin 1); auto.
    + rewrite <- Rr. exact SR. }
  specialize (Bs Fs). cbv zeta in Bs. rewrite <- Rr in Bs. change (Rabs (val s - in_var n r H P) <= in_var_err prec emax n r H P) in Bs.
  set (lo := in_var n r H P - in_var_err prec emax n r H P) in *. assert (Hlo : 0 < lo) by (unfold lo; lra).
  assert (Hs : lo <= val s). { unfold lo. pose proof (Rle_abs (- (val s - in_var n r H P))) as HA. rewrite Rabs_Ropp in HA. lra. }
  assert (Ps : 0 < val s) by lra. destruct (sqrt_fin s Vs Fs Ps) as (Fl & Hle).
  assert (HB : b_factor NN 1 Sm (cell 1 (ob_S o'))).
  { destruct HL as [HL|HL]; [exact HL|]. exfalso. destruct HL as (i0 & s0 & d0 & Hi0 & _ & Es0 & Hle0 & _). replace i0 with 0%nat in Es0 by lia. rewrite ES in Es0. cbn in Es0.
    injection Es0 as <-. change (SFleb s (S754_zero false) = true) in Hle0. congruence. }
  destruct HB as (HB & _). destruct (HB 0%nat (le_n 1)) as (s0 & l & d & D1 & D2 & D3 & D4 & D5 & _). rewrite ES in D1. cbn [obind subdot] in D1. injection D1 as <-.
  change (Some (SFsqrt prec emax s) = Some l) in D3. change (Some (SFdiv prec emax (sf_one prec) l) = Some d) in D4.
  assert (El : l = SFsqrt prec emax s) by congruence. assert (Ed : d = SFdiv prec emax (sf_one prec) l) by congruence. clear D3 D4.
  destruct HI as (Y & HI). destruct (HI 0%nat (le_n 1)) as (r0 & I1 & I2). rewrite D5 in I1. cbn [obind] in I1. change (Some (SFdiv prec emax (sf_one prec) l) = Some r0) in I1.
  assert (Er0 : r0 = d) by congruence. subst r0. clear I1. destruct (I2 0%nat (le_n 0)) as (I3 & I4 & _). cbn [Nat.eqb] in I3. cbn [Nat.sub Nat.add] in I3, I4.
  unfold b_negsum in I3, I4. cbn [osum] in I3, I4.
  change (Y 0%nat 0%nat = Some (SFmul prec emax (SFadd prec emax (sf_one prec) (S754_zero sz)) d)) in I3. set (y0 := SFmul prec emax (SFadd prec emax (sf_one prec) (S754_zero sz)) d) in *.
  rewrite I3 in I4. change (cell 1 (ob_Sinv o') 0 0 = Some (SFmul prec emax (SFadd prec emax y0 (S754_zero sz)) d)) in I4. set (X := SFmul prec emax (SFadd prec emax y0 (S754_zero sz)) d) in *.
  (* its square root and its reciprocal *)
  assert (V1 : vf (sf_one prec) = true) by (apply one_format; [exact hmax|apply HF]).
  assert (Vl : vf l = true) by (rewrite El; apply vf_sqrt; auto with typeclass_instances).
  assert (Vd : vf d = true) by (rewrite Ed; apply vf_div; auto with typeclass_instances).
  assert (Fd : sf_finite d = true) by (rewrite Ed; apply (recip_fin s l); auto).
  destruct (sqrt_err prec emax _ _ s Vs Fl Hle) as (Hl & Hsq). pose proof (sqrt_upper prec emax _ _ s He Vs Fl Hle) as Hup. rewrite <- El in Hl, Hsq, Hup.
  assert (Fl' : sf_finite l = true) by (rewrite El; exact Fl).
  assert (Hd : Rabs (val d) <= (1 + u) * / val l).
  { assert (Hd : Rabs (val d - / val l) <= u * Rabs (/ val l)).
    { rewrite Ed. rewrite (recip_val prec emax _ _ l); auto; [|apply HF|lra|rewrite <- Ed; exact Fd].
      apply (rnd_err_normal prec emax _ (/ val l)). rewrite Rabs_pos_eq; [exact Hup|left; apply Rinv_0_lt_compat, Hl]. }
    assert (HI0 : 0 < / val l) by (apply Rinv_0_lt_compat, Hl). rewrite (Rabs_pos_eq (/ val l)) in Hd by lra.
    pose proof (abs_err (val d) (/ val l) 0) as HA. rewrite (Rabs_pos_eq (/ val l)) in HA by lra. lra. }
  assert (Hdd : Rabs (val d * val d) <= (1 + u) ^ 4 / val s).
  { rewrite Rabs_mult. assert (HI0 : 0 < / val l) by (apply Rinv_0_lt_compat, Hl).
    apply Rle_trans with ((1 + u) * / val l * ((1 + u) * / val l)); [apply Rmult_le_compat; auto; apply Rabs_pos|].
    assert (Hll : val s <= (1 + u) * (1 + u) * (val l * val l)). { pose proof (Rle_abs (val s - val l * val l)). lra. }
    assert (Hq : / (val l * val l) <= (1 + u) * (1 + u) / val s).
    { apply Rmult_le_reg_r with (val s); [exact Ps|]. unfold Rdiv. rewrite (Rmult_assoc _ (/ val s)), Rinv_l, Rmult_1_r by lra.
      apply Rmult_le_reg_l with (val l * val l); [nra|]. rewrite <- Rmult_assoc, Rinv_r, Rmult_1_l by nra. lra. }
    replace ((1 + u) * / val l * ((1 + u) * / val l)) with ((1 + u) * (1 + u) * / (val l * val l)) by (field; lra).
    replace ((1 + u) ^ 4 / val s) with ((1 + u) * (1 + u) * ((1 + u) * (1 + u) / val s)) by (field; lra). apply Rmult_le_compat_l; [nra|exact Hq]. }
  (* the inverse *)
  destruct (add_zero_r prec emax sz (sf_one prec) eq_refl) as (A1 & A2 & A3). specialize (A2 V1).
  assert (E1 : val (SFadd prec emax (sf_one prec) (S754_zero sz)) = 1) by (rewrite A1; apply one_val, HF).
  assert (F0 : sf_finite y0 = true).
  { pose proof (fin_upper prec emax d Vd Fd) as HU. set (t := SFadd prec emax (sf_one prec) (S754_zero sz)) in *.
    assert (Vt : vf t = true) by exact A2. assert (Ft : sf_finite t = true) by exact A3. clearbody t. unfold y0.
    pose proof Vt as Vt'. pose proof Vd as Vd'. apply vf_B in Vt', Vd'. destruct Vt' as [a Ea], Vd' as [b Eb]. rewrite Ea, Eb, (mul_equiv prec emax _ _), fin_B.
    pose proof (Bmult_correct prec emax _ _ mode_NE a b) as HM. 
    assert (E1' : B2R a = 1) by (rewrite <- E1, Ea; unfold val; rewrite SF2R_B2SF; reflexivity).
    assert (Ebv : B2R b = val d) by (rewrite Eb; unfold val; rewrite SF2R_B2SF; reflexivity).
    rewrite E1', Rmult_1_l in HM. rewrite round_generic in HM; [|auto with typeclass_instances|apply generic_format_B2R].
    rewrite Rlt_bool_true in HM by (apply abs_B2R_lt_emax). destruct HM as (_ & HM & _). rewrite HM. rewrite Ea, fin_B in Ft. rewrite Eb, fin_B in Fd. rewrite Ft, Fd. reflexivity. }
  assert (Vy0 : vf y0 = true) by (apply vf_mul; auto with typeclass_instances).
  assert (Ey0 : val y0 = val d) by (apply (mul_one prec emax HF); auto).
  destruct (add_zero_r prec emax sz y0 F0) as (B1 & B2 & B3). specialize (B2 Vy0).
  assert (Hinv : (1 + u) ^ 4 / val s <= (1 + u) ^ 4 / lo).
  { unfold Rdiv. apply Rmult_le_compat_l; [apply pow_le; lra|]. apply Rinv_le; auto. }
  assert (Hprod : (1 + u) * Rabs (val d * val d) + eta <= inv_max prec emax n r H P).
  { unfold inv_max. fold lo. apply Rplus_le_compat_r. replace ((1 + u) ^ 5 / lo) with ((1 + u) * ((1 + u) ^ 4 / lo)) by (field; lra). apply Rmult_le_compat_l; lra. }
  assert (FXX : sf_finite X = true).
  { unfold X. apply mul_fin; auto. rewrite B1, Ey0. eapply Rle_lt_trans; [exact Hprod|exact SI]. }
  assert (VX : vf X = true) by (apply vf_mul; auto with typeclass_instances).
  pose proof (mul_err prec emax _ _ _ d B2 Vd FXX) as HXe. fold X in HXe. rewrite B1, Ey0 in HXe.
  assert (HXa : Rabs (val X) <= inv_max prec emax n r H P) by (eapply Rle_trans; [apply abs_err, HXe|exact Hprod]).
  (* the gain *)
  assert (GK : forall i, (i < n)%nat -> exists k, cell 1 (ob_K o') i 0 = Some k /\ sf_finite k = true /\ Rabs (val k) <= gain_max prec emax n r H P i).
  { intros i Hi. destruct (SG i Hi) as (CR & GM & _). specialize (HK i 0%nat Hi (le_n 1)). unfold b_prod, b_prodt in HK. cbn [dot] in HK.
    destruct (dot_both prec emax sz HF n (fun k => cell n (kf_P f) i k) (fun k => cell n (ob_H o) 0 k)) as (ch & Ech & Vch & Bch).
    { apply (row_given prec emax n); auto. } { apply (row_given prec emax 1); auto. }
    assert (Fch : sf_finite ch = true).
    { apply (dot_fin prec emax sz HF n (fun k => cell n (kf_P f) i k) (fun k => cell n (ob_H o) 0 k)); auto;
        [apply (row_given prec emax n)|apply (row_given prec emax 1)|apply (row_fin n)|apply (row_fin 1)]; auto. }
    assert (Hch : Rabs (val ch) <= (1 + u) ^ n * (rsum n (fun l => Rabs (P i l) * Rabs (H l)) + INR n * eta)).
    { apply (acc_abs prec emax sz HF n (fun k => cell n (kf_P f) i k) (fun k => cell n (ob_H o) 0 k)); auto; [apply (row_given prec emax n)|apply (row_given prec emax 1)]; auto. }
    rewrite Ech, I4 in HK. change (cell 1 (ob_K o') i 0 = Some (SFadd prec emax (S754_zero false) (SFmul prec emax ch X))) in HK.
    assert (Hk : (1 + u) * Rabs (val ch * val X) + eta <= gain_max prec emax n r H P i).
    { unfold gain_max. cbv zeta. apply Rplus_le_compat_r. rewrite (Rmult_assoc (1 + u)). apply Rmult_le_compat_l; [lra|]. rewrite Rabs_mult.
      apply Rmult_le_compat; auto; apply Rabs_pos. }
    assert (Fm : sf_finite (SFmul prec emax ch X) = true) by (apply mul_fin; auto; eapply Rle_lt_trans; [exact Hk|exact GM]).
    assert (Vm : vf (SFmul prec emax ch X) = true) by (apply vf_mul; auto with typeclass_instances).
    pose proof (mul_err prec emax _ _ ch X Vch VX Fm) as HKe. pose proof (add_zero_l prec emax (SFmul prec emax ch X) Vm Fm) as EZ.
    eexists. split; [exact HK|]. split.
    - clear - Fm. destruct (SFmul prec emax ch X) as [[|]|?| |? ? ?]; try discriminate; reflexivity.
    - rewrite EZ. eapply Rle_trans; [apply abs_err, HKe|exact Hk]. }
  assert (IK : fin_matrix n 1 (ob_K o')). { intros i j Hi Hj. replace j with 0%nat by lia. destruct (GK i Hi) as (k & Ek & Fk & _). exists k. auto. }
  assert (BK : forall i, (i < n)%nat -> Rabs (rcell 1 (ob_K o') i 0) <= gain_max prec emax n r H P i). { intros i Hi. destruct (GK i Hi) as (k & Ek & Fk & B). unfold rcell. rewrite Ek. exact B. }
  assert (Iy : fin_matrix 1 1 (ob_y o')). { intros i j Hi Hj. replace j with 0%nat by lia. replace i with 0%nat by lia. apply (FY 0%nat (le_n 1)). exact SY. }
  assert (By : Rabs (rcell 1 (ob_y o') 0 0) <= inn_max prec emax n (rcell 1 (ob_z o) 0 0) H (fun i => rcell 1 (kf_x f) i 0)).
  { destruct (BY 0%nat (le_n 1)) as (y & Ey & _ & By). destruct (Iy 0%nat 0%nat (le_n 1) (le_n 1)) as (y' & Ey' & Fy'). assert (y' = y) by congruence. subst y'.
    specialize (By Fy'). cbv zeta in By. unfold rcell at 1. rewrite Ey. unfold inn_max. fold H.
    set (z := rcell 1 (ob_z o) 0 0) in *. set (A := rsum n (fun l => Rabs (H l) * _)).
    assert (EA : rsum n (fun k => Rabs (- rcell n (ob_H o) 0 k) * Rabs (rcell 1 (kf_x f) k 0)) = A) by (apply rsum_ext; intros; rewrite Rabs_Ropp; reflexivity). rewrite EA in By.
    set (Ex := z + rsum n _) in By. assert (HE : Rabs Ex <= Rabs z + A).
    { unfold Ex. eapply Rle_trans; [apply Rabs_triang|]. apply Rplus_le_compat_l. eapply Rle_trans; [apply rsum_abs|]. right. apply rsum_ext. intros. rewrite Rabs_mult, Rabs_Ropp. reflexivity. }
    replace (val y) with ((val y - Ex) + Ex) by ring. eapply Rle_trans; [apply Rabs_triang|]. 
    apply Rle_trans with (((1 + u) ^ (n + 1) - 1) * (Rabs z + A) + (1 + u) ^ (n + 1) * eta * INR n + (Rabs z + A)); [lra|]. right. ring. }
  split; [intros i j Hi Hj; replace j with 0%nat by lia; replace i with 0%nat by lia; exists l; auto|].
  split; [exact IK|]. split; [|split; [|exact BK]].
  - intros i j Hi Hj. replace j with 0%nat by lia. apply (FX Iy IK i Hi). destruct (SG i Hi) as (_ & _ & VR1 & _). unfold vec_room in *. eapply Rle_lt_trans; [|exact VR1].
    apply Rmult_le_compat_l; [apply pow_le; lra|]. apply Rplus_le_compat_r, Rplus_le_compat_l. cbn [rsum]. apply Rplus_le_compat_l.
    apply Rmult_le_compat; try apply Rabs_pos; (eapply Rle_trans; [|apply Rle_abs]); auto.
  - intros i j Hi Hj. apply (FP' IK i j Hi Hj). destruct (SG i Hi) as (_ & _ & _ & MR). specialize (MR j Hj).
    pose proof (mat_room_mono n (P i j) _ _ _ _ (BK i Hi) MR) as HM. unfold mat_room in *. destruct HM as (M1 & M2). split.
    + intros k Hk. replace k with 0%nat by lia. apply (M1 0%nat (le_n 1)).
    + exact M2.
Qed.
(** entries of at most M, innovation variance of at least s0 *)
Lemma pow_lin K : INR (2 * K) * u <= 1 -> (1 + u) ^ K - 1 <= 2 * INR K * u.
Proof.
  intros H. pose proof (uro_pos prec) as Hu. rewrite mult_INR in H. cbn [INR] in H. pose proof (pos_INR K) as HK.
  assert (G : forall k, (k <= K)%nat -> (1 + u) ^ k * (1 - INR k * u) <= 1).
  { induction k as [|k IH]; intros Hk; [cbn; lra|]. specialize (IH ltac:(lia)). rewrite S_INR. cbn [pow].
    pose proof (pow_R1_Rle (1 + u) k ltac:(lra)). set (q := (1 + u) ^ k) in *. pose proof (pos_INR k).
    replace ((1 + u) * q * (1 - (INR k + 1) * u)) with (q * (1 - INR k * u) - q * (u * u * (INR k + 1))) by ring. assert (0 <= q * (u * u * (INR k + 1))) by (apply Rmult_le_pos; [lra|]; nra). lra. }
  specialize (G K (le_n K)). pose proof (pow_R1_Rle (1 + u) K ltac:(lra)). set (q := (1 + u) ^ K) in *. set (w := INR K * u) in *.
  assert (0 <= w) by (unfold w; nra). assert (w <= 1 / 2) by (unfold w; lra). assert (q * (1 / 2) <= q * (1 - w)) by (apply Rmult_le_compat_l; lra). assert (q <= 2) by lra.
  assert (q * w <= 2 * w) by (apply Rmult_le_compat_r; lra). replace (2 * INR K * u) with (2 * w) by (unfold w; ring). lra.
Qed.
Lemma eta_u : eta <= u.
Proof. unfold SpecReal.eta, uro. apply bpow_le. destruct HF. lia. Qed.

Lemma small_room n (r z : R) (H x : nat -> R) (P : nat -> nat -> R) M s0 : (1 <= n)%nat -> 1 <= M ->
  Rabs r <= M -> Rabs z <= M -> (forall i, (i < n)%nat -> Rabs (H i) <= M) -> (forall i, (i < n)%nat -> Rabs (x i) <= M) ->
  (forall i j, (i < n)%nat -> (j < n)%nat -> Rabs (P i j) <= M) ->
  INR (8 * n + 4) * u <= 1 -> s0 <= in_var n r H P -> 32 * INR n ^ 3 * M ^ 3 * u <= s0 <= 1 -> 256 * INR n ^ 2 * M ^ 4 / s0 < too_big emax ->
  scalar_room prec emax n r z H x P.
Proof.
  intros Hn HM Br Bz BH Bx BP Hnu Hs0 (Hs1 & Hs2) Hbig.
  pose proof (uro_pos prec) as Hu. pose proof (eta_pos prec emax) as He. pose proof eta_u as Heu. pose proof (eta_one prec emax HF) as He1.
  assert (HN : 1 <= INR n) by (apply (le_INR 1); exact Hn). set (N := INR n) in *.
  assert (PW : forall K, (K <= 4 * n + 2)%nat -> INR (2 * K) * u <= 1). { intros K HK. eapply Rle_trans; [|exact Hnu]. apply Rmult_le_compat_r; [lra|]. apply le_INR. lia. }
  assert (P2 : forall K, (K <= 4 * n + 2)%nat -> 1 <= (1 + u) ^ K <= 2). { intros K HK. split; [apply pow_R1_Rle; lra|]. apply pow_two; auto. }
  assert (HN2 : N <= N * N) by nra. assert (HN3 : N * N <= N * N * N) by nra. assert (HM2 : M <= M * M) by nra. assert (HM3 : M * M <= M * M * M) by nra. assert (HM4 : M * M * M <= M * M * M * M) by nra.
  assert (HNM : forall a b, 0 <= a -> 0 <= b -> a <= b -> N * a <= N * b) by (intros; apply Rmult_le_compat_l; lra).
  set (T3 := N * N * (M * M * M)). set (T4 := N * N * (M * M * M * M)).
  assert (HT34 : T3 <= T4) by (unfold T3, T4; apply Rmult_le_compat_l; nra).
  assert (HT3 : M <= T3 /\ 1 <= T3 /\ N * (M * M) <= T3 /\ N * N * M <= T3 /\ N <= T3 /\ N * M <= T3).
  { unfold T3. assert (1 <= M * M) by nra. assert (1 <= N * N) by nra. assert (0 <= M * M * M) by nra. repeat split.
    - nra. - nra. - apply Rmult_le_compat; nra. - apply Rmult_le_compat; nra.
    - replace N with (N * 1) at 1 by ring. apply Rmult_le_compat; nra. - apply Rmult_le_compat; nra. }
  destruct HT3 as (T3a & T3b & T3c & T3d & T3e & T3f).
  assert (Hs : 0 < s0). { assert (0 < N ^ 3 * M ^ 3 * u); [|lra]. apply Rmult_lt_0_compat; [apply Rmult_lt_0_compat; apply pow_lt; lra|exact Hu]. }
  assert (HI : 1 <= / s0). { rewrite <- Rinv_1. apply Rinv_le; lra. } set (w := / s0) in *.
  assert (HB : 256 * T4 * w < too_big emax). { eapply Rle_lt_trans; [|exact Hbig]. right. unfold T4, w, Rdiv. ring. }
  assert (HB3 : 256 * T3 < too_big emax). { eapply Rle_lt_trans; [|exact HB]. assert (256 * T4 * 1 <= 256 * T4 * w) by (apply Rmult_le_compat_l; lra). lra. }
  assert (SB : forall (g : nat -> R) b, (forall k, (k < n)%nat -> 0 <= g k <= b) -> 0 <= rsum n g <= N * b).
  { intros g b Hg. split; [apply rsum_pos; intros; apply Hg; auto|]. unfold N. rewrite <- rsum_const. apply rsum_le. intros k Hk. apply Hg; auto. }
  assert (AB : forall a b A B, Rabs a <= A -> Rabs b <= B -> 0 <= Rabs a * Rabs b <= A * B).
  { intros a b A B Ha Hb. split; [apply Rmult_le_pos; apply Rabs_pos|]. apply Rmult_le_compat; auto; apply Rabs_pos. }
  (* the sums *)
  assert (SHP : forall k, (k < n)%nat -> 0 <= rsum n (fun l => Rabs (H l) * Rabs (P l k)) <= N * (M * M)) by (intros k Hk; apply SB; intros l Hl; apply AB; auto).
  assert (SPH : forall i, (i < n)%nat -> 0 <= rsum n (fun l => Rabs (P i l) * Rabs (H l)) <= N * (M * M)) by (intros k Hk; apply SB; intros l Hl; apply AB; auto).
  assert (SHx : 0 <= rsum n (fun l => Rabs (H l) * Rabs (x l)) <= N * (M * M)) by (apply SB; intros l Hl; apply AB; auto).
  assert (SH : 0 <= rsum n (fun k => Rabs (H k)) <= N * M) by (apply SB; intros l Hl; split; [apply Rabs_pos|auto]).
  assert (SS : 0 <= rsum n (fun k => rsum n (fun l => Rabs (H l) * Rabs (P l k)) * Rabs (H k)) <= T3).
  { replace T3 with (N * (N * (M * M) * M)) by (unfold T3; ring). apply SB. intros k Hk. destruct (SHP k Hk). split; [apply Rmult_le_pos; [auto|apply Rabs_pos]|].
    apply Rmult_le_compat; auto; apply Rabs_pos. }
  (* the variance and its error *)
  pose proof (pow_lin (n + n + 1) ltac:(apply PW; lia)) as HL. pose proof (P2 (n + n + 1)%nat ltac:(lia)) as HP2.
  assert (HINR : INR (n + n + 1) <= 3 * N). { rewrite !plus_INR. fold N. cbn [INR]. lra. } 
  assert (VE : in_var_err prec emax n r H P <= 16 * (N * T3) * u).
  { unfold in_var_err. cbv zeta. set (G := (1 + u) ^ (n + n + 1)) in *. set (aa := Rabs r + _).
    assert (Ha : 0 <= aa <= 2 * T3) by (unfold aa; pose proof (Rabs_pos r); lra). fold N. set (bb := N * rsum n (fun k => Rabs (H k)) + N).
    assert (Hb : 0 <= bb <= 2 * T3). { unfold bb. assert (N * rsum n (fun k => Rabs (H k)) <= N * (N * M)) by (apply Rmult_le_compat_l; lra). assert (0 <= N * rsum n (fun k => Rabs (H k))) by (apply Rmult_le_pos; lra). lra. }
    assert (G - 1 <= 6 * N * u). { eapply Rle_trans; [exact HL|]. replace (6 * N * u) with (2 * (3 * N) * u) by ring. apply Rmult_le_compat_r; lra. }
    assert (E1 : (G - 1) * aa <= 6 * N * u * (2 * T3)) by (apply Rmult_le_compat; lra).
    assert (E2 : G * eta * bb <= 2 * u * (2 * T3)). { apply Rmult_le_compat; [apply Rmult_le_pos; lra|lra| |lra]. apply Rmult_le_compat; lra. }
    assert (E3 : u * T3 <= u * (N * T3)) by (apply Rmult_le_compat_l; nra). lra. }
  assert (HS1 : 32 * (N * T3) * u <= s0). { eapply Rle_trans; [|exact Hs1]. right. unfold T3. ring. }
  set (lo := in_var n r H P - in_var_err prec emax n r H P).
  assert (Hlo : s0 / 2 <= lo) by (unfold lo; lra).
  assert (Hil : / lo <= 2 * w). { replace (2 * w) with (/ (s0 / 2)) by (unfold w; field; lra). apply Rinv_le; lra. }
  assert (Hil0 : 0 < / lo) by (apply Rinv_0_lt_compat; lra).
  assert (IM : 0 <= inv_max prec emax n r H P <= 5 * w).
  { unfold inv_max. fold lo. pose proof (P2 5%nat ltac:(lia)). unfold Rdiv. split; [apply Rplus_le_le_0_compat; [apply Rmult_le_pos; lra|lra]|].
    assert ((1 + u) ^ 5 * / lo <= 2 * (2 * w)) by (apply Rmult_le_compat; lra). lra. }
  assert (HT4w : T4 <= T4 * w). { replace T4 with (T4 * 1) at 1 by ring. apply Rmult_le_compat_l; [|lra]. unfold T4. apply Rmult_le_pos; nra. }
  set (g := N * (M * M) * w). assert (Hg1 : 1 <= g) by (unfold g; assert (1 <= N * (M * M)) by nra; nra).
  assert (GM : forall i, (i < n)%nat -> 0 <= gain_max prec emax n r H P i <= 21 * g).
  { intros i Hi. unfold gain_max. cbv zeta. destruct (SPH i Hi) as (S1 & S2). fold N. set (aC := rsum n (fun l => Rabs (P i l) * Rabs (H l))) in *. pose proof (P2 (n + 1)%nat ltac:(lia)) as HP1. rewrite pow_add, pow_1 in HP1.
    set (q := (1 + u) ^ n) in *. assert (0 <= N * eta <= N * (M * M)) by (split; [apply Rmult_le_pos; lra|apply Rmult_le_compat_l; nra]).
    assert (Hq : 0 <= q * (1 + u) * (aC + N * eta) <= 2 * (2 * (N * (M * M)))) by (split; [apply Rmult_le_pos; lra|apply Rmult_le_compat; lra]).
    replace ((1 + u) * (q * (aC + N * eta)) * inv_max prec emax n r H P) with (q * (1 + u) * (aC + N * eta) * inv_max prec emax n r H P) by ring. split; [apply Rplus_le_le_0_compat; [apply Rmult_le_pos; lra|lra]|].
    assert (q * (1 + u) * (aC + N * eta) * inv_max prec emax n r H P <= 2 * (2 * (N * (M * M))) * (5 * w)) by (apply Rmult_le_compat; lra). unfold g. unfold g in Hg1. lra. }
  assert (HgT : N * (M * M) * g = T4 * w) by (unfold g, T4; ring).
  assert (Hgle : g <= T4 * w). { rewrite <- HgT. assert (1 <= N * (M * M)) by nra. nra. }
  assert (IN : 0 <= inn_max prec emax n z H x <= 6 * (N * (M * M))).
  { unfold inn_max. pose proof (P2 (n + 1)%nat ltac:(lia)). fold N. pose proof (Rabs_pos z). assert (0 <= N * eta <= N * (M * M)) by (split; [apply Rmult_le_pos; lra|apply Rmult_le_compat_l; nra]).
    assert (M <= N * (M * M)) by nra. split; [apply Rmult_le_pos; lra|]. replace (6 * (N * (M * M))) with (2 * (3 * (N * (M * M)))) by ring. apply Rmult_le_compat; lra. }
  assert (CR : forall f h, 0 <= rsum n (fun k => Rabs (f k) * Rabs (h k)) <= N * (M * M) -> cell_room prec emax n f h).
  { intros f h HS. unfold cell_room. eapply Rle_lt_trans; [|exact HB3]. pose proof (P2 n ltac:(lia)). fold N. assert (0 <= N * eta <= N) by (split; [apply Rmult_le_pos; lra|replace N with (N * 1) at 2 by ring; apply Rmult_le_compat_l; lra]).
    apply Rle_trans with (2 * (2 * T3)); [|lra]. apply Rmult_le_compat; lra. }
  unfold scalar_room. fold lo. split; [unfold lo in Hlo; lra|]. split; [|split; [|split]].
  - split; [intros k Hk; apply CR; apply SHP; auto|]. eapply Rle_lt_trans; [|exact HB3]. fold N.
    assert (0 <= (N * rsum n (fun k => Rabs (H k)) + N) * eta <= 2 * T3).
    { assert (N * rsum n (fun k => Rabs (H k)) <= N * (N * M)) by (apply Rmult_le_compat_l; lra). assert (0 <= N * rsum n (fun k => Rabs (H k))) by (apply Rmult_le_pos; lra).
      split; [apply Rmult_le_pos; lra|]. replace (2 * T3) with (2 * T3 * 1) by ring. apply Rmult_le_compat; lra. }
    pose proof (Rabs_pos r). apply Rle_trans with (2 * (4 * T3)); [|lra]. apply Rmult_le_compat; lra.
  - eapply Rle_lt_trans; [apply IM|]. eapply Rle_lt_trans; [|exact HB]. assert (1 * w <= T4 * w) by (apply Rmult_le_compat_r; lra). lra.
  - unfold vec_room. eapply Rle_lt_trans; [|exact HB3]. pose proof (P2 (n + 1)%nat ltac:(lia)). fold N. pose proof (Rabs_pos z).
    assert (0 <= N * eta <= N) by (split; [apply Rmult_le_pos; lra|replace N with (N * 1) at 2 by ring; apply Rmult_le_compat_l; lra]). apply Rle_trans with (2 * (3 * T3)); [|lra]. apply Rmult_le_compat; lra.
  - intros i Hi. destruct (GM i Hi) as (G1 & G2). split; [apply CR; apply SPH; auto|]. split; [eapply Rle_lt_trans; [exact G2|]; lra|]. split.
    + unfold vec_room. cbn [rsum]. rewrite Rplus_0_l. eapply Rle_lt_trans; [|exact HB]. pose proof (P2 (1 + 1)%nat ltac:(lia)) as HP. cbn [INR]. rewrite Rmult_1_l.
      rewrite (Rabs_pos_eq (gain_max _ _ _ _ _ _ i)) by exact G1. rewrite (Rabs_pos_eq (inn_max _ _ _ _ _ _)) by apply IN.
      assert (HP' : 0 <= gain_max prec emax n r H P i * inn_max prec emax n z H x <= 126 * (T4 * w)).
      { rewrite <- HgT. split; [apply Rmult_le_pos; lra|]. replace (126 * (N * (M * M) * g)) with (21 * g * (6 * (N * (M * M)))) by ring. apply Rmult_le_compat; lra. }
      specialize (Bx i Hi). pose proof (Rabs_pos (x i)). apply Rle_trans with (2 * (128 * (T4 * w))); [|lra]. apply Rmult_le_compat; lra.
    + intros j Hj. split; [intros k Hk; apply CR; apply SHP; auto|]. cbn [rsum]. rewrite !Rplus_0_l. eapply Rle_lt_trans; [|exact HB]. cbn [INR]. fold N.
      rewrite (Rabs_pos_eq (gain_max _ _ _ _ _ _ i)) by exact G1. destruct (SHP j Hj) as (S1 & S2). set (a := rsum n (fun l => Rabs (H l) * Rabs (P l j))) in *. set (k := gain_max prec emax n r H P i) in *.
      assert (0 <= a * k <= 21 * (T4 * w)). { rewrite <- HgT. split; [apply Rmult_le_pos; lra|]. replace (21 * (N * (M * M) * g)) with (N * (M * M) * (21 * g)) by ring. apply Rmult_le_compat; lra. }
      assert (0 <= N * k <= 21 * (T4 * w)). { rewrite <- HgT. split; [apply Rmult_le_pos; lra|]. replace (21 * (N * (M * M) * g)) with (N * (M * M) * (21 * g)) by ring. apply Rmult_le_compat; nra. }
      assert (0 <= (N * k + 1) * eta <= (N * k + 1)). { split; [apply Rmult_le_pos; lra|]. replace (N * k + 1) with ((N * k + 1) * 1) at 2 by ring. apply Rmult_le_compat_l; lra. }
      pose proof (P2 (n + 1 + 1)%nat ltac:(lia)). specialize (BP i j Hi Hj). pose proof (Rabs_pos (P i j)). apply Rle_trans with (2 * (45 * (T4 * w))); [|lra]. apply Rmult_le_compat; lra.
Qed.

Lemma scalar_small n (o : observation spec_float) (f : kalman spec_float) M s0 : (4 <= emax)%Z -> (1 <= n)%nat -> ob_valid c n 1 o -> kf_valid c n f ->
  kf_format prec emax f -> all_in_format prec emax (kf_px f) -> all_in_format prec emax (kf_tP f) -> ob_format prec emax o ->
  fin_matrix n 1 (kf_x f) -> fin_matrix n n (kf_P f) -> fin_matrix 1 n (ob_H o) -> fin_matrix 1 1 (ob_z o) -> fin_matrix 1 1 (ob_R o) -> 1 <= M ->
  at_most n 1 (kf_x f) M -> at_most n n (kf_P f) M -> at_most 1 n (ob_H o) M -> at_most 1 1 (ob_z o) M -> at_most 1 1 (ob_R o) M ->
  INR (8 * n + 4) * u <= 1 -> s0 <= in_var n (rcell 1 (ob_R o) 0 0) (rcell n (ob_H o) 0) (rcell n (kf_P f)) ->
  32 * INR n ^ 3 * M ^ 3 * u <= s0 <= 1 -> 256 * INR n ^ 2 * M ^ 4 / s0 < too_big emax ->
  exists o' f', correct c NN n 1 o f = Ok (o', f') /\ fin_matrix n 1 (ob_K o') /\ fin_matrix n 1 (kf_x f') /\ fin_matrix n n (kf_P f').
Proof.
  intros He Hn Ho Hf Ff F1 F2 Fo Ix IP IH Iz IR HM Bx BP BH Bz BR Hnu Hs0 Hs Hbig.
  destruct (scalar_fin n o f He Hn Ho Hf Ff F1 F2 Fo Ix IP IH Iz IR) as (o' & f' & E & _ & A & B & D & _).
  - apply (small_room n _ _ _ _ _ M s0); auto.
  - exists o', f'. auto.
Qed.
End Scalar.
