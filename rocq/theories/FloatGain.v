(** * The gain of a single-component measurement *)
From Coq Require Import ZArith Reals Lia Lra Psatz.
From Flocq Require Import Core BinarySingleNaN.
From Verif Require Import Prelude Spec SpecBits Matrix Filter SpecFilter Kernels FilterGen FilterTwo HistGen FloatNum SpecFloats SpecReal FloatGen FloatFlocq FloatOps FloatErr FloatInt FloatPredict FloatChol FloatFmt FloatUpdate FloatFactor BitsProof.
Import SpecFloat.
Open Scope R_scope.

Lemma prod_one (x y a b : R) : 0 <= a -> 0 <= b -> Rabs (x - 1) <= a -> Rabs (y - 1) <= b -> Rabs (x * y - 1) <= (1 + a) * (1 + b) - 1.
Proof.
  intros Ha Hb Hx Hy. replace (x * y - 1) with ((x - 1) * (y - 1) + (x - 1) + (y - 1)) by ring.
  eapply Rle_trans; [apply Rabs_triang|]. eapply Rle_trans; [apply Rplus_le_compat_r, Rabs_triang|]. rewrite Rabs_mult.
  assert (Rabs (x - 1) * Rabs (y - 1) <= a * b) by (apply Rmult_le_compat; auto; apply Rabs_pos). nra.
Qed.

(** the chain sqrt, reciprocal, square, product, in real numbers *)
Lemma gain_real (u e s l d X K ch : R) : 0 <= u <= 1 -> 0 <= e -> 0 < l -> 0 < s ->
  Rabs (s - l * l) <= ((1 + u) * (1 + u) - 1) * (l * l) -> Rabs (d - / l) <= u * Rabs (/ l) ->
  Rabs (X - d * d) <= u * Rabs (d * d) + e -> Rabs (K - ch * X) <= u * Rabs (ch * X) + e ->
  Rabs (K * s - ch) <= ((1 + u) ^ 6 - 1) * Rabs ch + e * s * (2 * Rabs ch + 1).
Proof.
  intros Hu He Hl Hs H1 H2 H3 H4. assert (Hll : 0 < l * l) by nra.
  assert (A1 : Rabs (d * l - 1) <= u).
  { replace (d * l - 1) with ((d - / l) * l) by (field; lra). rewrite Rabs_mult, (Rabs_pos_eq l) by lra. rewrite (Rabs_pos_eq (/ l)) in H2 by (left; apply Rinv_0_lt_compat, Hl).
    replace u with (u * / l * l) by (field; lra). apply Rmult_le_compat_r; lra. }
  assert (A2 : Rabs (s * / (l * l) - 1) <= (1 + u) * (1 + u) - 1).
  { replace (s * / (l * l) - 1) with ((s - l * l) * / (l * l)) by (field; lra). rewrite Rabs_mult, (Rabs_pos_eq (/ (l * l))) by (left; apply Rinv_0_lt_compat, Hll).
    replace ((1 + u) * (1 + u) - 1) with (((1 + u) * (1 + u) - 1) * (l * l) * / (l * l)) by (field; lra). apply Rmult_le_compat_r; [left; apply Rinv_0_lt_compat, Hll|exact H1]. }
  assert (A3 : Rabs (d * d * s - 1) <= (1 + u) ^ 4 - 1).
  { replace (d * d * s) with (d * l * (d * l) * (s * / (l * l))) by (field; lra).
    eapply Rle_trans; [apply (prod_one _ _ ((1 + u) * (1 + u) - 1) ((1 + u) * (1 + u) - 1)); [nra|nra| |exact A2]|right; ring].
    eapply Rle_trans; [apply (prod_one _ _ u u); lra|lra]. }
  assert (A4 : Rabs (X * s - 1) <= (1 + u) ^ 5 - 1 + e * s).
  { assert (B1 : Rabs (X * s - d * d * s) <= u * (d * d * s) + e * s).
    { replace (X * s - d * d * s) with ((X - d * d) * s) by ring. rewrite Rabs_mult, (Rabs_pos_eq s) by lra. rewrite (Rabs_pos_eq (d * d)) in H3 by nra. nra. }
    assert (B2 : d * d * s <= (1 + u) ^ 4) by (pose proof (Rle_abs (d * d * s - 1)); lra).
    replace (X * s - 1) with ((X * s - d * d * s) + (d * d * s - 1)) by ring. eapply Rle_trans; [apply Rabs_triang|].
    assert (u * (d * d * s) <= u * (1 + u) ^ 4) by (apply Rmult_le_compat_l; lra). replace ((1 + u) ^ 5) with ((1 + u) ^ 4 * (1 + u)) by ring. nra. }
  set (q := (1 + u) ^ 5) in *. assert (Hq : 1 <= q) by (apply pow_R1_Rle; lra).
  assert (A5 : Rabs (X * s) <= q + e * s). { replace (X * s) with ((X * s - 1) + 1) by ring. eapply Rle_trans; [apply Rabs_triang|]. rewrite Rabs_R1. lra. }
  replace (K * s - ch) with ((K - ch * X) * s + ch * (X * s - 1)) by ring. eapply Rle_trans; [apply Rabs_triang|]. rewrite !Rabs_mult, (Rabs_pos_eq s) by lra.
  rewrite Rabs_mult in H4. pose proof (Rabs_pos ch) as Hc. set (w := Rabs ch) in *.
  assert (A6 : Rabs (K - ch * X) * s <= u * (w * Rabs (X * s)) + e * s). { rewrite (Rabs_mult X s), (Rabs_pos_eq s) by lra. nra. }
  assert (A7 : w * Rabs (X * s) <= w * (q + e * s)) by (apply Rmult_le_compat_l; lra).
  assert (A8 : u * (w * Rabs (X * s)) <= u * (w * (q + e * s))) by (apply Rmult_le_compat_l; lra).
  assert (A9 : w * Rabs (X * s - 1) <= w * (q - 1 + e * s)) by (apply Rmult_le_compat_l; lra).
  replace ((1 + u) ^ 6) with (q * (1 + u)) by (unfold q; ring). assert (0 <= e * s) by nra. assert (u * (w * (e * s)) <= 1 * (w * (e * s))) by (apply Rmult_le_compat_r; [nra|lra]). nra.
Qed.

Section Gain.
Variables (c : cfg) (prec emax : Z) (sz : bool).
Hypothesis HF : format_ok prec emax.
Notation NN := (sf_num prec emax sz).
#[local] Instance hprec : Prec_gt_0 prec. Proof. unfold Prec_gt_0. destruct HF. lia. Qed.
#[local] Instance hmax : Prec_lt_emax prec emax. Proof. apply HF. Qed.
Notation vf := (valid_binary prec emax).
Notation u := (uro prec). Notation eta := (eta prec emax).

Lemma add_zero_r b : sf_finite b = true -> val (SFadd prec emax b (S754_zero sz)) = val b /\ (vf b = true -> vf (SFadd prec emax b (S754_zero sz)) = true) /\
  sf_finite (SFadd prec emax b (S754_zero sz)) = true.
Proof. destruct b as [s|s| |s m e]; cbn; try discriminate; intros _; [destruct (Bool.eqb s sz); auto|auto]. Qed.
Lemma mul_one d t : vf d = true -> vf t = true -> val t = 1 -> sf_finite (SFmul prec emax t d) = true -> val (SFmul prec emax t d) = val d.
Proof.
  intros Vd Vt E F. destruct (mul_val prec emax _ _ t d Vt Vd F) as (_ & _ & ->). rewrite E, Rmult_1_l.
  apply round_generic; [auto with typeclass_instances|]. apply val_format; auto with typeclass_instances.
Qed.

Lemma scalar_gain n (o : observation spec_float) (f : kalman spec_float) : (255 <= usize_max c)%nat -> (4 <= emax)%Z -> (1 <= n)%nat -> ob_valid c n 1 o -> kf_valid c n f ->
  kf_format prec emax f -> all_in_format prec emax (kf_px f) -> all_in_format prec emax (kf_tP f) -> ob_format prec emax o ->
  exists o' f', correct c NN n 1 o f = Ok (o', f') /\
  forall i v w, (i < n)%nat -> cell 1 (kf_x f') i 0 = Some v -> sf_finite v = true -> cell 1 (ob_S o') 0 0 = Some w -> sf_finite w = true ->
    let H := rcell n (ob_H o) 0 in let P := rcell n (kf_P f) in let r := rcell 1 (ob_R o) 0 0 in let K := rcell 1 (ob_K o') i 0 in
    let S := r + rsum n (fun k => rsum n (fun l => H l * P l k) * H k) in
    let C := rsum n (fun l => P i l * H l) in
    let aS := Rabs r + rsum n (fun k => rsum n (fun l => Rabs (H l) * Rabs (P l k)) * Rabs (H k)) in
    let aC := rsum n (fun l => Rabs (P i l) * Rabs (H l)) in
    let eS := ((1 + u) ^ (n + n + 1) - 1) * aS + (1 + u) ^ (n + n + 1) * eta * (INR n * rsum n (fun k => Rabs (H k)) + INR n) in
    let C1 := (1 + u) ^ n * (aC + INR n * eta) in
    Rabs (K * S - C) <= Rabs K * eS + ((1 + u) ^ 6 * C1 - aC) + eta * (Rabs S + eS) * (2 * C1 + 1).
Proof.
  intros Hc He Hn Ho Hf Ff F1 F2 Fo.
  assert (E : exists o' f', correct c NN n 1 o f = Ok (o', f')).
  { pose proof (correct_wp c NN n 1 o f Hn (le_n 1) Ho Hf) as H. destruct (correct c NN n 1 o f) as [(o' & f')|e]; [eauto|]. cbn in H. destruct H as (_ & H).
    destruct (H (sf_never_panics prec emax sz)). }
  destruct E as (o' & f' & E). exists o', f'. split; [exact E|]. intros i v w Hi Ev Fv Ew Fw. cbv zeta.
  destruct (correct_fmt c prec emax sz HF n 1 o o' f f' F1 F2 Ff Fo E) as (Fo' & Ff').
  assert (Hv : ob_valid c n 1 o') by (pose proof (correct_wp c NN n 1 o f Hn (le_n 1) Ho Hf) as H; rewrite E in H; apply H).
  destruct (correct_bits' spec_float c NN n 1 o o' f f' Hn (le_n 1) Ho Hf E) as (_ & HU). destruct HU as (Sm & HS & HL & HI & HK & HX & _).
  pose proof Hf as Hf0. pose proof Ho as Ho0.
  destruct Hf as (VA & (Vx & _) & (VP & _) & _). destruct Ho as ((VH & _) & (Vz & _) & (VR & _) & _). destruct Hv as (_ & _ & _ & (Vy & _) & _ & (VK & _) & (VSi & _) & _).
  destruct Fo as (FH & Fz & FR & _). destruct Fo' as (_ & _ & _ & Fy & _ & FK & FSi & _). destruct Ff as (FA & Fx & FP & FQ).
  (* the innovation variance *)
  specialize (HS 0%nat 0%nat (le_n 1) (le_n 1)). destruct (one_given prec emax 1 1 (ob_R o) 0 0 FR VR (le_n 1) (le_n 1)) as (rr & Err & Vrr).
  destruct (mat_err_r prec emax sz HF n n rr (fun k l => cell n (ob_H o) 0 l) (fun k l => cell n (kf_P f) l k) (fun k => cell n (ob_H o) 0 k) Vrr) as (s & Es & (Vs & Bs)).
  { intros k Hk. apply (row_given prec emax 1); auto. } { intros k Hk. apply (col_given prec emax n); auto. } { apply (row_given prec emax 1); auto. }
  assert (ES : Sm 0%nat 0%nat = Some s). { rewrite HS, Err. unfold b_prodt, b_prod. exact Es. }
  assert (Esc : scalar_S NN n (ob_H o) (kf_P f) (ob_R o) = Some s). { unfold scalar_S. rewrite Err. exact Es. }
  (* the decomposition succeeded *)
  assert (HB : b_factor NN 1 Sm (cell 1 (ob_S o'))).
  { destruct HL as [HL|HL]; [exact HL|]. exfalso. destruct HL as (i0 & s0 & d0 & Hi0 & _ & Es0 & Hle & _). replace i0 with 0%nat in Es0 by lia. rewrite ES in Es0. cbn in Es0.
    injection Es0 as <-. assert (Hp : sf_pos s = false) by (destruct s as [?|[|]| |[|] ? ?]; try reflexivity; discriminate Hle).
    destruct (sf_scalar_destroys c prec emax sz n o f s Hc Hn Ho0 Hf0 Esc Hp) as (o2 & f2 & E2 & HB & _). rewrite E2 in E. injection E as <- <-.
    destruct (HB i Hi) as (v2 & Ev2 & Fv2). congruence. }
  destruct HB as (HB & _). destruct (HB 0%nat (le_n 1)) as (s0 & l & d & D1 & D2 & D3 & D4 & D5 & _). rewrite ES in D1. cbn [obind subdot] in D1. injection D1 as <-.
  change (Some (SFsqrt prec emax s) = Some l) in D3. change (Some (SFdiv prec emax (sf_one prec) l) = Some d) in D4.
  assert (El : l = SFsqrt prec emax s) by congruence. assert (Ed : d = SFdiv prec emax (sf_one prec) l) by congruence. clear D3 D4.
  (* its inverse *)
  destruct HI as (Y & HI). destruct (HI 0%nat (le_n 1)) as (r0 & I1 & I2). rewrite D5 in I1. cbn [obind] in I1. change (Some (SFdiv prec emax (sf_one prec) l) = Some r0) in I1.
  assert (Er0 : r0 = d) by congruence. subst r0. clear I1. destruct (I2 0%nat (le_n 0)) as (I3 & I4 & _). cbn [Nat.eqb] in I3. cbn [Nat.sub Nat.add] in I3, I4.
  unfold b_negsum in I3, I4. cbn [osum] in I3, I4.
  change (Y 0%nat 0%nat = Some (SFmul prec emax (SFadd prec emax (sf_one prec) (S754_zero sz)) d)) in I3. set (y0 := SFmul prec emax (SFadd prec emax (sf_one prec) (S754_zero sz)) d) in *.
  rewrite I3 in I4. change (cell 1 (ob_Sinv o') 0 0 = Some (SFmul prec emax (SFadd prec emax y0 (S754_zero sz)) d)) in I4. set (X := SFmul prec emax (SFadd prec emax y0 (S754_zero sz)) d) in *.
  (* the gain *)
  specialize (HK i 0%nat Hi (le_n 1)). unfold b_prod, b_prodt in HK. cbn [dot] in HK.
  destruct (dot_both prec emax sz HF n (fun k => cell n (kf_P f) i k) (fun k => cell n (ob_H o) 0 k)) as (ch & Ech & Vch & Bch).
  { apply (row_given prec emax n); auto. } { apply (row_given prec emax 1); auto. }
  rewrite Ech, I4 in HK. change (cell 1 (ob_K o') i 0 = Some (SFadd prec emax (S754_zero false) (SFmul prec emax ch X))) in HK. set (kk := SFadd prec emax (S754_zero false) (SFmul prec emax ch X)) in *.
  (* finiteness *)
  assert (V1 : vf (sf_one prec) = true) by (apply one_format; [exact hmax|apply HF]).
  assert (Vl : vf l = true) by (rewrite El; apply vf_sqrt; auto with typeclass_instances).
  assert (Vd : vf d = true) by (rewrite Ed; apply vf_div; auto with typeclass_instances).
  destruct (add_zero_r (sf_one prec) eq_refl) as (A1 & A2 & A3). specialize (A2 V1).
  assert (Vy0 : vf y0 = true) by (apply vf_mul; auto with typeclass_instances).
  assert (VX : vf X = true) by (pose proof (one_given prec emax 1 1 (ob_Sinv o') 0 0 FSi VSi (le_n 1) (le_n 1)) as (X' & EX' & VX'); congruence).
  assert (Vp : vf (SFmul prec emax ch X) = true) by (apply vf_mul; auto with typeclass_instances).
  assert (Vk : vf kk = true) by (apply vf_add; auto with typeclass_instances).
  assert (Fk : sf_finite kk = true).
  { rewrite (HX i Hi) in Ev. unfold b_prodv in Ev. cbn [dot1] in Ev. rewrite HK in Ev.
    destruct (one_given prec emax n 1 (kf_x f) i 0 Fx Vx Hi (le_n 1)) as (xx & Exx & Vxx). destruct (one_given prec emax 1 1 (ob_y o') 0 0 Fy Vy (le_n 1) (le_n 1)) as (yy & Eyy & Vyy).
    rewrite Exx, Eyy in Ev. cbn [obind b_add] in Ev. change (Some (SFadd prec emax xx (SFmul prec emax kk yy)) = Some v) in Ev. injection Ev as <-.
    destruct (add_val prec emax _ _ xx _ Vxx (vf_mul prec emax _ _ kk yy Vk Vyy) Fv) as (_ & Fm & _). apply (mul_val prec emax _ _ kk yy Vk Vyy Fm). }
  assert (Fp : sf_finite (SFmul prec emax ch X) = true) by (apply (add_val prec emax _ _ (S754_zero false) _ eq_refl Vp Fk)).
  destruct (mul_val prec emax _ _ ch X Vch VX Fp) as (Fch & FX & _).
  assert (F0 : sf_finite y0 = true).
  { destruct (sf_finite y0) eqn:F0; [reflexivity|]. exfalso. assert (B : sf_finite (SFadd prec emax y0 (S754_zero sz)) = false) by (apply add_bad_l, F0).
    unfold X in FX. rewrite (mul_bad_l prec emax _ _ B) in FX. discriminate. }
  destruct (add_zero_r y0 F0) as (B1 & B2 & B3). specialize (B2 Vy0).
  destruct (mul_val prec emax _ _ _ d B2 Vd FX) as (_ & Fd & _).
  assert (E1 : val (SFadd prec emax (sf_one prec) (S754_zero sz)) = 1) by (rewrite A1; apply one_val, HF).
  assert (Ey0 : val y0 = val d) by (apply mul_one; auto).
  assert (Fl : sf_finite l = true /\ sf_finite (SFsqrt prec emax s) = true).
  { rewrite <- El. assert (l = w) by congruence. subst w. auto. }
  destruct Fl as (Fl & Fl').
  destruct (sqrt_val prec emax _ _ s Vs Fl' D2) as (Fs & Ps & _). destruct (sqrt_err prec emax _ _ s Vs Fl' D2) as (Hl & Hsq).
  pose proof (sqrt_upper prec emax _ _ s He Vs Fl' D2) as Hup. rewrite <- El in Hl, Hsq, Hup.
  pose proof (u_small prec emax HF) as Hu. pose proof (eta_pos prec emax) as Heta.
  assert (Hd : Rabs (val d - / val l) <= u * Rabs (/ val l)).
  { rewrite Ed. rewrite (recip_val prec emax _ _ l); auto; [|apply HF|lra|rewrite <- Ed; exact Fd].
    apply (rnd_err_normal prec emax _ (/ val l)). rewrite Rabs_pos_eq; [exact Hup|left; apply Rinv_0_lt_compat, Hl]. }
  pose proof (mul_err prec emax _ _ _ d B2 Vd FX) as HXe. fold X in HXe. rewrite B1, Ey0 in HXe.
  pose proof (mul_err prec emax _ _ ch X Vch VX Fp) as HKe. rewrite <- (add_zero_l prec emax (SFmul prec emax ch X) Vp Fp) in HKe. fold kk in HKe.
  pose proof (gain_real u eta (val s) (val l) (val d) (val X) (val kk) (val ch) ltac:(lra) ltac:(lra) Hl Ps Hsq Hd HXe HKe) as HG.
  (* put together *)
  destruct (Bch Fch) as (Bc & _). unfold err_le in Bc. specialize (Bs Fs). cbv zeta in Bs.
  assert (RK : rcell 1 (ob_K o') i 0 = val kk) by (unfold rcell; rewrite HK; reflexivity). rewrite RK.
  assert (Rr : rcell 1 (ob_R o) 0 0 = val rr) by (unfold rcell; rewrite Err; reflexivity). rewrite Rr.
  unfold rcell. fold (@oval). 
  change (match cell n (ob_H o) 0 ?l with Some x => val x | None => 0 end) with (oval (cell n (ob_H o) 0 l)) in *.
  set (Sx := val rr + _) in *. set (aS := Rabs (val rr) + _) in *. set (eS := _ * aS + _) in *. 
  set (Cx := rsum n (fun l => oval (cell n (kf_P f) i l) * _)) in *. set (aC := rsum n (fun l => Rabs (oval (cell n (kf_P f) i l)) * _)) in *.
  change (Rabs (val kk * Sx - Cx) <= Rabs (val kk) * eS + ((1 + u) ^ 6 * ((1 + u) ^ n * (aC + INR n * eta)) - aC) + eta * (Rabs Sx + eS) * (2 * ((1 + u) ^ n * (aC + INR n * eta)) + 1)).
  change (Rabs (val s - Sx) <= eS) in Bs.
  set (G := (1 + u) ^ n) in *. set (C1 := G * (aC + INR n * eta)) in *. set (k := Rabs (val kk)).
  assert (Hc1 : Rabs (val ch - Cx) <= C1 - aC) by (unfold C1; eapply Rle_trans; [exact Bc|]; right; ring).
  assert (HCx : Rabs Cx <= aC) by (eapply Rle_trans; [apply rsum_abs|]; right; apply rsum_ext; intros; apply Rabs_mult).
  assert (Hch : Rabs (val ch) <= C1). { replace (val ch) with ((val ch - Cx) + Cx) by ring. eapply Rle_trans; [apply Rabs_triang|]. lra. }
  assert (Hs : val s <= Rabs Sx + eS). { pose proof (Rle_abs (val s - Sx)). pose proof (Rle_abs Sx). lra. }
  replace (val kk * Sx - Cx) with ((val kk * - (val s - Sx)) + (val kk * val s - val ch) + (val ch - Cx)) by ring.
  eapply Rle_trans; [apply Rabs_triang|]. eapply Rle_trans; [apply Rplus_le_compat_r, Rabs_triang|]. rewrite Rabs_mult, Rabs_Ropp. fold k.
  assert (Hk : 0 <= k) by apply Rabs_pos. assert (T1 : k * Rabs (val s - Sx) <= k * eS) by (apply Rmult_le_compat_l; lra).
  pose proof (pow_R1_Rle (1 + u) 6 ltac:(lra)) as Hq6. set (q6 := (1 + u) ^ 6) in *.
  assert (T2 : (q6 - 1) * Rabs (val ch) <= (q6 - 1) * C1) by (apply Rmult_le_compat_l; lra).
  assert (HC1 : 0 <= C1) by (eapply Rle_trans; [apply Rabs_pos|exact Hch]).
  assert (T3 : eta * val s * (2 * Rabs (val ch) + 1) <= eta * (Rabs Sx + eS) * (2 * C1 + 1)).
  { pose proof (Rabs_pos (val ch)). apply Rmult_le_compat; [nra|lra| |lra]. apply Rmult_le_compat_l; lra. }
  lra.
Qed.
End Gain.
