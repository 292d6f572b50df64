(** * More rounding facts: subtraction, reciprocal, square root, errors relative to the computed result *)
From Coq Require Import ZArith Reals Lia Lra Psatz.
From Flocq Require Import Core BinarySingleNaN Relative Plus_error.
From Verif Require Import Prelude FloatNum SpecFloats SpecReal FloatFlocq.
Import SpecFloat.
Open Scope R_scope.

Section Ops.
Variables prec emax : Z.
Context (Hprec : Prec_gt_0 prec) (Hmax : Prec_lt_emax prec emax).
Notation vf := (valid_binary prec emax).
Notation rnd := (round radix2 (SpecFloat.fexp prec emax) ZnearestE).
Notation u := (uro prec). Notation eta := (eta prec emax).

Lemma sub_add a b : SFsub prec emax a b = SFadd prec emax a (SFopp b).
Proof.
  destruct a as [s|s| |s m e], b as [s'|s'| |s' m' e']; try reflexivity.
  cbn. f_equal. unfold Zminus. f_equal. rewrite <- cond_Zopp_negb. reflexivity.
Qed.
Lemma val_opp b : val (SFopp b) = - val b.
Proof. destruct b as [s|s| |s m e]; unfold val; cbn; try ring. destruct s; unfold F2R; cbn; change (Z.neg m) with (- Z.pos m)%Z; rewrite opp_IZR; ring. Qed.
Lemma fin_opp b : sf_finite (SFopp b) = sf_finite b. Proof. destruct b; reflexivity. Qed.
Lemma sub_val a b : vf a = true -> vf b = true -> sf_finite (SFsub prec emax a b) = true -> sf_finite a = true /\ sf_finite b = true.
Proof.
  intros Ha Hb F. rewrite sub_add in F. destruct (add_val prec emax _ _ a (SFopp b) Ha (vf_opp prec emax b Hb) F) as (H1 & H2 & _).
  rewrite fin_opp in H2. auto.
Qed.

(** |x (1 + d) - x| with |d| <= u / (1 + u) is at most u |x| and at most u |x (1 + d)| *)
Lemma rel_both x d : Rabs d <= u_ro radix2 prec / (1 + u_ro radix2 prec) -> Rabs (x * (1 + d) - x) <= u * Rabs x /\ Rabs (x * (1 + d) - x) <= u * Rabs (x * (1 + d)).
Proof.
  unfold u_ro. rewrite half_ulp. pose proof (uro_pos prec) as Hu. intros Hd.
  assert (Hd' : Rabs d * (1 + u) <= u). { apply Rmult_le_reg_r with (/ (1 + u)); [apply Rinv_0_lt_compat; lra|]. rewrite Rmult_assoc, Rinv_r by lra. rewrite Rmult_1_r. exact Hd. }
  replace (x * (1 + d) - x) with (x * d) by ring. rewrite !Rabs_mult. pose proof (Rabs_pos d). pose proof (Rabs_pos x).
  assert (H1 : Rabs d <= u) by nra. split; [nra|].
  assert (H2 : 1 - Rabs d <= Rabs (1 + d)). { pose proof (Rabs_triang (1 + d) (- d)). replace (1 + d + - d) with 1 in H2 by ring. rewrite Rabs_Ropp, Rabs_R1 in H2. lra. }
  assert (H3 : Rabs d <= u * Rabs (1 + d)) by nra. nra.
Qed.
Lemma add_err_both a b : vf a = true -> vf b = true -> sf_finite (SFadd prec emax a b) = true ->
  Rabs (val (SFadd prec emax a b) - (val a + val b)) <= u * Rabs (val a + val b) /\
  Rabs (val (SFadd prec emax a b) - (val a + val b)) <= u * Rabs (val (SFadd prec emax a b)).
Proof.
  intros Ha Hb F. destruct (add_val prec emax _ _ a b Ha Hb F) as (_ & _ & ->). rewrite fexp_FLT.
  destruct (FLT_plus_error_N_ex radix2 (3 - emax - prec) prec (fun x => negb (Z.even x)) (val a) (val b)) as (d & Hd & ->).
  { apply val_format in Ha; auto. } { apply val_format in Hb; auto. } apply rel_both, Hd.
Qed.
Lemma sub_err_both a b : vf a = true -> vf b = true -> sf_finite (SFsub prec emax a b) = true ->
  Rabs (val (SFsub prec emax a b) - (val a - val b)) <= u * Rabs (val a - val b) /\
  Rabs (val (SFsub prec emax a b) - (val a - val b)) <= u * Rabs (val (SFsub prec emax a b)).
Proof.
  intros Ha Hb F. rewrite sub_add in *. pose proof (add_err_both a (SFopp b) Ha (vf_opp prec emax b Hb) F) as H. rewrite val_opp in H. exact H.
Qed.
(** any correctly rounded number *)
Lemma rnd_err x : Rabs (rnd x - x) <= u * Rabs x + eta /\ Rabs (rnd x - x) <= u * Rabs (rnd x) + eta.
Proof.
  rewrite fexp_FLT. pose proof (uro_pos prec) as Hu. pose proof (eta_pos prec emax) as He0.
  destruct (relative_error_N_FLT'_ex radix2 (3 - emax - prec) prec Hprec (fun x => negb (Z.even x)) x) as (d & e & Hd & He & Hde & ->).
  rewrite half_eta in He. destruct (Rmult_integral _ _ Hde) as [-> | ->].
  - replace (x * (1 + 0) + e - x) with e by ring. pose proof (Rabs_pos x). pose proof (Rabs_pos (x * (1 + 0) + e)). nra.
  - rewrite Rplus_0_r. destruct (rel_both x d Hd). lra.
Qed.
Lemma rnd_err_normal x : min_normal emax <= Rabs x -> Rabs (rnd x - x) <= u * Rabs x /\ Rabs (rnd x - x) <= u * Rabs (rnd x).
Proof.
  intros HN. rewrite fexp_FLT. destruct (relative_error_N_FLT_ex radix2 (3 - emax - prec) prec Hprec (fun x => negb (Z.even x)) x) as (d & Hd & E).
  { replace (3 - emax - prec + prec - 1)%Z with (2 - emax)%Z by lia. exact HN. }
  rewrite E. split; [rewrite half_ulp in Hd; replace (x * (1 + d) - x) with (x * d) by ring; rewrite Rabs_mult; pose proof (Rabs_pos x); nra|].
  pose proof (relative_error_N_FLT_round radix2 (3 - emax - prec) prec Hprec (fun x => negb (Z.even x)) x) as H. rewrite half_ulp, E in H.
  apply H. replace (3 - emax - prec + prec - 1)%Z with (2 - emax)%Z by lia. exact HN.
Qed.
Lemma mul_err_both a b : vf a = true -> vf b = true -> sf_finite (SFmul prec emax a b) = true ->
  Rabs (val (SFmul prec emax a b) - val a * val b) <= u * Rabs (val a * val b) + eta /\
  Rabs (val (SFmul prec emax a b) - val a * val b) <= u * Rabs (val (SFmul prec emax a b)) + eta.
Proof. intros Ha Hb F. destruct (mul_val prec emax _ _ a b Ha Hb F) as (_ & _ & ->). apply rnd_err. Qed.

(** the reciprocal of a finite number other than zero *)
Lemma one_val : (1 < prec)%Z -> val (sf_one prec) = 1.
Proof.
  intros Hp. unfold val, sf_one, SF2R, F2R, Defs.Fnum, Defs.Fexp, cond_Zopp. rewrite Pos2Z.inj_pow.
  rewrite Z2Pos.id by lia. change 2%Z with (radix_val radix2) at 1. rewrite IZR_Zpower by lia. rewrite <- bpow_plus.
  replace (prec - 1 + (1 - prec))%Z with 0%Z by lia. reflexivity.
Qed.
Lemma recip_val l : (1 < prec)%Z -> vf (sf_one prec) = true -> vf l = true -> sf_finite l = true -> val l <> 0 -> sf_finite (SFdiv prec emax (sf_one prec) l) = true ->
  val (SFdiv prec emax (sf_one prec) l) = rnd (/ val l).
Proof.
  intros Hp V1 Vl Fl Hl F. pose proof (one_val Hp) as E1. set (one := sf_one prec) in *. clearbody one.
  apply vf_B in V1, Vl. destruct V1 as [a ->], Vl as [b ->]. rewrite (div_equiv prec emax Hprec Hmax) in *. unfold val in *; rewrite SF2R_B2SF in E1, Hl; rewrite !SF2R_B2SF.
  pose proof (Bdiv_correct prec emax Hprec Hmax mode_NE a b Hl) as H. destruct (Rlt_bool _ _).
  - destruct H as (H & _). rewrite H, E1. change (round_mode mode_NE) with ZnearestE. f_equal. field. exact Hl.
  - rewrite H in F. discriminate.
Qed.

Lemma sqrt_val s : vf s = true -> sf_finite (SFsqrt prec emax s) = true -> SFleb s (S754_zero false) = false ->
  sf_finite s = true /\ 0 < val s /\ val (SFsqrt prec emax s) = rnd (sqrt (val s)).
Proof.
  intros V F H. destruct s as [b|b| |b m e]; try discriminate; try (destruct b; discriminate). destruct b; [discriminate|].
  split; [reflexivity|]. split.
  - unfold val; cbn. unfold F2R; cbn. pose proof (bpow_gt_0 radix2 e). assert (0 < IZR (Z.pos m)) by (apply IZR_lt; lia). nra.
  - apply vf_B in V. destruct V as [x Ex]. rewrite Ex in *. rewrite (sqrt_equiv prec emax Hprec Hmax). unfold val; rewrite !SF2R_B2SF.
    destruct (Bsqrt_correct prec emax Hprec Hmax mode_NE x) as (HR & _). exact HR.
Qed.
(** a positive number of the format is at least 2^(3-emax-prec), so its square root is no subnormal number *)
Lemma pos_lower s : vf s = true -> 0 < val s -> bpow radix2 (3 - emax - prec) <= val s.
Proof.
  intros V H. destruct s as [b|b| |b m e]; unfold val in H; cbn in H; try lra. destruct b.
  { unfold F2R in H; cbn in H. pose proof (bpow_gt_0 radix2 e). pose proof (IZR_lt _ _ (Pos2Z.neg_is_neg m)). cbn in H1. nra. }
  cbn in V. unfold bounded in V. apply andb_prop in V. destruct V as (V & _). apply Zeq_bool_eq in V.
  assert (He : (3 - emax - prec <= e)%Z) by (rewrite <- V; unfold SpecFloat.fexp, SpecFloat.emin; lia).
  unfold val; cbn. unfold F2R; cbn. eapply Rle_trans; [apply bpow_le, He|]. pose proof (bpow_gt_0 radix2 e). assert (1 <= IZR (Z.pos m)) by (apply IZR_le; lia). nra.
Qed.
Lemma sqrt_lower s : vf s = true -> 0 < val s -> min_normal emax <= sqrt (val s).
Proof.
  intros V H. apply pos_lower in V; [|exact H]. pose proof Hmax as Hm. unfold Prec_lt_emax in Hm.
  unfold min_normal. pose proof (bpow_gt_0 radix2 (2 - emax)).
  rewrite <- (sqrt_Rsqr (bpow radix2 (2 - emax))) by lra. apply sqrt_le_1_alt. unfold Rsqr. rewrite <- bpow_plus.
  eapply Rle_trans; [apply bpow_le|exact V]. lia.
Qed.
Lemma fin_upper s : vf s = true -> sf_finite s = true -> Rabs (val s) < bpow radix2 emax.
Proof.
  intros V _. apply vf_B in V. destruct V as [x ->]. unfold val. rewrite SF2R_B2SF. apply abs_B2R_lt_emax.
Qed.
(** L = sqrt s: L^2 is s up to two rounding errors, and 1/L is a normal number *)
Lemma sqrt_err s : vf s = true -> sf_finite (SFsqrt prec emax s) = true -> SFleb s (S754_zero false) = false ->
  0 < val (SFsqrt prec emax s) /\ Rabs (val s - val (SFsqrt prec emax s) * val (SFsqrt prec emax s)) <= ((1 + u) * (1 + u) - 1) * (val (SFsqrt prec emax s) * val (SFsqrt prec emax s)).
Proof.
  intros V F H. destruct (sqrt_val s V F H) as (Fs & Ps & E). pose proof (sqrt_lower s V Ps) as HL.
  assert (HN : min_normal emax <= Rabs (sqrt (val s))) by (rewrite Rabs_pos_eq; [exact HL|apply sqrt_pos]).
  destruct (rnd_err_normal _ HN) as (_ & HE). rewrite <- E in HE. set (l := val (SFsqrt prec emax s)) in *.
  assert (Hq : val s = sqrt (val s) * sqrt (val s)) by (rewrite sqrt_sqrt; lra). set (q := sqrt (val s)) in *.
  pose proof (uro_pos prec) as Hu. assert (Hq0 : 0 < q) by (apply sqrt_lt_R0; exact Ps).
  assert (Hl0 : 0 <= l).
  { rewrite E. apply round_ge_generic; [apply fexp_correct, Hprec|auto with typeclass_instances|apply generic_format_0|lra]. }
  rewrite (Rabs_pos_eq l) in HE by exact Hl0.
  assert (Hl : 0 < l). { destruct Hl0 as [Hl0|Hl0]; [exact Hl0|]. rewrite <- Hl0 in HE. rewrite Rmult_0_r in HE. unfold Rminus in HE. rewrite Rplus_0_l, Rabs_Ropp, Rabs_pos_eq in HE by lra. lra. }
  split; [exact Hl|]. rewrite Hq. replace (q * q - l * l) with ((q - l) * (q + l)) by ring. rewrite Rabs_mult, (Rabs_pos_eq (q + l)) by lra.
  rewrite Rabs_minus_sym in HE. assert (q <= l + u * l) by (pose proof (Rle_abs (q - l)); lra).
  assert (Rabs (q - l) * (q + l) <= (u * l) * (l + u * l + l)) by (apply Rmult_le_compat; try lra; try apply Rabs_pos). nra.
Qed.
Lemma sqrt_upper s : (4 <= emax)%Z -> vf s = true -> sf_finite (SFsqrt prec emax s) = true -> SFleb s (S754_zero false) = false ->
  min_normal emax <= / val (SFsqrt prec emax s).
Proof.
  intros He V F H. destruct (sqrt_val s V F H) as (Fs & Ps & E). destruct (sqrt_err s V F H) as (Hl & _).
  pose proof (fin_upper s V Fs) as HU. rewrite Rabs_pos_eq in HU by lra.
  assert (HB : val (SFsqrt prec emax s) <= bpow radix2 (emax - 2)).
  { rewrite E. pose proof Hmax as Hm. pose proof Hprec as Hp. unfold Prec_lt_emax in Hm. unfold Prec_gt_0 in Hp.
    apply round_le_generic; [apply fexp_correct, Hprec|auto with typeclass_instances| |].
    - apply generic_format_bpow. unfold SpecFloat.fexp, SpecFloat.emin. lia.
    - eapply Rle_trans; [apply sqrt_le_1_alt, Rlt_le, HU|]. rewrite <- (sqrt_Rsqr (bpow radix2 (emax - 2))) by apply bpow_ge_0.
      apply sqrt_le_1_alt. unfold Rsqr. rewrite <- bpow_plus. apply bpow_le. lia. }
  unfold min_normal. replace (2 - emax)%Z with (- (emax - 2))%Z by lia. rewrite bpow_opp. apply Rinv_le; auto.
Qed.
End Ops.
