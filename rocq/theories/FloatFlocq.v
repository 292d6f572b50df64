(** * SpecFloat arithmetic and real numbers (through Flocq's verified binary floats) *)
From Coq Require Import ZArith Reals Lia Lra Psatz.
From Flocq Require Import Core BinarySingleNaN Relative Plus_error.
From Verif Require Import Prelude FloatNum SpecFloats SpecReal.
Import SpecFloat.
Open Scope R_scope.

Section Equiv.
Variables prec emax : Z.
Context (Hprec : Prec_gt_0 prec) (Hmax : Prec_lt_emax prec emax).

Lemma round_nearest_even_equiv s m l : round_nearest_even m l = choice_mode mode_NE s m l.
Proof.
  case l; [reflexivity|intro c]. case c; [ | reflexivity..]. now simpl; unfold Round.cond_incr; case Z.even.
Qed.
Lemma binary_round_aux_equiv sx mx ex lx :
  SpecFloat.binary_round_aux prec emax sx mx ex lx = BinarySingleNaN.binary_round_aux prec emax mode_NE sx mx ex lx.
Proof.
  unfold SpecFloat.binary_round_aux, BinarySingleNaN.binary_round_aux.
  set (mrse' := shr_fexp _ _ _). case mrse'; intros mrs' e'; simpl. now rewrite (round_nearest_even_equiv sx).
Qed.
Lemma binary_round_equiv s m e : SpecFloat.binary_round prec emax s m e = BinarySingleNaN.binary_round prec emax mode_NE s m e.
Proof.
  unfold SpecFloat.binary_round, BinarySingleNaN.binary_round, shl_align_fexp.
  set (mez := shl_align _ _ _); case mez as [mz ez]. apply binary_round_aux_equiv.
Qed.
Lemma binary_normalize_equiv m e szero :
  SpecFloat.binary_normalize prec emax m e szero = B2SF (BinarySingleNaN.binary_normalize prec emax Hprec Hmax mode_NE m e szero).
Proof.
  case m as [ | p | p]; [reflexivity| |]; simpl; rewrite B2SF_SF2B; apply binary_round_equiv.
Qed.
Lemma mul_equiv (x y : binary_float prec emax) : SFmul prec emax (B2SF x) (B2SF y) = B2SF (Bmult mode_NE x y).
Proof.
  case x as [sx|sx| |sx mx ex Bx]; case y as [sy|sy| |sy my ey By]; [now trivial.. | ].
  simpl. rewrite B2SF_SF2B. apply binary_round_aux_equiv.
Qed.
Lemma add_equiv (x y : binary_float prec emax) : SFadd prec emax (B2SF x) (B2SF y) = B2SF (Bplus mode_NE x y).
Proof.
  case x as [sx|sx| |sx mx ex Bx]; case y as [sy|sy| |sy my ey By]; [now (trivial || simpl; case Bool.eqb).. | ].
  apply binary_normalize_equiv.
Qed.
Lemma sub_equiv (x y : binary_float prec emax) : SFsub prec emax (B2SF x) (B2SF y) = B2SF (Bminus mode_NE x y).
Proof.
  case x as [sx|sx| |sx mx ex Bx]; case y as [sy|sy| |sy my ey By]; [now (trivial || simpl; case Bool.eqb).. | ].
  simpl. unfold Zminus. rewrite <- cond_Zopp_negb. apply binary_normalize_equiv.
Qed.
Lemma div_equiv (x y : binary_float prec emax) : SFdiv prec emax (B2SF x) (B2SF y) = B2SF (Bdiv mode_NE x y).
Proof.
  case x as [sx|sx| |sx mx ex Bx]; case y as [sy|sy| |sy my ey By]; [now (trivial || simpl; case Bool.eqb).. | ].
  simpl. rewrite B2SF_SF2B. set (melz := SFdiv_core_binary _ _ _ _ _ _). case melz as [[mz ez] lz]. apply binary_round_aux_equiv.
Qed.
Lemma sqrt_equiv (x : binary_float prec emax) : SFsqrt prec emax (B2SF x) = B2SF (Bsqrt mode_NE x).
Proof.
  case x as [sx|sx| |sx mx ex Bx]; [now (trivial || case sx).. | ]. case sx; [reflexivity | ].
  simpl. rewrite B2SF_SF2B. set (melz := SFsqrt_core_binary _ _ _ _). case melz as [[mz ez] lz]. apply binary_round_aux_equiv.
Qed.
Lemma opp_equiv (x : binary_float prec emax) : SFopp (B2SF x) = B2SF (Bopp x).
Proof. now case x as [sx|sx| |sx mx ex Bx]. Qed.

(** ** validity is preserved *)
Notation vf := (valid_binary prec emax).
Lemma vf_B x : vf x = true -> exists b : binary_float prec emax, x = B2SF b.
Proof. intros H. exists (SF2B x H). now rewrite B2SF_SF2B. Qed.
Lemma vf_mul x y : vf x = true -> vf y = true -> vf (SFmul prec emax x y) = true.
Proof. intros Hx Hy. apply vf_B in Hx, Hy. destruct Hx as [a ->], Hy as [b ->]. rewrite mul_equiv. apply valid_binary_B2SF. Qed.
Lemma vf_add x y : vf x = true -> vf y = true -> vf (SFadd prec emax x y) = true.
Proof. intros Hx Hy. apply vf_B in Hx, Hy. destruct Hx as [a ->], Hy as [b ->]. rewrite add_equiv. apply valid_binary_B2SF. Qed.
Lemma vf_sub x y : vf x = true -> vf y = true -> vf (SFsub prec emax x y) = true.
Proof. intros Hx Hy. apply vf_B in Hx, Hy. destruct Hx as [a ->], Hy as [b ->]. rewrite sub_equiv. apply valid_binary_B2SF. Qed.
Lemma vf_div x y : vf x = true -> vf y = true -> vf (SFdiv prec emax x y) = true.
Proof. intros Hx Hy. apply vf_B in Hx, Hy. destruct Hx as [a ->], Hy as [b ->]. rewrite div_equiv. apply valid_binary_B2SF. Qed.
Lemma vf_sqrt x : vf x = true -> vf (SFsqrt prec emax x) = true.
Proof. intros Hx. apply vf_B in Hx. destruct Hx as [a ->]. rewrite sqrt_equiv. apply valid_binary_B2SF. Qed.
Lemma vf_opp x : vf x = true -> vf (SFopp x) = true.
Proof. intros Hx. apply vf_B in Hx. destruct Hx as [a ->]. rewrite opp_equiv. apply valid_binary_B2SF. Qed.

(** ** values *)
Notation rnd := (round radix2 (SpecFloat.fexp prec emax) ZnearestE).

Lemma fin_B (b : binary_float prec emax) : sf_finite (B2SF b) = is_finite b.
Proof. now case b. Qed.
Lemma overflow_not_finite s : sf_finite (binary_overflow prec emax mode_NE s) = false.
Proof. reflexivity. Qed.
Lemma add_bad_l a b : sf_finite a = false -> sf_finite (SFadd prec emax a b) = false.
Proof. destruct a as [s|s| |s m e], b as [s'|s'| |s' m' e']; cbn; try reflexivity; try discriminate; intros _; destruct (Bool.eqb _ _); reflexivity. Qed.
Lemma add_bad_r a b : sf_finite b = false -> sf_finite (SFadd prec emax a b) = false.
Proof. destruct a as [s|s| |s m e], b as [s'|s'| |s' m' e']; cbn; try reflexivity; try discriminate; intros _; destruct (Bool.eqb _ _); reflexivity. Qed.
Lemma mul_bad_l a b : sf_finite a = false -> sf_finite (SFmul prec emax a b) = false.
Proof. destruct a as [s|s| |s m e], b as [s'|s'| |s' m' e']; cbn; try reflexivity; try discriminate. Qed.
Lemma mul_bad_r a b : sf_finite b = false -> sf_finite (SFmul prec emax a b) = false.
Proof. destruct a as [s|s| |s m e], b as [s'|s'| |s' m' e']; cbn; try reflexivity; try discriminate. Qed.

Lemma val_format x : vf x = true -> generic_format radix2 (SpecFloat.fexp prec emax) (val x).
Proof. intros H. apply vf_B in H. destruct H as [b ->]. unfold val; rewrite SF2R_B2SF. apply generic_format_B2R. Qed.

(** a finite result is the correctly rounded one *)
Lemma mul_val a b : vf a = true -> vf b = true -> sf_finite (SFmul prec emax a b) = true ->
  sf_finite a = true /\ sf_finite b = true /\ val (SFmul prec emax a b) = rnd (val a * val b).
Proof.
  intros Ha Hb F. split; [destruct (sf_finite a) eqn:E; auto; rewrite (mul_bad_l a b E) in F; discriminate|].
  split; [destruct (sf_finite b) eqn:E; auto; rewrite (mul_bad_r a b E) in F; discriminate|].
  apply vf_B in Ha, Hb. destruct Ha as [x ->], Hb as [y ->]. rewrite mul_equiv in *. unfold val; rewrite !SF2R_B2SF.
  pose proof (Bmult_correct prec emax Hprec Hmax mode_NE x y) as H. destruct (Rlt_bool _ _).
  - destruct H as (H & _). exact H.
  - rewrite H in F. discriminate.
Qed.
Lemma add_val a b : vf a = true -> vf b = true -> sf_finite (SFadd prec emax a b) = true ->
  sf_finite a = true /\ sf_finite b = true /\ val (SFadd prec emax a b) = rnd (val a + val b).
Proof.
  intros Ha Hb F. assert (Fa : sf_finite a = true) by (destruct (sf_finite a) eqn:E; auto; rewrite (add_bad_l a b E) in F; discriminate).
  assert (Fb : sf_finite b = true) by (destruct (sf_finite b) eqn:E; auto; rewrite (add_bad_r a b E) in F; discriminate).
  split; [exact Fa|]. split; [exact Fb|].
  apply vf_B in Ha, Hb. destruct Ha as [x ->], Hb as [y ->]. rewrite add_equiv in *. unfold val; rewrite !SF2R_B2SF. rewrite fin_B in Fa, Fb.
  pose proof (Bplus_correct prec emax Hprec Hmax mode_NE x y Fa Fb) as H. destruct (Rlt_bool _ _).
  - destruct H as (H & _). exact H.
  - destruct H as (H & _). rewrite H in F. discriminate.
Qed.

(** rounding errors *)
Notation uro := (uro prec). Notation eta := (eta prec emax).
Lemma fexp_FLT : SpecFloat.fexp prec emax = FLT_exp (3 - emax - prec) prec.
Proof. reflexivity. Qed.
Lemma uro_pos : 0 < uro. Proof. apply bpow_gt_0. Qed.
Lemma eta_pos : 0 < eta. Proof. apply bpow_gt_0. Qed.
Lemma half_ulp : / 2 * bpow radix2 (- prec + 1) = uro.
Proof. unfold SpecReal.uro. rewrite bpow_plus. change (bpow radix2 1) with 2. field. Qed.
Lemma half_eta : / 2 * bpow radix2 (3 - emax - prec) = eta.
Proof. unfold SpecReal.eta. replace (3 - emax - prec)%Z with (2 - emax - prec + 1)%Z by lia. rewrite bpow_plus. change (bpow radix2 1) with 2. field. Qed.

Lemma mul_err a b : vf a = true -> vf b = true -> sf_finite (SFmul prec emax a b) = true ->
  Rabs (val (SFmul prec emax a b) - val a * val b) <= uro * Rabs (val a * val b) + eta.
Proof.
  intros Ha Hb F. destruct (mul_val a b Ha Hb F) as (_ & _ & ->). rewrite fexp_FLT.
  destruct (relative_error_N_FLT'_ex radix2 (3 - emax - prec) prec Hprec (fun x => negb (Z.even x)) (val a * val b)) as (d & e & Hd & He & _ & ->).
  replace ((val a * val b) * (1 + d) + e - val a * val b) with (val a * val b * d + e) by ring.
  eapply Rle_trans; [apply Rabs_triang|]. rewrite half_eta in He. apply Rplus_le_compat; [|exact He].
  rewrite Rabs_mult, Rmult_comm. apply Rmult_le_compat_r; [apply Rabs_pos|].
  eapply Rle_trans; [exact Hd|]. unfold u_ro. rewrite half_ulp. pose proof uro_pos.
  apply Rmult_le_reg_r with (1 + uro); [lra|]. unfold Rdiv. rewrite Rmult_assoc, Rinv_l by lra. nra.
Qed.
Lemma mul_err_normal a b : vf a = true -> vf b = true -> sf_finite (SFmul prec emax a b) = true ->
  val a * val b = 0 \/ min_normal emax <= Rabs (val a * val b) ->
  Rabs (val (SFmul prec emax a b) - val a * val b) <= uro * Rabs (val a * val b).
Proof.
  intros Ha Hb F HN. destruct (mul_val a b Ha Hb F) as (_ & _ & ->). destruct HN as [->|HN].
  - rewrite round_0 by auto with typeclass_instances. rewrite Rminus_0_r, Rabs_R0. lra.
  - rewrite fexp_FLT. pose proof (relative_error_N_FLT radix2 (3 - emax - prec) prec Hprec (fun x => negb (Z.even x)) (val a * val b)) as H.
    rewrite half_ulp in H. apply H. replace (3 - emax - prec + prec - 1)%Z with (2 - emax)%Z by lia. exact HN.
Qed.
Lemma add_err a b : vf a = true -> vf b = true -> sf_finite (SFadd prec emax a b) = true ->
  Rabs (val (SFadd prec emax a b) - (val a + val b)) <= uro * Rabs (val a + val b).
Proof.
  intros Ha Hb F. destruct (add_val a b Ha Hb F) as (_ & _ & ->). rewrite fexp_FLT.
  destruct (FLT_plus_error_N_ex radix2 (3 - emax - prec) prec (fun x => negb (Z.even x)) (val a) (val b)) as (d & Hd & ->).
  { apply val_format in Ha. exact Ha. } { apply val_format in Hb. exact Hb. }
  replace ((val a + val b) * (1 + d) - (val a + val b)) with ((val a + val b) * d) by ring.
  rewrite Rabs_mult, Rmult_comm. apply Rmult_le_compat_r; [apply Rabs_pos|].
  eapply Rle_trans; [exact Hd|]. unfold u_ro. rewrite half_ulp. pose proof uro_pos.
  apply Rmult_le_reg_r with (1 + uro); [lra|]. unfold Rdiv. rewrite Rmult_assoc, Rinv_l by lra. nra.
Qed.
Lemma add_zero_l b : vf b = true -> sf_finite b = true -> val (SFadd prec emax (S754_zero false) b) = val b.
Proof. intros _ H. destruct b as [s|s| |s m e]; cbn; try reflexivity; try discriminate. destruct s; reflexivity. Qed.
End Equiv.
