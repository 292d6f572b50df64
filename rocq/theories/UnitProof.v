(** * Proofs for SpecUnit.v *)
From Coq Require Import ZArith Reals Lia Lra.
From Flocq Require Import Core BinarySingleNaN.
From Verif Require Import Prelude Spec Matrix Filter Extended History SpecParam Param FloatNum FixedNum SpecFloats SpecReal SpecUnit FloatFlocq FloatChol FloatOps FloatFmt.
Import SpecFloat.
Open Scope nat_scope.

Section Gen.
Context {T : Type} (D : T -> Prop) (c : cfg) (N : num T) (HD : closed_under D N).
Notation WL := (Forall2 (within D)).

Lemma within_eq l l' : WL l l' -> l = l'.
Proof. induction 1 as [|a b l l' (-> & _) _ IH]; congruence. Qed.
Lemma kf_within_eq f g : kf_rel (within D) f g -> f = g.
Proof. intros (H1 & H2 & H3 & H4 & H5 & H6). destruct f, g; cbn in *. f_equal; apply within_eq; assumption. Qed.
Lemma prel_eq {A} (r : Rel A A) (m1 m2 : res A) : (forall a b, rel a b -> a = b) -> prel (r := r) False m1 m2 -> m1 = m2.
Proof. intros He [[[] _]|H]. destruct m1, m2; try contradiction; [f_equal; apply He, H|congruence]. Qed.

Lemma tuned_P n lam f : size_one D N lam -> kf_rel (within D) f f -> predict_P_tuned c N n lam f = predict_P c N n f.
Proof.
  intros (H1 & H2 & H3) Hf. unfold predict_P_tuned, n_mul, n_recip. rewrite H1. cbn [of_opt bind]. rewrite H2. cbn [of_opt bind]. unfold predict_P.
  destruct Hf as (HA & Hx & HP & HQ & Hpx & HtP).
  pose proof (p_mult False (within D) c N N HD n n n _ _ _ _ _ _ HA HP HtP) as Hm.
  destruct (mult c N n n n (kf_A f) (kf_P f) (kf_tP f)) as [tP|p]; cbn [bind]; [|reflexivity].
  destruct Hm as [[[] _]|Hm]. hnf in Hm.
  replace (multscale_transb c N (n_one N) n n n tP (kf_A f) (kf_P f)) with (mult_transb c N n n n tP (kf_A f) (kf_P f)); [reflexivity|].
  apply (@prel_eq (list T) (Forall2 (within D))); [exact within_eq|]. unfold mult_transb, multscale_transb.
  apply (p_gen_transb False (within D) c N N HD _ _ n n n); auto.
  intros o t o' t' _ (-> & Ht). unfold n_mul. rewrite (H3 t' Ht). apply prel_ok. split; [reflexivity|exact Ht].
Qed.

Lemma kf_self f g : kf_rel (within D) f g -> kf_rel (within D) g g.
Proof. intros H. pose proof (kf_within_eq f g H). subst g. exact H. Qed.

Lemma tuned_one n lam f : size_one D N lam -> kf_rel (within D) f f -> predict_tuned c N n lam f = predict c N n f.
Proof.
  intros Hl Hf. unfold predict_tuned, predict. pose proof (p_predict_x False (within D) c N N HD n f f Hf) as [[[] _]|Hp].
  destruct (predict_x c N n f) as [g|p]; cbn [bind]; [|reflexivity]. apply tuned_P; [exact Hl|exact Hp].
Qed.
Lemma tuned_one_nl n lam h f : size_one D N lam -> fun_rel False (within D) h h -> kf_rel (within D) f f ->
  predict_tuned_nonlinear c N n lam h f = predict_nonlinear c N n h f.
Proof.
  intros Hl Hh Hf. unfold predict_tuned_nonlinear, predict_nonlinear. pose proof (p_predict_x_nl False (within D) c n h h f f Hh Hf) as [[[] _]|Hp].
  destruct (predict_x_nonlinear c n h f) as [g|p]; cbn [bind]; [|reflexivity]. apply tuned_P; [exact Hl|exact Hp].
Qed.

Lemma alike_step n w o o' : world_rel (within D) w w -> alike D N o o' ->
  step c N n w o = step c N n w o' /\ forall w', step c N n w o' = Ok w' -> world_rel (within D) w' w'.
Proof.
  intros Hw Ha.
  assert (Hs : op_rel False (within D) o' o' -> forall w', step c N n w o' = Ok w' -> world_rel (within D) w' w').
  { intros Ho w' E. pose proof (p_step False (within D) c N N HD n w w o' o' Hw Ho) as [[[] _]|Hp]. rewrite E in Hp. exact Hp. }
  destruct Ha as [o Ho|lam Hl|lam h Hl Hh].
  - split; [reflexivity|auto].
  - split; [|apply Hs; constructor]. cbn [step]. rewrite (tuned_one n lam (w_kf w) Hl (proj1 Hw)). reflexivity.
  - split; [|apply Hs; constructor; exact Hh]. cbn [step]. rewrite (tuned_one_nl n lam h (w_kf w) Hl Hh (proj1 Hw)). reflexivity.
Qed.
Theorem alike_run n os os' : Forall2 (alike D N) os os' -> forall w, world_rel (within D) w w -> run c N n w os = run c N n w os'.
Proof.
  induction 1 as [|o o' os os' Ha _ IH]; intros w Hw; cbn [run]; [reflexivity|].
  destruct (alike_step n w o o' Hw Ha) as (E & G). rewrite E. destruct (step c N n w o') as [w'|p] eqn:E'; cbn [bind]; [apply IH, (G w' eq_refl)|reflexivity].
Qed.
End Gen.

(** ** floats *)
Section Float.
Variables (prec emax : Z) (sz : bool).
Hypothesis HF : format_ok prec emax.
#[local] Instance hprec : Prec_gt_0 prec. Proof. unfold Prec_gt_0. destruct HF. lia. Qed.
#[local] Instance hmax : Prec_lt_emax prec emax. Proof. apply HF. Qed.
Notation vf := (valid_binary prec emax).
Notation NN := (sf_num prec emax sz).

Lemma float_closed : closed_under (in_format prec emax) NN.
Proof. exact (same_fmt_num prec emax sz HF). Qed.

Lemma mul_one x : vf x = true -> SFmul prec emax x (sf_one prec) = x.
Proof.
  intros Hx. destruct x as [s|s| |s m e]; [destruct s; reflexivity|destruct s; reflexivity|reflexivity|].
  destruct (vf_B prec emax _ Hx) as (b & Eb). rewrite <- (one_ieee prec emax hprec hmax) by apply HF. rewrite Eb, (mul_equiv prec emax hprec hmax). f_equal.
  pose proof (Bmult_correct prec emax hprec hmax mode_NE b Bone) as H. rewrite Bone_correct, Rmult_1_r in H.
  assert (Hfin : is_finite b = true) by (rewrite <- fin_B, <- Eb; reflexivity).
  rewrite round_generic in H; [|auto with typeclass_instances|apply generic_format_B2R].
  rewrite Rlt_bool_true in H by apply (abs_B2R_lt_emax prec emax). destruct H as (H1 & H2 & H3).
  assert (Hs : is_finite_strict b = true) by (destruct b; try discriminate Eb; reflexivity).
  apply B2R_inj; [|exact Hs|exact H1].
  rewrite Hfin, is_finite_Bone in H2. cbn [andb] in H2. destruct (Bmult mode_NE b Bone) as [s'|s'| |s' m' e' Hb'] eqn:E; try discriminate H2; [|reflexivity].
  exfalso. cbn in H1. destruct b; try discriminate Hs. symmetry in H1. unfold B2R in H1. eapply (F2R_neq_0 radix2); [|exact H1]. destruct s0; discriminate.
Qed.
Lemma mul_m_one : SFmul prec emax (SFopp (sf_one prec)) (SFopp (sf_one prec)) = sf_one prec.
Proof.
  assert (V1 : vf (sf_one prec) = true) by (apply one_format; [exact hmax|apply HF]).
  rewrite <- (mul_one (sf_one prec) V1) at 3. reflexivity.
Qed.
Lemma recip_one : SFdiv prec emax (sf_one prec) (sf_one prec) = sf_one prec.
Proof.
  rewrite <- (one_ieee prec emax hprec hmax) by apply HF. rewrite (div_equiv prec emax hprec hmax). f_equal.
  pose proof (Bdiv_correct prec emax hprec hmax mode_NE Bone Bone) as H. rewrite Bone_correct in H.
  assert (E1 : (1 / 1 = B2R (Bone : binary_float prec emax))%R) by (rewrite Bone_correct; field). rewrite E1 in H.
  rewrite round_generic in H; [|auto with typeclass_instances|apply generic_format_B2R].
  rewrite Rlt_bool_true in H by apply (abs_B2R_lt_emax prec emax). destruct H as (H1 & H2 & H3); [lra|].
  rewrite is_finite_Bone in H2.
  apply B2R_inj; [|apply is_finite_strict_Bone|exact H1].
  destruct (Bdiv mode_NE Bone Bone) as [s'|s'| |s' m' e' Hb'] eqn:E; try discriminate H2; [|reflexivity].
  exfalso. rewrite Bone_correct in H1. cbn in H1. lra.
Qed.
Lemma float_size_one lam : lam = sf_one prec \/ lam = SFopp (sf_one prec) -> size_one (in_format prec emax) NN lam.
Proof.
  assert (V1 : vf (sf_one prec) = true) by (apply one_format; [exact hmax|apply HF]).
  intros H. unfold size_one. cbn [sf_num n_one o_mul o_recip]. split; [|split].
  - f_equal. destruct H as [->| ->]; [apply mul_one, V1|apply mul_m_one].
  - f_equal. apply recip_one.
  - intros x Hx. f_equal. apply mul_one, Hx.
Qed.
End Float.

(** ** fixed point *)
Section Fixed.
Variables (bits frac : Z) (oc da : bool).
Hypothesis (H0 : (0 <= frac)%Z) (H1 : (frac < bits - 1)%Z).
Notation NF := (fx_num bits frac oc da).
Open Scope Z_scope.

Lemma fits_le z : fx_in bits z <-> - 2 ^ (bits - 1) <= z <= 2 ^ (bits - 1) - 1.
Proof. unfold fx_in, fx_fits, fx_min, fx_max. rewrite andb_true_iff, !Z.leb_le. reflexivity. Qed.
Lemma wrap_in z : fx_in bits (fx_wrap bits z).
Proof.
  apply fits_le. unfold fx_wrap, fx_min. assert (E : 2 ^ bits = 2 * 2 ^ (bits - 1)). { rewrite <- Z.pow_succ_r by lia. f_equal. lia. }
  pose proof (Z.mod_pos_bound (z - - 2 ^ (bits - 1)) (2 ^ bits)). assert (0 < 2 ^ (bits - 1)) by (apply Z.pow_pos_nonneg; lia). lia.
Qed.
Lemma res_in ch z : opt_rel False (within (fx_in bits)) (fx_res bits ch z) (fx_res bits ch z).
Proof. unfold fx_res. destruct (fx_fits bits z) eqn:E; [split; [reflexivity|exact E]|]. destruct ch; [exact I|split; [reflexivity|apply wrap_in]]. Qed.
Lemma one_in : fx_in bits (2 ^ frac).
Proof. apply fits_le. assert (2 ^ frac < 2 ^ (bits - 1)) by (apply Z.pow_lt_mono_r; lia). assert (0 < 2 ^ frac) by (apply Z.pow_pos_nonneg; lia). lia. Qed.
Lemma zero_in : fx_in bits 0.
Proof. apply fits_le. assert (0 < 2 ^ (bits - 1)) by (apply Z.pow_pos_nonneg; lia). lia. Qed.
Lemma fixed_closed : closed_under (fx_in bits) NF.
Proof.
  unfold closed_under, num_rel. cbn [fx_num n_zero n_one n_sum0 n_le o_add o_sub o_mul o_neg o_recip o_sqrt].
  repeat match goal with |- _ /\ _ => split end; try (split; [reflexivity|apply zero_in]); try (split; [reflexivity|apply one_in]); intros;
    repeat match goal with H : within _ _ _ |- _ => destruct H as [<- ?] end; try apply res_in; [reflexivity| |].
  - destruct (a =? 0); [exact I|apply res_in].
  - destruct (a <? 0) eqn:E; [exact I|]. split; [reflexivity|]. apply Z.ltb_ge in E. apply fits_le. match goal with H : fx_in bits a |- _ => apply fits_le in H end.
    pose proof (Z.sqrt_nonneg (a * 2 ^ frac)). assert (0 < 2 ^ (bits - 1)) by (apply Z.pow_pos_nonneg; lia). split; [lia|].
    assert (G : Z.sqrt (a * 2 ^ frac) < 2 ^ (bits - 1)); [|lia]. apply Z.sqrt_lt_square; [nia|lia|].
    assert (2 ^ frac <= 2 ^ (bits - 1)) by (apply Z.pow_le_mono_r; lia). assert (0 < 2 ^ frac) by (apply Z.pow_pos_nonneg; lia). nia.
Qed.
Lemma fixed_mul_one x : fx_in bits x -> o_mul NF x (2 ^ frac) = Some x.
Proof. intros Hx. cbn [fx_num o_mul]. rewrite Z.div_mul by (apply Z.pow_nonzero; lia). unfold fx_res. rewrite Hx. reflexivity. Qed.
Lemma fixed_size_one lam : lam = 2 ^ frac \/ lam = - 2 ^ frac -> size_one (fx_in bits) NF lam.
Proof.
  intros H. assert (Hz : 2 ^ frac <> 0) by (apply Z.pow_nonzero; lia). split; [|split].
  - destruct H as [->| ->]; [apply fixed_mul_one, one_in|]. cbn [fx_num o_mul n_one]. rewrite Z.mul_opp_opp, Z.div_mul by exact Hz.
    unfold fx_res. rewrite one_in. reflexivity.
  - cbn [fx_num o_recip n_one]. destruct (2 ^ frac =? 0) eqn:E; [apply Z.eqb_eq in E; contradiction|]. rewrite Z.quot_mul by exact Hz.
    unfold fx_res. rewrite one_in. reflexivity.
  - exact fixed_mul_one.
Qed.
End Fixed.
