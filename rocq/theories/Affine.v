(** * Numbers that depend on unknown data: an affine function of the unknowns plus a bound on everything that was rounded away.

    This is a tool for proofs, no part of the model: running a program of the model on such numbers bounds what it does for all
    values of the unknowns.  A number is either a known float or  (m + sum a_k eps_k  +- e) / 2^sh  with unknowns eps_k in [-1, 1]. *)
From Coq Require Import ZArith Reals Lra Psatz Lia List.
From Flocq Require Import Core BinarySingleNaN.
From Verif Require Import Prelude Numeric SpecParam Param SpecDataPar DataPar FloatNum SpecFloats SpecReal SpecRange FloatGen FloatFlocq FloatOps FloatErr FloatFmt FloatRange FloatSelect.
Import ListNotations SpecFloat.
Open Scope R_scope.

Inductive anum : Type := Pt (f : spec_float) | Af (m : Z) (a : list Z) (e : Z).

Section Ops.
Variables (prec emax : Z) (sz : bool) (sh : Z).
Definition asum (a : list Z) : Z := fold_right (fun z s => Z.abs z + s)%Z 0%Z a.
Definition amag (m : Z) (a : list Z) (e : Z) : Z := (Z.abs m + asum a + e)%Z.
(** the result of an operation whose exact result is m + a +- e, after rounding; [ex] is for underflow *)
Definition mkaf (m : Z) (a : list Z) (e : Z) (ex : Z) : option anum :=
  let g := amag m a e in
  if (4 * g + 4 <? 2 ^ (sh + emax))%Z then Some (Af m a (e + (g / 2 ^ prec + 1) + ex)) else None.
Fixpoint ladd (a b : list Z) : list Z := match a, b with [], _ => b | _, [] => a | x :: a, y :: b => (x + y)%Z :: ladd a b end.
Definition scale (k x z : Z) : Z := if (0 <=? x)%Z then (k * z * 2 ^ x)%Z else (k * z / 2 ^ (- x))%Z.
Definition to_af (v : anum) : option (Z * list Z * Z) :=
  match v with
  | Af m a e => Some (m, a, e)
  | Pt (S754_zero _) => Some (0%Z, [], 0%Z)
  | Pt (S754_finite s k x) => Some (scale (cond_Zopp s (Zpos k)) (x + sh) 1, [], 1%Z)
  | Pt _ => None
  end.
Definition a_add (v w : anum) : option anum :=
  match v, w with
  | Pt f, Pt g => Some (Pt (SFadd prec emax f g))
  | _, _ => match to_af v, to_af w with
            | Some (m, a, e), Some (m', a', e') => mkaf (m + m') (ladd a a') (e + e') 0
            | _, _ => None
            end
  end.
Definition a_sub (v w : anum) : option anum :=
  match v, w with
  | Pt f, Pt g => Some (Pt (SFsub prec emax f g))
  | _, _ => match to_af v, to_af w with
            | Some (m, a, e), Some (m', a', e') => mkaf (m - m') (ladd a (map Z.opp a')) (e + e') 0
            | _, _ => None
            end
  end.
Definition a_mul (v w : anum) : option anum :=
  match v, w with
  | Pt f, Pt g => Some (Pt (SFmul prec emax f g))
  | Pt (S754_zero _), Af m a e => Some (Af 0 [] 0)
  | Pt (S754_finite s k x), Af m a e =>
      let k := cond_Zopp s (Zpos k) in
      mkaf (scale k x m) (map (scale k x) a) (scale (Z.abs k) x e + 2 + Z.of_nat (length a)) 1
  | _, _ => None
  end.
Definition on_pt (h : spec_float -> spec_float) (v : anum) : option anum := match v with Pt f => Some (Pt (h f)) | _ => None end.
Definition a_num : num anum := {|
  n_zero := Pt (S754_zero false);
  n_one := Pt (sf_one prec);
  o_add := a_add; o_sub := a_sub; o_mul := a_mul;
  o_neg := on_pt SFopp;
  o_recip := on_pt (fun a => SFdiv prec emax (sf_one prec) a);
  o_sqrt := on_pt (SFsqrt prec emax);
  n_le := fun v w => match v, w with Pt f, Pt g => SFleb f g | _, _ => false end;
  n_sum0 := Pt (S754_zero sz) |}.

Hypothesis HF : format_ok prec emax.
Hypothesis Hsh : (0 <= sh <= emax + prec - 3)%Z.
Variable eps : nat -> R.
Hypothesis Heps : forall k, Rabs (eps k) <= 1.
#[local] Instance hprec : Prec_gt_0 prec. Proof. unfold Prec_gt_0. destruct HF. lia. Qed.
#[local] Instance hmax : Prec_lt_emax prec emax. Proof. apply HF. Qed.
Notation NN := (sf_num prec emax sz).
Notation vf := (valid_binary prec emax).
Notation u := (uro prec). Notation eta := (eta prec emax).
Notation s := (bpow radix2 sh).

Fixpoint lin (k : nat) (a : list Z) : R := match a with [] => 0 | z :: a => IZR z * eps k + lin (S k) a end.
Definition enc (v : R) (m : Z) (a : list Z) (e : Z) : Prop := Rabs (v * s - (IZR m + lin 0 a)) <= IZR e.
Definition pt_rel (v : anum) (f : spec_float) : Prop := v = Pt f /\ vf f = true.
Definition af_rel (v : anum) (f : spec_float) : Prop :=
  match v with Pt g => g = f /\ vf f = true | Af m a e => vf f = true /\ sf_finite f = true /\ enc (val f) m a e end.

Lemma s_pos : 0 < s. Proof. apply bpow_gt_0. Qed.
Lemma lin_le a : forall k, Rabs (lin k a) <= IZR (asum a).
Proof.
  induction a as [|z a IH]; intros k; cbn; [rewrite Rabs_R0; lra|]. rewrite plus_IZR, abs_IZR. eapply Rle_trans; [apply Rabs_triang|].
  apply Rplus_le_compat; [|apply IH]. rewrite Rabs_mult. pose proof (Heps k). pose proof (Rabs_pos (IZR z)). nra.
Qed.
Lemma lin_add a : forall b k, lin k (ladd a b) = lin k a + lin k b.
Proof. induction a as [|z a IH]; intros [|y b] k; cbn; try ring. rewrite IH, plus_IZR. ring. Qed.
Lemma lin_opp a : forall k, lin k (map Z.opp a) = - lin k a.
Proof. induction a as [|z a IH]; intros k; cbn; [ring|]. rewrite IH, opp_IZR. ring. Qed.
Lemma enc_mag v m a e : enc v m a e -> Rabs (v * s) <= IZR (amag m a e).
Proof.
  intros H. unfold amag. rewrite !plus_IZR, abs_IZR. replace (v * s) with (IZR m + lin 0 a + (v * s - (IZR m + lin 0 a))) by ring.
  eapply Rle_trans; [apply Rabs_triang|]. eapply Rle_trans; [apply Rplus_le_compat; [apply Rabs_triang|apply H]|]. pose proof (lin_le a 0). lra.
Qed.
Lemma div_up g : IZR g * u <= IZR (g / 2 ^ prec + 1).
Proof.
  destruct HF as (H1 & _). unfold uro. assert (P0 : (0 < 2 ^ prec)%Z) by (apply Z.pow_pos_nonneg; lia).
  assert (E : bpow radix2 (- prec) = / IZR (2 ^ prec)). { rewrite bpow_opp. f_equal. symmetry. apply (IZR_Zpower radix2). lia. }
  rewrite E. pose proof (Z.mod_pos_bound g (2 ^ prec) P0) as M. pose proof (Z.div_mod g (2 ^ prec) ltac:(lia)) as D.
  assert (L : (g <= (g / 2 ^ prec + 1) * 2 ^ prec)%Z) by lia. apply IZR_le in L. rewrite mult_IZR in L. apply IZR_lt in P0.
  apply Rmult_le_reg_r with (IZR (2 ^ prec)); [exact P0|]. rewrite Rmult_assoc, Rinv_l by lra. lra.
Qed.
Lemma u_small : u <= 1.
Proof. unfold uro. destruct HF. change 1 with (bpow radix2 0). apply bpow_le. lia. Qed.
Lemma u_pos : 0 < u. Proof. apply bpow_gt_0. Qed.

(** the rounded result of an operation *)
Lemma mkaf_small v m a e ex r : enc v m a e -> (0 <= ex)%Z -> mkaf m a e ex = Some r -> (1 + u) * Rabs v + bpow radix2 (- sh) < too_big emax.
Proof.
  intros H He E. unfold mkaf in E. destruct (Z.ltb_spec (4 * amag m a e + 4) (2 ^ (sh + emax))) as [L|]; [|discriminate].
  pose proof (enc_mag _ _ _ _ H) as M. apply IZR_lt in L. rewrite plus_IZR, mult_IZR in L. rewrite (IZR_Zpower radix2) in L by (destruct HF; lia). rewrite bpow_plus in L.
  rewrite Rabs_mult, (Rabs_pos_eq s) in M by (left; apply s_pos). pose proof s_pos. pose proof u_small. pose proof u_pos. pose proof (Rabs_pos v).
  unfold too_big. assert (S1 : bpow radix2 (- sh) * s = 1) by (rewrite <- bpow_plus; replace (- sh + sh)%Z with 0%Z by lia; reflexivity).
  apply Rmult_lt_reg_r with s; [apply s_pos|]. rewrite Rmult_plus_distr_r, S1. rewrite (Rmult_comm (bpow radix2 emax)). assert (V : u * (Rabs v * s) <= 1 * (Rabs v * s)) by (apply Rmult_le_compat_r; nra). nra.
Qed.
Lemma mkaf_ok v m a e ex w z : enc v m a e -> (0 <= ex)%Z -> mkaf m a e ex = Some w -> vf z = true -> sf_finite z = true -> Rabs (val z - v) * s <= u * Rabs v * s + IZR ex -> af_rel w z.
Proof.
  intros H He E V F D. unfold mkaf in E. destruct (Z.ltb_spec (4 * amag m a e + 4) (2 ^ (sh + emax))) as [L|]; [|discriminate]. injection E as <-.
  split; [exact V|]. split; [exact F|]. unfold enc. pose proof (enc_mag _ _ _ _ H) as M. pose proof (div_up (amag m a e)) as U. pose proof s_pos as S0.
  rewrite Rabs_mult, (Rabs_pos_eq s) in M by lra. pose proof u_pos.
  replace (val z * s - (IZR m + lin 0 a)) with ((val z - v) * s + (v * s - (IZR m + lin 0 a))) by ring. eapply Rle_trans; [apply Rabs_triang|].
  rewrite Rabs_mult, (Rabs_pos_eq s) by lra. rewrite !plus_IZR. rewrite plus_IZR in U. unfold enc in H. assert (K : u * Rabs v * s <= IZR (amag m a e) * u) by nra. lra.
Qed.

Lemma scale_err k x z : Rabs (IZR k * bpow radix2 x * IZR z - IZR (scale k x z)) <= 1.
Proof.
  unfold scale. destruct (Z.leb_spec 0 x).
  - rewrite !mult_IZR, (IZR_Zpower radix2) by lia. replace (_ - _) with 0 by ring. rewrite Rabs_R0. lra.
  - assert (P0 : (0 < 2 ^ (- x))%Z) by (apply Z.pow_pos_nonneg; lia). pose proof (Z.mod_pos_bound (k * z) (2 ^ (- x)) P0) as M. pose proof (Z.div_mod (k * z) (2 ^ (- x)) ltac:(lia)) as D.
    set (q := (k * z / 2 ^ (- x))%Z) in *. set (r := (k * z mod 2 ^ (- x))%Z) in *.
    assert (E : bpow radix2 x * IZR (2 ^ (- x)) = 1). { rewrite (IZR_Zpower radix2) by lia. rewrite <- bpow_plus. replace (x + - x)%Z with 0%Z by lia. reflexivity. }
    replace (IZR k * bpow radix2 x * IZR z) with (bpow radix2 x * IZR (k * z)) by (rewrite mult_IZR; ring). rewrite D, plus_IZR, mult_IZR.
    replace (bpow radix2 x * (IZR (2 ^ (- x)) * IZR q + IZR r) - IZR q) with ((bpow radix2 x * IZR (2 ^ (- x))) * IZR q + bpow radix2 x * IZR r - IZR q) by ring. rewrite E.
    replace (1 * IZR q + bpow radix2 x * IZR r - IZR q) with (bpow radix2 x * IZR r) by ring. destruct M as (M1 & M2). apply IZR_le in M1. apply IZR_lt in M2. pose proof (bpow_gt_0 radix2 x). rewrite Rabs_pos_eq by nra. nra.
Qed.
Lemma lin_scale k x a : forall i, Rabs (IZR k * bpow radix2 x * lin i a - lin i (map (scale k x) a)) <= INR (length a).
Proof.
  induction a as [|z a IH]; intros i. { cbn. rewrite Rmult_0_r, Rminus_0_r, Rabs_R0. lra. }
  cbn [lin map length]. rewrite S_INR.
  replace (IZR k * bpow radix2 x * (IZR z * eps i + lin (S i) a) - (IZR (scale k x z) * eps i + lin (S i) (map (scale k x) a)))
    with ((IZR k * bpow radix2 x * lin (S i) a - lin (S i) (map (scale k x) a)) + (IZR k * bpow radix2 x * IZR z - IZR (scale k x z)) * eps i) by ring.
  eapply Rle_trans; [apply Rabs_triang|]. apply Rplus_le_compat; [apply IH|]. rewrite Rabs_mult. pose proof (scale_err k x z). pose proof (Heps i). pose proof (Rabs_pos (eps i)). nra.
Qed.
Lemma to_af_ok v f m a e : af_rel v f -> to_af v = Some (m, a, e) -> vf f = true /\ sf_finite f = true /\ enc (val f) m a e.
Proof.
  destruct v as [g|m' a' e']; cbn [af_rel to_af].
  - intros (-> & V) E. split; [exact V|]. destruct f as [b| | |b k x]; try discriminate E; injection E as <- <- <-; (split; [reflexivity|]); unfold enc, val, SF2R; cbn [lin].
    + rewrite Rmult_0_l, Rplus_0_r, Rminus_0_r, Rabs_R0. lra.
    + unfold F2R. cbn [Fnum Fexp]. pose proof (scale_err (cond_Zopp b (Z.pos k)) (x + sh) 1) as H. rewrite bpow_plus in H. rewrite Rplus_0_r. rewrite Rmult_1_r in H. rewrite Rmult_assoc. exact H.
  - intros H E. injection E as <- <- <-. exact H.
Qed.

Lemma eta_s : eta * s <= 1.
Proof. unfold SpecReal.eta. rewrite <- bpow_plus. change 1 with (bpow radix2 0). apply bpow_le. lia. Qed.
Lemma eta_sh : eta <= bpow radix2 (- sh).
Proof. unfold SpecReal.eta. apply bpow_le. lia. Qed.

Lemma add_ok v w f g : af_rel v f -> af_rel w g -> opt_rel True af_rel (a_add v w) (Some (SFadd prec emax f g)).
Proof.
  intros Hv Hw. assert (G : match to_af v, to_af w with Some (m, a, e), Some (m', a', e') => opt_rel True af_rel (mkaf (m + m') (ladd a a') (e + e') 0) (Some (SFadd prec emax f g)) | _, _ => True end).
  { destruct (to_af v) as [((m & a) & e)|] eqn:Ev; [|exact I]. destruct (to_af w) as [((m' & a') & e')|] eqn:Ew; [|exact I].
    destruct (to_af_ok _ _ _ _ _ Hv Ev) as (V1 & F1 & E1). destruct (to_af_ok _ _ _ _ _ Hw Ew) as (V2 & F2 & E2).
    assert (EE : enc (val f + val g) (m + m') (ladd a a') (e + e')).
    { unfold enc in *. rewrite lin_add, !plus_IZR. replace (_ - _) with ((val f * s - (IZR m + lin 0 a)) + (val g * s - (IZR m' + lin 0 a'))) by ring. eapply Rle_trans; [apply Rabs_triang|]. lra. }
    destruct (mkaf _ _ _ _) as [r|] eqn:Er; [|exact I]. pose proof (mkaf_small _ _ _ _ _ _ EE (Z.le_refl 0) Er) as SM. pose proof (bpow_gt_0 radix2 (- sh)).
    assert (FF : sf_finite (SFadd prec emax f g) = true) by (apply (add_fin prec emax HF); auto; lra).
    refine (mkaf_ok _ _ _ _ _ _ _ EE (Z.le_refl 0) Er _ FF _); [apply (vf_add prec emax _ _); assumption|].
    destruct (add_err_both prec emax _ _ f g V1 V2 FF) as (D & _). pose proof s_pos. rewrite Rplus_0_r. apply Rmult_le_compat_r; lra. }
  destruct v as [fv|m a e], w as [gw|m' a' e']; cbn [a_add].
  - destruct Hv as (-> & V1), Hw as (-> & V2). split; [reflexivity|apply (vf_add prec emax _ _); assumption].
  - destruct (to_af (Pt fv)) as [((? & ?) & ?)|]; [|exact I]. exact G.
  - cbn [to_af] in *. destruct (match gw with S754_zero _ => _ | _ => _ end) as [((? & ?) & ?)|]; [|exact I]. exact G.
  - exact G.
Qed.
Lemma sub_ok v w f g : af_rel v f -> af_rel w g -> opt_rel True af_rel (a_sub v w) (Some (SFsub prec emax f g)).
Proof.
  intros Hv Hw. assert (G : match to_af v, to_af w with Some (m, a, e), Some (m', a', e') => opt_rel True af_rel (mkaf (m - m') (ladd a (map Z.opp a')) (e + e') 0) (Some (SFsub prec emax f g)) | _, _ => True end).
  { destruct (to_af v) as [((m & a) & e)|] eqn:Ev; [|exact I]. destruct (to_af w) as [((m' & a') & e')|] eqn:Ew; [|exact I].
    destruct (to_af_ok _ _ _ _ _ Hv Ev) as (V1 & F1 & E1). destruct (to_af_ok _ _ _ _ _ Hw Ew) as (V2 & F2 & E2).
    assert (EE : enc (val f - val g) (m - m') (ladd a (map Z.opp a')) (e + e')).
    { unfold enc in *. rewrite lin_add, lin_opp, plus_IZR, minus_IZR. replace (_ - _) with ((val f * s - (IZR m + lin 0 a)) - (val g * s - (IZR m' + lin 0 a'))) by ring. eapply Rle_trans; [apply Rabs_triang|]. rewrite Rabs_Ropp. lra. }
    destruct (mkaf _ _ _ _) as [r|] eqn:Er; [|exact I]. pose proof (mkaf_small _ _ _ _ _ _ EE (Z.le_refl 0) Er) as SM. pose proof (bpow_gt_0 radix2 (- sh)).
    assert (FF : sf_finite (SFsub prec emax f g) = true) by (apply (sub_fin prec emax HF); auto; lra).
    refine (mkaf_ok _ _ _ _ _ _ _ EE (Z.le_refl 0) Er _ FF _); [apply (vf_sub prec emax _ _); assumption|].
    destruct (sub_err_both prec emax _ _ f g V1 V2 FF) as (D & _). pose proof s_pos. rewrite Rplus_0_r. apply Rmult_le_compat_r; lra. }
  destruct v as [fv|m a e], w as [gw|m' a' e']; cbn [a_sub].
  - destruct Hv as (-> & V1), Hw as (-> & V2). split; [reflexivity|apply (vf_sub prec emax _ _); assumption].
  - destruct (to_af (Pt fv)) as [((? & ?) & ?)|]; [|exact I]. exact G.
  - cbn [to_af] in *. destruct (match gw with S754_zero _ => _ | _ => _ end) as [((? & ?) & ?)|]; [|exact I]. exact G.
  - exact G.
Qed.
Lemma mul_ok v w f g : pt_rel v f -> af_rel w g -> opt_rel True af_rel (a_mul v w) (Some (SFmul prec emax f g)).
Proof.
  intros (-> & Vf) Hw. destruct w as [gw|m a e]; cbn [a_mul].
  - destruct Hw as (-> & V2). destruct f; (split; [reflexivity|apply (vf_mul prec emax _ _); assumption]).
  - destruct Hw as (Vg & Fg & E). destruct f as [b|b| |b k x]; try exact I.
    + assert (Z0 : exists z, SFmul prec emax (S754_zero b) g = S754_zero z) by (destruct g; try discriminate Fg; cbn; eauto). destruct Z0 as (z & ->).
      split; [reflexivity|]. split; [reflexivity|]. unfold enc, val. cbn. rewrite Rmult_0_l, Rplus_0_r, Rminus_0_r, Rabs_R0. lra.
    + set (K := cond_Zopp b (Z.pos k)). set (f := S754_finite b k x) in *. assert (EV : val f = IZR K * bpow radix2 x) by reflexivity.
      assert (EA : Rabs (val f) = IZR (Z.abs K) * bpow radix2 x). { rewrite EV, Rabs_mult, (Rabs_pos_eq (bpow _ _)) by (left; apply bpow_gt_0). rewrite abs_IZR. reflexivity. }
      assert (EE : enc (val f * val g) (scale K x m) (map (scale K x) a) (scale (Z.abs K) x e + 2 + Z.of_nat (length a))).
      { unfold enc in *. pose proof (scale_err K x m) as H1. pose proof (lin_scale K x a 0) as H2. pose proof (scale_err (Z.abs K) x e) as H3. rewrite <- EV in H1, H2. rewrite <- EA in H3.
        rewrite !plus_IZR, <- INR_IZR_INZ.
        replace (val f * val g * s - (IZR (scale K x m) + lin 0 (map (scale K x) a))) with
          (val f * (val g * s - (IZR m + lin 0 a)) + ((val f * IZR m - IZR (scale K x m)) + (val f * lin 0 a - lin 0 (map (scale K x) a)))) by ring.
        eapply Rle_trans; [apply Rabs_triang|]. rewrite Rabs_mult. apply Rabs_le_inv in H3. pose proof (Rabs_pos (val f)) as P1.
        assert (A1 : Rabs (val f) * Rabs (val g * s - (IZR m + lin 0 a)) <= Rabs (val f) * IZR e) by (apply Rmult_le_compat_l; lra).
        assert (A2 := Rabs_triang (val f * IZR m - IZR (scale K x m)) (val f * lin 0 a - lin 0 (map (scale K x) a))). lra. }
      destruct (mkaf _ _ _ _) as [r|] eqn:Er; [|exact I]. pose proof (mkaf_small _ _ _ _ _ _ EE Z.le_0_1 Er) as SM. pose proof eta_sh.
      assert (FF : sf_finite (SFmul prec emax f g) = true) by (apply (mul_fin prec emax HF); auto; lra).
      refine (mkaf_ok _ _ _ _ _ _ _ EE Z.le_0_1 Er _ FF _); [apply (vf_mul prec emax _ _); assumption|].
      destruct (mul_err_both prec emax _ _ f g Vf Vg FF) as (D & _). pose proof s_pos. pose proof eta_s.
      apply Rle_trans with ((u * Rabs (val f * val g) + eta) * s); [apply Rmult_le_compat_r; lra|]. rewrite Rmult_plus_distr_r. lra.
Qed.

Theorem affine_sound_num : num_mixed True pt_rel af_rel a_num NN.
Proof.
  destruct (same_fmt_num prec emax sz HF) as (Q0 & Q1 & Q2 & Q3 & Q4 & Q5 & Q6 & Q7 & Q8 & Q9).
  assert (FM : forall f, vf f = true -> same_fmt prec emax f f) by (intros f V; split; [reflexivity|exact V]).
  split; [|split; [|split; [|split]]].
  - unfold num_rel. split; [split; [reflexivity|apply Q0]|]. split; [split; [reflexivity|apply Q1]|]. split; [split; [reflexivity|apply Q2]|].
    split. { intros a b a' b' (-> & Va) (-> & Vb). reflexivity. }
    split. { intros a b a' b' (-> & Va) (-> & Vb). split; [reflexivity|]. exact (proj2 (Q4 _ _ _ _ (FM _ Va) (FM _ Vb))). }
    split. { intros a b a' b' (-> & Va) (-> & Vb). split; [reflexivity|]. exact (proj2 (Q5 _ _ _ _ (FM _ Va) (FM _ Vb))). }
    split. { intros a b a' b' (-> & Va) (-> & Vb). pose proof (proj2 (Q6 _ _ _ _ (FM _ Va) (FM _ Vb))). destruct a'; (split; [reflexivity|assumption]). }
    split. { intros a a' (-> & Va). split; [reflexivity|]. exact (proj2 (Q7 _ _ (FM _ Va))). }
    split. { intros a a' (-> & Va). split; [reflexivity|]. exact (proj2 (Q8 _ _ (FM _ Va))). }
    intros a a' (-> & Va). split; [reflexivity|]. exact (proj2 (Q9 _ _ (FM _ Va))).
  - intros a a' (-> & V). split; [reflexivity|exact V].
  - intros k k' a a' Hk Ha. exact (mul_ok _ _ _ _ Hk Ha).
  - intros a b a' b' Ha Hb. exact (add_ok _ _ _ _ Ha Hb).
  - intros a b a' b' Ha Hb. exact (sub_ok _ _ _ _ Ha Hb).
Qed.

(** reading a result *)
Lemma af_range m a e f : af_rel (Af m a e) f -> vf f = true /\ sf_finite f = true /\
  IZR (m - asum a - e) <= val f * s /\ val f * s <= IZR (m + asum a + e).
Proof.
  intros (V & F & E). split; [exact V|]. split; [exact F|]. unfold enc in E. apply Rabs_le_inv in E. pose proof (Rabs_le_inv _ _ (lin_le a 0)) as L. rewrite !minus_IZR, !plus_IZR. lra.
Qed.
End Ops.
