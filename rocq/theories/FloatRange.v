(** * Moderate data cannot overflow *)
From Coq Require Import ZArith Reals Lia Lra Psatz.
From Flocq Require Import Core Plus_error Relative BinarySingleNaN.
From Verif Require Import Prelude Spec SpecBits Matrix Filter SpecFilter Kernels FilterGen FilterTwo HistGen FloatNum SpecFloats SpecReal SpecRange FloatGen FloatFlocq FloatOps FloatErr FloatInt FloatPredict FloatFmt FloatUpdate BitsProof.
Import SpecFloat.
Open Scope R_scope.

Section Range.
Variables (c : cfg) (prec emax : Z) (sz : bool).
Hypothesis HF : format_ok prec emax.
Notation NN := (sf_num prec emax sz).
#[local] Instance hprec : Prec_gt_0 prec. Proof. unfold Prec_gt_0. destruct HF. lia. Qed.
#[local] Instance hmax : Prec_lt_emax prec emax. Proof. apply HF. Qed.
Notation vf := (valid_binary prec emax).
Notation u := (uro prec). Notation eta := (eta prec emax).
Notation given := (given prec emax).

Lemma mul_fin a b : vf a = true -> vf b = true -> sf_finite a = true -> sf_finite b = true ->
  (1 + u) * Rabs (val a * val b) + eta < too_big emax -> sf_finite (SFmul prec emax a b) = true.
Proof.
  intros Ha Hb Fa Fb HR. apply vf_B in Ha, Hb. destruct Ha as [x ->], Hb as [y ->]. rewrite (mul_equiv prec emax _ _). rewrite (fin_B prec emax) in *.
  unfold val in HR. rewrite !SF2R_B2SF in HR. pose proof (Bmult_correct prec emax _ _ mode_NE x y) as H.
  rewrite Rlt_bool_true in H. - destruct H as (_ & H & _). rewrite H, Fa, Fb. reflexivity.
  - change (round_mode mode_NE) with ZnearestE. destruct (rnd_err prec emax _ (B2R x * B2R y)) as (E & _).
    change (bpow radix2 emax) with (too_big emax). set (r := round _ _ _ _) in *.
    replace r with ((r - B2R x * B2R y) + B2R x * B2R y) by ring. eapply Rle_lt_trans; [apply Rabs_triang|]. lra.
Qed.
Lemma add_fin a b : vf a = true -> vf b = true -> sf_finite a = true -> sf_finite b = true ->
  (1 + u) * Rabs (val a + val b) < too_big emax -> sf_finite (SFadd prec emax a b) = true.
Proof.
  intros Ha Hb Fa Fb HR.
  assert (E : Rabs (round radix2 (SpecFloat.fexp prec emax) ZnearestE (val a + val b)) < bpow radix2 emax).
  { rewrite fexp_FLT. destruct (FLT_plus_error_N_ex radix2 (3 - emax - prec) prec (fun x => negb (Z.even x)) (val a) (val b)) as (d & Hd & E).
    { exact (val_format prec emax _ Ha). } { exact (val_format prec emax _ Hb). }
    rewrite E. destruct (rel_both prec (val a + val b) d Hd) as (H & _). change (bpow radix2 emax) with (too_big emax).
    replace ((val a + val b) * (1 + d)) with (((val a + val b) * (1 + d) - (val a + val b)) + (val a + val b)) by ring. eapply Rle_lt_trans; [apply Rabs_triang|]. lra. }
  apply vf_B in Ha, Hb. destruct Ha as [x ->], Hb as [y ->]. rewrite (add_equiv prec emax _ _). rewrite (fin_B prec emax) in *.
  unfold val in E. rewrite !SF2R_B2SF in E. pose proof (Bplus_correct prec emax _ _ mode_NE x y Fa Fb) as H.
  rewrite Rlt_bool_true in H; [apply H|exact E].
Qed.

Definition allfin (K : nat) (f : nat -> option spec_float) : Prop := forall k a, (k < K)%nat -> f k = Some a -> sf_finite a = true.
Definition room (K : nat) (f g : nat -> option spec_float) : R := (1 + u) ^ K * (rsum K (fun k => Rabs (oval (f k)) * Rabs (oval (g k))) + INR K * eta).

Lemma room_step K f g : room K f g <= room (S K) f g.
Proof.
  unfold room. pose proof (uro_pos prec). pose proof (eta_pos prec emax). pose proof (pow_R1_Rle (1 + u) K ltac:(lra)). rewrite S_INR. cbn [rsum pow].
  assert (0 <= rsum K (fun k => Rabs (oval (f k)) * Rabs (oval (g k)))) by (apply rsum_pos; intros; apply Rmult_le_pos; apply Rabs_pos).
  pose proof (Rmult_le_pos _ _ (Rabs_pos (oval (f K))) (Rabs_pos (oval (g K)))). pose proof (pos_INR K).
  set (A := rsum K _) in *. set (t := Rabs (oval (f K)) * Rabs (oval (g K))) in *. set (q := (1 + u) ^ K) in *.
  assert (q * (A + INR K * eta) <= (1 + u) * q * (A + INR K * eta)). { apply Rmult_le_compat_r; nra. }
  eapply Rle_trans; [exact H5|]. apply Rmult_le_compat_l; nra.
Qed.
Lemma acc_abs K f g r : given K f -> given K g -> dot NN K f g = Some r -> sf_finite r = true -> Rabs (val r) <= room K f g.
Proof.
  intros Gf Gg E F. destruct (dot_both prec emax sz HF K f g Gf Gg) as (r' & E' & _ & B). rewrite E in E'. injection E' as <-. destruct (B F) as (B1 & _). unfold err_le in B1.
  set (S := rsum K (fun k => oval (f k) * oval (g k))) in *. replace (val r) with ((val r - S) + S) by ring. eapply Rle_trans; [apply Rabs_triang|].
  assert (HS : Rabs S <= rsum K (fun k => Rabs (oval (f k)) * Rabs (oval (g k)))) by (eapply Rle_trans; [apply rsum_abs|]; right; apply rsum_ext; intros; apply Rabs_mult).
  unfold room. nra.
Qed.
Lemma acc1_abs K f g r : (1 <= K)%nat -> given K f -> given K g -> dot1 NN K f g = Some r -> sf_finite r = true -> Rabs (val r) <= room K f g.
Proof.
  intros HK Gf Gg E F. destruct (dot1_both prec emax sz HF K f g HK Gf Gg) as (r' & E' & _ & B). rewrite E in E'. injection E' as <-. destruct (B F) as (B1 & _). unfold err_le in B1.
  set (S := rsum K (fun k => oval (f k) * oval (g k))) in *. replace (val r) with ((val r - S) + S) by ring. eapply Rle_trans; [apply Rabs_triang|].
  assert (HS : Rabs S <= rsum K (fun k => Rabs (oval (f k)) * Rabs (oval (g k)))) by (eapply Rle_trans; [apply rsum_abs|]; right; apply rsum_ext; intros; apply Rabs_mult).
  unfold room. nra.
Qed.
(** one step: the product and the addition stay finite *)
Lemma step_fin K f g r a b : (1 <= K)%nat -> vf r = true -> vf a = true -> vf b = true -> sf_finite r = true -> sf_finite a = true -> sf_finite b = true ->
  Rabs (val r) <= room K f g -> f K = Some a -> g K = Some b -> room (S K) f g < too_big emax -> sf_finite (SFadd prec emax r (SFmul prec emax a b)) = true.
Proof.
  intros HK Vr Va Vb Fr Fa Fb HB Ea Eb HR. pose proof (uro_pos prec) as Hu. pose proof (eta_pos prec emax) as He.
  unfold room in *. rewrite S_INR in HR. cbn [rsum pow] in HR. rewrite Ea, Eb in HR. cbn [oval] in HR. rewrite <- Rabs_mult in HR.
  assert (HA : 0 <= rsum K (fun k => Rabs (oval (f k)) * Rabs (oval (g k)))) by (apply rsum_pos; intros; apply Rmult_le_pos; apply Rabs_pos).
  set (A := rsum K _) in *. pose proof (pos_INR K) as HI. pose proof (Rabs_pos (val a * val b)) as Ht. set (t := Rabs (val a * val b)) in *.
  assert (Hq : 1 + u <= (1 + u) ^ K). { replace (1 + u) with ((1 + u) ^ 1) at 1 by ring. apply Rle_pow; [lra|exact HK]. } set (q := (1 + u) ^ K) in *.
  assert (Hm : (1 + u) * t + eta < too_big emax).
  { eapply Rle_lt_trans; [|exact HR]. assert ((1 + u) * q * (t + eta) <= (1 + u) * q * (A + t + (INR K + 1) * eta)) by (apply Rmult_le_compat_l; nra).
    assert ((1 + u) * 1 * (t + eta) <= (1 + u) * q * (t + eta)) by (apply Rmult_le_compat_r; nra). nra. }
  pose proof (mul_fin a b Va Vb Fa Fb Hm) as Fm. destruct (mul_err_both prec emax _ _ a b Va Vb Fm) as (Em & _). fold t in Em.
  apply add_fin; auto. { apply vf_mul; auto with typeclass_instances. }
  assert (Hp : Rabs (val (SFmul prec emax a b)) <= (1 + u) * t + eta).
  { replace (val (SFmul prec emax a b)) with ((val (SFmul prec emax a b) - val a * val b) + val a * val b) by ring. eapply Rle_trans; [apply Rabs_triang|]. fold t. lra. }
  eapply Rle_lt_trans; [|exact HR]. pose proof (Rabs_triang (val r) (val (SFmul prec emax a b))).
  apply Rle_trans with ((1 + u) * (q * (A + INR K * eta) + ((1 + u) * t + eta))); [apply Rmult_le_compat_l; lra|].
  rewrite Rmult_assoc. apply Rmult_le_compat_l; [lra|]. assert ((1 + u) * t + eta <= q * t + q * eta) by nra. nra.
Qed.

Lemma dot_fin K f g r : given K f -> given K g -> allfin K f -> allfin K g -> room K f g < too_big emax -> dot NN K f g = Some r -> sf_finite r = true.
Proof.
  revert r. induction K as [|K IH]; intros r Gf Gg Af Ag HR E; [cbn in E; injection E as <-; reflexivity|].
  assert (Gf' : given K f) by (eapply given_le; eauto). assert (Gg' : given K g) by (eapply given_le; eauto).
  cbn [dot] in E. destruct (dot_total prec emax _ _ sz K f g Gf' Gg') as (r0 & E0 & V0).
  destruct (Gf K) as (a & Ea & Va); [lia|]. destruct (Gg K) as (b & Eb & Vb); [lia|]. rewrite E0, Ea, Eb in E. cbn in E. injection E as <-.
  assert (F0 : sf_finite r0 = true).
  { apply (IH r0); auto; try (intros k x Hk; first [apply Af|apply Ag]; lia). eapply Rle_lt_trans; [apply room_step|exact HR]. }
  assert (Fa : sf_finite a = true) by (apply (Af K a); auto). assert (Fb : sf_finite b = true) by (apply (Ag K b); auto).
  destruct (Nat.eq_dec K 0) as [->|HK].
  - cbn in E0. injection E0 as <-. assert (Fm : sf_finite (SFmul prec emax a b) = true).
    { apply mul_fin; auto. unfold room in HR. cbn [rsum pow INR] in HR. rewrite Ea, Eb in HR. cbn [oval] in HR. rewrite <- Rabs_mult in HR.
      pose proof (uro_pos prec) as Hu. pose proof (eta_pos prec emax) as He. pose proof (Rabs_pos (val a * val b)). nra. }
    destruct (SFmul prec emax a b) as [s|s| |s m e]; try discriminate; [destruct s|]; reflexivity.
  - apply (step_fin K f g); auto; [lia|apply acc_abs; auto].
Qed.
Lemma dot1_fin K f g r : (1 <= K)%nat -> given K f -> given K g -> allfin K f -> allfin K g -> room K f g < too_big emax -> dot1 NN K f g = Some r -> sf_finite r = true.
Proof.
  revert r. induction K as [|[|K] IH]; intros r HK Gf Gg Af Ag HR E; [lia| |].
  - cbn in E. destruct (Gf 0%nat) as (a & Ea & Va); [lia|]. destruct (Gg 0%nat) as (b & Eb & Vb); [lia|]. rewrite Ea, Eb in E. cbn in E. injection E as <-.
    apply mul_fin; auto; [apply (Af 0%nat a); auto|apply (Ag 0%nat b); auto|]. unfold room in HR. cbn [rsum pow INR] in HR. rewrite Ea, Eb in HR. cbn [oval] in HR. rewrite <- Rabs_mult in HR.
    pose proof (uro_pos prec) as Hu. pose proof (eta_pos prec emax) as He. pose proof (Rabs_pos (val a * val b)). nra.
  - assert (Gf' : given (S K) f) by (eapply given_le; eauto). assert (Gg' : given (S K) g) by (eapply given_le; eauto).
    rewrite dot1_S in E. destruct (dot1_total prec emax _ _ sz (S K) f g ltac:(lia) Gf' Gg') as (r0 & E0 & V0).
    destruct (Gf (S K)) as (a & Ea & Va); [lia|]. destruct (Gg (S K)) as (b & Eb & Vb); [lia|]. rewrite E0, Ea, Eb in E. cbn [obind] in E.
    change (Some (SFadd prec emax r0 (SFmul prec emax a b)) = Some r) in E. injection E as <-.
    assert (F0 : sf_finite r0 = true).
    { apply (IH r0); auto; try lia; try (intros k x Hk; first [apply Af|apply Ag]; lia). eapply Rle_lt_trans; [apply room_step|exact HR]. }
    apply (step_fin (S K) f g); auto; [lia|apply (Af (S K) a); auto|apply (Ag (S K) b); auto|apply acc1_abs; auto; lia].
Qed.

(** q + dot1 and q - dot1 *)
Lemma pm_fin b q v r : vf q = true -> vf v = true -> sf_finite q = true -> sf_finite v = true -> (1 + u) * (Rabs (val q) + Rabs (val v)) < too_big emax ->
  b_pm prec emax sz b (Some q) (Some v) = Some r -> sf_finite r = true.
Proof.
  intros Vq Vv Fq Fv HR E. pose proof (uro_pos prec) as Hu. destruct b; cbn [b_pm b_sub b_add obind] in E; [change (Some (SFsub prec emax q v) = Some r) in E|change (Some (SFadd prec emax q v) = Some r) in E]; injection E as <-.
  - rewrite sub_add. apply add_fin; auto; [apply vf_opp; auto|rewrite fin_opp; auto|]. rewrite val_opp. pose proof (Rabs_triang (val q) (- val v)). rewrite Rabs_Ropp in H. nra.
  - apply add_fin; auto. pose proof (Rabs_triang (val q) (val v)). nra.
Qed.
Lemma vec_fin b K q f g r : (1 <= K)%nat -> vf q = true -> sf_finite q = true -> given K f -> given K g -> allfin K f -> allfin K g ->
  vec_room prec emax K (val q) (fun k => oval (f k)) (fun k => oval (g k)) ->
  b_pm prec emax sz b (Some q) (dot1 NN K f g) = Some r -> sf_finite r = true.
Proof.
  intros HK Vq Fq Gf Gg Af Ag HR E. pose proof (uro_pos prec) as Hu. pose proof (eta_pos prec emax) as He.
  destruct (dot1_total prec emax _ _ sz K f g HK Gf Gg) as (v & Ev & Vv). rewrite Ev in E. unfold vec_room in HR. rewrite pow_add, pow_1 in HR.
  assert (HA : 0 <= rsum K (fun k => Rabs (oval (f k)) * Rabs (oval (g k)))) by (apply rsum_pos; intros; apply Rmult_le_pos; apply Rabs_pos).
  pose proof (pow_R1_Rle (1 + u) K ltac:(lra)) as HG. pose proof (pos_INR K) as HI. pose proof (Rabs_pos (val q)) as HQ.
  assert (HD : Rabs (val q) + room K f g <= (1 + u) ^ K * (Rabs (val q) + rsum K (fun k => Rabs (oval (f k)) * Rabs (oval (g k))) + INR K * eta)).
  { unfold room. set (A := rsum K _) in *. nra. }
  set (W := (1 + u) ^ K * (Rabs (val q) + _ + _)) in HD.
  assert (HW : (1 + u) * W < too_big emax). { eapply Rle_lt_trans; [|exact HR]. right. unfold W. ring. }
  assert (0 <= W). { eapply Rle_trans; [|exact HD]. apply Rplus_le_le_0_compat; [exact HQ|]. unfold room. apply Rmult_le_pos; [lra|]. nra. }
  assert (Hroom : room K f g < too_big emax) by nra.
  pose proof (dot1_fin K f g v HK Gf Gg Af Ag Hroom Ev) as Fv. apply (pm_fin b q v r); auto.
  pose proof (acc1_abs K f g v HK Gf Gg Ev Fv). nra.
Qed.

(** q +- a nested product *)
Lemma mat_fin b K1 K2 q (s t : nat -> nat -> option spec_float) (a : nat -> option spec_float) (sw : bool) r : vf q = true -> sf_finite q = true ->
  (forall k, (k < K2)%nat -> given K1 (s k)) -> (forall k, (k < K2)%nat -> given K1 (t k)) -> given K2 a ->
  (forall k, (k < K2)%nat -> allfin K1 (s k)) -> (forall k, (k < K2)%nat -> allfin K1 (t k)) -> allfin K2 a ->
  mat_room prec emax K1 K2 (val q) (fun k l => oval (s k l)) (fun k l => oval (t k l)) (fun k => oval (a k)) ->
  b_pm prec emax sz b (Some q) (if sw then dot NN K2 a (fun k => dot NN K1 (s k) (t k)) else dot NN K2 (fun k => dot NN K1 (s k) (t k)) a) = Some r -> sf_finite r = true.
Proof.
  intros Vq Fq Gs Gt Ga As At Aa (HR1 & HR2) E. pose proof (uro_pos prec) as Hu. pose proof (eta_pos prec emax) as He.
  assert (Gi : forall k, (k < K2)%nat -> exists v, dot NN K1 (s k) (t k) = Some v /\ vf v = true /\ sf_finite v = true /\ Rabs (val v) <= room K1 (s k) (t k)).
  { intros k Hk. destruct (dot_total prec emax _ _ sz K1 (s k) (t k) (Gs k Hk) (Gt k Hk)) as (v & Ev & Vv). exists v. split; [exact Ev|]. split; [exact Vv|].
    assert (Fv : sf_finite v = true) by (apply (dot_fin K1 (s k) (t k)); auto; apply HR1, Hk). split; [exact Fv|]. apply acc_abs; auto. }
  set (d := fun k => dot NN K1 (s k) (t k)) in *.
  assert (Gd : given K2 d) by (intros k Hk; destruct (Gi k Hk) as (v & Ev & Vv & _); exists v; auto).
  assert (Ad : allfin K2 d) by (intros k x Hk Ex; destruct (Gi k Hk) as (v & Ev & _ & Fv & _); unfold d in Ex; congruence).
  assert (Bd : forall k, (k < K2)%nat -> Rabs (oval (d k)) <= room K1 (s k) (t k)) by (intros k Hk; destruct (Gi k Hk) as (v & Ev & _ & _ & B); unfold d; rewrite Ev; exact B).
  set (G1 := (1 + u) ^ K1) in *. set (G2 := (1 + u) ^ K2) in *.
  pose proof (pow_R1_Rle (1 + u) K1 ltac:(lra)) as HG1. pose proof (pow_R1_Rle (1 + u) K2 ltac:(lra)) as HG2. fold G1 in HG1. fold G2 in HG2.
  set (AA := rsum K2 (fun k => rsum K1 (fun l => Rabs (oval (s k l)) * Rabs (oval (t k l))) * Rabs (oval (a k)))) in *.
  set (W := rsum K2 (fun k => Rabs (oval (a k)))) in *.
  assert (HAA : 0 <= AA) by (apply rsum_pos; intros; apply Rmult_le_pos; [apply rsum_pos; intros; apply Rmult_le_pos; apply Rabs_pos|apply Rabs_pos]).
  assert (HW : 0 <= W) by (apply rsum_pos; intros; apply Rabs_pos).
  assert (Hsum : rsum K2 (fun k => Rabs (oval (d k)) * Rabs (oval (a k))) <= G1 * AA + G1 * (INR K1 * eta) * W).
  { unfold AA, W. rewrite <- !rsum_scal, <- rsum_plus. apply rsum_le. intros k Hk. specialize (Bd k Hk). unfold room in Bd. fold G1 in Bd. pose proof (Rabs_pos (oval (a k))).
    eapply Rle_trans; [apply Rmult_le_compat_r; [apply Rabs_pos|exact Bd]|]. right. ring. }
  pose proof (pos_INR K1) as HI1. pose proof (pos_INR K2) as HI2. pose proof (Rabs_pos (val q)) as HQ.
  assert (Hroom2 : forall f g, (f = d /\ g = a) \/ (f = a /\ g = d) -> Rabs (val q) + room K2 f g <= G1 * G2 * (Rabs (val q) + AA + (INR K1 * W + INR K2) * eta)).
  { intros f g Hfg. assert (E1 : rsum K2 (fun k => Rabs (oval (f k)) * Rabs (oval (g k))) <= G1 * AA + G1 * (INR K1 * eta) * W).
    { destruct Hfg as [(-> & ->)|(-> & ->)]; [exact Hsum|]. eapply Rle_trans; [|exact Hsum]. right. apply rsum_ext. intros; ring. }
    unfold room. fold G2. assert (E2 : G2 * (rsum K2 (fun k => Rabs (oval (f k)) * Rabs (oval (g k))) + INR K2 * eta) <= G2 * (G1 * AA + G1 * (INR K1 * eta) * W + INR K2 * eta)) by (apply Rmult_le_compat_l; lra).
    assert (E3 : G2 * (INR K2 * eta) <= G1 * G2 * (INR K2 * eta)). { rewrite (Rmult_comm G1), Rmult_assoc. apply Rmult_le_compat_l; [lra|]. assert (0 <= INR K2 * eta) by nra. nra. }
    assert (E4 : Rabs (val q) <= G1 * G2 * Rabs (val q)) by (assert (1 <= G1 * G2) by nra; nra). nra. }
  assert (HB : (1 + u) * (G1 * G2 * (Rabs (val q) + AA + (INR K1 * W + INR K2) * eta)) < too_big emax).
  { eapply Rle_lt_trans; [|exact HR2]. right. rewrite !pow_add, pow_1. fold G1 G2. ring. }
  set (B := G1 * G2 * _) in Hroom2, HB.
  assert (Hpos : forall f g, 0 <= room K2 f g). { intros f g. unfold room. fold G2. apply Rmult_le_pos; [lra|]. assert (0 <= rsum K2 (fun k => Rabs (oval (f k)) * Rabs (oval (g k)))) by (apply rsum_pos; intros; apply Rmult_le_pos; apply Rabs_pos). nra. }
  assert (HX : forall f g v, (f = d /\ g = a) \/ (f = a /\ g = d) -> given K2 f -> given K2 g -> allfin K2 f -> allfin K2 g -> dot NN K2 f g = Some v ->
     b_pm prec emax sz b (Some q) (Some v) = Some r -> sf_finite r = true).
  { intros f g v Hfg Gf Gg Af Ag Ev Er. pose proof (Hroom2 f g Hfg) as H2. pose proof (Hpos f g) as H3.
    assert (HBp : 0 <= B) by lra. assert (0 <= u * B) by (apply Rmult_le_pos; lra). assert (Hr : room K2 f g < too_big emax) by lra. pose proof (dot_fin K2 f g v Gf Gg Af Ag Hr Ev) as Fv.
    assert (Vv : vf v = true) by (destruct (dot_total prec emax _ _ sz K2 f g Gf Gg) as (v' & E' & Vv); congruence).
    apply (pm_fin b q v r); auto. pose proof (acc_abs K2 f g v Gf Gg Ev Fv). eapply Rle_lt_trans; [|exact HB]. apply Rmult_le_compat_l; lra. }
  destruct sw.
  - destruct (dot_total prec emax _ _ sz K2 a d Ga Gd) as (v & Ev & _). rewrite Ev in E. apply (HX a d v); auto.
  - destruct (dot_total prec emax _ _ sz K2 d a Gd Ga) as (v & Ev & _). rewrite Ev in E. apply (HX d a v); auto.
Qed.

Lemma mat_fin_r K1 K2 q (s t : nat -> nat -> option spec_float) (a : nat -> option spec_float) r : vf q = true -> sf_finite q = true ->
  (forall k, (k < K2)%nat -> given K1 (s k)) -> (forall k, (k < K2)%nat -> given K1 (t k)) -> given K2 a ->
  (forall k, (k < K2)%nat -> allfin K1 (s k)) -> (forall k, (k < K2)%nat -> allfin K1 (t k)) -> allfin K2 a ->
  mat_room prec emax K1 K2 (val q) (fun k l => oval (s k l)) (fun k l => oval (t k l)) (fun k => oval (a k)) ->
  b_add NN (dot NN K2 (fun k => dot NN K1 (s k) (t k)) a) (Some q) = Some r -> sf_finite r = true.
Proof.
  intros Vq Fq Gs Gt Ga As At Aa HR E.
  destruct (nested_err prec emax sz HF K1 K2 s t a false Gs Gt Ga) as (v & Ev & Vv & _). rewrite Ev in E. cbn [b_add obind] in E.
  change (Some (SFadd prec emax v q) = Some r) in E. injection E as <-.
  assert (F : sf_finite (SFadd prec emax q v) = true).
  { apply (mat_fin false K1 K2 q s t a false); auto. cbn [b_pm]. rewrite Ev. reflexivity. }
  apply (add_swap prec emax HF q v Vq Vv F).
Qed.

Lemma row_fin ROWS COLS l i : fin_matrix ROWS COLS l -> (i < ROWS)%nat -> allfin COLS (fun k => cell COLS l i k).
Proof. intros H Hi k a Hk E. destruct (H i k Hi Hk) as (x & E' & F). congruence. Qed.
Lemma col_fin ROWS COLS l j : fin_matrix ROWS COLS l -> (j < COLS)%nat -> allfin ROWS (fun k => cell COLS l k j).
Proof. intros H Hi k a Hk E. destruct (H k j Hk Hi) as (x & E' & F). congruence. Qed.

Lemma mult_fin M K U a b out : valid c M K a -> valid c K U b -> valid c M U out -> all_in_format prec emax a -> all_in_format prec emax b ->
  fin_matrix M K a -> fin_matrix K U b ->
  exists out', mult c NN M K U a b out = Ok out' /\ forall i j, (i < M)%nat -> (j < U)%nat ->
    cell_room prec emax K (fun k => rcell K a i k) (fun k => rcell U b k j) -> exists r, cell U out' i j = Some r /\ sf_finite r = true.
Proof.
  intros Va Vb Vo Fa Fb Ia Ib. destruct (mult_err c prec emax sz HF M K U a b out Va Vb Vo Fa Fb) as (out' & E & H). exists out'. split; [exact E|].
  intros i j Hi Hj HR. destruct (H i j Hi Hj) as (r & Er & _). exists r. split; [exact Er|].
  pose proof (mult_cellwise c NN M K U a b out Va Vb Vo) as HC. rewrite E in HC. destruct HC as (_ & HC & _).
  destruct (cell U out i j) as [v|] eqn:Ev; [|unfold cell in Ev; apply nth_error_None in Ev; pose proof (row_bound M U i j Hi Hj); destruct Vo; lia].
  specialize (HC i j v Hi Hj Ev). rewrite Er in HC. symmetry in HC. destruct Va as (Va & _), Vb as (Vb & _).
  apply (dot_fin K (fun k => cell K a i k) (fun k => cell U b k j)); auto; [apply (row_given prec emax M)|apply (col_given prec emax K)|apply (row_fin M)|apply (col_fin K)]; auto.
Qed.
Lemma mult_transb_fin M K U a b out : valid c M K a -> valid c U K b -> valid c M U out -> all_in_format prec emax a -> all_in_format prec emax b ->
  fin_matrix M K a -> fin_matrix U K b ->
  exists out', mult_transb c NN M K U a b out = Ok out' /\ forall i j, (i < M)%nat -> (j < U)%nat ->
    cell_room prec emax K (fun k => rcell K a i k) (fun k => rcell K b j k) -> exists r, cell U out' i j = Some r /\ sf_finite r = true.
Proof.
  intros Va Vb Vo Fa Fb Ia Ib. destruct (mult_transb_err c prec emax sz HF M K U a b out Va Vb Vo Fa Fb) as (out' & E & H). exists out'. split; [exact E|].
  intros i j Hi Hj HR. destruct (H i j Hi Hj) as (r & Er & _). exists r. split; [exact Er|].
  pose proof (mult_transb_cellwise c NN M K U a b out Va Vb Vo) as HC. rewrite E in HC. destruct HC as (_ & HC & _).
  destruct (cell U out i j) as [v|] eqn:Ev; [|unfold cell in Ev; apply nth_error_None in Ev; pose proof (row_bound M U i j Hi Hj); destruct Vo; lia].
  specialize (HC i j v Hi Hj Ev). rewrite Er in HC. symmetry in HC. destruct Va as (Va & _), Vb as (Vb & _).
  apply (dot_fin K (fun k => cell K a i k) (fun k => cell K b j k)); auto; [apply (row_given prec emax M)|apply (row_given prec emax U)|apply (row_fin M)|apply (row_fin U)]; auto.
Qed.

Lemma predict_fin n (f : kalman spec_float) : (1 <= n)%nat -> kf_valid c n f -> kf_format prec emax f ->
  fin_matrix n n (kf_A f) -> fin_matrix n 1 (kf_x f) -> fin_matrix n n (kf_P f) -> fin_matrix n n (kf_Q f) ->
  exists f', predict c NN n f = Ok f' /\
  (forall i, (i < n)%nat -> cell_room prec emax n (fun k => rcell n (kf_A f) i k) (fun k => rcell 1 (kf_x f) k 0) ->
     exists r, cell 1 (kf_x f') i 0 = Some r /\ sf_finite r = true) /\
  (forall i j, (i < n)%nat -> (j < n)%nat ->
     mat_room prec emax n n (rcell n (kf_Q f) i j) (fun k l => rcell n (kf_A f) i l) (fun k l => rcell n (kf_P f) l k) (fun k => rcell n (kf_A f) j k) ->
     exists r, cell n (kf_P f') i j = Some r /\ sf_finite r = true).
Proof.
  intros Hn Hf Ff IA Ix IP IQ. destruct (predict_err c prec emax sz HF n f Hn Hf Ff) as (f' & E & HX' & HP'). exists f'. split; [exact E|].
  destruct (predict_bits c NN n f f' Hn Hf E) as (HX & HP). destruct Hf as ((VA & _) & (Vx & _) & (VP & _) & (VQ & _) & _ & _). destruct Ff as (FA & Fx & FP & FQ). split.
  - intros i Hi HR. destruct (HX' i Hi) as (r & Er & _). exists r. split; [exact Er|]. rewrite (HX i Hi) in Er. unfold b_prodv in Er.
    apply (dot1_fin n (fun k => cell n (kf_A f) i k) (fun k => cell 1 (kf_x f) k 0)); auto; [apply (row_given prec emax n)|apply (col_given prec emax n 1)|apply (row_fin n)|apply (col_fin n 1)]; auto.
  - intros i j Hi Hj HR. destruct (HP' i j Hi Hj) as (r & Er & _). exists r. split; [exact Er|]. rewrite (HP i j Hi Hj) in Er. unfold b_prodt, b_prod in Er.
    destruct (one_given prec emax n n (kf_Q f) i j FQ VQ Hi Hj) as (q & Eq & Vq). destruct (IQ i j Hi Hj) as (q' & Eq' & Fq). assert (q' = q) by congruence. subst q'.
    rewrite Eq in Er. unfold rcell at 1 in HR. rewrite Eq in HR.
    apply (mat_fin_r n n q (fun k l => cell n (kf_A f) i l) (fun k l => cell n (kf_P f) l k) (fun k => cell n (kf_A f) j k)); auto.
    + intros k Hk. apply (row_given prec emax n); auto. + intros k Hk. apply (col_given prec emax n); auto. + apply (row_given prec emax n); auto.
    + intros k Hk. apply (row_fin n); auto. + intros k Hk. apply (col_fin n); auto. + apply (row_fin n); auto.
Qed.

Lemma control_fin n m (k : control spec_float) (f : kalman spec_float) : (1 <= n)%nat -> (1 <= m)%nat -> kf_valid c n f -> ct_valid c n m k ->
  kf_format prec emax f -> ct_format prec emax k -> fin_matrix n 1 (kf_x f) -> fin_matrix n n (kf_P f) ->
  fin_matrix n m (ct_B k) -> fin_matrix m 1 (ct_u k) -> fin_matrix m m (ct_Q k) ->
  exists k' f', control_ c NN n m k f = Ok (k', f') /\
  (forall i, (i < n)%nat -> vec_room prec emax m (rcell 1 (kf_x f) i 0) (fun l => rcell m (ct_B k) i l) (fun l => rcell 1 (ct_u k) l 0) ->
     exists r, cell 1 (kf_x f') i 0 = Some r /\ sf_finite r = true) /\
  (forall i j, (i < n)%nat -> (j < n)%nat ->
     mat_room prec emax m m (rcell n (kf_P f) i j) (fun p l => rcell m (ct_B k) i l) (fun p l => rcell m (ct_Q k) l p) (fun p => rcell m (ct_B k) j p) ->
     exists r, cell n (kf_P f') i j = Some r /\ sf_finite r = true).
Proof.
  intros Hn Hm Hf Hk Ff Fk Ix IP IB Iu IQ. destruct (control_err c prec emax sz HF n m k f Hn Hm Hf Hk Ff Fk) as (k' & f' & E & HX' & HP'). exists k', f'. split; [exact E|].
  destruct (control_bits c NN n m k k' f f' Hn Hm Hf Hk E) as (HX & HP). destruct Ff as (FA & Fx & FP & FQ). destruct Fk as (FB & Fu & FCQ).
  destruct Hf as (VA & (Vx & _) & (VP & _) & _). destruct Hk as ((VB & _) & (Vu & _) & (VQ & _) & _). split.
  - intros i Hi HR. destruct (HX' i Hi) as (r & Er & _). exists r. split; [exact Er|]. rewrite (HX i Hi) in Er. unfold b_prodv in Er.
    destruct (one_given prec emax n 1 (kf_x f) i 0 Fx Vx Hi (le_n 1)) as (q & Eq & Vq). destruct (Ix i 0%nat Hi (le_n 1)) as (q' & Eq' & Fq). assert (q' = q) by congruence. subst q'.
    rewrite Eq in Er. unfold rcell at 1 in HR. rewrite Eq in HR.
    apply (vec_fin false m q (fun l => cell m (ct_B k) i l) (fun l => cell 1 (ct_u k) l 0)); auto;
      [apply (row_given prec emax n)|apply (col_given prec emax m 1)|apply (row_fin n)|apply (col_fin m 1)]; auto.
  - intros i j Hi Hj HR. destruct (HP' i j Hi Hj) as (r & Er & _). exists r. split; [exact Er|]. rewrite (HP i j Hi Hj) in Er. unfold b_prodt, b_prod in Er.
    destruct (one_given prec emax n n (kf_P f) i j FP VP Hi Hj) as (q & Eq & Vq). destruct (IP i j Hi Hj) as (q' & Eq' & Fq). assert (q' = q) by congruence. subst q'.
    rewrite Eq in Er. unfold rcell at 1 in HR. rewrite Eq in HR.
    apply (mat_fin false m m q (fun p l => cell m (ct_B k) i l) (fun p l => cell m (ct_Q k) l p) (fun p => cell m (ct_B k) j p) false); auto.
    + intros p Hp. apply (row_given prec emax n); auto. + intros p Hp. apply (col_given prec emax m); auto. + apply (row_given prec emax n); auto.
    + intros p Hp. apply (row_fin n); auto. + intros p Hp. apply (col_fin m); auto. + apply (row_fin n); auto.
Qed.

Lemma correct_fin n m (o : observation spec_float) (f : kalman spec_float) : (1 <= n)%nat -> (1 <= m)%nat -> ob_valid c n m o -> kf_valid c n f ->
  kf_format prec emax f -> all_in_format prec emax (kf_px f) -> all_in_format prec emax (kf_tP f) -> ob_format prec emax o ->
  fin_matrix n 1 (kf_x f) -> fin_matrix n n (kf_P f) -> fin_matrix m n (ob_H o) -> fin_matrix m 1 (ob_z o) ->
  exists o' f', correct c NN n m o f = Ok (o', f') /\
  (forall i, (i < m)%nat -> vec_room prec emax n (rcell 1 (ob_z o) i 0) (fun l => rcell n (ob_H o) i l) (fun l => rcell 1 (kf_x f) l 0) ->
     exists r, cell 1 (ob_y o') i 0 = Some r /\ sf_finite r = true) /\
  (fin_matrix m m (ob_Sinv o') -> forall i j, (i < n)%nat -> (j < m)%nat ->
     mat_room prec emax n m 0 (fun p l => rcell n (kf_P f) i l) (fun p l => rcell n (ob_H o) p l) (fun p => rcell m (ob_Sinv o') p j) ->
     exists r, cell m (ob_K o') i j = Some r /\ sf_finite r = true) /\
  (fin_matrix m 1 (ob_y o') -> fin_matrix n m (ob_K o') -> forall i, (i < n)%nat ->
     vec_room prec emax m (rcell 1 (kf_x f) i 0) (fun l => rcell m (ob_K o') i l) (fun l => rcell 1 (ob_y o') l 0) ->
     exists r, cell 1 (kf_x f') i 0 = Some r /\ sf_finite r = true) /\
  (fin_matrix n m (ob_K o') -> forall i j, (i < n)%nat -> (j < n)%nat ->
     mat_room prec emax n m (rcell n (kf_P f) i j) (fun p l => rcell n (ob_H o) p l) (fun p l => rcell n (kf_P f) l j) (fun p => rcell m (ob_K o') i p) ->
     exists r, cell n (kf_P f') i j = Some r /\ sf_finite r = true).
Proof.
  intros Hn Hm Ho Hf Ff F1 F2 Fo Ix IP IH Iz. destruct (correct_err c prec emax sz HF n m o f Hn Hm Ho Hf Ff F1 F2 Fo) as (o' & f' & E & HY' & HK' & HX' & HP'). exists o', f'. split; [exact E|].
  destruct (correct_fmt c prec emax sz HF n m o o' f f' F1 F2 Ff Fo E) as (Fo' & Ff').
  assert (Hv : ob_valid c n m o') by (pose proof (correct_wp c NN n m o f Hn Hm Ho Hf) as H; rewrite E in H; apply H).
  destruct (correct_bits' spec_float c NN n m o o' f f' Hn Hm Ho Hf E) as (HY & HU). destruct HU as (Sm & HS & HL & HI & HK & HX & HP).
  destruct Hf as (VA & (Vx & _) & (VP & _) & _). destruct Ho as ((VH & _) & (Vz & _) & _). destruct Hv as (_ & _ & _ & (Vy & _) & _ & (VK & _) & (VSi & _) & _).
  destruct Fo as (FH & Fz & _). destruct Fo' as (_ & _ & _ & Fy & _ & FK & FSi & _). destruct Ff as (FA & Fx & FP & FQ).
  split; [|split; [|split]].
  - intros i Hi HR. destruct (HY' i Hi) as (r & Er & _). exists r. split; [exact Er|]. rewrite (HY i Hi) in Er. unfold b_prodv in Er.
    destruct (one_given prec emax m 1 (ob_z o) i 0 Fz Vz Hi (le_n 1)) as (q & Eq & Vq). destruct (Iz i 0%nat Hi (le_n 1)) as (q' & Eq' & Fq). assert (q' = q) by congruence. subst q'.
    rewrite Eq in Er. unfold rcell at 1 in HR. rewrite Eq in HR.
    apply (vec_fin true n q (fun l => cell n (ob_H o) i l) (fun l => cell 1 (kf_x f) l 0)); auto;
      [apply (row_given prec emax m)|apply (col_given prec emax n 1)|apply (row_fin m)|apply (col_fin n 1)]; auto.
  - intros ISi i j Hi Hj HR. destruct (HK' i j Hi Hj) as (r & Er & _). exists r. split; [exact Er|]. rewrite (HK i j Hi Hj) in Er. unfold b_prodt, b_prod in Er.
    assert (Vr : vf r = true). { destruct (nested_err prec emax sz HF n m (fun p l => cell n (kf_P f) i l) (fun p l => cell n (ob_H o) p l) (fun p => cell m (ob_Sinv o') p j) false) as (r' & Er' & Vr' & _); [intros p Hp; apply (row_given prec emax n); auto|intros p Hp; apply (row_given prec emax m); auto|apply (col_given prec emax m); auto|]. cbn in Er'. congruence. }
    assert (F : sf_finite (SFadd prec emax (S754_zero false) r) = true).
    { apply (mat_fin false n m (S754_zero false) (fun p l => cell n (kf_P f) i l) (fun p l => cell n (ob_H o) p l) (fun p => cell m (ob_Sinv o') p j) false); auto.
      + intros p Hp. apply (row_given prec emax n); auto. + intros p Hp. apply (row_given prec emax m); auto. + apply (col_given prec emax m); auto.
      + intros p Hp. apply (row_fin n); auto. + intros p Hp. apply (row_fin m); auto. + apply (col_fin m); auto.
      + cbn [b_pm]. rewrite Er. reflexivity. }
    apply (add_val prec emax _ _ (S754_zero false) r eq_refl Vr F).
  - intros Iy IK i Hi HR. destruct (HX' i Hi) as (r & Er & _). exists r. split; [exact Er|]. rewrite (HX i Hi) in Er. unfold b_prodv in Er.
    destruct (one_given prec emax n 1 (kf_x f) i 0 Fx Vx Hi (le_n 1)) as (q & Eq & Vq). destruct (Ix i 0%nat Hi (le_n 1)) as (q' & Eq' & Fq). assert (q' = q) by congruence. subst q'.
    rewrite Eq in Er. unfold rcell at 1 in HR. rewrite Eq in HR.
    apply (vec_fin false m q (fun l => cell m (ob_K o') i l) (fun l => cell 1 (ob_y o') l 0)); auto;
      [apply (row_given prec emax n)|apply (col_given prec emax m 1)|apply (row_fin n)|apply (col_fin m 1)]; auto.
  - intros IK i j Hi Hj HR. destruct (HP' i j Hi Hj) as (r & Er & _). exists r. split; [exact Er|]. rewrite (HP i j Hi Hj) in Er. unfold b_prodt, b_prod in Er.
    destruct (one_given prec emax n n (kf_P f) i j FP VP Hi Hj) as (q & Eq & Vq). destruct (IP i j Hi Hj) as (q' & Eq' & Fq). assert (q' = q) by congruence. subst q'.
    rewrite Eq in Er. unfold rcell at 1 in HR. rewrite Eq in HR.
    apply (mat_fin true n m q (fun p l => cell n (ob_H o) p l) (fun p l => cell n (kf_P f) l j) (fun p => cell m (ob_K o') i p) true); auto.
    + intros p Hp. apply (row_given prec emax m); auto. + intros p Hp. apply (col_given prec emax n); auto. + apply (row_given prec emax n); auto.
    + intros p Hp. apply (row_fin m); auto. + intros p Hp. apply (col_fin n); auto. + apply (row_fin n); auto.
Qed.

(** entries of at most M *)
Lemma pow_two K : INR (2 * K) * u <= 1 -> (1 + u) ^ K <= 2.
Proof.
  intros H. pose proof (uro_pos prec) as Hu. rewrite mult_INR in H. cbn [INR] in H.
  assert (G : forall k, (k <= K)%nat -> (1 + u) ^ k * (1 - INR k * u) <= 1).
  { induction k as [|k IH]; intros Hk; [cbn; lra|]. specialize (IH ltac:(lia)). rewrite S_INR. cbn [pow].
    pose proof (pow_R1_Rle (1 + u) k ltac:(lra)). set (q := (1 + u) ^ k) in *. pose proof (pos_INR k).
    replace ((1 + u) * q * (1 - (INR k + 1) * u)) with (q * (1 - INR k * u) - q * (u * u * (INR k + 1))) by ring. assert (0 <= q * (u * u * (INR k + 1))) by (apply Rmult_le_pos; [lra|]; nra). lra. }
  specialize (G K (le_n K)). pose proof (pow_R1_Rle (1 + u) K ltac:(lra)). set (q := (1 + u) ^ K) in *. nra.
Qed.
Lemma rsum_const K x : rsum K (fun _ => x) = INR K * x.
Proof. induction K as [|K IH]; [cbn; ring|]. rewrite S_INR. cbn [rsum]. rewrite IH. ring. Qed.
Lemma eta_one : eta <= 1.
Proof. unfold SpecReal.eta. change 1 with (bpow radix2 0). apply bpow_le. destruct HF. lia. Qed.

Lemma predict_small n (f : kalman spec_float) M : (1 <= n)%nat -> kf_valid c n f -> kf_format prec emax f ->
  fin_matrix n n (kf_A f) -> fin_matrix n 1 (kf_x f) -> fin_matrix n n (kf_P f) -> fin_matrix n n (kf_Q f) -> 1 <= M ->
  at_most n n (kf_A f) M -> at_most n 1 (kf_x f) M -> at_most n n (kf_P f) M -> at_most n n (kf_Q f) M ->
  INR (4 * n + 2) * u <= 1 -> 8 * INR n ^ 2 * M ^ 3 < too_big emax ->
  exists f', predict c NN n f = Ok f' /\ fin_matrix n 1 (kf_x f') /\ fin_matrix n n (kf_P f').
Proof.
  intros Hn Hf Ff IA Ix IP IQ HM BA Bx BP BQ Hnu Hbig. destruct (predict_fin n f Hn Hf Ff IA Ix IP IQ) as (f' & E & HX & HP). exists f'. split; [exact E|].
  pose proof (uro_pos prec) as Hu. pose proof (eta_pos prec emax) as He. pose proof eta_one as He1.
  assert (HN : 1 <= INR n) by (apply (le_INR 1); exact Hn). set (N := INR n) in *.
  assert (P2 : forall K, (K <= 2 * n + 1)%nat -> (1 + u) ^ K <= 2).
  { intros K HK. apply pow_two. eapply Rle_trans; [|exact Hnu]. apply Rmult_le_compat_r; [lra|]. apply le_INR. lia. }
  assert (PR : forall (g h : nat -> R), (forall k, (k < n)%nat -> Rabs (g k) <= M) -> (forall k, (k < n)%nat -> Rabs (h k) <= M) -> 0 <= rsum n (fun k => Rabs (g k) * Rabs (h k)) <= N * (M * M)).
  { intros g h Hg Hh. split; [apply rsum_pos; intros; apply Rmult_le_pos; apply Rabs_pos|]. unfold N. rewrite <- rsum_const. apply rsum_le. intros k Hk.
    apply Rmult_le_compat; auto; apply Rabs_pos. }
  assert (HM2 : 1 <= M * M) by nra. assert (HM3 : M * M <= M * (M * M)) by nra. assert (HN2 : N <= N * N) by nra.
  assert (HB : 8 * (N * N * (M * (M * M))) < too_big emax). { eapply Rle_lt_trans; [|exact Hbig]. right. ring. }
  assert (CR : forall (g h : nat -> R), (forall k, (k < n)%nat -> Rabs (g k) <= M) -> (forall k, (k < n)%nat -> Rabs (h k) <= M) -> cell_room prec emax n g h).
  { intros g h Hg Hh. unfold cell_room. destruct (PR g h Hg Hh) as (H1 & H2). eapply Rle_lt_trans; [|exact HB]. fold N.
    pose proof (P2 n ltac:(lia)) as H3. assert (N * eta <= N * (M * M)) by (apply Rmult_le_compat_l; lra).
    apply Rle_trans with (2 * (N * (M * M) + N * (M * M))).
    - apply Rmult_le_compat; [apply pow_le; lra| |exact H3|lra]. assert (0 <= N * eta) by nra. lra.
    - assert (N * (M * M) <= N * N * (M * (M * M))) by (apply Rmult_le_compat; nra). assert (0 <= N * (M * M)) by nra. lra. }
  split.
  - intros i j Hi Hj. replace j with 0%nat by lia. apply (HX i Hi). apply CR; [intros k Hk; apply BA; auto|intros k Hk; apply Bx; auto].
  - intros i j Hi Hj. apply (HP i j Hi Hj). split; [intros k Hk; apply CR; [intros l Hl; apply BA; auto|intros l Hl; apply BP; auto]|].
    eapply Rle_lt_trans; [|exact HB]. fold N. pose proof (P2 (n + n + 1)%nat ltac:(lia)) as H3.
    assert (Hq : 0 <= Rabs (rcell n (kf_Q f) i j) <= M) by (split; [apply Rabs_pos|apply BQ; auto]).
    assert (Ha : 0 <= rsum n (fun k => Rabs (rcell n (kf_A f) j k)) <= N * M).
    { split; [apply rsum_pos; intros; apply Rabs_pos|]. unfold N. rewrite <- rsum_const. apply rsum_le. intros k Hk. apply BA; auto. }
    assert (HA : 0 <= rsum n (fun k => rsum n (fun l => Rabs (rcell n (kf_A f) i l) * Rabs (rcell n (kf_P f) l k)) * Rabs (rcell n (kf_A f) j k)) <= N * (N * (M * M) * M)).
    { split.
      - apply rsum_pos. intros k Hk. apply Rmult_le_pos; [apply rsum_pos; intros; apply Rmult_le_pos; apply Rabs_pos|apply Rabs_pos].
      - unfold N at 1. rewrite <- rsum_const. apply rsum_le. intros k Hk.
        destruct (PR (fun l => rcell n (kf_A f) i l) (fun l => rcell n (kf_P f) l k)) as (H1 & H2); [intros l Hl; apply BA; auto|intros l Hl; apply BP; auto|].
        apply Rmult_le_compat; [exact H1|apply Rabs_pos|exact H2|apply BA; auto]. }
    set (q := Rabs (rcell n (kf_Q f) i j)) in *. set (W := rsum n (fun k => Rabs (rcell n (kf_A f) j k))) in *. set (AA := rsum n _) in *.
    assert (HT : N * N * (M * (M * M)) >= 1 * M). { apply Rle_ge. apply Rmult_le_compat; nra. }
    assert (HT2 : (N * W + N) * eta <= 2 * (N * N * (M * (M * M)))).
    { assert (N * W <= N * (N * M)) by (apply Rmult_le_compat_l; lra). assert (0 <= N * W) by nra.
      assert ((N * W + N) * eta <= (N * W + N) * 1) by (apply Rmult_le_compat_l; lra).
      assert (N * (N * M) <= N * N * (M * (M * M))). { rewrite <- Rmult_assoc. apply Rmult_le_compat_l; nra. }
      assert (N <= N * N * (M * (M * M))). { replace N with (N * 1) at 1 by ring. apply Rmult_le_compat; nra. } lra. }
    assert (0 <= (N * W + N) * eta) by (apply Rmult_le_pos; nra).
    apply Rle_trans with (2 * (4 * (N * N * (M * (M * M))))); [|lra].
    apply Rmult_le_compat; [apply pow_le; lra|lra|exact H3|]. replace (N * (N * (M * M) * M)) with (N * N * (M * (M * M))) in HA by ring. lra.
Qed.
End Range.
