(** * One entry of a triangular substitution in floating point *)
From Coq Require Import ZArith Reals Lia Lra Psatz.
From Flocq Require Import Core BinarySingleNaN.
From Verif Require Import Prelude Spec SpecBits Matrix Filter SpecFilter Kernels FloatNum SpecFloats SpecReal SpecRange SpecSolve FloatFlocq FloatOps FloatErr FloatChol FloatPredict FloatForward FloatRange FloatFactor FloatScalar RealSchur BitsProof.
Import SpecFloat.
Open Scope R_scope.

Section FTri.
Variables (prec emax : Z) (sz : bool).
Hypothesis HF : format_ok prec emax.
Notation NN := (sf_num prec emax sz).
#[local] Instance hprec : Prec_gt_0 prec. Proof. unfold Prec_gt_0. destruct HF. lia. Qed.
#[local] Instance hmax : Prec_lt_emax prec emax. Proof. apply HF. Qed.
Notation vf := (valid_binary prec emax).
Notation u := (uro prec). Notation e := (eta prec emax). Notation tb := (too_big emax).
Notation given := (given prec emax).

(** equal, or zeros of any sign *)
Definition same (a b : spec_float) : Prop := a = b \/ exists s t, a = S754_zero s /\ b = S754_zero t.
Lemma same_val a b : same a b -> val a = val b /\ sf_finite a = sf_finite b /\ vf a = vf b.
Proof. intros [->|(s & t & -> & ->)]; auto. Qed.
Lemma same_add a b p : same a b -> same (SFadd prec emax a p) (SFadd prec emax b p).
Proof.
  intros [->|(s & t & -> & ->)]; [left; reflexivity|]. destruct p as [r|r| |r m k]; cbn; try (left; reflexivity). right.
  destruct (Bool.eqb s r), (Bool.eqb t r); eauto.
Qed.
(** the sum of negated products, whatever zero it starts from *)
Lemma negsum_dot lo K (m x : nat -> option spec_float) : given K (fun k => m (lo + k)%nat) -> given K (fun k => x (lo + k)%nat) ->
  exists s r, b_negsum NN lo K m x = Some s /\ dot NN K (fun k => option_map SFopp (m (lo + k)%nat)) (fun k => x (lo + k)%nat) = Some r /\ same s r.
Proof.
  unfold b_negsum. induction K as [|K IH]; intros Gm Gx.
  - exists (S754_zero sz), (S754_zero false). split; [reflexivity|]. split; [reflexivity|]. right; eauto.
  - destruct IH as (s & r & Es & Er & HS); [eapply given_le; eauto..|]. destruct (Gm K ltac:(lia)) as (a & Ea & Va). destruct (Gx K ltac:(lia)) as (b & Eb & Vb).
    cbn [osum dot]. rewrite Es, Er. cbn [obind]. rewrite Ea, Eb. cbn [obind option_map].
    exists (SFadd prec emax s (SFmul prec emax (SFopp a) b)), (SFadd prec emax r (SFmul prec emax (SFopp a) b)). split; [reflexivity|]. split; [reflexivity|]. apply same_add, HS.
Qed.
Definition nroom (K : nat) (f g : nat -> R) : R := (1 + u) ^ K * (rsum K (fun k => Rabs (f k) * Rabs (g k)) + INR K * e).

Lemma negsum_fin lo K (m x : nat -> option spec_float) : given K (fun k => m (lo + k)%nat) -> given K (fun k => x (lo + k)%nat) ->
  allfin K (fun k => m (lo + k)%nat) -> allfin K (fun k => x (lo + k)%nat) -> nroom K (fun k => oval (m (lo + k)%nat)) (fun k => oval (x (lo + k)%nat)) < tb ->
  exists s, b_negsum NN lo K m x = Some s /\ vf s = true /\ sf_finite s = true /\ Rabs (val s) <= nroom K (fun k => oval (m (lo + k)%nat)) (fun k => oval (x (lo + k)%nat)) /\
    Rabs (val s + rsum K (fun k => oval (m (lo + k)%nat) * oval (x (lo + k)%nat))) <=
      ((1 + u) ^ K - 1) * rsum K (fun k => Rabs (oval (m (lo + k)%nat)) * Rabs (oval (x (lo + k)%nat))) + INR K * (1 + u) ^ K * e.
Proof.
  intros Gm Gx Am Ax HR. destruct (negsum_dot lo K m x Gm Gx) as (s & r & Es & Er & HS). destruct (same_val s r HS) as (Ev & Ef & Evf).
  set (f := fun k => option_map SFopp (m (lo + k)%nat)) in *. set (g := fun k => x (lo + k)%nat) in *.
  assert (Gf : given K f). { intros k Hk. destruct (Gm k Hk) as (a & Ea & Va). exists (SFopp a). unfold f. rewrite Ea. split; [reflexivity|apply vf_opp, Va]. }
  assert (Af : allfin K f). { intros k a Hk Ea. unfold f in Ea. destruct (m (lo + k)%nat) as [b|] eqn:Eb; [|discriminate]. cbn in Ea. injection Ea as <-. rewrite fin_opp. apply (Am k b Hk Eb). }
  assert (Ov : forall k, oval (f k) = - oval (m (lo + k)%nat)). { intros k. unfold f. destruct (m (lo + k)%nat) as [a|]; cbn [option_map oval]; [apply val_opp|ring]. }
  assert (E1 : rsum K (fun k => Rabs (oval (f k)) * Rabs (oval (g k))) = rsum K (fun k => Rabs (oval (m (lo + k)%nat)) * Rabs (oval (x (lo + k)%nat)))).
  { apply rsum_ext. intros k _. rewrite Ov, Rabs_Ropp. reflexivity. }
  assert (E2 : rsum K (fun k => oval (f k) * oval (g k)) = - rsum K (fun k => oval (m (lo + k)%nat) * oval (x (lo + k)%nat))).
  { replace (- rsum K _) with (-1 * rsum K (fun k => oval (m (lo + k)%nat) * oval (x (lo + k)%nat))) by ring. rewrite <- rsum_scal. apply rsum_ext. intros k _. rewrite Ov. unfold g. ring. }
  assert (Rm : room prec emax K f g = nroom K (fun k => oval (m (lo + k)%nat)) (fun k => oval (x (lo + k)%nat))) by (unfold room, nroom; rewrite E1; reflexivity).
  assert (Fr : sf_finite r = true) by (apply (dot_fin prec emax sz HF K f g r); auto; rewrite Rm; exact HR).
  destruct (dot_total prec emax _ _ sz K f g Gf Gx) as (r' & Er' & Vr). rewrite Er in Er'. injection Er' as <-.
  exists s. split; [exact Es|]. split; [congruence|]. split; [congruence|]. rewrite Ev. split.
  - rewrite <- Rm. apply (acc_abs prec emax sz HF K f g r); auto.
  - destruct (dot_both prec emax sz HF K f g Gf Gx) as (r' & Er' & _ & B). rewrite Er in Er'. injection Er' as <-. destruct (B Fr) as (B1 & _). unfold err_le in B1. rewrite E1, E2 in B1.
    unfold Rminus in B1. rewrite Ropp_involutive in B1. exact B1.
Qed.

Lemma solve_entry lo K (m x : nat -> option spec_float) b l d D : given K (fun k => m (lo + k)%nat) -> given K (fun k => x (lo + k)%nat) ->
  allfin K (fun k => m (lo + k)%nat) -> allfin K (fun k => x (lo + k)%nat) -> vf b = true -> sf_finite b = true ->
  0 < l -> vf d = true -> sf_finite d = true -> Rabs (val d - / l) <= u * Rabs (/ l) -> Rabs (val d) <= D ->
  let rho := nroom K (fun k => oval (m (lo + k)%nat)) (fun k => oval (x (lo + k)%nat)) in
  (1 + u) * ((1 + u) * (Rabs (val b) + rho) * (1 + D)) + e < tb ->
  exists v, b_mul NN (b_add NN (Some b) (b_negsum NN lo K m x)) (Some d) = Some v /\ vf v = true /\ sf_finite v = true /\
    Rabs (val b - rsum K (fun k => oval (m (lo + k)%nat) * oval (x (lo + k)%nat)) - l * val v) <=
      ((1 + u) ^ 4 - 1) * Rabs (l * val v) + 2 * (1 + u) * (e * l) +
      (((1 + u) ^ K - 1) * rsum K (fun k => Rabs (oval (m (lo + k)%nat)) * Rabs (oval (x (lo + k)%nat))) + INR K * (1 + u) ^ K * e).
Proof.
  intros Gm Gx Am Ax Vb Fb Hl Vd Fd Hd HD rho HR. pose proof (u_small prec emax HF) as Hu. pose proof (eta_pos prec emax) as He.
  pose proof (Rabs_pos (val b)) as Hb0. pose proof (Rabs_pos (val d)) as Hd0.
  assert (Hr0 : 0 <= rho). { unfold rho, nroom. apply Rmult_le_pos; [apply pow_le; lra|]. assert (0 <= INR K * e) by (apply Rmult_le_pos; [apply pos_INR|lra]).
    assert (0 <= rsum K (fun k => Rabs (oval (m (lo + k)%nat)) * Rabs (oval (x (lo + k)%nat)))) by (apply rsum_pos; intros; apply Rmult_le_pos; apply Rabs_pos). lra. }
  assert (HB : 0 <= Rabs (val b) + rho) by lra.
  assert (HT0 : 0 <= (1 + u) * (Rabs (val b) + rho)) by (apply Rmult_le_pos; lra).
  assert (HT : (1 + u) * (Rabs (val b) + rho) <= (1 + u) * (Rabs (val b) + rho) * (1 + D)).
  { assert (0 <= (1 + u) * (Rabs (val b) + rho) * D) by (apply Rmult_le_pos; lra). lra. }
  assert (HTb : (1 + u) * (Rabs (val b) + rho) < tb).
  { eapply Rle_lt_trans; [exact HT|]. set (Y := (1 + u) * (Rabs (val b) + rho) * (1 + D)) in *. assert (0 <= u * Y) by (apply Rmult_le_pos; lra). lra. }
  assert (Hrb : rho < tb) by (assert (0 <= u * (Rabs (val b) + rho)) by (apply Rmult_le_pos; lra); lra).
  destruct (negsum_fin lo K m x Gm Gx Am Ax Hrb) as (s & Es & Vs & Fs & Bs & Ers). fold rho in Bs.
  rewrite Es. 
  assert (Ft : sf_finite (SFadd prec emax b s) = true).
  { apply (add_fin prec emax HF); auto. pose proof (Rabs_triang (val b) (val s)). nra. }
  assert (Vt : vf (SFadd prec emax b s) = true) by (apply vf_add; auto with typeclass_instances).
  destruct (add_err_both prec emax _ _ b s Vb Vs Ft) as (Ea1 & Ea2). set (t := SFadd prec emax b s) in *.
  assert (Ht : Rabs (val t) <= (1 + u) * (Rabs (val b) + rho)).
  { replace (val t) with ((val t - (val b + val s)) + (val b + val s)) by ring. eapply Rle_trans; [apply Rabs_triang|]. pose proof (Rabs_triang (val b) (val s)). nra. }
  assert (Fv : sf_finite (SFmul prec emax t d) = true).
  { apply (mul_fin prec emax HF); auto. eapply Rle_lt_trans; [|exact HR]. apply Rplus_le_compat_r. apply Rmult_le_compat_l; [lra|]. rewrite Rabs_mult. apply Rmult_le_compat; try apply Rabs_pos; lra. }
  destruct (mul_err_both prec emax _ _ t d Vt Vd Fv) as (_ & Em). set (v := SFmul prec emax t d) in *.
  exists v. split; [reflexivity|]. split; [apply vf_mul; auto with typeclass_instances|]. split; [exact Fv|].
  pose proof (off_diag prec emax HF (val t) l (val d) (val v) Hl Hd Em) as Ho.
  set (S0 := rsum K (fun k => oval (m (lo + k)%nat) * oval (x (lo + k)%nat))) in *. set (r3 := _ + INR K * (1 + u) ^ K * e) in Ers |- *.
  assert (Hlv : Rabs (val t) <= Rabs (l * val v) + Rabs (val t - l * val v)). { replace (val t) with ((val t - l * val v) + l * val v) at 1 by ring. eapply Rle_trans; [apply Rabs_triang|]. lra. }
  replace (val b - S0 - l * val v) with ((val t - l * val v) + - (val t - (val b + val s)) + - (val s + S0)) by ring.
  eapply Rle_trans; [apply Rabs_triang|]. eapply Rle_trans; [apply Rplus_le_compat_r, Rabs_triang|]. rewrite !Rabs_Ropp.
  apply Rplus_le_compat; [|exact Ers]. set (w := Rabs (l * val v)) in *. set (q := Rabs (val t - l * val v)) in *.
  assert (0 <= w) by apply Rabs_pos. assert (u * Rabs (val t) <= u * (w + q)) by (apply Rmult_le_compat_l; lra).
  assert ((1 + u) * q <= (1 + u) * (((1 + u) ^ 3 - 1) * w + 2 * (e * l))) by (apply Rmult_le_compat_l; lra).
  cbn [pow] in *. nra.
Qed.
End FTri.
