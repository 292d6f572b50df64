(** * Rounding error of control inputs and corrections *)
From Coq Require Import ZArith Reals Lia Lra Psatz.
From Flocq Require Import Core BinarySingleNaN.
From Verif Require Import Prelude Spec SpecBits Matrix Filter SpecFilter SpecParam Param Kernels FilterGen FilterTwo HistGen FloatNum SpecFloats SpecReal FloatGen FloatFlocq FloatOps FloatErr FloatInt FloatPredict FloatFmt BitsProof.
Import SpecFloat.
Open Scope R_scope.

(** two nested products, in real numbers; then one addition *)
Lemma chain2 (h1 h2 G1 G2 : R) (K : nat) (t T B a : nat -> R) (r : R) : 0 <= h1 -> 1 <= G1 -> 1 <= G2 ->
  (forall k, (k < K)%nat -> Rabs (t k - T k) <= (G1 - 1) * B k + h1) ->
  (forall k, (k < K)%nat -> Rabs (T k) <= B k) ->
  Rabs (r - rsum K (fun k => t k * a k)) <= (G2 - 1) * rsum K (fun k => Rabs (t k) * Rabs (a k)) + h2 ->
  Rabs (r - rsum K (fun k => T k * a k)) <= (G1 * G2 - 1) * rsum K (fun k => B k * Rabs (a k)) + (G2 * h1 * rsum K (fun k => Rabs (a k)) + h2).
Proof.
  intros Hh HG1 HG2 Ht HT Hr.
  set (AA := rsum K (fun k => B k * Rabs (a k))). set (W := rsum K (fun k => Rabs (a k))).
  assert (HB : forall k, (k < K)%nat -> 0 <= B k) by (intros k Hk; eapply Rle_trans; [apply Rabs_pos|apply HT, Hk]).
  assert (HAA : 0 <= AA) by (apply rsum_pos; intros; apply Rmult_le_pos; [auto|apply Rabs_pos]).
  assert (HW : 0 <= W) by (apply rsum_pos; intros; apply Rabs_pos).
  assert (Htk : forall k, (k < K)%nat -> Rabs (t k) <= G1 * B k + h1).
  { intros k Hk. replace (t k) with ((t k - T k) + T k) by ring. eapply Rle_trans; [apply Rabs_triang|]. specialize (Ht k Hk). specialize (HT k Hk). lra. }
  assert (H1 : rsum K (fun k => Rabs (t k) * Rabs (a k)) <= G1 * AA + h1 * W).
  { unfold AA, W. rewrite <- !rsum_scal, <- rsum_plus. apply rsum_le. intros k Hk. specialize (Htk k Hk). pose proof (Rabs_pos (a k)). nra. }
  assert (H2 : Rabs (rsum K (fun k => t k * a k) - rsum K (fun k => T k * a k)) <= (G1 - 1) * AA + h1 * W).
  { rewrite rsum_minus. eapply Rle_trans; [apply rsum_abs|]. unfold AA, W. rewrite <- !rsum_scal, <- rsum_plus. apply rsum_le. intros k Hk.
    replace (t k * a k - T k * a k) with ((t k - T k) * a k) by ring. rewrite Rabs_mult. specialize (Ht k Hk). pose proof (Rabs_pos (a k)). nra. }
  set (Sx := rsum K (fun k => T k * a k)) in *. set (s := rsum K (fun k => t k * a k)) in *.
  replace (r - Sx) with ((r - s) + (s - Sx)) by ring. eapply Rle_trans; [apply Rabs_triang|].
  assert ((G2 - 1) * rsum K (fun k => Rabs (t k) * Rabs (a k)) <= (G2 - 1) * (G1 * AA + h1 * W)) by (apply Rmult_le_compat_l; lra). nra.
Qed.
Lemma chain_add (u G h AA q r S p : R) : 0 <= u -> 1 <= G -> 0 <= h ->
  Rabs (r - S) <= (G - 1) * AA + h -> Rabs S <= AA -> Rabs (p - (q + r)) <= u * Rabs (q + r) ->
  Rabs (p - (q + S)) <= (G * (1 + u) - 1) * (Rabs q + AA) + (1 + u) * h.
Proof.
  intros Hu HG Hh Hr HS Hp. pose proof (Rabs_pos q). assert (0 <= AA) by (eapply Rle_trans; [apply Rabs_pos|exact HS]).
  assert (HRQ : Rabs (q + r) <= Rabs (r - S) + AA + Rabs q).
  { replace (q + r) with ((r - S) + S + q) by ring. eapply Rle_trans; [apply Rabs_triang|]. apply Rplus_le_compat_r. eapply Rle_trans; [apply Rabs_triang|]. lra. }
  replace (p - (q + S)) with ((p - (q + r)) + (r - S)) by ring. eapply Rle_trans; [apply Rabs_triang|].
  assert (HU : u * Rabs (q + r) <= u * (Rabs (r - S) + AA + Rabs q)) by (apply Rmult_le_compat_l; lra).
  assert (HX : (1 + u) * Rabs (r - S) <= (1 + u) * ((G - 1) * AA + h)) by (apply Rmult_le_compat_l; lra).
  assert (HQ : u * Rabs q <= (G * (1 + u) - 1) * Rabs q) by (apply Rmult_le_compat_r; [lra|nra]). nra.
Qed.

Section Upd.
Variables (c : cfg) (prec emax : Z) (sz : bool).
Hypothesis HF : format_ok prec emax.
Notation NN := (sf_num prec emax sz).
#[local] Instance hprec : Prec_gt_0 prec. Proof. unfold Prec_gt_0. destruct HF. lia. Qed.
#[local] Instance hmax : Prec_lt_emax prec emax. Proof. apply HF. Qed.
Notation vf := (valid_binary prec emax).
Notation u := (uro prec). Notation eta := (eta prec emax).
Notation given := (given prec emax).

Definition sgn (b : bool) (x : R) : R := if b then - x else x.
Lemma sgn_abs b x : Rabs (sgn b x) = Rabs x. Proof. destruct b; cbn; [apply Rabs_Ropp|reflexivity]. Qed.
(** q + v or q - v, for cells *)
Definition b_pm (b : bool) (q v : option spec_float) : option spec_float := if b then b_sub NN q v else b_add NN q v.
Lemma pm_err b (q v p : spec_float) : vf q = true -> vf v = true -> b_pm b (Some q) (Some v) = Some p -> vf p = true /\
  (sf_finite p = true -> sf_finite v = true /\ Rabs (val p - (val q + sgn b (val v))) <= u * Rabs (val q + sgn b (val v))).
Proof.
  intros Vq Vv E. destruct b; cbn [b_pm b_sub b_add obind] in E; [change (Some (SFsub prec emax q v) = Some p) in E|change (Some (SFadd prec emax q v) = Some p) in E]; injection E as <-.
  - split; [apply vf_sub; auto with typeclass_instances|]. intros F. destruct (sub_val prec emax _ _ q v Vq Vv F). split; [assumption|].
    apply (sub_err_both prec emax _ _ q v Vq Vv F).
  - split; [apply vf_add; auto with typeclass_instances|]. intros F. destruct (add_val prec emax _ _ q v Vq Vv F) as (_ & F2 & _). split; [assumption|].
    apply (add_err_both prec emax _ _ q v Vq Vv F).
Qed.
Lemma pm_total b q v : exists p, b_pm b (Some q) (Some v) = Some p.
Proof. destruct b; eexists; reflexivity. Qed.

Lemma rsum_sgn b K f : rsum K (fun k => sgn b (f k)) = sgn b (rsum K f).
Proof. induction K as [|K IH]; cbn; [destruct b; cbn; ring|]. rewrite IH. destruct b; cbn; ring. Qed.

(** vector form *)
Lemma vec_err b K q f g : (1 <= K)%nat -> vf q = true -> given K f -> given K g ->
  exists r, b_pm b (Some q) (dot1 NN K f g) = Some r /\ vec_bound prec emax K (val q) (fun k => sgn b (oval (f k))) (fun k => oval (g k)) r.
Proof.
  intros HK Vq Gf Gg. destruct (dot1_both prec emax sz HF K f g HK Gf Gg) as (v & Ev & Vv & B). rewrite Ev.
  destruct (pm_total b q v) as (r & Er). exists r. split; [exact Er|]. destruct (pm_err b q v r Vq Vv Er) as (Vr & Hr). split; [exact Vr|]. intros F. cbv zeta.
  destruct (Hr F) as (Fv & Hp). destruct (B Fv) as (B1 & _). unfold err_le in B1. pose proof (uro_pos prec) as Hu. pose proof (eta_pos prec emax) as He.
  pose proof (pow_R1_Rle (1 + u) K ltac:(lra)) as HG.
  rewrite (rsum_ext K (fun k => sgn b (oval (f k)) * oval (g k)) (fun k => sgn b (oval (f k) * oval (g k)))) by (intros; destruct b; cbn; ring). rewrite rsum_sgn.
  rewrite (rsum_ext K (fun k => Rabs (sgn b (oval (f k))) * Rabs (oval (g k))) (fun k => Rabs (oval (f k)) * Rabs (oval (g k)))) by (intros; rewrite sgn_abs; reflexivity).
  eapply Rle_trans; [eapply (chain_add u ((1 + u) ^ K) (INR K * (1 + u) ^ K * eta))|].
  - lra. - exact HG. - apply Rmult_le_pos; [apply Rmult_le_pos; [apply pos_INR|lra]|lra].
  - replace (sgn b (val v) - sgn b (rsum K (fun k => oval (f k) * oval (g k)))) with (sgn b (val v - rsum K (fun k => oval (f k) * oval (g k)))) by (destruct b; cbn; ring).
    rewrite sgn_abs. exact B1.
  - rewrite sgn_abs. eapply Rle_trans; [apply rsum_abs|]. right. apply rsum_ext. intros; apply Rabs_mult.
  - exact Hp.
  - right. rewrite pow_add, pow_1. ring.
Qed.

(** a nested product: t k is itself a computed sum of K1 products *)
Lemma nested_err K1 K2 (s t : nat -> nat -> option spec_float) (a : nat -> option spec_float) (sw : bool) :
  (forall k, (k < K2)%nat -> given K1 (s k)) -> (forall k, (k < K2)%nat -> given K1 (t k)) -> given K2 a ->
  exists r, (if sw then dot NN K2 a (fun k => dot NN K1 (s k) (t k)) else dot NN K2 (fun k => dot NN K1 (s k) (t k)) a) = Some r /\ vf r = true /\
  (sf_finite r = true -> Rabs (val r - rsum K2 (fun k => rsum K1 (fun l => oval (s k l) * oval (t k l)) * oval (a k))) <=
     ((1 + u) ^ (K1 + K2) - 1) * rsum K2 (fun k => rsum K1 (fun l => Rabs (oval (s k l)) * Rabs (oval (t k l))) * Rabs (oval (a k)))
     + (1 + u) ^ (K1 + K2) * eta * (INR K1 * rsum K2 (fun k => Rabs (oval (a k))) + INR K2)).
Proof.
  intros Gs Gt Ga. pose proof (uro_pos prec) as Hu. pose proof (eta_pos prec emax) as He.
  assert (Gi : forall k, (k < K2)%nat -> exists v, dot NN K1 (s k) (t k) = Some v /\ in_format prec emax v /\
     (sf_finite v = true -> err_le u eta K1 (val v) (fun l => oval (s k l)) (fun l => oval (t k l)))).
  { intros k Hk. destruct (dot_both prec emax sz HF K1 (s k) (t k) (Gs k Hk) (Gt k Hk)) as (v & Ev & V & B). exists v. split; [exact Ev|]. split; [exact V|]. intros F. apply (B F). }
  assert (Gg : given K2 (fun k => dot NN K1 (s k) (t k))) by (intros k Hk; destruct (Gi k Hk) as (v & Ev & V & _); exists v; auto).
  assert (HX : exists r, (if sw then dot NN K2 a (fun k => dot NN K1 (s k) (t k)) else dot NN K2 (fun k => dot NN K1 (s k) (t k)) a) = Some r /\ vf r = true /\
    (sf_finite r = true -> (forall k v, (k < K2)%nat -> dot NN K1 (s k) (t k) = Some v -> sf_finite v = true) /\
      Rabs (val r - rsum K2 (fun k => oval (dot NN K1 (s k) (t k)) * oval (a k))) <=
        ((1 + u) ^ K2 - 1) * rsum K2 (fun k => Rabs (oval (dot NN K1 (s k) (t k))) * Rabs (oval (a k))) + INR K2 * (1 + u) ^ K2 * eta)).
  { destruct sw.
    - destruct (dot_both prec emax sz HF K2 a _ Ga Gg) as (r & Er & V & B). exists r. split; [exact Er|]. split; [exact V|]. intros F. destruct (B F) as (B1 & _). split.
      + intros k v Hk Ev. refine (dot_finite_r prec emax sz HF K2 a _ r Ga Gg Er F k v Hk Ev).
      + unfold err_le in B1. rewrite (rsum_ext K2 _ (fun k => oval (a k) * oval (dot NN K1 (s k) (t k)))) by (intros; ring).
        rewrite (rsum_ext K2 (fun k => Rabs (oval (dot NN K1 (s k) (t k))) * Rabs (oval (a k))) (fun k => Rabs (oval (a k)) * Rabs (oval (dot NN K1 (s k) (t k))))) by (intros; ring). exact B1.
    - destruct (dot_both prec emax sz HF K2 _ a Gg Ga) as (r & Er & V & B). exists r. split; [exact Er|]. split; [exact V|]. intros F. destruct (B F) as (B1 & _). split; [|exact B1].
      intros k v Hk Ev. refine (dot_finite prec emax sz HF K2 _ a r Gg Ga Er F k v Hk Ev). }
  destruct HX as (r & Er & Vr & HX). exists r. split; [exact Er|]. split; [exact Vr|]. intros F. destruct (HX F) as (Fk & B).
  pose proof (pow_R1_Rle (1 + u) K1 ltac:(lra)) as HG1. pose proof (pow_R1_Rle (1 + u) K2 ltac:(lra)) as HG2.
  eapply Rle_trans.
  - apply (chain2 (INR K1 * (1 + u) ^ K1 * eta) (INR K2 * (1 + u) ^ K2 * eta) ((1 + u) ^ K1) ((1 + u) ^ K2) K2
      (fun k => oval (dot NN K1 (s k) (t k))) (fun k => rsum K1 (fun l => oval (s k l) * oval (t k l)))
      (fun k => rsum K1 (fun l => Rabs (oval (s k l)) * Rabs (oval (t k l)))) (fun k => oval (a k)) (val r)); auto.
    + apply Rmult_le_pos; [apply Rmult_le_pos; [apply pos_INR|lra]|lra].
    + intros k Hk. destruct (Gi k Hk) as (v & Ev & V & Bv). rewrite Ev. apply Bv, (Fk k v Hk Ev).
    + intros k Hk. eapply Rle_trans; [apply rsum_abs|]. right. apply rsum_ext. intros; apply Rabs_mult.
  - rewrite pow_add. set (W := rsum K2 (fun k => Rabs (oval (a k)))). set (AA := rsum K2 _). apply Rplus_le_compat_l.
    assert (0 <= INR K2) by apply pos_INR. assert (INR K2 * (1 + u) ^ K2 <= INR K2 * ((1 + u) ^ K1 * (1 + u) ^ K2)) by (apply Rmult_le_compat_l; nra). nra.
Qed.

Lemma mat_err b K1 K2 q (s t : nat -> nat -> option spec_float) (a : nat -> option spec_float) (sw : bool) : vf q = true ->
  (forall k, (k < K2)%nat -> given K1 (s k)) -> (forall k, (k < K2)%nat -> given K1 (t k)) -> given K2 a ->
  exists r, b_pm b (Some q) (if sw then dot NN K2 a (fun k => dot NN K1 (s k) (t k)) else dot NN K2 (fun k => dot NN K1 (s k) (t k)) a) = Some r /\
    mat_bound prec emax K1 K2 (val q) (fun k l => oval (s k l)) (fun k l => oval (t k l)) (fun k => sgn b (oval (a k))) r.
Proof.
  intros Vq Gs Gt Ga. pose proof (uro_pos prec) as Hu. pose proof (eta_pos prec emax) as He.
  destruct (nested_err K1 K2 s t a sw Gs Gt Ga) as (v & Ev & Vv & B). rewrite Ev. destruct (pm_total b q v) as (r & Er). exists r. split; [exact Er|].
  destruct (pm_err b q v r Vq Vv Er) as (Vr & Hr). split; [exact Vr|]. intros F. cbv zeta. destruct (Hr F) as (Fv & Hp). specialize (B Fv).
  pose proof (pow_R1_Rle (1 + u) (K1 + K2) ltac:(lra)) as HG.
  rewrite (rsum_ext K2 (fun k => rsum K1 (fun l => oval (s k l) * oval (t k l)) * sgn b (oval (a k))) (fun k => sgn b (rsum K1 (fun l => oval (s k l) * oval (t k l)) * oval (a k)))) by (intros; destruct b; cbn; ring).
  rewrite rsum_sgn. rewrite (rsum_ext K2 (fun k => Rabs (sgn b (oval (a k)))) (fun k => Rabs (oval (a k)))) by (intros; apply sgn_abs).
  rewrite (rsum_ext K2 (fun k => rsum K1 (fun l => Rabs (oval (s k l)) * Rabs (oval (t k l))) * Rabs (sgn b (oval (a k)))) (fun k => rsum K1 (fun l => Rabs (oval (s k l)) * Rabs (oval (t k l))) * Rabs (oval (a k)))) by (intros; rewrite sgn_abs; reflexivity).
  eapply Rle_trans; [eapply (chain_add u ((1 + u) ^ (K1 + K2)))|].
  - lra. - exact HG.
  - apply Rmult_le_pos with (r2 := INR K1 * rsum K2 (fun k => Rabs (oval (a k))) + INR K2) (r1 := (1 + u) ^ (K1 + K2) * eta); [nra|].
    apply Rplus_le_le_0_compat; [|apply pos_INR]. apply Rmult_le_pos; [apply pos_INR|]. apply rsum_pos; intros; apply Rabs_pos.
  - replace (sgn b (val v) - sgn b (rsum K2 (fun k => rsum K1 (fun l => oval (s k l) * oval (t k l)) * oval (a k)))) with
      (sgn b (val v - rsum K2 (fun k => rsum K1 (fun l => oval (s k l) * oval (t k l)) * oval (a k)))) by (destruct b; cbn; ring).
    rewrite sgn_abs. exact B.
  - rewrite sgn_abs. eapply Rle_trans; [apply rsum_abs|]. apply rsum_le. intros k Hk. rewrite Rabs_mult. apply Rmult_le_compat_r; [apply Rabs_pos|].
    eapply Rle_trans; [apply rsum_abs|]. right. apply rsum_ext. intros; apply Rabs_mult.
  - exact Hp.
  - right. rewrite (pow_add _ (K1 + K2) 1), pow_1. ring.
Qed.

(** the same with the last two operands exchanged *)
Lemma add_swap a b : vf a = true -> vf b = true -> sf_finite (SFadd prec emax a b) = true -> sf_finite (SFadd prec emax b a) = true /\ val (SFadd prec emax a b) = val (SFadd prec emax b a).
Proof.
  intros Va Vb F. destruct (add_val prec emax _ _ a b Va Vb F) as (Fa & Fb & E).
  assert (F' : sf_finite (SFadd prec emax b a) = true).
  { clear E. apply vf_B in Va, Vb. destruct Va as (x & ->), Vb as (y & ->). rewrite (add_equiv prec emax _ _) in *. rewrite (fin_B prec emax) in *.
    pose proof (Bplus_correct prec emax _ _ mode_NE x y Fa Fb) as H1. pose proof (Bplus_correct prec emax _ _ mode_NE y x Fb Fa) as H2.
    rewrite Rplus_comm in H1. destruct (Rlt_bool _ _); [apply H2|]. destruct H1 as (H1 & _). rewrite <- (fin_B prec emax), H1 in F. discriminate. }
  split; [exact F'|]. destruct (add_val prec emax _ _ b a Vb Va F') as (_ & _ & ->). rewrite E, Rplus_comm. reflexivity.
Qed.
Lemma mat_err_r K1 K2 q (s t : nat -> nat -> option spec_float) (a : nat -> option spec_float) : vf q = true ->
  (forall k, (k < K2)%nat -> given K1 (s k)) -> (forall k, (k < K2)%nat -> given K1 (t k)) -> given K2 a ->
  exists r, b_add NN (dot NN K2 (fun k => dot NN K1 (s k) (t k)) a) (Some q) = Some r /\
    mat_bound prec emax K1 K2 (val q) (fun k l => oval (s k l)) (fun k l => oval (t k l)) (fun k => oval (a k)) r.
Proof.
  intros Vq Gs Gt Ga. destruct (nested_err K1 K2 s t a false Gs Gt Ga) as (v & Ev & Vv & _).
  destruct (mat_err false K1 K2 q s t a false Vq Gs Gt Ga) as (r & Er & (Vr & Br)). rewrite Ev in *. cbn [b_pm b_add obind] in *.
  change (Some (SFadd prec emax q v) = Some r) in Er. injection Er as <-.
  exists (SFadd prec emax v q). split; [reflexivity|]. split; [apply vf_add; auto with typeclass_instances|].
  intros F. destruct (add_swap v q Vv Vq F) as (F' & ->). exact (Br F').
Qed.

Lemma cell_given R C l (p : nat -> nat * nat) K : all_in_format prec emax l -> (R * C <= length l)%nat ->
  (forall k, (k < K)%nat -> (fst (p k) < R)%nat /\ (snd (p k) < C)%nat) -> given K (fun k => cell C l (fst (p k)) (snd (p k))).
Proof.
  intros Hl HL Hp. apply (given_cell prec emax l K (fun k => fst (p k) * C + snd (p k))%nat); auto.
  intros k Hk. destruct (Hp k Hk) as (H1 & H2). pose proof (row_bound R C _ _ H1 H2). lia.
Qed.
Lemma row_given R C l i : all_in_format prec emax l -> (R * C <= length l)%nat -> (i < R)%nat -> given C (fun k => cell C l i k).
Proof. intros Hl HL Hi. apply (cell_given R C l (fun k => (i, k))); auto. Qed.
Lemma col_given R C l j : all_in_format prec emax l -> (R * C <= length l)%nat -> (j < C)%nat -> given R (fun k => cell C l k j).
Proof. intros Hl HL Hi. apply (cell_given R C l (fun k => (k, j))); auto. Qed.
Lemma one_given R C l i j : all_in_format prec emax l -> (R * C <= length l)%nat -> (i < R)%nat -> (j < C)%nat -> exists x, cell C l i j = Some x /\ vf x = true.
Proof. intros Hl HL Hi Hj. exact (row_given R C l i Hl HL Hi j Hj). Qed.
Lemma oval_cell C l i j : oval (cell C l i j) = rcell C l i j. Proof. reflexivity. Qed.

Lemma control_err n m (k : control spec_float) (f : kalman spec_float) : (1 <= n)%nat -> (1 <= m)%nat -> kf_valid c n f -> ct_valid c n m k ->
  kf_format prec emax f -> ct_format prec emax k ->
  exists k' f', control_ c NN n m k f = Ok (k', f') /\
  (forall i, (i < n)%nat -> exists r, cell 1 (kf_x f') i 0 = Some r /\
     vec_bound prec emax m (rcell 1 (kf_x f) i 0) (fun l => rcell m (ct_B k) i l) (fun l => rcell 1 (ct_u k) l 0) r) /\
  (forall i j, (i < n)%nat -> (j < n)%nat -> exists r, cell n (kf_P f') i j = Some r /\
     mat_bound prec emax m m (rcell n (kf_P f) i j) (fun p l => rcell m (ct_B k) i l) (fun p l => rcell m (ct_Q k) l p) (fun p => rcell m (ct_B k) j p) r).
Proof.
  intros Hn Hm Hf Hk (FA & Fx & FP & FQ) (FB & Fu & FCQ).
  assert (E : exists k' f', control_ c NN n m k f = Ok (k', f')).
  { pose proof (control_wp c NN n m k f Hk Hf) as H. destruct (control_ c NN n m k f) as [(k' & f')|e]; [eauto|]. cbn in H. destruct H as (_ & H).
    destruct (H (sf_never_panics prec emax sz)). }
  destruct E as (k' & f' & E). exists k', f'. split; [exact E|]. destruct (control_bits c NN n m k k' f f' Hn Hm Hf Hk E) as (HX & HP).
  destruct Hf as (VA & (Vx & _) & (VP & _) & _). destruct Hk as ((VB & _) & (Vu & _) & (VQ & _) & _). split.
  - intros i Hi. rewrite (HX i Hi). unfold b_prodv. destruct (one_given n 1 (kf_x f) i 0 Fx Vx Hi ltac:(lia)) as (q & Eq & Vq).
    destruct (vec_err false m q (fun l => cell m (ct_B k) i l) (fun l => cell 1 (ct_u k) l 0) Hm Vq) as (r & Er & Br).
    { apply (row_given n); auto. } { apply (col_given m 1); auto. }
    exists r. split; [rewrite Eq; exact Er|]. unfold rcell at 1. rewrite Eq. exact Br.
  - intros i j Hi Hj. rewrite (HP i j Hi Hj). unfold b_prodt, b_prod. destruct (one_given n n (kf_P f) i j FP VP Hi Hj) as (q & Eq & Vq).
    destruct (mat_err false m m q (fun p l => cell m (ct_B k) i l) (fun p l => cell m (ct_Q k) l p) (fun p => cell m (ct_B k) j p) false Vq) as (r & Er & Br).
    { intros p Hp. apply (row_given n); auto. } { intros p Hp. apply (col_given m); auto. } { apply (row_given n); auto. }
    exists r. split; [rewrite Eq; exact Er|]. unfold rcell at 1. rewrite Eq. exact Br.
Qed.

(** the buffers a correction leaves behind are in the format *)
Lemma ob_fmt o : ob_format prec emax o -> SpecParam.ob_rel (same_fmt prec emax) o o.
Proof. intros (H1 & H2 & H3 & H4 & H5 & H6 & H7 & H8 & H9 & H10). repeat split; apply fmt_list; assumption. Qed.
Lemma correct_fmt n m o o' f f' : all_in_format prec emax (kf_px f) -> all_in_format prec emax (kf_tP f) -> kf_format prec emax f -> ob_format prec emax o ->
  correct c NN n m o f = Ok (o', f') -> ob_format prec emax o' /\ kf_format prec emax f'.
Proof.
  intros F1 F2 (FA & Fx & FP & FQ) Ho E.
  assert (H : SpecParam.kf_rel (same_fmt prec emax) f f) by (repeat split; apply fmt_list; assumption).
  pose proof (p_correct False (same_fmt prec emax) c NN NN (same_fmt_num prec emax sz HF) n m o o f f (ob_fmt o Ho) H) as HR. rewrite E in HR.
  destruct HR as [HR|HR]; [destruct HR as ([] & _)|]. destruct HR as (HO & HK). cbn [fst snd] in HO, HK.
  destruct HO as (O1 & O2 & O3 & O4 & O5 & O6 & O7 & O8 & O9 & O10). destruct HK as (K1 & K2 & K3 & K4 & _).
  split; repeat split; eapply fmt_list2; eassumption.
Qed.

Lemma correct_err n m (o : observation spec_float) (f : kalman spec_float) : (1 <= n)%nat -> (1 <= m)%nat -> ob_valid c n m o -> kf_valid c n f ->
  kf_format prec emax f -> all_in_format prec emax (kf_px f) -> all_in_format prec emax (kf_tP f) -> ob_format prec emax o ->
  exists o' f', correct c NN n m o f = Ok (o', f') /\
  (forall i, (i < m)%nat -> exists r, cell 1 (ob_y o') i 0 = Some r /\
     vec_bound prec emax n (rcell 1 (ob_z o) i 0) (fun l => - rcell n (ob_H o) i l) (fun l => rcell 1 (kf_x f) l 0) r) /\
  (forall i j, (i < n)%nat -> (j < m)%nat -> exists r, cell m (ob_K o') i j = Some r /\
     mat_bound prec emax n m 0 (fun p l => rcell n (kf_P f) i l) (fun p l => rcell n (ob_H o) p l) (fun p => rcell m (ob_Sinv o') p j) r) /\
  (forall i, (i < n)%nat -> exists r, cell 1 (kf_x f') i 0 = Some r /\
     vec_bound prec emax m (rcell 1 (kf_x f) i 0) (fun l => rcell m (ob_K o') i l) (fun l => rcell 1 (ob_y o') l 0) r) /\
  (forall i j, (i < n)%nat -> (j < n)%nat -> exists r, cell n (kf_P f') i j = Some r /\
     mat_bound prec emax n m (rcell n (kf_P f) i j) (fun p l => rcell n (ob_H o) p l) (fun p l => rcell n (kf_P f) l j) (fun p => - rcell m (ob_K o') i p) r).
Proof.
  intros Hn Hm Ho Hf Ff F1 F2 Fo.
  assert (E : exists o' f', correct c NN n m o f = Ok (o', f')).
  { pose proof (correct_wp c NN n m o f Hn Hm Ho Hf) as H. destruct (correct c NN n m o f) as [(o' & f')|e]; [eauto|]. cbn in H. destruct H as (_ & H).
    destruct (H (sf_never_panics prec emax sz)). }
  destruct E as (o' & f' & E). exists o', f'. split; [exact E|].
  destruct (correct_fmt n m o o' f f' F1 F2 Ff Fo E) as (Fo' & Ff'). 
  assert (Hv : ob_valid c n m o') by (pose proof (correct_wp c NN n m o f Hn Hm Ho Hf) as H; rewrite E in H; apply H).
  destruct (correct_bits' spec_float c NN n m o o' f f' Hn Hm Ho Hf E) as (HY & HU). destruct HU as (Sm & HS & HL & HI & HK & HX & HP).
  destruct Hf as (VA & (Vx & _) & (VP & _) & _). destruct Ho as ((VH & _) & (Vz & _) & _). destruct Hv as (_ & _ & _ & (Vy & _) & _ & (VK & _) & (VSi & _) & _).
  destruct Fo as (FH & Fz & _). destruct Fo' as (_ & _ & _ & Fy & _ & FK & FSi & _). destruct Ff as (FA & Fx & FP & FQ).
  split; [|split; [|split]].
  - intros i Hi. rewrite (HY i Hi). unfold b_prodv. destruct (one_given m 1 (ob_z o) i 0 Fz Vz Hi ltac:(lia)) as (q & Eq & Vq).
    destruct (vec_err true n q (fun l => cell n (ob_H o) i l) (fun l => cell 1 (kf_x f) l 0) Hn Vq) as (r & Er & Br).
    { apply (row_given m); auto. } { apply (col_given n 1); auto. }
    exists r. split; [rewrite Eq; exact Er|]. unfold rcell at 1. rewrite Eq. exact Br.
  - intros i j Hi Hj. rewrite (HK i j Hi Hj). unfold b_prodt, b_prod.
    destruct (nested_err n m (fun p l => cell n (kf_P f) i l) (fun p l => cell n (ob_H o) p l) (fun p => cell m (ob_Sinv o') p j) false) as (r & Er & Vr & Br).
    { intros p Hp. apply (row_given n); auto. } { intros p Hp. apply (row_given m); auto. } { apply (col_given m); auto. }
    exists r. split; [exact Er|]. split; [exact Vr|]. intros F. specialize (Br F). cbv zeta. rewrite Rplus_0_l, Rabs_R0, Rplus_0_l. unfold rcell.
    set (AA := rsum m _) in Br at 2. set (W := rsum m (fun p => Rabs _)) in Br. 
    eapply Rle_trans; [exact Br|]. pose proof (uro_pos prec) as Hu. pose proof (eta_pos prec emax) as He.
    assert (HA : 0 <= AA) by (apply rsum_pos; intros; apply Rmult_le_pos; [apply rsum_pos; intros; apply Rmult_le_pos; apply Rabs_pos|apply Rabs_pos]).
    assert (HW : 0 <= W) by (apply rsum_pos; intros; apply Rabs_pos).
    assert (HG : (1 + u) ^ (n + m) <= (1 + u) ^ (n + m + 1)) by (apply Rle_pow; [lra|lia]).
    apply Rplus_le_compat; [apply Rmult_le_compat_r; [exact HA|lra]|]. apply Rmult_le_compat_r; [|apply Rmult_le_compat_r; lra].
    apply Rplus_le_le_0_compat; [apply Rmult_le_pos; [apply pos_INR|exact HW]|apply pos_INR].
  - intros i Hi. rewrite (HX i Hi). unfold b_prodv. destruct (one_given n 1 (kf_x f) i 0 Fx Vx Hi ltac:(lia)) as (q & Eq & Vq).
    destruct (vec_err false m q (fun l => cell m (ob_K o') i l) (fun l => cell 1 (ob_y o') l 0) Hm Vq) as (r & Er & Br).
    { apply (row_given n); auto. } { apply (col_given m 1); auto. }
    exists r. split; [rewrite Eq; exact Er|]. unfold rcell at 1. rewrite Eq. exact Br.
  - intros i j Hi Hj. rewrite (HP i j Hi Hj). unfold b_prodt, b_prod. destruct (one_given n n (kf_P f) i j FP VP Hi Hj) as (q & Eq & Vq).
    destruct (mat_err true n m q (fun p l => cell n (ob_H o) p l) (fun p l => cell n (kf_P f) l j) (fun p => cell m (ob_K o') i p) true Vq) as (r & Er & Br).
    { intros p Hp. apply (row_given m); auto. } { intros p Hp. apply (col_given n); auto. } { apply (row_given n); auto. }
    exists r. split; [rewrite Eq; exact Er|]. unfold rcell at 1. rewrite Eq. exact Br.
Qed.
End Upd.
