(** * Products and predictions of integers; rounding error of a prediction *)
From Coq Require Import ZArith Reals Lia Lra Psatz.
From Flocq Require Import Core BinarySingleNaN.
From Verif Require Import Prelude Spec SpecBits Matrix Filter SpecFilter Kernels FilterGen FilterTwo HistGen FloatNum SpecFloats SpecReal FloatGen FloatFlocq FloatErr FloatInt BitsProof.
Import SpecFloat.
Open Scope R_scope.

Section Kern.
Variables (c : cfg) (prec emax : Z) (sz : bool).
Hypothesis HF : format_ok prec emax.
Notation NN := (sf_num prec emax sz).
#[local] Instance hprec : Prec_gt_0 prec. Proof. unfold Prec_gt_0. destruct HF. lia. Qed.
#[local] Instance hmax : Prec_lt_emax prec emax. Proof. apply HF. Qed.
Notation ints := (ints prec emax).

Lemma ints_row ROWS COLS l A i : all_in_format prec emax l -> int_matrix ROWS COLS l A -> (i < ROWS)%nat -> ints COLS (fun k => cell COLS l i k) (fun k => A i k).
Proof.
  intros Hl HI Hi k Hk. destruct (HI i k Hi Hk) as (x & E & Hx). exists x. split; [exact E|]. split; [|exact Hx].
  unfold all_in_format in Hl. rewrite Forall_forall in Hl. apply Hl. exact (nth_error_In _ _ E).
Qed.
Lemma ints_col ROWS COLS l A j : all_in_format prec emax l -> int_matrix ROWS COLS l A -> (j < COLS)%nat -> ints ROWS (fun k => cell COLS l k j) (fun k => A k j).
Proof.
  intros Hl HI Hj k Hk. destruct (HI k j Hk Hj) as (x & E & Hx). exists x. split; [exact E|]. split; [|exact Hx].
  unfold all_in_format in Hl. rewrite Forall_forall in Hl. apply Hl. exact (nth_error_In _ _ E).
Qed.

Lemma mult_int M K U a b out A B : valid c M K a -> valid c K U b -> valid c M U out -> all_in_format prec emax a -> all_in_format prec emax b ->
  int_matrix M K a A -> int_matrix K U b B ->
  (forall i j, (i < M)%nat -> (j < U)%nat -> (zsum K (fun k => Z.abs (A i k * B k j)) <= 2 ^ prec)%Z) ->
  exists out', mult c NN M K U a b out = Ok out' /\ int_matrix M U out' (fun i j => zsum K (fun k => A i k * B k j)%Z).
Proof.
  intros Va Vb Vo Fa Fb IA IB HS.
  assert (G : forall i j, (i < M)%nat -> (j < U)%nat -> exists r, dot NN K (fun k => cell K a i k) (fun k => cell U b k j) = Some r /\
      is_int r (zsum K (fun k => A i k * B k j)%Z)).
  { intros i j Hi Hj. destruct (dot_int prec emax _ _ sz K (fun k => cell K a i k) (fun k => cell U b k j) (fun k => A i k) (fun k => B k j)) as (r & E & _ & I); eauto.
    eapply ints_row; eauto. eapply ints_col; eauto. }
  destruct (cellwise_total (mult_cellwise c NN M K U a b out Va Vb Vo)) as (out' & E & H); [apply Vo| |].
  - intros i j v Hi Hj. destruct (G i j Hi Hj) as (r & -> & _). discriminate.
  - exists out'. split; [exact E|]. intros i j Hi Hj. destruct (H i j Hi Hj) as (v & _ & ->). exact (G i j Hi Hj).
Qed.
Lemma mult_transb_int M K U a b out A B : valid c M K a -> valid c U K b -> valid c M U out -> all_in_format prec emax a -> all_in_format prec emax b ->
  int_matrix M K a A -> int_matrix U K b B ->
  (forall i j, (i < M)%nat -> (j < U)%nat -> (zsum K (fun k => Z.abs (A i k * B j k)) <= 2 ^ prec)%Z) ->
  exists out', mult_transb c NN M K U a b out = Ok out' /\ int_matrix M U out' (fun i j => zsum K (fun k => A i k * B j k)%Z).
Proof.
  intros Va Vb Vo Fa Fb IA IB HS.
  assert (G : forall i j, (i < M)%nat -> (j < U)%nat -> exists r, dot NN K (fun k => cell K a i k) (fun k => cell K b j k) = Some r /\
      is_int r (zsum K (fun k => A i k * B j k)%Z)).
  { intros i j Hi Hj. destruct (dot_int prec emax _ _ sz K (fun k => cell K a i k) (fun k => cell K b j k) (fun k => A i k) (fun k => B j k)) as (r & E & _ & I); eauto.
    eapply ints_row; eauto. eapply ints_row; eauto. }
  destruct (cellwise_total (mult_transb_cellwise c NN M K U a b out Va Vb Vo)) as (out' & E & H); [apply Vo| |].
  - intros i j v Hi Hj. destruct (G i j Hi Hj) as (r & -> & _). discriminate.
  - exists out'. split; [exact E|]. intros i j Hi Hj. destruct (H i j Hi Hj) as (v & _ & ->). exact (G i j Hi Hj).
Qed.

Lemma predict_ok n (f : kalman spec_float) : (1 <= n)%nat -> kf_valid c n f -> exists f', predict c NN n f = Ok f'.
Proof.
  intros Hn Hf. pose proof (predict_wp c NN n f Hn Hf) as H. destruct (predict c NN n f) as [f'|e]; [eauto|]. cbn in H. destruct H as (_ & H).
  destruct (H (sf_never_panics prec emax sz)).
Qed.


Lemma fmt_cell C l i j x : all_in_format prec emax l -> cell C l i j = Some x -> in_format prec emax x.
Proof. intros H E. unfold all_in_format in H. rewrite Forall_forall in H. apply H. exact (nth_error_In _ _ E). Qed.

Lemma predict_int n (f : kalman spec_float) A x P Q : (1 <= n)%nat -> kf_valid c n f -> kf_format prec emax f ->
  int_matrix n n (kf_A f) A -> int_matrix n 1 (kf_x f) (fun i _ => x i) -> int_matrix n n (kf_P f) P -> int_matrix n n (kf_Q f) Q ->
  (forall i, (i < n)%nat -> (zsum n (fun k => Z.abs (A i k * x k)) <= 2 ^ prec)%Z) ->
  (forall i k, (i < n)%nat -> (k < n)%nat -> (zsum n (fun l => Z.abs (A i l * P l k)) <= 2 ^ prec)%Z) ->
  (forall i j, (i < n)%nat -> (j < n)%nat -> (zsum n (fun k => Z.abs (zsum n (fun l => A i l * P l k) * A j k)) + Z.abs (Q i j) <= 2 ^ prec)%Z) ->
  exists f', predict c NN n f = Ok f' /\
    int_matrix n 1 (kf_x f') (fun i _ => zsum n (fun k => A i k * x k)%Z) /\
    int_matrix n n (kf_P f') (fun i j => (zsum n (fun k => zsum n (fun l => A i l * P l k) * A j k) + Q i j)%Z).
Proof.
  intros Hn Hf (FA & Fx & FP & FQ) IA Ix IP IQ Bx B1 B2. destruct (predict_ok n f Hn Hf) as (f' & E). exists f'. split; [exact E|].
  destruct (predict_bits c NN n f f' Hn Hf E) as (HX & HP). split.
  - intros i j Hi Hj. replace j with 0%nat by lia. rewrite (HX i Hi). unfold b_prodv.
    destruct (dot1_int prec emax _ _ sz n (fun k => cell n (kf_A f) i k) (fun k => cell 1 (kf_x f) k 0) (fun k => A i k) (fun k => x k)) as (r & Er & _ & I); eauto.
    eapply ints_row; eauto. intros k Hk. exact (ints_col n 1 (kf_x f) (fun i _ => x i) 0 Fx Ix (le_n 1) k Hk).
  - intros i j Hi Hj. rewrite (HP i j Hi Hj). unfold b_prodt.
    assert (G : ints n (fun k => b_prod NN n (cell n (kf_A f)) (cell n (kf_P f)) i k) (fun k => zsum n (fun l => A i l * P l k)%Z)).
    { intros k Hk. unfold b_prod. destruct (dot_int prec emax _ _ sz n (fun l => cell n (kf_A f) i l) (fun l => cell n (kf_P f) l k) (fun l => A i l) (fun l => P l k)) as (r & Er & V & I); eauto.
      eapply ints_row; eauto. eapply ints_col; eauto. }
    destruct (dot_int prec emax _ _ sz n _ (fun k => cell n (kf_A f) j k) _ (fun k => A j k) G) as (r & Er & V & I).
    { eapply ints_row; eauto. } { specialize (B2 i j Hi Hj). eapply abs_head; exact B2. }
    rewrite Er. destruct (IQ i j Hi Hj) as (q & Eq & Iq). rewrite Eq. cbn [b_add obind]. eexists. split; [reflexivity|].
    apply add_int; auto with typeclass_instances. exact (fmt_cell n (kf_Q f) i j q FQ Eq).
    pose proof (zsum_abs n (fun k => zsum n (fun l => A i l * P l k) * A j k)%Z). eapply abs_both; [apply (B2 i j Hi Hj)|exact H].
Qed.

(** ** rounding error of a prediction *)
Lemma dot_finite K f g r : given prec emax K f -> given prec emax K g -> dot NN K f g = Some r -> sf_finite r = true ->
  forall k a, (k < K)%nat -> f k = Some a -> sf_finite a = true.
Proof.
  revert r. induction K as [|K IH]; intros r Hf Hg HD F k a Hk Ea; [lia|].
  cbn [dot] in HD. destruct (dot_total prec emax _ _ sz K f g) as (r0 & E0 & V0); [eapply given_le; eauto..|].
  destruct (Hf K) as (x & Ex & Hx); [lia|]. destruct (Hg K) as (y & Ey & Hy); [lia|]. rewrite E0, Ex, Ey in HD. cbn in HD. injection HD as <-.
  destruct (add_val prec emax _ _ _ _ V0 (vf_mul prec emax _ _ _ _ Hx Hy) F) as (F0 & Fp & _).
  destruct (Nat.eq_dec k K) as [->|Hne].
  - rewrite Ea in Ex. injection Ex as <-. apply (mul_val prec emax _ _ _ _ Hx Hy Fp).
  - apply (IH r0) with (k := k); auto; try lia; eapply given_le; eauto.
Qed.

Lemma dot_finite_r K f g r : given prec emax K f -> given prec emax K g -> dot NN K f g = Some r -> sf_finite r = true ->
  forall k a, (k < K)%nat -> g k = Some a -> sf_finite a = true.
Proof.
  revert r. induction K as [|K IH]; intros r Hf Hg HD F k a Hk Ea; [lia|].
  cbn [dot] in HD. destruct (dot_total prec emax _ _ sz K f g) as (r0 & E0 & V0); [eapply given_le; eauto..|].
  destruct (Hf K) as (x & Ex & Hx); [lia|]. destruct (Hg K) as (y & Ey & Hy); [lia|]. rewrite E0, Ex, Ey in HD. cbn in HD. injection HD as <-.
  destruct (add_val prec emax _ _ _ _ V0 (vf_mul prec emax _ _ _ _ Hx Hy) F) as (F0 & Fp & _).
  destruct (Nat.eq_dec k K) as [->|Hne].
  - rewrite Ea in Ey. injection Ey as <-. apply (mul_val prec emax _ _ _ _ Hx Hy Fp).
  - apply (IH r0) with (k := k); auto; try lia; eapply given_le; eauto.
Qed.

Lemma rsum_le K f g : (forall k, (k < K)%nat -> f k <= g k) -> rsum K f <= rsum K g.
Proof. induction K as [|K IH]; intros H; cbn; [lra|]. pose proof (H K ltac:(lia)). pose proof (IH ltac:(intros; apply H; lia)). lra. Qed.
Lemma rsum_plus K f g : rsum K (fun k => f k + g k) = rsum K f + rsum K g.
Proof. induction K as [|K IH]; cbn; [ring|]. rewrite IH. ring. Qed.
Lemma rsum_scal K a f : rsum K (fun k => a * f k) = a * rsum K f.
Proof. induction K as [|K IH]; cbn; [ring|]. rewrite IH. ring. Qed.
Lemma rsum_minus K f g : rsum K f - rsum K g = rsum K (fun k => f k - g k).
Proof. induction K as [|K IH]; cbn; [ring|]. rewrite <- IH. ring. Qed.

(** the two nested products and the final addition, in real numbers *)
Lemma err_chain (u h G : R) (K : nat) (t T B a : nat -> R) (r q p : R) : 0 <= u -> 0 <= h -> 1 <= G ->
  (forall k, (k < K)%nat -> Rabs (t k - T k) <= (G - 1) * B k + h) ->
  (forall k, (k < K)%nat -> Rabs (T k) <= B k) ->
  Rabs (r - rsum K (fun k => t k * a k)) <= (G - 1) * rsum K (fun k => Rabs (t k) * Rabs (a k)) + h ->
  Rabs (p - (r + q)) <= u * Rabs (r + q) ->
  Rabs (p - (rsum K (fun k => T k * a k) + q)) <=
    ((1 + u) * (G * G) - 1) * (rsum K (fun k => B k * Rabs (a k)) + Rabs q) + (1 + u) * (h * (G * rsum K (fun k => Rabs (a k)) + 1)).
Proof.
  intros Hu Hh HG Ht HT Hr Hp.
  set (AA := rsum K (fun k => B k * Rabs (a k))). set (W := rsum K (fun k => Rabs (a k))).
  assert (HB : forall k, (k < K)%nat -> 0 <= B k) by (intros k Hk; eapply Rle_trans; [apply Rabs_pos|apply HT, Hk]).
  assert (HAA : 0 <= AA) by (apply rsum_pos; intros; apply Rmult_le_pos; [auto|apply Rabs_pos]).
  assert (HW : 0 <= W) by (apply rsum_pos; intros; apply Rabs_pos).
  assert (Htk : forall k, (k < K)%nat -> Rabs (t k) <= G * B k + h).
  { intros k Hk. replace (t k) with ((t k - T k) + T k) by ring. eapply Rle_trans; [apply Rabs_triang|]. specialize (Ht k Hk). specialize (HT k Hk). lra. }
  assert (H1 : rsum K (fun k => Rabs (t k) * Rabs (a k)) <= G * AA + h * W).
  { unfold AA, W. rewrite <- !rsum_scal, <- rsum_plus. apply rsum_le. intros k Hk. specialize (Htk k Hk). pose proof (Rabs_pos (a k)). nra. }
  assert (H2 : Rabs (rsum K (fun k => t k * a k) - rsum K (fun k => T k * a k)) <= (G - 1) * AA + h * W).
  { rewrite rsum_minus. eapply Rle_trans; [apply rsum_abs|]. unfold AA, W. rewrite <- !rsum_scal, <- rsum_plus. apply rsum_le. intros k Hk.
    replace (t k * a k - T k * a k) with ((t k - T k) * a k) by ring. rewrite Rabs_mult. specialize (Ht k Hk). pose proof (Rabs_pos (a k)). nra. }
  assert (H3 : Rabs (rsum K (fun k => T k * a k)) <= AA).
  { eapply Rle_trans; [apply rsum_abs|]. apply rsum_le. intros k Hk. rewrite Rabs_mult. apply Rmult_le_compat_r; [apply Rabs_pos|auto]. }
  set (Sx := rsum K (fun k => T k * a k)) in *. set (s := rsum K (fun k => t k * a k)) in *.
  assert (HE : Rabs (r - Sx) <= (G * G - 1) * AA + h * (G * W + 1)).
  { replace (r - Sx) with ((r - s) + (s - Sx)) by ring. eapply Rle_trans; [apply Rabs_triang|].
    assert ((G - 1) * rsum K (fun k => Rabs (t k) * Rabs (a k)) <= (G - 1) * (G * AA + h * W)) by (apply Rmult_le_compat_l; lra). nra. }
  assert (HRQ : Rabs (r + q) <= Rabs (r - Sx) + AA + Rabs q).
  { replace (r + q) with ((r - Sx) + Sx + q) by ring. eapply Rle_trans; [apply Rabs_triang|]. apply Rplus_le_compat_r. eapply Rle_trans; [apply Rabs_triang|]. lra. }
  replace (p - (Sx + q)) with ((p - (r + q)) + (r - Sx)) by ring. eapply Rle_trans; [apply Rabs_triang|].
  assert (HU : u * Rabs (r + q) <= u * (Rabs (r - Sx) + AA + Rabs q)) by (apply Rmult_le_compat_l; lra).
  assert (HX : (1 + u) * Rabs (r - Sx) <= (1 + u) * ((G * G - 1) * AA + h * (G * W + 1))) by (apply Rmult_le_compat_l; lra).
  assert (HGG : 1 <= G * G) by nra.
  assert (HG2 : (1 + u) * 1 <= (1 + u) * (G * G)) by (apply Rmult_le_compat_l; lra).
  assert (HQ : u * Rabs q <= ((1 + u) * (G * G) - 1) * Rabs q) by (apply Rmult_le_compat_r; [apply Rabs_pos|lra]).
  lra.
Qed.

Lemma predict_err n (f : kalman spec_float) : (1 <= n)%nat -> kf_valid c n f -> kf_format prec emax f ->
  exists f', predict c NN n f = Ok f' /\
  (forall i, (i < n)%nat -> exists r, cell 1 (kf_x f') i 0 = Some r /\
     cell_bound prec emax n (fun k => rcell n (kf_A f) i k) (fun k => rcell 1 (kf_x f) k 0) r) /\
  (forall i j, (i < n)%nat -> (j < n)%nat -> exists r, cell n (kf_P f') i j = Some r /\ in_format prec emax r /\ (sf_finite r = true ->
     let u := uro prec in let A := rcell n (kf_A f) in let P := rcell n (kf_P f) in let q := rcell n (kf_Q f) i j in
     Rabs (val r - (rsum n (fun k => rsum n (fun l => A i l * P l k) * A j k) + q)) <=
       ((1 + u) ^ (2 * n + 1) - 1) * (rsum n (fun k => rsum n (fun l => Rabs (A i l) * Rabs (P l k)) * Rabs (A j k)) + Rabs q)
       + INR n * (1 + u) ^ (n + 1) * eta prec emax * ((1 + u) ^ n * rsum n (fun k => Rabs (A j k)) + 1))).
Proof.
  intros Hn Hf (FA & Fx & FP & FQ). destruct (predict_ok n f Hn Hf) as (f' & E). exists f'. split; [exact E|].
  destruct (predict_bits c NN n f f' Hn Hf E) as (HX & HP). destruct Hf as (VA & Vx & VP & VQ & _ & _).
  assert (Grow : forall i, (i < n)%nat -> given prec emax n (fun k => cell n (kf_A f) i k)).
  { intros i Hi. apply (given_cell prec emax (kf_A f) n (fun k => i * n + k)%nat); auto. intros k Hk. pose proof (row_bound n n i k Hi Hk). destruct VA. lia. }
  split.
  - intros i Hi. rewrite (HX i Hi). unfold b_prodv.
    destruct (dot1_both prec emax sz HF n (fun k => cell n (kf_A f) i k) (fun k => cell 1 (kf_x f) k 0) Hn) as (r & Er & V & B); [auto| |].
    { apply (given_cell prec emax (kf_x f) n (fun k => k * 1 + 0)%nat); auto. intros k Hk. destruct Vx. lia. }
    exists r. split; [exact Er|]. split; [exact V|]. intros F. destruct (B F) as (B1 & B2). split; [exact B1|]. intros HN. eapply err_mono; [reflexivity|]. apply B2, HN.
  - intros i j Hi Hj. rewrite (HP i j Hi Hj). unfold b_prodt.
    assert (Gt : forall k, (k < n)%nat -> exists t, b_prod NN n (cell n (kf_A f)) (cell n (kf_P f)) i k = Some t /\ in_format prec emax t /\
       (sf_finite t = true -> err_le (uro prec) (eta prec emax) n (val t) (fun l => rcell n (kf_A f) i l) (fun l => rcell n (kf_P f) l k))).
    { intros k Hk. unfold b_prod. destruct (dot_both prec emax sz HF n (fun l => cell n (kf_A f) i l) (fun l => cell n (kf_P f) l k)) as (t & Et & V & B); auto.
      - apply (given_cell prec emax (kf_P f) n (fun l => l * n + k)%nat); auto. intros l Hl. pose proof (row_bound n n l k Hl Hk). destruct VP. lia.
      - exists t. split; [exact Et|]. split; [exact V|]. intros F. exact (proj1 (B F)). }
    assert (Gg : given prec emax n (fun k => b_prod NN n (cell n (kf_A f)) (cell n (kf_P f)) i k)).
    { intros k Hk. destruct (Gt k Hk) as (t & Et & V & _). exists t. auto. }
    destruct (dot_both prec emax sz HF n _ (fun k => cell n (kf_A f) j k) Gg (Grow j Hj)) as (r & Er & V & B). rewrite Er.
    destruct (cell n (kf_Q f) i j) as [q|] eqn:Eq.
    2:{ unfold cell in Eq. apply nth_error_None in Eq. pose proof (row_bound n n i j Hi Hj). destruct VQ. lia. }
    pose proof (fmt_cell n (kf_Q f) i j q FQ Eq) as Vq.
    cbn [b_add obind]. eexists. split; [reflexivity|]. split; [apply vf_add; auto with typeclass_instances|].
    intros F. cbv zeta. pose proof (add_err prec emax _ _ _ _ V Vq F) as Hadd. destruct (add_val prec emax _ _ _ _ V Vq F) as (Fr & Fq & _).
    destruct (B Fr) as (B1 & _). unfold rcell at 4 8. rewrite Eq.
    pose proof (uro_pos prec) as Hu. pose proof (eta_pos prec emax) as He. pose proof (pow_R1_Rle (1 + uro prec) n ltac:(lra)) as HG.
    eapply Rle_trans.
    + apply (err_chain (uro prec) (INR n * (1 + uro prec) ^ n * eta prec emax) ((1 + uro prec) ^ n) n
        (fun k => oval (b_prod NN n (cell n (kf_A f)) (cell n (kf_P f)) i k)) (fun k => rsum n (fun l => rcell n (kf_A f) i l * rcell n (kf_P f) l k))
        (fun k => rsum n (fun l => Rabs (rcell n (kf_A f) i l) * Rabs (rcell n (kf_P f) l k))) (fun k => rcell n (kf_A f) j k) (val r) (val q)); auto; try lra.
      * apply Rmult_le_pos; [apply Rmult_le_pos; [apply pos_INR|lra]|lra].
      * intros k Hk. destruct (Gt k Hk) as (t & Et & Vt & Bt). rewrite Et. apply Bt. exact (dot_finite n _ _ r Gg (Grow j Hj) Er Fr k t Hk Et).
      * intros k Hk. eapply Rle_trans; [apply rsum_abs|]. right. apply rsum_ext. intros; apply Rabs_mult.
    + right. f_equal.
      * rewrite pow_add, pow_1. replace (2 * n)%nat with (n + n)%nat by lia. rewrite pow_add. ring_simplify. reflexivity.
      * rewrite pow_add, pow_1. ring.
Qed.
End Kern.
