(** * Rounding error of the product kernels *)
From Coq Require Import ZArith Reals Lia Lra Psatz.
From Flocq Require Import Core BinarySingleNaN.
From Verif Require Import Prelude Spec Matrix Kernels FloatNum SpecFloats SpecReal FloatFlocq.
Import SpecFloat.
Open Scope R_scope.

Lemma rsum_ext K f g : (forall k, (k < K)%nat -> f k = g k) -> rsum K f = rsum K g.
Proof. induction K as [|K IH]; intros H; cbn; [reflexivity|]. rewrite IH by (intros; apply H; lia). rewrite H by lia. reflexivity. Qed.
Lemma rsum_abs K f : Rabs (rsum K f) <= rsum K (fun k => Rabs (f k)).
Proof. induction K as [|K IH]; cbn; [rewrite Rabs_R0; lra|]. eapply Rle_trans; [apply Rabs_triang|]. lra. Qed.
Lemma rsum_pos K f : (forall k, (k < K)%nat -> 0 <= f k) -> 0 <= rsum K f.
Proof. induction K as [|K IH]; intros H; cbn; [lra|]. pose proof (H K ltac:(lia)). pose proof (IH ltac:(intros; apply H; lia)). lra. Qed.

(** one step of the induction, in real numbers *)
Lemma err_step (u e h A S t r p r' : R) : 0 <= u ->
  Rabs (r - S) <= e -> Rabs S <= A -> Rabs (p - t) <= u * Rabs t + h -> Rabs (r' - (r + p)) <= u * Rabs (r + p) ->
  Rabs (r' - (S + t)) <= (1 + u) * e + u * A + ((1 + u) * (1 + u) - 1) * Rabs t + (1 + u) * h.
Proof.
  intros Hu H1 H2 H3 H4.
  assert (Hrp : Rabs (r + p) <= e + A + (u * Rabs t + h) + Rabs t).
  { replace (r + p) with ((r - S) + S + (p - t) + t) by ring.
    eapply Rle_trans; [apply Rabs_triang|]. apply Rplus_le_compat_r.
    eapply Rle_trans; [apply Rabs_triang|]. apply Rplus_le_compat; [|exact H3].
    eapply Rle_trans; [apply Rabs_triang|]. lra. }
  replace (r' - (S + t)) with ((r' - (r + p)) + (r - S) + (p - t)) by ring.
  eapply Rle_trans; [apply Rabs_triang|]. eapply Rle_trans; [apply Rplus_le_compat_r, Rabs_triang|].
  pose proof (Rmult_le_compat_l u _ _ Hu Hrp). nra.
Qed.

Lemma err_combine u h A t (K : nat) : 0 <= u -> 0 <= h -> 0 <= A -> 0 <= t -> (1 <= K)%nat ->
  (1 + u) * (((1 + u) ^ K - 1) * A + INR K * (1 + u) ^ K * h) + u * A + ((1 + u) * (1 + u) - 1) * t + (1 + u) * h
   <= ((1 + u) ^ S K - 1) * (A + t) + INR (S K) * (1 + u) ^ S K * h.
Proof.
  intros Hu Hh HA Ht HK. rewrite S_INR. cbn [pow].
  assert (H1 : 1 + u <= (1 + u) ^ K). { replace (1 + u) with ((1 + u) ^ 1) at 1 by ring. apply Rle_pow; [lra|exact HK]. }
  set (q := (1 + u) ^ K) in *. assert (1 <= q) by lra.
  assert (E1 : ((1 + u) * (1 + u) - 1) * t <= ((1 + u) * q - 1) * t) by (apply Rmult_le_compat_r; nra).
  assert (E2 : (1 + u) * h <= (1 + u) * q * h) by (apply Rmult_le_compat_r; nra).
  nra.
Qed.

Section Err.
Variables prec emax : Z.
Context (Hprec : Prec_gt_0 prec) (Hmax : Prec_lt_emax prec emax).
Variable sz : bool.
Notation NN := (sf_num prec emax sz).
Notation vf := (valid_binary prec emax).
Notation u := (uro prec).

(** what is known about the cells of a row and a column *)
Definition given (K : nat) (f : nat -> option spec_float) : Prop :=
  forall k, (k < K)%nat -> exists a, f k = Some a /\ vf a = true.
Definition oval (o : option spec_float) : R := match o with Some x => val x | None => 0 end.
(** each product is off by at most u|ab| + h, when finite *)
Definition prod_ok (h : R) (K : nat) (f g : nat -> option spec_float) : Prop :=
  forall k a b, (k < K)%nat -> f k = Some a -> g k = Some b -> sf_finite (SFmul prec emax a b) = true ->
    Rabs (val (SFmul prec emax a b) - val a * val b) <= u * Rabs (val a * val b) + h.

Lemma given_le K K' f : given K f -> (K' <= K)%nat -> given K' f.
Proof. intros H HK k Hk. apply H. lia. Qed.
Lemma prod_ok_le h K K' f g : prod_ok h K f g -> (K' <= K)%nat -> prod_ok h K' f g.
Proof. intros H HK k a b Hk. apply H. lia. Qed.

Lemma dot_total K f g : given K f -> given K g -> exists r, dot NN K f g = Some r /\ vf r = true.
Proof.
  induction K as [|K IH]; intros Hf Hg; cbn [dot]; [eexists; split; reflexivity|].
  destruct IH as (r & -> & Hr); [eapply given_le; eauto..|].
  destruct (Hf K) as (a & -> & Ha); [lia|]. destruct (Hg K) as (b & -> & Hb); [lia|]. cbn.
  eexists; split; [reflexivity|]. apply vf_add; auto. apply vf_mul; auto.
Qed.

Lemma dot1_S N K (f g : nat -> option spec_float) : dot1 N (S (S K)) f g = obind (dot1 N (S K) f g) (fun acc =>
           obind (f (S K)) (fun u => obind (g (S K)) (fun v =>
           obind (o_mul N u v) (fun p => o_add N acc p)))).
Proof. reflexivity. Qed.

Definition bound (h : R) (K : nat) (A : R) : R := ((1 + u) ^ K - 1) * A + INR K * (1 + u) ^ K * h.

Lemma dot_err h K f g r : 0 <= h -> given K f -> given K g -> prod_ok h K f g -> dot NN K f g = Some r -> sf_finite r = true ->
  Rabs (val r - rsum K (fun k => oval (f k) * oval (g k))) <= bound h K (rsum K (fun k => Rabs (oval (f k)) * Rabs (oval (g k)))).
Proof.
  intros Hh. revert r. unfold bound. pose proof (uro_pos prec) as Hu.
  induction K as [|K IH]; intros r Hf Hg HP HD F.
  - cbn in HD. injection HD as <-. cbn. rewrite Rminus_0_r, Rabs_R0. lra.
  - cbn [dot] in HD. destruct (dot_total K f g) as (r0 & E0 & V0); [eapply given_le; eauto..|].
    destruct (Hf K) as (a & Ea & Ha); [lia|]. destruct (Hg K) as (b & Eb & Hb); [lia|].
    rewrite E0, Ea, Eb in HD. cbn in HD. injection HD as <-.
    assert (Vp : vf (SFmul prec emax a b) = true) by (apply vf_mul; auto).
    destruct (add_val prec emax _ _ _ _ V0 Vp F) as (F0 & Fp & _).
    pose proof (HP K a b ltac:(lia) Ea Eb Fp) as Hp.
    pose proof (add_err prec emax _ _ _ _ V0 Vp F) as Hadd.
    cbn [rsum]. rewrite Ea, Eb. cbn [oval].
    destruct K as [|K].
    + cbn in E0. injection E0 as <-. rewrite (add_zero_l prec emax _ Vp Fp). cbn [rsum INR].
      rewrite !Rplus_0_l. eapply Rle_trans; [exact Hp|]. rewrite pow_1, Rabs_mult. pose proof (Rmult_le_pos _ _ (Rlt_le _ _ Hu) Hh). lra.
    + specialize (IH r0 (given_le _ _ _ Hf (Nat.le_succ_diag_r _)) (given_le _ _ _ Hg (Nat.le_succ_diag_r _)) (prod_ok_le _ _ _ _ _ HP (Nat.le_succ_diag_r _)) E0 F0).
      set (S0 := rsum (S K) (fun k => oval (f k) * oval (g k))) in *.
      set (A0 := rsum (S K) (fun k => Rabs (oval (f k)) * Rabs (oval (g k)))) in *.
      assert (HA : Rabs S0 <= A0).
      { unfold S0, A0. eapply Rle_trans; [apply rsum_abs|]. right. apply rsum_ext. intros; apply Rabs_mult. }
      eapply Rle_trans; [exact (err_step _ _ _ _ _ _ _ _ _ (Rlt_le _ _ Hu) IH HA Hp Hadd)|].
      rewrite Rabs_mult. apply err_combine; auto; try lia; try lra.
      * eapply Rle_trans; [apply Rabs_pos|exact HA].
      * apply Rmult_le_pos; apply Rabs_pos.
Qed.

Lemma dot1_total K f g : (1 <= K)%nat -> given K f -> given K g -> exists r, dot1 NN K f g = Some r /\ vf r = true.
Proof.
  induction K as [|[|K] IH]; intros HK Hf Hg; [lia| |].
  - cbn. destruct (Hf 0%nat) as (a & -> & Ha); [lia|]. destruct (Hg 0%nat) as (b & -> & Hb); [lia|]. cbn.
    eexists; split; [reflexivity|]. apply vf_mul; auto.
  - rewrite dot1_S. destruct IH as (r & -> & Hr); [lia|eapply given_le; eauto..|].
    destruct (Hf (S K)) as (a & -> & Ha); [lia|]. destruct (Hg (S K)) as (b & -> & Hb); [lia|]. cbn.
    eexists; split; [reflexivity|]. apply vf_add; auto. apply vf_mul; auto.
Qed.

Lemma dot1_err h K f g r : 0 <= h -> (1 <= K)%nat -> given K f -> given K g -> prod_ok h K f g -> dot1 NN K f g = Some r -> sf_finite r = true ->
  Rabs (val r - rsum K (fun k => oval (f k) * oval (g k))) <= bound h K (rsum K (fun k => Rabs (oval (f k)) * Rabs (oval (g k)))).
Proof.
  intros Hh. revert r. unfold bound. pose proof (uro_pos prec) as Hu.
  induction K as [|[|K] IH]; intros r HK Hf Hg HP HD F; [lia| |].
  - cbn in HD. destruct (Hf 0%nat) as (a & Ea & Ha); [lia|]. destruct (Hg 0%nat) as (b & Eb & Hb); [lia|].
    rewrite Ea, Eb in HD. cbn in HD. injection HD as <-. pose proof (HP 0%nat a b ltac:(lia) Ea Eb F) as Hp.
    cbn [rsum INR]. rewrite Ea, Eb. cbn [oval]. rewrite !Rplus_0_l. eapply Rle_trans; [exact Hp|]. rewrite pow_1, Rabs_mult. pose proof (Rmult_le_pos _ _ (Rlt_le _ _ Hu) Hh). lra.
  - rewrite dot1_S in HD. destruct (dot1_total (S K) f g) as (r0 & E0 & V0); [lia|eapply given_le; eauto..|].
    destruct (Hf (S K)) as (a & Ea & Ha); [lia|]. destruct (Hg (S K)) as (b & Eb & Hb); [lia|].
    rewrite E0, Ea, Eb in HD. cbn in HD. injection HD as <-.
    assert (Vp : vf (SFmul prec emax a b) = true) by (apply vf_mul; auto).
    destruct (add_val prec emax _ _ _ _ V0 Vp F) as (F0 & Fp & _).
    pose proof (HP (S K) a b ltac:(lia) Ea Eb Fp) as Hp.
    pose proof (add_err prec emax _ _ _ _ V0 Vp F) as Hadd.
    change (rsum (S (S K)) ?q) with (rsum (S K) q + q (S K)). cbv beta. rewrite Ea, Eb. cbn [oval].
    specialize (IH r0 ltac:(lia) (given_le _ _ _ Hf (Nat.le_succ_diag_r _)) (given_le _ _ _ Hg (Nat.le_succ_diag_r _)) (prod_ok_le _ _ _ _ _ HP (Nat.le_succ_diag_r _)) E0 F0).
    set (S0 := rsum (S K) (fun k => oval (f k) * oval (g k))) in *.
    set (A0 := rsum (S K) (fun k => Rabs (oval (f k)) * Rabs (oval (g k)))) in *.
    assert (HA : Rabs S0 <= A0).
    { unfold S0, A0. eapply Rle_trans; [apply rsum_abs|]. right. apply rsum_ext. intros; apply Rabs_mult. }
    eapply Rle_trans; [exact (err_step _ _ _ _ _ _ _ _ _ (Rlt_le _ _ Hu) IH HA Hp Hadd)|].
    rewrite Rabs_mult. apply err_combine; auto; try lia; try lra.
    + eapply Rle_trans; [apply Rabs_pos|exact HA].
    + apply Rmult_le_pos; apply Rabs_pos.
Qed.

Lemma prod_ok_eta K f g : given K f -> given K g -> prod_ok (eta prec emax) K f g.
Proof.
  intros Hf Hg k a b Hk Ea Eb F. destruct (Hf k Hk) as (a' & Ea' & Ha). destruct (Hg k Hk) as (b' & Eb' & Hb).
  rewrite Ea in Ea'; injection Ea' as <-. rewrite Eb in Eb'; injection Eb' as <-. apply mul_err; auto.
Qed.
Lemma prod_ok_normal K f g : given K f -> given K g ->
  (forall k, (k < K)%nat -> oval (f k) * oval (g k) = 0 \/ min_normal emax <= Rabs (oval (f k) * oval (g k))) -> prod_ok 0 K f g.
Proof.
  intros Hf Hg HN k a b Hk Ea Eb F. destruct (Hf k Hk) as (a' & Ea' & Ha). destruct (Hg k Hk) as (b' & Eb' & Hb).
  rewrite Ea in Ea'; injection Ea' as <-. rewrite Eb in Eb'; injection Eb' as <-. rewrite Rplus_0_r. apply mul_err_normal; auto.
  specialize (HN k Hk). rewrite Ea, Eb in HN. exact HN.
Qed.
End Err.

Lemma given_cell prec emax (l : list spec_float) K (p : nat -> nat) : all_in_format prec emax l ->
  (forall k, (k < K)%nat -> (p k < length l)%nat) -> given prec emax K (fun k => nth_error l (p k)).
Proof.
  intros Hl Hb k Hk. specialize (Hb k Hk). destruct (nth_error l (p k)) as [a|] eqn:E.
  - exists a; split; [reflexivity|]. apply nth_error_In in E. unfold all_in_format in Hl. rewrite Forall_forall in Hl. now apply Hl.
  - apply nth_error_None in E. lia.
Qed.

(** the error bound for both forms at once *)
Definition err_le (u h : R) (K : nat) (x : R) (f g : nat -> R) : Prop :=
  Rabs (x - rsum K (fun k => f k * g k)) <= ((1 + u) ^ K - 1) * rsum K (fun k => Rabs (f k) * Rabs (g k)) + INR K * (1 + u) ^ K * h.
Section Kern.
Variables (c : cfg) (prec emax : Z) (sz : bool).
Hypothesis HF : format_ok prec emax.
Notation NN := (sf_num prec emax sz).
#[local] Instance hprec : Prec_gt_0 prec. Proof. unfold Prec_gt_0. destruct HF. lia. Qed.
#[local] Instance hmax : Prec_lt_emax prec emax. Proof. apply HF. Qed.

Lemma row_bound (M K i k : nat) : (i < M)%nat -> (k < K)%nat -> (i * K + k < M * K)%nat.
Proof. intros. nia. Qed.

Lemma cellwise_total {R C : nat} {old : list spec_float} {f r} : @cellwise spec_float R C old f r -> (R * C <= length old)%nat ->
  (forall i j v, (i < R)%nat -> (j < C)%nat -> f i j v <> None) ->
  exists new, r = Ok new /\ forall i j, (i < R)%nat -> (j < C)%nat -> exists v, cell C old i j = Some v /\ cell C new i j = f i j v.
Proof.
  intros H HL HT. destruct r as [new|e].
  - exists new. split; [reflexivity|]. destruct H as (_ & H & _). intros i j Hi Hj.
    destruct (cell C old i j) as [v|] eqn:E; [exists v; split; auto|]. unfold cell in E. apply nth_error_None in E.
    pose proof (row_bound R C i j Hi Hj). lia.
  - destruct H as (_ & i & j & v & Hi & Hj & _ & E). now apply HT in E.
Qed.

Lemma err_mono u h K x f g : 0 = h -> err_le u h K x f g -> 
  Rabs (x - rsum K (fun k => f k * g k)) <= ((1 + u) ^ K - 1) * rsum K (fun k => Rabs (f k) * Rabs (g k)).
Proof. intros <- H. unfold err_le in H. rewrite Rmult_0_r, Rplus_0_r in H. exact H. Qed.

(** a dot product, both bounds *)
Lemma dot_both K f g : given prec emax K f -> given prec emax K g -> exists r, dot NN K f g = Some r /\ in_format prec emax r /\
  (sf_finite r = true -> 
    err_le (uro prec) (eta prec emax) K (val r) (fun k => oval (f k)) (fun k => oval (g k)) /\
    (no_underflow emax K (fun k => oval (f k)) (fun k => oval (g k)) -> err_le (uro prec) 0 K (val r) (fun k => oval (f k)) (fun k => oval (g k)))).
Proof.
  intros Hf Hg. destruct (dot_total prec emax _ _ sz K f g Hf Hg) as (r & E & V). exists r. split; [exact E|]. split; [exact V|]. intros F. split.
  - apply (dot_err prec emax _ _ sz (eta prec emax)); auto. apply Rlt_le, eta_pos. apply prod_ok_eta; auto with typeclass_instances.
  - intros HN. apply (dot_err prec emax _ _ sz 0); auto. lra. apply prod_ok_normal; auto with typeclass_instances.
Qed.
Lemma dot1_both K f g : (1 <= K)%nat -> given prec emax K f -> given prec emax K g -> exists r, dot1 NN K f g = Some r /\ in_format prec emax r /\
  (sf_finite r = true -> 
    err_le (uro prec) (eta prec emax) K (val r) (fun k => oval (f k)) (fun k => oval (g k)) /\
    (no_underflow emax K (fun k => oval (f k)) (fun k => oval (g k)) -> err_le (uro prec) 0 K (val r) (fun k => oval (f k)) (fun k => oval (g k)))).
Proof.
  intros HK Hf Hg. destruct (dot1_total prec emax _ _ sz K f g HK Hf Hg) as (r & E & V). exists r. split; [exact E|]. split; [exact V|]. intros F. split.
  - apply (dot1_err prec emax _ _ sz (eta prec emax)); auto. apply Rlt_le, eta_pos. apply prod_ok_eta; auto with typeclass_instances.
  - intros HN. apply (dot1_err prec emax _ _ sz 0); auto. lra. apply prod_ok_normal; auto with typeclass_instances.
Qed.

Lemma mult_err M K U a b out : valid c M K a -> valid c K U b -> valid c M U out -> all_in_format prec emax a -> all_in_format prec emax b ->
  exists out', mult c NN M K U a b out = Ok out' /\ forall i j, (i < M)%nat -> (j < U)%nat ->
    exists r, cell U out' i j = Some r /\ cell_bound prec emax K (fun k => rcell K a i k) (fun k => rcell U b k j) r.
Proof.
  intros Va Vb Vo Fa Fb.
  assert (G : forall i j, (i < M)%nat -> (j < U)%nat -> exists r, dot NN K (fun k => cell K a i k) (fun k => cell U b k j) = Some r /\
      cell_bound prec emax K (fun k => rcell K a i k) (fun k => rcell U b k j) r).
  { intros i j Hi Hj. destruct (dot_both K (fun k => cell K a i k) (fun k => cell U b k j)) as (r & E & V & B).
    - apply (given_cell prec emax a K (fun k => i * K + k)%nat); auto. intros k Hk. pose proof (row_bound M K i k Hi Hk). destruct Va. lia.
    - apply (given_cell prec emax b K (fun k => k * U + j)%nat); auto. intros k Hk. pose proof (row_bound K U k j Hk Hj). destruct Vb. lia.
    - exists r. split; [exact E|]. split; [exact V|]. intros F. destruct (B F) as (B1 & B2). split; [exact B1|]. intros HN. eapply err_mono; [reflexivity|]. apply B2, HN. }
  destruct (cellwise_total (mult_cellwise c NN M K U a b out Va Vb Vo)) as (out' & E & H); [apply Vo| |].
  - intros i j v Hi Hj. destruct (G i j Hi Hj) as (r & -> & _). discriminate.
  - exists out'. split; [exact E|]. intros i j Hi Hj. destruct (H i j Hi Hj) as (v & _ & ->). exact (G i j Hi Hj).
Qed.

Lemma mult_transb_err M K U a b out : valid c M K a -> valid c U K b -> valid c M U out -> all_in_format prec emax a -> all_in_format prec emax b ->
  exists out', mult_transb c NN M K U a b out = Ok out' /\ forall i j, (i < M)%nat -> (j < U)%nat ->
    exists r, cell U out' i j = Some r /\ cell_bound prec emax K (fun k => rcell K a i k) (fun k => rcell K b j k) r.
Proof.
  intros Va Vb Vo Fa Fb.
  assert (G : forall i j, (i < M)%nat -> (j < U)%nat -> exists r, dot NN K (fun k => cell K a i k) (fun k => cell K b j k) = Some r /\
      cell_bound prec emax K (fun k => rcell K a i k) (fun k => rcell K b j k) r).
  { intros i j Hi Hj. destruct (dot_both K (fun k => cell K a i k) (fun k => cell K b j k)) as (r & E & V & B).
    - apply (given_cell prec emax a K (fun k => i * K + k)%nat); auto. intros k Hk. pose proof (row_bound M K i k Hi Hk). destruct Va. lia.
    - apply (given_cell prec emax b K (fun k => j * K + k)%nat); auto. intros k Hk. pose proof (row_bound U K j k Hj Hk). destruct Vb. lia.
    - exists r. split; [exact E|]. split; [exact V|]. intros F. destruct (B F) as (B1 & B2). split; [exact B1|]. intros HN. eapply err_mono; [reflexivity|]. apply B2, HN. }
  destruct (cellwise_total (mult_transb_cellwise c NN M K U a b out Va Vb Vo)) as (out' & E & H); [apply Vo| |].
  - intros i j v Hi Hj. destruct (G i j Hi Hj) as (r & -> & _). discriminate.
  - exists out'. split; [exact E|]. intros i j Hi Hj. destruct (H i j Hi Hj) as (v & _ & ->). exact (G i j Hi Hj).
Qed.

Lemma mult_rowvector_err M K a x out : (1 <= K)%nat -> valid c M K a -> valid c K 1 x -> valid c M 1 out -> all_in_format prec emax a -> all_in_format prec emax x ->
  exists out', mult_rowvector c NN M K a x out = Ok out' /\ forall i, (i < M)%nat ->
    exists r, cell 1 out' i 0 = Some r /\ cell_bound prec emax K (fun k => rcell K a i k) (fun k => rcell 1 x k 0) r.
Proof.
  intros HK Va Vb Vo Fa Fb.
  assert (G : forall i, (i < M)%nat -> exists r, dot1 NN K (fun k => cell K a i k) (fun k => cell 1 x k 0) = Some r /\
      cell_bound prec emax K (fun k => rcell K a i k) (fun k => rcell 1 x k 0) r).
  { intros i Hi. destruct (dot1_both K (fun k => cell K a i k) (fun k => cell 1 x k 0) HK) as (r & E & V & B).
    - apply (given_cell prec emax a K (fun k => i * K + k)%nat); auto. intros k Hk. pose proof (row_bound M K i k Hi Hk). destruct Va. lia.
    - apply (given_cell prec emax x K (fun k => k * 1 + 0)%nat); auto. intros k Hk. destruct Vb. lia.
    - exists r. split; [exact E|]. split; [exact V|]. intros F. destruct (B F) as (B1 & B2). split; [exact B1|]. intros HN. eapply err_mono; [reflexivity|]. apply B2, HN. }
  destruct (cellwise_total (mult_rowvector_cellwise c NN M K a x out HK Va Vb Vo)) as (out' & E & H); [apply Vo| |].
  - intros i j v Hi Hj. destruct (G i Hi) as (r & -> & _). discriminate.
  - exists out'. split; [exact E|]. intros i Hi. destruct (H i 0%nat Hi ltac:(lia)) as (v & _ & ->). exact (G i Hi).
Qed.
End Kern.
