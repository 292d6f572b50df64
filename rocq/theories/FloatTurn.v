(** * One turn of a floating-point filter *)
From Coq Require Import ZArith Reals Lia Lra Psatz.
From Flocq Require Import Core BinarySingleNaN.
From Verif Require Import Prelude Spec SpecBits Matrix Filter SpecFilter Kernels FilterGen FilterTwo HistGen HistTwo SpecGen FloatNum SpecFloats SpecReal SpecRange SpecStable SpecTurn FloatGen FloatFlocq FloatOps FloatErr FloatInt FloatPredict FloatFmt FloatUpdate FloatRange BitsProof.
Import SpecFloat.
Open Scope R_scope.

Lemma rdot_le K (f g B : nat -> R) : (forall k, (k < K)%nat -> Rabs (g k) <= B k) -> rsum K (fun k => Rabs (f k) * Rabs (g k)) <= rsum K (fun k => Rabs (f k) * B k).
Proof. intros H. apply rsum_le. intros k Hk. apply Rmult_le_compat_l; [apply Rabs_pos|auto]. Qed.
Lemma rdot_abs K (f g B : nat -> R) : (forall k, (k < K)%nat -> Rabs (g k) <= B k) -> Rabs (rsum K (fun k => f k * g k)) <= rsum K (fun k => Rabs (f k) * B k).
Proof. intros H. eapply Rle_trans; [apply rsum_abs|]. apply rsum_le. intros k Hk. rewrite Rabs_mult. apply Rmult_le_compat_l; [apply Rabs_pos|auto]. Qed.
Lemma rdot_diff K (f a b D : nat -> R) : (forall k, (k < K)%nat -> Rabs (a k - b k) <= D k) -> Rabs (rsum K (fun k => f k * a k) - rsum K (fun k => f k * b k)) <= rsum K (fun k => Rabs (f k) * D k).
Proof.
  intros H. rewrite rsum_minus. rewrite (rsum_ext K _ (fun k => f k * (a k - b k))) by (intros; ring). apply (rdot_abs K f (fun k => a k - b k) D H).
Qed.
(** |v - s| <= (g - 1) S + E with |s| <= S *)
Lemma near_big v s g S E : Rabs (v - s) <= (g - 1) * S + g * E -> Rabs s <= S -> Rabs v <= g * (S + E).
Proof. intros H1 H2. replace v with ((v - s) + s) by ring. eapply Rle_trans; [apply Rabs_triang|]. lra. Qed.

Section Turn.
Variables (c : cfg) (prec emax : Z) (sz : bool).
Hypothesis HF : format_ok prec emax.
Notation NN := (sf_num prec emax sz).
#[local] Instance hprec : Prec_gt_0 prec. Proof. unfold Prec_gt_0. destruct HF. lia. Qed.
#[local] Instance hmax : Prec_lt_emax prec emax. Proof. apply HF. Qed.
Notation u := (uro prec). Notation eta := (eta prec emax).

Lemma fin_in_cell n x i : fin_matrix n 1 x -> (i < n)%nat -> exists v, cell 1 x i 0 = Some v /\ sf_finite v = true.
Proof. intros H Hi. apply (H i 0%nat Hi (le_n 1)). Qed.

(** the state after a prediction, tuned or not *)
Lemma state_predicted n (f : kalman spec_float) (x' : list spec_float) X : (1 <= n)%nat -> kf_valid c n f -> kf_format prec emax f ->
  (forall i, (i < n)%nat -> cell 1 x' i 0 = b_prodv NN n (cell n (kf_A f)) (cell 1 (kf_x f)) i 0) ->
  fin_matrix n n (kf_A f) -> fin_vector n (kf_x f) X -> (forall i, (i < n)%nat -> r_big_prediction prec emax n (rcell n (kf_A f)) X i < too_big emax) ->
  fin_vector n x' (r_big_prediction prec emax n (rcell n (kf_A f)) X) /\
  forall i, (i < n)%nat -> Rabs (rcell 1 x' i 0 - r_predicted n (rcell n (kf_A f)) (fun k => rcell 1 (kf_x f) k 0) i) <= r_pred_rounding prec emax n (rcell n (kf_A f)) X i.
Proof.
  intros Hn Hf (FA & Fx & FP & FQ) HX IA (Ix & Bx) HR. destruct Hf as ((VA & _) & (Vx & _) & _).
  pose proof (uro_pos prec) as Hu. pose proof (eta_pos prec emax) as He. pose proof (pow_R1_Rle (1 + u) n ltac:(lra)) as HG. pose proof (pos_INR n) as HN.
  assert (S : forall i, (i < n)%nat -> exists r, cell 1 x' i 0 = Some r /\ sf_finite r = true /\ Rabs (val r) <= r_big_prediction prec emax n (rcell n (kf_A f)) X i /\
    Rabs (val r - r_predicted n (rcell n (kf_A f)) (fun k => rcell 1 (kf_x f) k 0) i) <= r_pred_rounding prec emax n (rcell n (kf_A f)) X i).
  { intros i Hi.
    assert (G1 : given prec emax n (fun k => cell n (kf_A f) i k)) by (apply (row_given prec emax n); auto).
    assert (G2 : given prec emax n (fun k => cell 1 (kf_x f) k 0)) by (apply (col_given prec emax n 1); auto).
    destruct (dot1_both prec emax sz HF n (fun k => cell n (kf_A f) i k) (fun k => cell 1 (kf_x f) k 0) Hn G1 G2) as (r & Er & V & B).
    assert (LS : rsum n (fun k => Rabs (rcell n (kf_A f) i k) * Rabs (rcell 1 (kf_x f) k 0)) <= rsum n (fun k => Rabs (rcell n (kf_A f) i k) * X k)) by (apply (rdot_le n (fun k => rcell n (kf_A f) i k)), Bx).
    assert (F : sf_finite r = true).
    { eapply (dot1_fin prec emax sz HF n _ _ r Hn G1 G2); [apply (row_fin n); auto|apply (col_fin n 1); auto|  |exact Er].
      eapply Rle_lt_trans; [|apply (HR i Hi)]. unfold room, r_big_prediction. apply Rmult_le_compat_l; [lra|]. apply Rplus_le_compat_r. exact LS. }
    destruct (B F) as (B1 & _). unfold err_le in B1.
    assert (B2 : Rabs (val r - r_predicted n (rcell n (kf_A f)) (fun k => rcell 1 (kf_x f) k 0) i) <= r_pred_rounding prec emax n (rcell n (kf_A f)) X i).
    { eapply Rle_trans; [exact B1|]. unfold r_pred_rounding. apply Rplus_le_compat_r. apply Rmult_le_compat_l; [lra|]. exact LS. }
    exists r. split; [rewrite (HX i Hi); exact Er|]. split; [exact F|]. split; [|exact B2].
    unfold r_big_prediction. eapply (near_big _ (r_predicted n (rcell n (kf_A f)) (fun k => rcell 1 (kf_x f) k 0) i)).
    - eapply Rle_trans; [exact B2|]. unfold r_pred_rounding. right. ring.
    - unfold r_predicted. apply (rdot_abs n (fun k => rcell n (kf_A f) i k)), Bx. }
  split; [split|].
  - intros i j Hi Hj. assert (j = 0%nat) as -> by lia. destruct (S i Hi) as (r & E & F & _). eauto.
  - intros i Hi. destruct (S i Hi) as (r & E & F & B & _). unfold rcell. rewrite E. exact B.
  - intros i Hi. destruct (S i Hi) as (r & E & F & _ & B). unfold rcell at 1. rewrite E. exact B.
Qed.

Lemma predict_state n (f : kalman spec_float) X : (1 <= n)%nat -> kf_valid c n f -> kf_format prec emax f -> fin_matrix n n (kf_A f) -> fin_vector n (kf_x f) X ->
  (forall i, (i < n)%nat -> r_big_prediction prec emax n (rcell n (kf_A f)) X i < too_big emax) ->
  exists f', predict c NN n f = Ok f' /\ fin_vector n (kf_x f') (r_big_prediction prec emax n (rcell n (kf_A f)) X) /\
  forall i, (i < n)%nat -> Rabs (rcell 1 (kf_x f') i 0 - r_predicted n (rcell n (kf_A f)) (fun k => rcell 1 (kf_x f) k 0) i) <= r_pred_rounding prec emax n (rcell n (kf_A f)) X i.
Proof.
  intros Hn Hf Ff IA Ix HR. destruct (predict_ok c prec emax sz n f Hn Hf) as (f' & E). exists f'. split; [exact E|].
  apply state_predicted; auto. apply (predict_bits c NN n f f' Hn Hf E).
Qed.

(** the state after a correction, given its innovation: entries of at most YB, off by at most YE *)
Definition inn_room (m : nat) (K : nat -> nat -> R) (X YB : nat -> R) (i : nat) : R := (1 + u) ^ (m + 1) * (X i + rsum m (fun j => Rabs (K i j) * YB j) + INR m * eta).
Definition inn_rounding (m : nat) (K : nat -> nat -> R) (X YB YE : nat -> R) (i : nat) : R :=
  ((1 + u) ^ (m + 1) - 1) * (X i + rsum m (fun j => Rabs (K i j) * YB j)) + (1 + u) ^ (m + 1) * eta * INR m + rsum m (fun j => Rabs (K i j) * YE j).
Lemma correct_inn n m (o o' : observation spec_float) (f f' : kalman spec_float) X YB YE : (1 <= n)%nat -> (1 <= m)%nat -> ob_valid c n m o -> kf_valid c n f -> kf_all_format prec emax f -> ob_format prec emax o ->
  fin_vector n (kf_x f) X -> correct c NN n m o f = Ok (o', f') -> fin_matrix n m (ob_K o') ->
  (forall j, (j < m)%nat -> exists r, cell 1 (ob_y o') j 0 = Some r /\ sf_finite r = true /\ Rabs (val r) <= YB j /\
    Rabs (val r - (rcell 1 (ob_z o) j 0 - rsum n (fun l => rcell n (ob_H o) j l * rcell 1 (kf_x f) l 0))) <= YE j) ->
  (forall i, (i < n)%nat -> inn_room m (rcell m (ob_K o')) X YB i < too_big emax) ->
  fin_vector n (kf_x f') (inn_room m (rcell m (ob_K o')) X YB) /\
  forall i, (i < n)%nat -> Rabs (rcell 1 (kf_x f') i 0 - r_corrected n m (rcell n (ob_H o)) (rcell m (ob_K o')) (fun k => rcell 1 (kf_x f) k 0) (fun j => rcell 1 (ob_z o) j 0) i)
    <= inn_rounding m (rcell m (ob_K o')) X YB YE i.
Proof.
  intros Hn Hm Ho Hf (Ff & F1 & F2) Fo (Ix & Bx) E IK YS R2.
  destruct (correct_fmt c prec emax sz HF n m o o' f f' F1 F2 Ff Fo E) as (Fo' & Ff').
  assert (Hv : ob_valid c n m o') by (pose proof (correct_wp c NN n m o f Hn Hm Ho Hf) as H; rewrite E in H; apply H).
  destruct (correct_bits' spec_float c NN n m o o' f f' Hn Hm Ho Hf E) as (HY & HU). destruct HU as (_ & _ & _ & _ & _ & HX & _).
  destruct Hf as (VA & (Vx & _) & (VP & _) & _). destruct Ho as ((VH & _) & (Vz & _) & _). destruct Hv as (_ & _ & _ & (Vy & _) & _ & (VK & _) & _).
  destruct Fo as (FH & Fz & _). destruct Fo' as (_ & _ & _ & Fy & _ & FK & _). destruct Ff as (FA & Fx & FP & FQ).
  pose proof (uro_pos prec) as Hu. pose proof (eta_pos prec emax) as He.
  set (H := rcell n (ob_H o)) in *. set (K := rcell m (ob_K o')) in *. set (x := fun k => rcell 1 (kf_x f) k 0) in *. set (z := fun j => rcell 1 (ob_z o) j 0) in *.
  assert (Iy : fin_matrix m 1 (ob_y o')). { intros i j Hi Hj. assert (j = 0%nat) as -> by lia. destruct (YS i Hi) as (r & E1 & E2 & _). eauto. }
  set (y := fun j => rcell 1 (ob_y o') j 0).
  assert (By : forall j, (j < m)%nat -> Rabs (y j) <= YB j). { intros j Hj. destruct (YS j Hj) as (r & E1 & _ & B & _). unfold y, rcell. rewrite E1. exact B. }
  assert (Ey : forall j, (j < m)%nat -> Rabs (y j - (z j - rsum n (fun l => H j l * x l))) <= YE j). { intros j Hj. destruct (YS j Hj) as (r & E1 & _ & _ & B). unfold y, rcell. rewrite E1. exact B. }
  assert (XS : forall i, (i < n)%nat -> exists r, cell 1 (kf_x f') i 0 = Some r /\ sf_finite r = true /\ Rabs (val r) <= inn_room m K X YB i /\
    Rabs (val r - r_corrected n m H K x z i) <= inn_rounding m K X YB YE i).
  { intros i Hi. pose proof (pow_R1_Rle (1 + u) (m + 1) ltac:(lra)) as HG.
    assert (G1 : given prec emax m (fun l => cell m (ob_K o') i l)) by (apply (row_given prec emax n); auto).
    assert (G2 : given prec emax m (fun l => cell 1 (ob_y o') l 0)) by (apply (col_given prec emax m 1); auto).
    destruct (one_given prec emax n 1 (kf_x f) i 0 Fx Vx Hi (le_n 1)) as (q & Eq & Vq). destruct (fin_in_cell n (kf_x f) i Ix Hi) as (q' & Eq' & Fq). assert (q' = q) by congruence. subst q'.
    destruct (vec_err prec emax sz HF false m q _ _ Hm Vq G1 G2) as (r & Er & Vr & Br).
    assert (Xq : x i = val q) by (unfold x, rcell; rewrite Eq; reflexivity). pose proof (Bx i Hi) as BX. change (rcell 1 (kf_x f) i 0) with (x i) in BX. rewrite Xq in BX.
    assert (LS : rsum m (fun k => Rabs (K i k) * Rabs (y k)) <= rsum m (fun k => Rabs (K i k) * YB k)) by (apply (rdot_le m (fun k => K i k)), By).
    assert (F : sf_finite r = true).
    { eapply (vec_fin prec emax sz HF false m q _ _ r Hm Vq Fq G1 G2); [apply (row_fin n); auto|apply (col_fin m 1); auto| |exact Er].
      red. eapply Rle_lt_trans; [|apply (R2 i Hi)]. unfold inn_room. apply Rmult_le_compat_l; [lra|]. apply Rplus_le_compat_r. apply Rplus_le_compat; [exact BX|exact LS]. }
    specialize (Br F). cbv zeta in Br. cbn [sgn] in Br.
    change (rsum m (fun k => oval (cell m (ob_K o') i k) * oval (cell 1 (ob_y o') k 0))) with (rsum m (fun k => K i k * y k)) in Br.
    change (rsum m (fun k => Rabs (oval (cell m (ob_K o') i k)) * Rabs (oval (cell 1 (ob_y o') k 0)))) with (rsum m (fun k => Rabs (K i k) * Rabs (y k))) in Br. rewrite <- Xq in Br, BX.
    assert (B1 : Rabs (val r - (x i + rsum m (fun k => K i k * y k))) <= ((1 + u) ^ (m + 1) - 1) * (X i + rsum m (fun j => Rabs (K i j) * YB j)) + (1 + u) ^ (m + 1) * eta * INR m).
    { eapply Rle_trans; [exact Br|]. apply Rplus_le_compat_r. apply Rmult_le_compat_l; [lra|]. apply Rplus_le_compat; [exact BX|exact LS]. }
    exists r. split; [rewrite (HX i Hi), Eq; exact Er|]. split; [exact F|]. split.
    - unfold inn_room. eapply (near_big _ (x i + rsum m (fun k => K i k * y k))).
      + eapply Rle_trans; [exact B1|]. right. ring.
      + eapply Rle_trans; [apply Rabs_triang|]. apply Rplus_le_compat; [exact BX|]. apply (rdot_abs m (fun k => K i k)), By.
    - unfold inn_rounding, r_corrected. pose proof (rdot_diff m (fun k => K i k) y (fun j => z j - rsum n (fun l => H j l * x l)) _ Ey) as D. cbv beta in D.
      set (s1 := rsum m (fun k => K i k * y k)) in *. set (s2 := rsum m (fun j => K i j * (z j - rsum n (fun l => H j l * x l)))) in *.
      replace (val r - (x i + s2)) with ((val r - (x i + s1)) + (s1 - s2)) by ring. eapply Rle_trans; [apply Rabs_triang|]. apply Rplus_le_compat; [exact B1|exact D]. }
  split; [split|].
  - intros i j Hi Hj. assert (j = 0%nat) as -> by lia. destruct (XS i Hi) as (r & E1 & F & _). eauto.
  - intros i Hi. destruct (XS i Hi) as (r & E1 & F & B & _). unfold rcell. rewrite E1. exact B.
  - intros i Hi. destruct (XS i Hi) as (r & E1 & F & _ & B). unfold rcell at 1. rewrite E1. exact B.
Qed.

(** rounding errors of the prediction pass through the correction *)
(** the state after a correction, given the gain that the correction leaves in its buffer *)
Lemma correct_state n m (o : observation spec_float) (f : kalman spec_float) X Zb : (1 <= n)%nat -> (1 <= m)%nat -> ob_valid c n m o -> kf_valid c n f -> kf_all_format prec emax f -> ob_format prec emax o ->
  fin_matrix m n (ob_H o) -> fin_vector n (kf_x f) X -> fin_vector m (ob_z o) Zb ->
  exists o' f', correct c NN n m o f = Ok (o', f') /\ (fin_matrix n m (ob_K o') ->
  (forall j, (j < m)%nat -> r_big_innovation prec emax n (rcell n (ob_H o)) X Zb j < too_big emax) ->
  (forall i, (i < n)%nat -> r_big_correction prec emax n m (rcell n (ob_H o)) (rcell m (ob_K o')) X Zb i < too_big emax) ->
  fin_vector n (kf_x f') (r_big_correction prec emax n m (rcell n (ob_H o)) (rcell m (ob_K o')) X Zb) /\
  forall i, (i < n)%nat -> Rabs (rcell 1 (kf_x f') i 0 - r_corrected n m (rcell n (ob_H o)) (rcell m (ob_K o')) (fun k => rcell 1 (kf_x f) k 0) (fun j => rcell 1 (ob_z o) j 0) i)
    <= r_corr_rounding prec emax n m (rcell n (ob_H o)) (rcell m (ob_K o')) X Zb i).
Proof.
  intros Hn Hm Ho Hf HFf Fo IH (Ix & Bx) (Iz & Bz). pose proof Ho as Ho0. pose proof Hf as Hf0. pose proof HFf as Ff0. pose proof Fo as Fo0. destruct HFf as (Ff & F1 & F2). destruct (correct_err c prec emax sz HF n m o f Hn Hm Ho Hf Ff F1 F2 Fo) as (o' & f' & E & _). exists o', f'. split; [exact E|]. intros IK R1 R2.
  destruct (correct_fmt c prec emax sz HF n m o o' f f' F1 F2 Ff Fo E) as (Fo' & Ff').
  assert (Hv : ob_valid c n m o') by (pose proof (correct_wp c NN n m o f Hn Hm Ho Hf) as H; rewrite E in H; apply H).
  destruct (correct_bits' spec_float c NN n m o o' f f' Hn Hm Ho Hf E) as (HY & HU). destruct HU as (_ & _ & _ & _ & _ & HX & _).
  destruct Hf as (VA & (Vx & _) & (VP & _) & _). destruct Ho as ((VH & _) & (Vz & _) & _). destruct Hv as (_ & _ & _ & (Vy & _) & _ & (VK & _) & _).
  destruct Fo as (FH & Fz & _). destruct Fo' as (_ & _ & _ & Fy & _ & FK & _). destruct Ff as (FA & Fx & FP & FQ).
  pose proof (uro_pos prec) as Hu. pose proof (eta_pos prec emax) as He.
  set (H := rcell n (ob_H o)) in *. set (K := rcell m (ob_K o')) in *. set (x := fun k => rcell 1 (kf_x f) k 0) in *. set (z := fun j => rcell 1 (ob_z o) j 0) in *.
  (* the innovation *)
  assert (YS : forall j, (j < m)%nat -> exists r, cell 1 (ob_y o') j 0 = Some r /\ sf_finite r = true /\ Rabs (val r) <= r_big_innovation prec emax n H X Zb j /\
    Rabs (val r - (z j - rsum n (fun l => H j l * x l))) <= r_inn_rounding prec emax n H X Zb j).
  { intros j Hj. pose proof (pow_R1_Rle (1 + u) (n + 1) ltac:(lra)) as HG.
    assert (G1 : given prec emax n (fun l => cell n (ob_H o) j l)) by (apply (row_given prec emax m); auto).
    assert (G2 : given prec emax n (fun l => cell 1 (kf_x f) l 0)) by (apply (col_given prec emax n 1); auto).
    destruct (one_given prec emax m 1 (ob_z o) j 0 Fz Vz Hj (le_n 1)) as (q & Eq & Vq). destruct (fin_in_cell m (ob_z o) j Iz Hj) as (q' & Eq' & Fq). assert (q' = q) by congruence. subst q'.
    destruct (vec_err prec emax sz HF true n q _ _ Hn Vq G1 G2) as (r & Er & Vr & Br).
    assert (Zq : z j = val q) by (unfold z, rcell; rewrite Eq; reflexivity). pose proof (Bz j Hj) as BZ. change (rcell 1 (ob_z o) j 0) with (z j) in BZ. rewrite Zq in BZ.
    assert (LS : rsum n (fun k => Rabs (H j k) * Rabs (x k)) <= rsum n (fun k => Rabs (H j k) * X k)) by (apply (rdot_le n (fun k => H j k)), Bx).
    assert (F : sf_finite r = true).
    { eapply (vec_fin prec emax sz HF true n q _ _ r Hn Vq Fq G1 G2); [apply (row_fin m); auto|apply (col_fin n 1); auto| |exact Er].
      red. eapply Rle_lt_trans; [|apply (R1 j Hj)]. unfold r_big_innovation. apply Rmult_le_compat_l; [lra|]. apply Rplus_le_compat_r. apply Rplus_le_compat; [exact BZ|exact LS]. }
    specialize (Br F). cbv zeta in Br.
    assert (B2 : Rabs (val r - (z j - rsum n (fun l => H j l * x l))) <= r_inn_rounding prec emax n H X Zb j).
    { rewrite Zq. replace (val q - rsum n (fun l => H j l * x l)) with (val q + rsum n (fun k => sgn true (oval (cell n (ob_H o) j k)) * oval (cell 1 (kf_x f) k 0))).
      2:{ rewrite (rsum_ext n (fun k => sgn true (oval (cell n (ob_H o) j k)) * oval (cell 1 (kf_x f) k 0)) (fun k => (-1) * (H j k * x k))) by (intros; cbn [sgn]; unfold H, x, rcell; unfold oval; ring). rewrite rsum_scal. ring. }
      eapply Rle_trans; [exact Br|]. unfold r_inn_rounding. apply Rplus_le_compat_r. apply Rmult_le_compat_l; [lra|]. apply Rplus_le_compat; [exact BZ|].
      rewrite (rsum_ext n _ (fun k => Rabs (H j k) * Rabs (x k))) by (intros; rewrite sgn_abs; reflexivity). exact LS. }
    exists r. split; [rewrite (HY j Hj), Eq; exact Er|]. split; [exact F|]. split; [|exact B2].
    unfold r_big_innovation. eapply (near_big _ (z j - rsum n (fun l => H j l * x l))).
    - eapply Rle_trans; [exact B2|]. unfold r_inn_rounding. right. ring.
    - eapply Rle_trans; [apply Rabs_triang|]. rewrite Rabs_Ropp. rewrite Zq. apply Rplus_le_compat; [exact BZ|]. apply (rdot_abs n (fun k => H j k)), Bx. }
  apply (correct_inn n m o o' f f' X _ _ Hn Hm Ho0 Hf0 Ff0 Fo0 (conj Ix Bx) E IK YS). exact R2.
Qed.

Lemma corrected_diff n m (H K : nat -> nat -> R) (x1 x2 z D : nat -> R) : (forall l, (l < n)%nat -> Rabs (x1 l - x2 l) <= D l) -> forall i, (i < n)%nat ->
  Rabs (r_corrected n m H K x1 z i - r_corrected n m H K x2 z i) <= D i + rsum m (fun j => Rabs (K i j) * rsum n (fun l => Rabs (H j l) * D l)).
Proof.
  intros HD i Hi. unfold r_corrected.
  assert (D1 : forall j, (j < m)%nat -> Rabs ((z j - rsum n (fun l => H j l * x1 l)) - (z j - rsum n (fun l => H j l * x2 l))) <= rsum n (fun l => Rabs (H j l) * D l)).
  { intros j Hj. replace ((z j - rsum n (fun l => H j l * x1 l)) - (z j - rsum n (fun l => H j l * x2 l))) with (- (rsum n (fun l => H j l * x1 l) - rsum n (fun l => H j l * x2 l))) by ring.
    rewrite Rabs_Ropp. apply (rdot_diff n (fun l => H j l)), HD. }
  pose proof (rdot_diff m (fun k => K i k) _ _ _ D1) as D2. cbv beta in D2.
  set (s1 := rsum m (fun j => K i j * (z j - rsum n (fun l => H j l * x1 l)))) in *. set (s2 := rsum m (fun j => K i j * (z j - rsum n (fun l => H j l * x2 l)))) in *.
  replace (x1 i + s1 - (x2 i + s2)) with ((x1 i - x2 i) + (s1 - s2)) by ring. eapply Rle_trans; [apply Rabs_triang|]. apply Rplus_le_compat; [auto|exact D2].
Qed.
End Turn.
