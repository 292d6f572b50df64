(** * A sensor that reads components of the state: exact products, one rounding per innovation *)
From Coq Require Import ZArith Reals Lia Lra Psatz.
From Flocq Require Import Core BinarySingleNaN.
From Verif Require Import Prelude Spec SpecBits Matrix Filter SpecFilter SpecParam Param Wp Kernels FilterGen FilterTwo HistGen HistTwo SpecGen FloatNum SpecFloats SpecReal SpecRange SpecStable SpecTurn FloatGen FloatFlocq FloatOps FloatErr FloatFactor FloatForward FloatInt FloatPredict FloatFmt FloatUpdate FloatRange FloatStable FloatTurn TurnProof BitsProof.
Import SpecFloat.
Open Scope R_scope.

Section Select.
Variables (c : cfg) (prec emax : Z) (sz : bool).
Hypothesis HF : format_ok prec emax.
Notation NN := (sf_num prec emax sz).
#[local] Instance hprec : Prec_gt_0 prec. Proof. unfold Prec_gt_0. destruct HF. lia. Qed.
#[local] Instance hmax : Prec_lt_emax prec emax. Proof. apply HF. Qed.
Notation vf := (valid_binary prec emax).
Notation u := (uro prec). Notation eta := (eta prec emax).
Notation rnd := (round radix2 (SpecFloat.fexp prec emax) ZnearestE).

Lemma rnd_val v : vf v = true -> rnd (val v) = val v.
Proof. intros V. apply round_generic; [auto with typeclass_instances|]. apply (val_format prec emax _ V). Qed.
Lemma mul_exact a b v : vf a = true -> vf b = true -> vf v = true -> sf_finite a = true -> sf_finite b = true -> sf_finite v = true -> val a * val b = val v ->
  sf_finite (SFmul prec emax a b) = true /\ val (SFmul prec emax a b) = val v.
Proof.
  intros Ha Hb Hv Fa Fb Fv E. pose proof (fin_upper prec emax v Hv Fv) as U. pose proof (rnd_val v Hv) as RV.
  assert (F : sf_finite (SFmul prec emax a b) = true).
  { apply vf_B in Ha, Hb. destruct Ha as [x ->], Hb as [y ->]. rewrite (mul_equiv prec emax hprec hmax). rewrite (fin_B prec emax) in *.
    unfold val in E. rewrite !SF2R_B2SF in E. pose proof (Bmult_correct prec emax _ _ mode_NE x y) as H. change (round_mode mode_NE) with ZnearestE in H.
    rewrite E in H. change (SF2R radix2 v) with (val v) in H. rewrite RV in H. rewrite Rlt_bool_true in H by exact U. destruct H as (_ & H & _). rewrite H, Fa, Fb. reflexivity. }
  split; [exact F|]. destruct (mul_val prec emax hprec hmax a b Ha Hb F) as (_ & _ & ->). rewrite E. exact RV.
Qed.
Lemma add_exact a b v : vf a = true -> vf b = true -> vf v = true -> sf_finite a = true -> sf_finite b = true -> sf_finite v = true -> val a + val b = val v ->
  sf_finite (SFadd prec emax a b) = true /\ val (SFadd prec emax a b) = val v.
Proof.
  intros Ha Hb Hv Fa Fb Fv E. pose proof (fin_upper prec emax v Hv Fv) as U. pose proof (rnd_val v Hv) as RV.
  assert (F : sf_finite (SFadd prec emax a b) = true).
  { apply vf_B in Ha, Hb. destruct Ha as [x ->], Hb as [y ->]. rewrite (add_equiv prec emax hprec hmax). rewrite (fin_B prec emax) in *.
    unfold val in E. rewrite !SF2R_B2SF in E. pose proof (Bplus_correct prec emax _ _ mode_NE x y Fa Fb) as H. change (round_mode mode_NE) with ZnearestE in H.
    rewrite E in H. change (SF2R radix2 v) with (val v) in H. rewrite RV in H. rewrite Rlt_bool_true in H by exact U. apply H. }
  split; [exact F|]. destruct (add_val prec emax hprec hmax a b Ha Hb F) as (_ & _ & ->). rewrite E. exact RV.
Qed.

Definition pick (s k : nat) : R := if (k =? s)%nat then 1 else 0.
Lemma pick_sum n s (x : nat -> R) : rsum n (fun k => pick s k * x k) = if (s <? n)%nat then x s else 0.
Proof.
  induction n as [|n IH]; cbn [rsum]; [reflexivity|]. rewrite IH. unfold pick. destruct (Nat.eqb_spec n s) as [->|D].
  - rewrite Nat.ltb_irrefl. rewrite (proj2 (Nat.ltb_lt s (S s))) by lia. ring.
  - destruct (Nat.ltb_spec s n), (Nat.ltb_spec s (S n)); try lia; ring.
Qed.
Definition zero_ := S754_zero false.
Lemma term_pick s k a b : vf a = true -> vf b = true -> sf_finite a = true -> sf_finite b = true -> val a = pick s k ->
  vf (SFmul prec emax a b) = true /\ sf_finite (SFmul prec emax a b) = true /\ val (SFmul prec emax a b) = pick s k * val b.
Proof.
  intros Va Vb Fa Fb E. split; [apply (vf_mul prec emax hprec hmax); assumption|]. unfold pick in *. destruct (k =? s)%nat.
  - rewrite Rmult_1_l. apply mul_exact; auto. rewrite E. ring.
  - destruct (mul_exact a b zero_ Va Vb eq_refl Fa Fb eq_refl) as (F & V); [rewrite E; cbn; ring|]. split; [exact F|]. rewrite V. cbn. ring.
Qed.
Lemma dot1_select K s f g : (1 <= K)%nat -> given prec emax K f -> given prec emax K g -> allfin K f -> allfin K g -> (forall k, (k < K)%nat -> oval (f k) = pick s k) ->
  exists r, dot1 NN K f g = Some r /\ vf r = true /\ sf_finite r = true /\ val r = if (s <? K)%nat then oval (g s) else 0.
Proof.
  induction K as [|K IH]; intros HK Gf Gg Af Ag HS; [lia|].
  destruct (Gf K ltac:(lia)) as (a & Ea & Va). destruct (Gg K ltac:(lia)) as (b & Eb & Vb).
  pose proof (Af K a ltac:(lia) Ea) as Fa. pose proof (Ag K b ltac:(lia) Eb) as Fb. pose proof (HS K ltac:(lia)) as SK. rewrite Ea in SK. cbn [oval] in SK.
  destruct (term_pick s K a b Va Vb Fa Fb SK) as (Vm & Fm & Em).
  destruct K as [|K].
  - exists (SFmul prec emax a b). cbn [dot1]. rewrite Ea, Eb. split; [reflexivity|]. split; [exact Vm|]. split; [exact Fm|]. rewrite Em. unfold pick.
    destruct s as [|s]; cbn; [rewrite Eb; cbn; ring|]. ring.
  - destruct IH as (r & Er & Vr & Fr & Wr); [lia|intros k Hk; apply Gf; lia|intros k Hk; apply Gg; lia|intros k v Hk; apply Af; lia|intros k v Hk; apply Ag; lia|intros k Hk; apply HS; lia|].
    exists (SFadd prec emax r (SFmul prec emax a b)).
    assert (ED : dot1 NN (S (S K)) f g = Some (SFadd prec emax r (SFmul prec emax a b))).
    { change (dot1 NN (S (S K)) f g) with (obind (dot1 NN (S K) f g) (fun acc => obind (f (S K)) (fun u => obind (g (S K)) (fun v => obind (o_mul NN u v) (fun p => o_add NN acc p))))). rewrite Er, Ea, Eb. reflexivity. }
    split; [exact ED|]. split; [apply (vf_add prec emax hprec hmax); assumption|]. clear ED.
    unfold pick in Em. destruct (Nat.eqb_spec (S K) s) as [<-|D].
    + rewrite Nat.ltb_irrefl in Wr. rewrite (proj2 (Nat.ltb_lt (S K) (S (S K)))) by lia. rewrite Eb. cbn [oval]. apply add_exact; auto. rewrite Wr, Em. ring.
    + assert (ES : (s <? S (S K))%nat = (s <? S K)%nat) by (destruct (Nat.ltb_spec s (S K)), (Nat.ltb_spec s (S (S K))); try lia; reflexivity).
      rewrite ES, <- Wr. apply add_exact; auto. rewrite Em. ring.
Qed.

(** a sharper bound on the effect of a prediction error *)
Lemma corrected_diff_sharp n m (H K : nat -> nat -> R) (x1 x2 z D : nat -> R) : (forall l, (l < n)%nat -> Rabs (x1 l - x2 l) <= D l) -> forall i, (i < n)%nat ->
  Rabs (r_corrected n m H K x1 z i - r_corrected n m H K x2 z i) <= rsum n (fun l => Rabs ((if (l =? i)%nat then 1 else 0) - rsum m (fun j => K i j * H j l)) * D l).
Proof.
  intros HD i Hi. eapply Rle_trans; [|apply (rdot_abs n (fun l => (if (l =? i)%nat then 1 else 0) - rsum m (fun j => K i j * H j l)) (fun l => x1 l - x2 l) D HD)].
  right. f_equal. unfold r_corrected.
  rewrite (rsum_ext n _ (fun l => pick i l * (x1 l - x2 l) + (-1) * (rsum m (fun j => K i j * H j l) * (x1 l - x2 l)))) by (intros; unfold pick; ring).
  rewrite rsum_plus, rsum_scal, (pick_sum n i (fun l => x1 l - x2 l)), (proj2 (Nat.ltb_lt i n) Hi).
  rewrite (rsum_ext n (fun l => rsum m (fun j => K i j * H j l) * (x1 l - x2 l)) (fun l => rsum m (fun j => K i j * H j l * (x1 l - x2 l)))) by (intros; rewrite rsum_mult_r; reflexivity).
  rewrite rsum_swap. rewrite (rsum_ext m (fun j => rsum n (fun l => K i j * H j l * (x1 l - x2 l))) (fun j => K i j * (z j - rsum n (fun l => H j l * x2 l)) - K i j * (z j - rsum n (fun l => H j l * x1 l)))).
  - rewrite <- rsum_minus. ring.
  - intros j _. rewrite (rsum_ext n _ (fun l => K i j * (H j l * x1 l - H j l * x2 l))) by (intros; ring). rewrite rsum_scal, <- rsum_minus. ring.
Qed.

Lemma sub_fin a b : vf a = true -> vf b = true -> sf_finite a = true -> sf_finite b = true -> (1 + u) * Rabs (val a - val b) < too_big emax -> sf_finite (SFsub prec emax a b) = true.
Proof.
  intros Ha Hb Fa Fb HR. rewrite sub_add. apply (add_fin prec emax HF); auto.
  - apply (vf_opp prec emax), Hb.
  - rewrite fin_opp. exact Fb.
  - rewrite val_opp. exact HR.
Qed.

Theorem sel_from n m s (f f1 : kalman spec_float) (o : observation spec_float) X Yb : (1 <= n)%nat -> (1 <= m)%nat -> ob_valid c n m o -> kf_valid c n f1 -> kf_all_format prec emax f1 -> ob_format prec emax o ->
  fin_matrix m n (ob_H o) -> fin_matrix m 1 (ob_z o) -> selects n m (rcell n (ob_H o)) s ->
  exists o' f2, correct c NN n m o f1 = Ok (o', f2) /\
  let A := rcell n (kf_A f) in let H := rcell n (ob_H o) in let K := rcell m (ob_K o') in
  (fin_vector n (kf_x f1) (r_big_prediction prec emax n A X) -> (forall i, (i < n)%nat -> Rabs (rcell 1 (kf_x f1) i 0 - r_predicted n A (fun k => rcell 1 (kf_x f) k 0) i) <= r_pred_rounding prec emax n A X i) ->
   (forall j, (j < m)%nat -> Rabs (rcell 1 (ob_z o) j 0 - r_predicted n A (fun k => rcell 1 (kf_x f) k 0) (s j)) <= Yb j) ->
   fin_matrix n m (ob_K o') -> r_sel_room prec emax n m A K X Yb s ->
   fin_vector n (kf_x f2) (r_big_sel prec emax n m A K X Yb s) /\
   forall i, (i < n)%nat -> Rabs (rcell 1 (kf_x f2) i 0 - r_turn_state n m A H K (fun k => rcell 1 (kf_x f) k 0) (fun j => rcell 1 (ob_z o) j 0) i) <= r_sel_rounding prec emax n m A H K X Yb s i).
Proof.
  intros Hn Hm Vo Vf Ff Fo IH Iz HS.
  assert (G : exists o' f2, correct c NN n m o f1 = Ok (o', f2)).
  { destruct Ff as (F0 & F1 & F2). destruct (correct_err c prec emax sz HF n m o f1 Hn Hm Vo Vf F0 F1 F2 Fo) as (o' & f2 & E & _). eauto. }
  destruct G as (o' & f2 & E). exists o', f2. split; [exact E|]. cbv zeta. intros Ix D1 HYb IK (R1 & R2 & R3).
  pose proof (uro_pos prec) as Hu. pose proof (eta_pos prec emax) as He.
  set (A := rcell n (kf_A f)) in *. set (Y := r_near prec emax n A X Yb s) in *.
  assert (YS : forall j, (j < m)%nat -> exists r, cell 1 (ob_y o') j 0 = Some r /\ sf_finite r = true /\ Rabs (val r) <= (1 + u) * Y j /\
    Rabs (val r - (rcell 1 (ob_z o) j 0 - rsum n (fun l => rcell n (ob_H o) j l * rcell 1 (kf_x f1) l 0))) <= u * Y j).
  { intros j Hj. destruct (HS j Hj) as (Sj & Hrow).
    destruct (correct_bits' spec_float c NN n m o o' f1 f2 Hn Hm Vo Vf E) as (HY & _). specialize (HY j Hj).
    pose proof Vf as (VA & (Vx & _) & _). pose proof Vo as ((VH & _) & (Vz & _) & _). pose proof Fo as (FH & Fz & _). pose proof Ff as ((FA & Fx & _) & _).
    assert (G1 : given prec emax n (fun l => cell n (ob_H o) j l)) by (apply (row_given prec emax m); auto).
    assert (G2 : given prec emax n (fun l => cell 1 (kf_x f1) l 0)) by (apply (col_given prec emax n 1); auto).
    destruct (one_given prec emax m 1 (ob_z o) j 0 Fz Vz Hj (le_n 1)) as (q & Eq & Vq). destruct (fin_in_cell m (ob_z o) j Iz Hj) as (q' & Eq' & Fq). assert (q' = q) by congruence. subst q'.
    destruct (dot1_select n (s j) (fun l => cell n (ob_H o) j l) (fun l => cell 1 (kf_x f1) l 0) Hn G1 G2) as (r & Er & Vr & Fr & Wr); [apply (row_fin m); auto|apply (col_fin n 1); [apply Ix|lia]|intros l Hl; apply (Hrow l Hl)|].
    rewrite (proj2 (Nat.ltb_lt (s j) n) Sj) in Wr. change (oval (cell 1 (kf_x f1) (s j) 0)) with (rcell 1 (kf_x f1) (s j) 0) in Wr.
    assert (Zq : rcell 1 (ob_z o) j 0 = val q) by (unfold rcell; rewrite Eq; reflexivity).
    assert (ES : rsum n (fun l => rcell n (ob_H o) j l * rcell 1 (kf_x f1) l 0) = val r).
    { rewrite (rsum_ext n _ (fun l => pick (s j) l * rcell 1 (kf_x f1) l 0)) by (intros l Hl; rewrite (Hrow l Hl); reflexivity). rewrite (pick_sum n (s j) (fun l => rcell 1 (kf_x f1) l 0)), (proj2 (Nat.ltb_lt (s j) n) Sj). symmetry. exact Wr. }
    assert (BD : Rabs (val q - val r) <= Y j).
    { rewrite Wr, <- Zq. pose proof (HYb j Hj) as B1. pose proof (D1 (s j) Sj) as B2. unfold Y, r_near. rewrite Rabs_minus_sym in B2.
      match type of B1 with Rabs (?a - ?b) <= _ => match type of B2 with Rabs (_ - ?d) <= _ => replace (a - d) with ((a - b) + (b - d)) by ring end end.
      eapply Rle_trans; [apply Rabs_triang|]. lra. }
    assert (F : sf_finite (SFsub prec emax q r) = true).
    { apply sub_fin; auto. eapply Rle_lt_trans; [|apply (R2 j Hj)]. apply Rmult_le_compat_l; [lra|exact BD]. }
    destruct (sub_err_both prec emax hprec hmax q r Vq Vr F) as (B1 & _).
    exists (SFsub prec emax q r). split; [rewrite HY, Eq; unfold b_prodv; rewrite Er; reflexivity|]. split; [exact F|].
    assert (B2 : Rabs (val (SFsub prec emax q r) - (val q - val r)) <= u * Y j) by (eapply Rle_trans; [exact B1|]; apply Rmult_le_compat_l; [lra|exact BD]).
    split.
    - replace (val (SFsub prec emax q r)) with ((val (SFsub prec emax q r) - (val q - val r)) + (val q - val r)) by ring. eapply Rle_trans; [apply Rabs_triang|]. lra.
    - rewrite Zq, ES. exact B2. }
  destruct (correct_inn c prec emax sz HF n m o o' f1 f2 (r_big_prediction prec emax n A X) (fun j => (1 + u) * Y j) (fun j => u * Y j) Hn Hm Vo Vf Ff Fo Ix E IK YS R3) as (S1 & S2).
  split; [exact S1|]. intros i Hi. specialize (S2 i Hi).
  pose proof (corrected_diff_sharp n m (rcell n (ob_H o)) (rcell m (ob_K o')) (fun k => rcell 1 (kf_x f1) k 0) (r_predicted n A (fun k => rcell 1 (kf_x f) k 0)) (fun j => rcell 1 (ob_z o) j 0) _ D1 i Hi) as S3.
  unfold r_turn_state, r_sel_rounding. fold Y. unfold inn_rounding in S2.
  match type of S2 with Rabs (?v - ?a) <= _ => match type of S3 with Rabs (_ - ?b) <= _ => replace (v - b) with ((v - a) + (a - b)) by ring end end.
  eapply Rle_trans; [apply Rabs_triang|]. apply Rplus_le_compat; [exact S2|exact S3].
Qed.
End Select.
