(** * Turns of a floating-point filter beside a reference run that fixes the gains *)
From Coq Require Import ZArith Reals Lra Psatz Lia.
From Flocq Require Import Core BinarySingleNaN.
From Verif Require Import Prelude Spec SpecBits Matrix Filter SpecFilter SpecParam Param Wp Kernels FilterGen FilterTwo History HistGen HistTwo SpecGen FloatNum SpecFloats SpecReal SpecRange SpecStable SpecTurn FloatGen FloatFlocq FloatOps FloatErr FloatInt FloatPredict FloatFmt FloatUpdate FloatRange FloatStable FloatTurn BitsProof TurnProof FloatSelect.
Import SpecFloat.
Open Scope R_scope.

Section Ext.
Variables (prec emax : Z) (n m : nat) (A H K K' : nat -> nat -> R).
Hypothesis EK : forall i j, (i < n)%nat -> (j < m)%nat -> K i j = K' i j.
Lemma ksum_ext i g : (i < n)%nat -> rsum m (fun j => Rabs (K i j) * g j) = rsum m (fun j => Rabs (K' i j) * g j).
Proof. intros Hi. apply rsum_ext. intros j Hj. rewrite (EK i j Hi Hj). reflexivity. Qed.
Lemma room_ext X Zb : r_turn_room prec emax n m A H K' X Zb -> r_turn_room prec emax n m A H K X Zb.
Proof. intros (R1 & R2 & R3). split; [exact R1|]. split; [exact R2|]. intros i Hi. specialize (R3 i Hi). unfold r_big_correction in *. rewrite ksum_ext by exact Hi. exact R3. Qed.
Lemma sel_room_ext X Yb s : r_sel_room prec emax n m A K' X Yb s -> r_sel_room prec emax n m A K X Yb s.
Proof. intros (R1 & R2 & R3). split; [exact R1|]. split; [exact R2|]. intros i Hi. specialize (R3 i Hi). unfold r_big_sel in *. rewrite ksum_ext by exact Hi. exact R3. Qed.
Lemma rounding_ext X Zb i : (i < n)%nat -> r_turn_rounding prec emax n m A H K X Zb i = r_turn_rounding prec emax n m A H K' X Zb i.
Proof. intros Hi. unfold r_turn_rounding, r_corr_rounding. rewrite !ksum_ext by exact Hi. reflexivity. Qed.
Lemma sel_rounding_ext X Yb s i : (i < n)%nat -> r_sel_rounding prec emax n m A H K X Yb s i = r_sel_rounding prec emax n m A H K' X Yb s i.
Proof.
  intros Hi. unfold r_sel_rounding. rewrite !ksum_ext by exact Hi. f_equal. apply rsum_ext. intros l Hl. do 3 f_equal. apply rsum_ext. intros j Hj. rewrite (EK i j Hi Hj). reflexivity.
Qed.
Lemma turn_state_ext x x' z z' i : (i < n)%nat -> (forall k, (k < n)%nat -> x k = x' k) -> (forall j, (j < m)%nat -> z j = z' j) -> r_turn_state n m A H K x z i = r_turn_state n m A H K' x' z' i.
Proof.
  intros Hi Ex Ez. unfold r_turn_state, r_corrected.
  assert (P : forall l, r_predicted n A x l = r_predicted n A x' l) by (intros l; apply rsum_ext; intros k Hk; rewrite (Ex k Hk); reflexivity).
  rewrite P. f_equal. apply rsum_ext. intros j Hj. rewrite (EK i j Hi Hj), (Ez j Hj). do 2 f_equal. apply rsum_ext. intros l Hl. rewrite P. reflexivity.
Qed.
End Ext.

Section Step.
Variables (c : cfg) (prec emax : Z) (sz : bool).
Hypothesis HF : format_ok prec emax.
Notation NN := (sf_num prec emax sz).

(** what a prediction does to the state *)
Definition state_pred n (f f1 : kalman spec_float) : Prop := forall X, fin_matrix n n (kf_A f) -> fin_vector n (kf_x f) X ->
  (forall i, (i < n)%nat -> r_big_prediction prec emax n (rcell n (kf_A f)) X i < too_big emax) ->
  fin_vector n (kf_x f1) (r_big_prediction prec emax n (rcell n (kf_A f)) X) /\
  forall i, (i < n)%nat -> Rabs (rcell 1 (kf_x f1) i 0 - r_predicted n (rcell n (kf_A f)) (fun k => rcell 1 (kf_x f) k 0) i) <= r_pred_rounding prec emax n (rcell n (kf_A f)) X i.
(** beside the reference: f becomes f1 while g becomes g1 *)
Definition pred_step n (f f1 g1 : kalman spec_float) : Prop := kf_cov c n f1 g1 /\ kf_all_format prec emax f1 /\ kf_A f1 = kf_A f /\ length (kf_x f1) = length (kf_x f) /\ state_pred n f f1.

Lemma same_K n m (a b : list spec_float) : same_matrix n m a b -> forall i j, (i < n)%nat -> (j < m)%nat -> rcell m a i j = rcell m b i j.
Proof. intros S i j Hi Hj. unfold rcell, cell. rewrite S by nia. reflexivity. Qed.
Lemma fin_K n m (a b : list spec_float) : same_matrix n m a b -> fin_matrix n m b -> fin_matrix n m a.
Proof. intros S Fb i j Hi Hj. destruct (Fb i j Hi Hj) as (v & E & Fv). exists v. split; [|exact Fv]. unfold cell in *. rewrite S by nia. exact E. Qed.

Lemma predict_step n f g g1 : (1 <= n)%nat -> kf_cov c n f g -> kf_all_format prec emax f -> predict c NN n g = Ok g1 -> exists f1, predict c NN n f = Ok f1 /\ pred_step n f f1 g1.
Proof.
  intros Hn Hc Ff Eg. pose proof Hc as (Vf & Vg & _). destruct (predict_ok c prec emax sz n f Hn Vf) as (f1 & E1). exists f1. split; [exact E1|].
  pose proof (predict_cov c NN n f g Hn Hc) as R. rewrite E1, Eg in R. cbn [rok] in R.
  pose proof (predict_wp c NN n f Hn Vf) as W. rewrite E1 in W. cbn [wp] in W. destruct W as (_ & (SA & _) & ((T1 & _) & _)).
  split; [exact R|]. split; [apply (predict_fmt c prec emax sz HF n f f1 Ff E1)|]. split; [exact SA|]. split; [exact T1|].
  intros X IA Ix HR. apply (state_predicted c prec emax sz HF n f (kf_x f1) X Hn Vf (proj1 Ff) (proj1 (predict_bits c NN n f f1 Hn Vf E1)) IA Ix HR).
Qed.
Lemma predict_tuned_step n lam f g g1 : (1 <= n)%nat -> in_format prec emax lam -> kf_cov c n f g -> kf_all_format prec emax f -> predict_tuned c NN n lam g = Ok g1 -> exists f1, predict_tuned c NN n lam f = Ok f1 /\ pred_step n f f1 g1.
Proof.
  intros Hn HL Hc Ff Eg. pose proof Hc as (Vf & Vg & _). destruct (predict_tuned_ok c prec emax sz n lam f Hn Vf) as (f1 & E1). exists f1. split; [exact E1|].
  pose proof (predict_tuned_cov c NN n lam f g Hn Hc) as R. rewrite E1, Eg in R. cbn [rok] in R.
  pose proof (predict_tuned_wp c NN n lam f Hn Vf) as W. rewrite E1 in W. cbn [wp] in W. destruct W as (_ & (SA & _) & ((T1 & _) & _)).
  split; [exact R|]. split; [apply (predict_tuned_fmt c prec emax sz HF n lam f f1 HL Ff E1)|]. split; [exact SA|]. split; [exact T1|].
  intros X IA Ix HR. apply (state_predicted c prec emax sz HF n f (kf_x f1) X Hn Vf (proj1 Ff) (proj1 (predict_tuned_bits c NN n lam f f1 Hn Vf E1)) IA Ix HR).
Qed.

(** a correction after such a prediction *)
Definition corr_step n m (f f1 f2 g2 : kalman spec_float) (o o' oref oref' : observation spec_float) : Prop :=
  kf_cov c n f2 g2 /\ ob_cov c n m o' oref' /\ kf_all_format prec emax f2 /\ ob_format prec emax o' /\ kf_A f2 = kf_A f /\ length (kf_x f2) = length (kf_x f) /\ ob_same_model o o' /\
  let A := rcell n (kf_A f) in let H := rcell n (ob_H o) in let K := rcell m (ob_K oref') in
  forall X, fin_matrix n n (kf_A f) -> fin_matrix m n (ob_H o) -> fin_vector n (kf_x f) X -> fin_matrix n m (ob_K oref') ->
  (forall Zb, fin_vector m (ob_z o) Zb -> r_turn_room prec emax n m A H K X Zb -> fin_matrix n 1 (kf_x f2) /\
    forall i, (i < n)%nat -> Rabs (rcell 1 (kf_x f2) i 0 - r_turn_state n m A H K (fun k => rcell 1 (kf_x f) k 0) (fun j => rcell 1 (ob_z o) j 0) i) <= r_turn_rounding prec emax n m A H K X Zb i) /\
  (forall s Yb, fin_matrix m 1 (ob_z o) -> selects n m H s -> (forall j, (j < m)%nat -> Rabs (rcell 1 (ob_z o) j 0 - r_predicted n A (fun k => rcell 1 (kf_x f) k 0) (s j)) <= Yb j) ->
    r_sel_room prec emax n m A K X Yb s -> fin_matrix n 1 (kf_x f2) /\
    forall i, (i < n)%nat -> Rabs (rcell 1 (kf_x f2) i 0 - r_turn_state n m A H K (fun k => rcell 1 (kf_x f) k 0) (fun j => rcell 1 (ob_z o) j 0) i) <= r_sel_rounding prec emax n m A H K X Yb s i).

Lemma correct_step n m f f1 g1 g2 o oref oref' : (1 <= n)%nat -> (1 <= m)%nat -> pred_step n f f1 g1 -> ob_cov c n m o oref -> ob_format prec emax o -> correct c NN n m oref g1 = Ok (oref', g2) ->
  exists o' f2, correct c NN n m o f1 = Ok (o', f2) /\ corr_step n m f f1 f2 g2 o o' oref oref'.
Proof.
  intros Hn Hm (C1 & F1 & EA & EL & SP) Co Fo Eg. pose proof C1 as (V1 & _). pose proof Co as (Vo & _).
  assert (G : exists o' f2, correct c NN n m o f1 = Ok (o', f2)).
  { destruct F1 as (Q0 & Q1 & Q2). destruct (correct_err c prec emax sz HF n m o f1 Hn Hm Vo V1 Q0 Q1 Q2 Fo) as (o' & f2 & E & _). eauto. }
  destruct G as (o' & f2 & E). exists o', f2. split; [exact E|].
  pose proof (correct_cov c NN n m o oref f1 g1 Hn Hm Co C1) as R. rewrite E, Eg in R. cbn [rok] in R. destruct R as (R1 & R2 & R3). cbn [fst snd] in *.
  pose proof (correct_wp c NN n m o f1 Hn Hm Vo V1) as W. rewrite E in W. cbn [wp fst snd] in W. destruct W as (_ & SM & _ & (SA & _) & ((T1 & _) & _)).
  destruct (correct_fmt_all c prec emax sz HF n m o o' f1 f2 F1 Fo E) as (Fo' & F2).
  split; [exact R2|]. split; [exact R1|]. split; [exact F2|]. split; [exact Fo'|]. split; [congruence|]. split; [congruence|]. split; [exact SM|]. cbv zeta.
  intros X IA IH Ix IK. pose proof (same_K n m _ _ R3) as EK. pose proof (fin_K n m _ _ R3 IK) as IK'. split.
  - intros Zb Iz RM. destruct (SP X IA Ix (proj1 RM)) as (S1 & S2).
    destruct (turn_from c prec emax sz HF n m f f1 o X Zb Hn Hm Vo V1 F1 Fo IH Iz) as (o2 & f3 & E' & S). rewrite E in E'. injection E' as <- <-. cbv zeta in S.
    destruct (S S1 S2 IK' (room_ext prec emax n m _ _ _ _ EK X Zb RM)) as (Q1 & Q2). split; [exact (proj1 Q1)|]. intros i Hi. specialize (Q2 i Hi).
    rewrite (rounding_ext prec emax n m _ _ _ _ EK X Zb i Hi) in Q2. rewrite (turn_state_ext n m _ _ _ _ EK _ _ _ _ i Hi (fun _ _ => eq_refl) (fun _ _ => eq_refl)) in Q2. exact Q2.
  - intros s Yb Iz HS HY RM. destruct (SP X IA Ix (proj1 RM)) as (S1 & S2).
    destruct (sel_from c prec emax sz HF n m s f f1 o X Yb Hn Hm Vo V1 F1 Fo IH Iz HS) as (o2 & f3 & E' & S). rewrite E in E'. injection E' as <- <-. cbv zeta in S.
    destruct (S S1 S2 HY IK' (sel_room_ext prec emax n m _ _ _ EK X Yb s RM)) as (Q1 & Q2). split; [exact (proj1 Q1)|]. intros i Hi. specialize (Q2 i Hi).
    rewrite (sel_rounding_ext prec emax n m _ _ _ _ EK X Yb s i Hi) in Q2. rewrite (turn_state_ext n m _ _ _ _ EK _ _ _ _ i Hi (fun _ _ => eq_refl) (fun _ _ => eq_refl)) in Q2. exact Q2.
Qed.
End Step.
