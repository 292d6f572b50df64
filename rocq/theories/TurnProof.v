(** * One turn of a floating-point filter: its state *)
From Coq Require Import ZArith Reals Lra Psatz Lia.
From Flocq Require Import Core BinarySingleNaN.
From Verif Require Import Prelude Spec SpecBits Matrix Filter SpecFilter SpecParam Param Wp Kernels FilterGen FilterTwo HistGen HistTwo SpecGen FloatNum SpecFloats SpecReal SpecRange SpecStable SpecTurn FloatGen FloatFlocq FloatOps FloatErr FloatInt FloatPredict FloatFmt FloatUpdate FloatRange FloatStable FloatTurn BitsProof.
Import SpecFloat.
Open Scope R_scope.

Section Turn.
Variables (c : cfg) (prec emax : Z) (sz : bool).
Hypothesis HF : format_ok prec emax.
Notation NN := (sf_num prec emax sz).

Lemma kf_fmt_of f : kf_all_format prec emax f -> SpecParam.kf_rel (same_fmt prec emax) f f.
Proof. intros ((FA & Fx & FP & FQ) & F1 & F2). repeat split; apply fmt_list; assumption. Qed.
Lemma kf_of_fmt f g : SpecParam.kf_rel (same_fmt prec emax) f g -> kf_all_format prec emax g.
Proof. intros (K1 & K2 & K3 & K4 & K5 & K6). unfold kf_all_format, kf_format; repeat apply conj; eapply fmt_list2; eassumption. Qed.
Lemma predict_fmt n f f' : kf_all_format prec emax f -> predict c NN n f = Ok f' -> kf_all_format prec emax f'.
Proof.
  intros H E. pose proof (p_predict False (same_fmt prec emax) c NN NN (same_fmt_num prec emax sz HF) n f f (kf_fmt_of f H)) as HR. rewrite E in HR.
  destruct HR as [HR|HR]; [destruct HR as ([] & _)|]. exact (kf_of_fmt _ _ HR).
Qed.
Lemma predict_tuned_fmt n lam f f' : in_format prec emax lam -> kf_all_format prec emax f -> predict_tuned c NN n lam f = Ok f' -> kf_all_format prec emax f'.
Proof.
  intros HL H E. pose proof (p_predict_tuned False (same_fmt prec emax) c NN NN (same_fmt_num prec emax sz HF) n lam lam f f (conj eq_refl HL) (kf_fmt_of f H)) as HR. rewrite E in HR.
  destruct HR as [HR|HR]; [destruct HR as ([] & _)|]. exact (kf_of_fmt _ _ HR).
Qed.
Lemma correct_fmt_all n m o o' f f' : kf_all_format prec emax f -> ob_format prec emax o -> correct c NN n m o f = Ok (o', f') -> ob_format prec emax o' /\ kf_all_format prec emax f'.
Proof.
  intros H Ho E. split.
  - destruct H as (Ff & F1 & F2). apply (correct_fmt c prec emax sz HF n m o o' f f' F1 F2 Ff Ho E).
  - pose proof (p_correct False (same_fmt prec emax) c NN NN (same_fmt_num prec emax sz HF) n m o o f f (ob_fmt prec emax o Ho) (kf_fmt_of f H)) as HR. rewrite E in HR.
    destruct HR as [HR|HR]; [destruct HR as ([] & _)|]. exact (kf_of_fmt _ _ (proj2 HR)).
Qed.
Lemma predict_tuned_ok n lam (f : kalman spec_float) : (1 <= n)%nat -> kf_valid c n f -> exists f', predict_tuned c NN n lam f = Ok f'.
Proof.
  intros Hn Hf. pose proof (predict_tuned_wp c NN n lam f Hn Hf) as H. destruct (predict_tuned c NN n lam f) as [f'|e]; [eauto|]. cbn in H. destruct H as (_ & H).
  destruct (H (sf_never_panics prec emax sz)).
Qed.

(** from a predicted state to the corrected one *)
Lemma turn_from n m (f f1 : kalman spec_float) (o : observation spec_float) X Zb : (1 <= n)%nat -> (1 <= m)%nat -> ob_valid c n m o -> kf_valid c n f1 -> kf_all_format prec emax f1 -> ob_format prec emax o ->
  fin_matrix m n (ob_H o) -> fin_vector m (ob_z o) Zb ->
  exists o' f2, correct c NN n m o f1 = Ok (o', f2) /\
  let A := rcell n (kf_A f) in let H := rcell n (ob_H o) in let K := rcell m (ob_K o') in
  (fin_vector n (kf_x f1) (r_big_prediction prec emax n A X) -> (forall i, (i < n)%nat -> Rabs (rcell 1 (kf_x f1) i 0 - r_predicted n A (fun k => rcell 1 (kf_x f) k 0) i) <= r_pred_rounding prec emax n A X i) ->
   fin_matrix n m (ob_K o') -> r_turn_room prec emax n m A H K X Zb ->
   fin_vector n (kf_x f2) (r_big_correction prec emax n m H K (r_big_prediction prec emax n A X) Zb) /\
   forall i, (i < n)%nat -> Rabs (rcell 1 (kf_x f2) i 0 - r_turn_state n m A H K (fun k => rcell 1 (kf_x f) k 0) (fun j => rcell 1 (ob_z o) j 0) i) <= r_turn_rounding prec emax n m A H K X Zb i).
Proof.
  intros Hn Hm Vo Vf Ff Fo IH Iz.
  assert (G : exists o' f2, correct c NN n m o f1 = Ok (o', f2)).
  { destruct Ff as (F0 & F1 & F2). destruct (correct_err c prec emax sz HF n m o f1 Hn Hm Vo Vf F0 F1 F2 Fo) as (o' & f2 & E & _). eauto. }
  destruct G as (o' & f2 & E). exists o', f2. split; [exact E|]. cbv zeta. intros Ix D1 IK (R1 & R2 & R3).
  destruct (correct_state c prec emax sz HF n m o f1 (r_big_prediction prec emax n (rcell n (kf_A f)) X) Zb Hn Hm Vo Vf Ff Fo IH Ix Iz) as (o'' & f2' & E' & S).
  rewrite E in E'. injection E' as <- <-. destruct (S IK R2 R3) as (S1 & S2). split; [exact S1|]. intros i Hi. specialize (S2 i Hi).
  pose proof (corrected_diff n m (rcell n (ob_H o)) (rcell m (ob_K o')) (fun k => rcell 1 (kf_x f1) k 0) (r_predicted n (rcell n (kf_A f)) (fun k => rcell 1 (kf_x f) k 0)) (fun j => rcell 1 (ob_z o) j 0) _ D1 i Hi) as S3.
  unfold r_turn_rounding, r_turn_state.
  match type of S2 with Rabs (?v - ?a) <= _ => match type of S3 with Rabs (_ - ?b) <= _ => replace (v - b) with ((v - a) + (a - b)) by ring end end.
  eapply Rle_trans; [apply Rabs_triang|]. lra.
Qed.

Definition turn_claim n m (pred : kalman spec_float -> res (kalman spec_float)) (f : kalman spec_float) (o : observation spec_float) X Zb : Prop :=
  exists f1 o' f2, pred f = Ok f1 /\ correct c NN n m o f1 = Ok (o', f2) /\
  let A := rcell n (kf_A f) in let H := rcell n (ob_H o) in let K := rcell m (ob_K o') in
  (fin_matrix n m (ob_K o') -> r_turn_room prec emax n m A H K X Zb ->
   fin_vector n (kf_x f2) (r_big_correction prec emax n m H K (r_big_prediction prec emax n A X) Zb) /\
   forall i, (i < n)%nat -> Rabs (rcell 1 (kf_x f2) i 0 - r_turn_state n m A H K (fun k => rcell 1 (kf_x f) k 0) (fun j => rcell 1 (ob_z o) j 0) i) <= r_turn_rounding prec emax n m A H K X Zb i).

Theorem float_turn n m (f : kalman spec_float) (o : observation spec_float) X Zb : (1 <= n)%nat -> (1 <= m)%nat -> kf_valid c n f -> ob_valid c n m o -> kf_all_format prec emax f -> ob_format prec emax o ->
  fin_matrix n n (kf_A f) -> fin_matrix m n (ob_H o) -> fin_vector n (kf_x f) X -> fin_vector m (ob_z o) Zb -> turn_claim n m (predict c NN n) f o X Zb.
Proof.
  intros Hn Hm Vf Vo Ff Fo IA IH Ix Iz. destruct (predict_ok c prec emax sz n f Hn Vf) as (f1 & E1).
  pose proof (predict_wp c NN n f Hn Vf) as W. rewrite E1 in W. destruct W as (V1 & _).
  destruct (turn_from n m f f1 o X Zb Hn Hm Vo V1 (predict_fmt n f f1 Ff E1) Fo IH Iz) as (o' & f2 & E2 & S). exists f1, o', f2. split; [exact E1|]. split; [exact E2|]. cbv zeta in *. intros IK R.
  destruct (state_predicted c prec emax sz HF n f (kf_x f1) X Hn Vf (proj1 Ff) (proj1 (predict_bits c NN n f f1 Hn Vf E1)) IA Ix (proj1 R)) as (S1 & S2).
  apply S; assumption.
Qed.
Theorem float_turn_tuned n m lam (f : kalman spec_float) (o : observation spec_float) X Zb : in_format prec emax lam -> (1 <= n)%nat -> (1 <= m)%nat -> kf_valid c n f -> ob_valid c n m o -> kf_all_format prec emax f -> ob_format prec emax o ->
  fin_matrix n n (kf_A f) -> fin_matrix m n (ob_H o) -> fin_vector n (kf_x f) X -> fin_vector m (ob_z o) Zb -> turn_claim n m (predict_tuned c NN n lam) f o X Zb.
Proof.
  intros HL Hn Hm Vf Vo Ff Fo IA IH Ix Iz. destruct (predict_tuned_ok n lam f Hn Vf) as (f1 & E1).
  pose proof (predict_tuned_wp c NN n lam f Hn Vf) as W. rewrite E1 in W. destruct W as (V1 & _).
  destruct (turn_from n m f f1 o X Zb Hn Hm Vo V1 (predict_tuned_fmt n lam f f1 HL Ff E1) Fo IH Iz) as (o' & f2 & E2 & S). exists f1, o', f2. split; [exact E1|]. split; [exact E2|]. cbv zeta in *. intros IK R.
  destruct (state_predicted c prec emax sz HF n f (kf_x f1) X Hn Vf (proj1 Ff) (proj1 (predict_tuned_bits c NN n lam f f1 Hn Vf E1)) IA Ix (proj1 R)) as (S1 & S2).
  apply S; assumption.
Qed.
End Turn.
