(** * Concrete cases for PropTurn.v, and the sharper turn for sensors that read components *)
From Coq Require Import ZArith QArith Qabs Qreals Reals Lra Psatz Lia List.
From Flocq Require Import Core BinarySingleNaN.
From Verif Require Import Prelude Spec SpecBits Matrix Filter SpecFilter Wp Kernels FilterTwo History HistGen HistTwo SpecGen FloatNum SpecFloats SpecReal SpecRange SpecStable SpecTurn FloatGen FloatFlocq FloatErr FloatPredict FloatFmt FloatUpdate FloatTurn BuildSim FloatWit RealExamples RangeExamples StableExamples TurnProof TurnRun TurnReadings SpecFixedRange SpecFixedGain FixedCert LinPath FloatQ FloatCert.
Import ListNotations SpecFloat.
Open Scope R_scope.

Lemma kf_cov_refl c n (f : kalman spec_float) : kf_valid c n f -> kf_cov c n f f.
Proof. intros V. repeat split; try apply V; intros; reflexivity. Qed.
Lemma ob_cov_refl c n m (o : observation spec_float) : ob_valid c n m o -> ob_cov c n m o o.
Proof. intros V. repeat split; try apply V; intros; reflexivity. Qed.

Theorem float_turn_sharp c prec emax sz n m s (f : kalman spec_float) (o : observation spec_float) X Yb : format_ok prec emax -> (1 <= n)%nat -> (1 <= m)%nat -> kf_valid c n f -> ob_valid c n m o ->
  kf_all_format prec emax f -> ob_format prec emax o -> fin_matrix n n (kf_A f) -> fin_matrix m n (ob_H o) -> fin_vector n (kf_x f) X -> fin_matrix m 1 (ob_z o) -> selects n m (rcell n (ob_H o)) s ->
  exists f1 o' f2, predict c (sf_num prec emax sz) n f = Ok f1 /\ correct c (sf_num prec emax sz) n m o f1 = Ok (o', f2) /\
  let A := rcell n (kf_A f) in let H := rcell n (ob_H o) in let K := rcell m (ob_K o') in
  (fin_matrix n m (ob_K o') -> (forall j, (j < m)%nat -> Rabs (rcell 1 (ob_z o) j 0 - r_predicted n A (fun k => rcell 1 (kf_x f) k 0) (s j)) <= Yb j) -> r_sel_room prec emax n m A K X Yb s ->
   fin_matrix n 1 (kf_x f2) /\
   forall i, (i < n)%nat -> Rabs (rcell 1 (kf_x f2) i 0 - r_turn_state n m A H K (fun k => rcell 1 (kf_x f) k 0) (fun j => rcell 1 (ob_z o) j 0) i) <= r_sel_rounding prec emax n m A H K X Yb s i).
Proof.
  intros HF Hn Hm Vf Vo Ff Fo IA IH Ix Iz HS. destruct (predict_ok c prec emax sz n f Hn Vf) as (f1 & E1).
  destruct (predict_step c prec emax sz HF n f f f1 Hn (kf_cov_refl c n f Vf) Ff E1) as (f1' & E1' & P). rewrite E1 in E1'. injection E1' as <-.
  assert (G : exists o' f2, correct c (sf_num prec emax sz) n m o f1 = Ok (o', f2)).
  { destruct P as ((V1 & _) & F1 & _). destruct F1 as (Q0 & Q1 & Q2). destruct (correct_err c prec emax sz HF n m o f1 Hn Hm Vo V1 Q0 Q1 Q2 Fo) as (o' & f2 & E & _). eauto. }
  destruct G as (o' & f2 & E2). exists f1, o', f2. split; [exact E1|]. split; [exact E2|]. cbv zeta. intros IK HY RM.
  destruct (correct_step c prec emax sz HF n m f f1 f1 f2 o o o' Hn Hm P (ob_cov_refl c n m o Vo) Fo E2) as (o2 & f3 & E3 & _ & _ & _ & _ & _ & _ & _ & S).
  rewrite E2 in E3. injection E3 as <- <-. cbv zeta in S. destruct (S X IA IH Ix IK) as (_ & S2). apply (S2 s Yb Iz HS HY RM).
Qed.

(** ** f32, two states, one sensor that reads the first *)
Definition ob_st : observation spec_float := mk_obs [f32 1 0; f32 0 0] [f32 3 0] [f32 1 (-1)] [f32 0 0] [f32 0 0] [f32 0 0; f32 0 0] [f32 0 0] [f32 0 0; f32 0 0] [f32 0 0; f32 0 0] (repeat (f32 0 0) 4).
Notation turn_st sz := (fref_turn 24 128 sz 2 1 (fun c => predict c (sf_num 24 128 sz) 2) ob_st).
Definition path_st0 := Eval vm_compute in match iter_path (turn_st true) 40 (with_x0 kf_st 2) with Some (l, _) => l | None => [] end.
Definition end_st0 := Eval vm_compute in match iter_path (turn_st true) 40 (with_x0 kf_st 2) with Some (_, e) => e | None => kf_st end.
Definition inf_st0 := Eval vm_compute in match turn_st true end_st0 with Some (_, K) => K | None => [] end.
Definition path_st (sz : bool) := path_st0. Definition end_st (sz : bool) := end_st0. Definition inf_st (sz : bool) := inf_st0.
Definition gain_st (sz : bool) := fgain (path_st sz) (end_st sz) (inf_st sz).
Lemma st_path sz : iter_path (turn_st sz) 40 (with_x0 kf_st 2) = Some (path_st sz, end_st sz).
Proof. destruct sz; vm_compute; reflexivity. Qed.
Lemma st_end sz : turn_st sz (end_st sz) = Some (end_st sz, inf_st sz).
Proof. destruct sz; vm_compute; reflexivity. Qed.
Lemma st_fin sz : forallb (fun K => (length K =? 2 * 1)%nat && fin_list K) (inf_st sz :: map snd (path_st sz)) = true.
Proof. vm_compute; reflexivity. Qed.
Definition Z_st : list Q := [100]%Q.
Definition X_st : list Q := [150; 60]%Q.
Lemma st_box sz : forallb (box_ok 24 128 2 1 kf_st ob_st Z_st X_st) (inf_st sz :: map snd (path_st sz)) = true.
Proof. vm_compute; reflexivity. Qed.
Lemma st_x0 : all_lt 2 (fun i => Qle_bool (Qabs (qcl 1 (kf_x kf_st) i 0)) (at_ X_st i)) = true.
Proof. vm_compute; reflexivity. Qed.
Lemma q2r_list l r : length l = length r -> (forall i, (i < length l)%nat -> Q2R (nth i l 0%Q) = nth i r 0) -> (fun i => Q2R (at_ l i)) = (fun i => nth i r 0).
Proof.
  intros L E. apply FunctionalExtensionality.functional_extensionality. intros i. unfold at_. destruct (Nat.lt_ge_cases i (length l)); [apply E; assumption|]. rewrite !nth_overflow by lia. apply Q2R_0.
Qed.
Lemma X_st_eq : (fun i => Q2R (at_ X_st i)) = (fun i => nth i [150; 60] 0).
Proof. apply q2r_list; [reflexivity|]. intros [|[|i]] Hi; cbn in *; try lia; unfold Q2R; cbn; lra. Qed.
Lemma Z_st_eq : (fun i => Q2R (at_ Z_st i)) = (fun i => nth i [100] 0).
Proof. apply q2r_list; [reflexivity|]. intros [|i] Hi; cbn in *; try lia; unfold Q2R; cbn; lra. Qed.
Lemma fl_format24 : format_ok 24 128. Proof. split; reflexivity. Qed.

Lemma st_setup c : (255 <= usize_max c)%nat -> kf_valid c 2 kf_st /\ ob_valid c 2 1 ob_st /\ kf_all_format 24 128 kf_st /\ ob_format 24 128 ob_st /\
  fin_matrix 2 2 (kf_A kf_st) /\ fin_matrix 1 2 (ob_H ob_st) /\ fin_vector 2 (kf_x kf_st) (fun i => nth i [150; 60] 0) /\ fin_vector 1 (ob_z ob_st) (fun i => nth i [100] 0).
Proof.
  intros Hc. split; [red; vt Hc|]. split; [red; vt Hc|]. split; [repeat split; af|]. split; [repeat split; af|].
  split; [apply fin_list_matrix; reflexivity|]. split; [apply fin_list_matrix; reflexivity|]. split; (split; [apply fin_list_matrix; reflexivity|]).
  - intros i Hi. pose proof (f_equal (fun g => g i) X_st_eq) as EX. cbv beta in EX. rewrite <- EX. rewrite <- Q2R_qcl, <- Q2R_abs. apply Qle_Rle, Qle_bool_iff. exact (all_lt_spec _ _ st_x0 i Hi).
  - intros i Hi. assert (i = 0%nat) as -> by lia. pose proof (f_equal (fun g => g 0%nat) Z_st_eq) as EX. cbv beta in EX. rewrite <- EX. rewrite <- Q2R_qcl, <- Q2R_abs. apply Qle_Rle, Qle_bool_iff. vm_compute. reflexivity.
Qed.
Lemma st_gains c sz : (255 <= usize_max c)%nat -> fl_gains c 24 128 sz 2 1 kf_st ob_st (gain_st sz) /\
  (forall t, r_turn_room 24 128 2 1 (rcell 2 (kf_A kf_st)) (rcell 2 (ob_H ob_st)) (rcell 1 (gain_st sz t)) (fun i => nth i [150; 60] 0) (fun i => nth i [100] 0)) /\
  r_stays 24 128 2 1 (rcell 2 (kf_A kf_st)) (rcell 2 (ob_H ob_st)) (fun t => rcell 1 (gain_st sz t)) (fun i => rcell 1 (kf_x kf_st) i 0) (fun i => nth i [100] 0) (fun i => nth i [150; 60] 0).
Proof.
  intros Hc. rewrite <- X_st_eq, <- Z_st_eq. split; [|split].
  - apply (settled_gains 24 128 sz 2 1 kf_st ob_st 40 _ _ _ (st_path sz) (st_end sz) (st_fin sz) c Hc); red; vt Hc.
  - intros t. apply (settled_room 24 128 2 1 kf_st ob_st _ _ _ Z_st X_st (st_box sz)).
  - apply (settled_stays 24 128 2 1 kf_st ob_st _ _ _ Z_st X_st (st_box sz) st_x0).
Qed.
Lemma st_reading : Forall (fl_reading_ok 24 128 1 (fun i => nth i [100] 0)) [[f32 (-100) 0]; [f32 1 (-1)]; [f32 77 0]].
Proof.
  rewrite <- Z_st_eq.
  assert (R : forall v, in_format 24 128 v -> sf_finite v = true -> Qle_bool (Qabs (fq v)) 100 = true -> fl_reading_ok 24 128 1 (fun i => Q2R (at_ Z_st i)) [v]).
  { intros v V1 V2 V3. split; [reflexivity|]. split; [constructor; [exact V1|constructor]|]. split; [apply fin_list_matrix; [reflexivity|cbn; rewrite V2; reflexivity]|].
    intros i Hi. assert (i = 0%nat) as -> by lia. rewrite <- Q2R_qcl, <- Q2R_abs. apply Qle_Rle, Qle_bool_iff, V3. }
  constructor; [apply R; vm_compute; reflexivity|]. constructor; [apply R; vm_compute; reflexivity|]. constructor; [apply R; vm_compute; reflexivity|constructor].
Qed.
(** the first turn of this filter: its gain is finite and everything fits *)
Lemma st_first_turn c sz : (255 <= usize_max c)%nat -> exists f1 o' f2, predict c (sf_num 24 128 sz) 2 kf_st = Ok f1 /\ correct c (sf_num 24 128 sz) 2 1 ob_st f1 = Ok (o', f2) /\ fin_matrix 2 1 (ob_K o') /\
  r_turn_room 24 128 2 1 (rcell 2 (kf_A kf_st)) (rcell 2 (ob_H ob_st)) (rcell 1 (ob_K o')) (fun i => nth i [150; 60] 0) (fun i => nth i [100] 0).
Proof.
  intros Hc. assert (E : exists f1 o' f2, predict tiny (sf_num 24 128 sz) 2 kf_st = Ok f1 /\ correct tiny (sf_num 24 128 sz) 2 1 ob_st f1 = Ok (o', f2) /\ ob_K o' = gain_st sz 0).
  { destruct sz; do 3 eexists; (split; [vm_compute; reflexivity|]); (split; [vm_compute; reflexivity|]); vm_compute; reflexivity. }
  destruct E as (f1 & o' & f2 & E1 & E2 & E3). exists f1, o', f2. split; [apply (predict_tiny c Hc), E1|]. split; [apply (correct_tiny c Hc), E2|]. rewrite E3.
  destruct (st_gains c sz Hc) as ((g & r & _ & G) & RM & _). split; [|apply RM]. destruct (G 0%nat) as (_ & g1 & r' & _ & _ & _ & F). exact F.
Qed.
Lemma st_tuned_turn c sz : (255 <= usize_max c)%nat -> in_format 24 128 (f32 1 (-1)) /\ exists f1 o' f2, predict_tuned c (sf_num 24 128 sz) 2 (f32 1 (-1)) kf_st = Ok f1 /\ correct c (sf_num 24 128 sz) 2 1 ob_st f1 = Ok (o', f2) /\ fin_matrix 2 1 (ob_K o') /\
  r_turn_room 24 128 2 1 (rcell 2 (kf_A kf_st)) (rcell 2 (ob_H ob_st)) (rcell 1 (ob_K o')) (fun i => nth i [150; 60] 0) (fun i => nth i [100] 0).
Proof.
  intros Hc. split; [reflexivity|].
  assert (E : exists f1 o' f2, predict_tuned tiny (sf_num 24 128 sz) 2 (f32 1 (-1)) kf_st = Ok f1 /\ correct tiny (sf_num 24 128 sz) 2 1 ob_st f1 = Ok (o', f2) /\ (length (ob_K o') =? 2)%nat && fin_list (ob_K o') = true /\
    fq_room 24 128 2 1 (qcl 2 (kf_A kf_st)) (qcl 2 (ob_H ob_st)) (qcl 1 (ob_K o')) (at_ X_st) (at_ Z_st) = true).
  { destruct sz; do 3 eexists; (split; [vm_compute; reflexivity|]); (split; [vm_compute; reflexivity|]); split; vm_compute; reflexivity. }
  destruct E as (f1 & o' & f2 & E1 & E2 & E3 & E4). exists f1, o', f2. apply andb_prop in E3. destruct E3 as (E3 & E5). apply Nat.eqb_eq in E3.
  split; [revert E1; apply sim_ok, sim_predict_tuned, tiny_stricter, Hc|]. split; [apply (correct_tiny c Hc), E2|]. split; [apply fin_list_matrix; assumption|].
  apply fq_room_ok in E4. rewrite !rcell_f, X_st_eq, Z_st_eq in E4. exact E4.
Qed.
Lemma st_selects : selects 2 1 (rcell 2 (ob_H ob_st)) (fun _ => 0%nat).
Proof.
  intros j Hj. assert (j = 0%nat) as -> by lia. split; [lia|]. intros l Hl. rewrite <- Q2R_qcl. destruct l as [|[|l]]; [| |lia].
  - transitivity (Q2R 1); [apply Qeq_eqR, Qeq_bool_iff; vm_compute; reflexivity|apply Q2R_1].
  - transitivity (Q2R 0); [apply Qeq_eqR, Qeq_bool_iff; vm_compute; reflexivity|apply Q2R_0].
Qed.
Lemma st_near : forall j, (j < 1)%nat -> Rabs (rcell 1 (ob_z ob_st) j 0 - r_predicted 2 (rcell 2 (kf_A kf_st)) (fun k => rcell 1 (kf_x kf_st) k 0) 0) <= 3.
Proof.
  intros j Hj. assert (j = 0%nat) as -> by lia. unfold r_predicted. cbn [rsum]. rewrite <- !Q2R_qcl. rewrite <- !Q2R_mult, <- Q2R_0, <- !Q2R_plus, <- Q2R_minus, <- Q2R_abs.
  replace 3 with (Q2R 3) by (unfold Q2R; cbn; lra). apply Qle_Rle, Qle_bool_iff. vm_compute. reflexivity.
Qed.
Lemma st_sharp_turn c sz : (255 <= usize_max c)%nat -> exists f1 o' f2, predict c (sf_num 24 128 sz) 2 kf_st = Ok f1 /\ correct c (sf_num 24 128 sz) 2 1 ob_st f1 = Ok (o', f2) /\ fin_matrix 2 1 (ob_K o') /\
  r_sel_room 24 128 2 1 (rcell 2 (kf_A kf_st)) (rcell 1 (ob_K o')) (fun i => nth i [150; 60] 0) (fun _ => 3) (fun _ => 0%nat).
Proof.
  intros Hc. assert (E : exists f1 o' f2, predict tiny (sf_num 24 128 sz) 2 kf_st = Ok f1 /\ correct tiny (sf_num 24 128 sz) 2 1 ob_st f1 = Ok (o', f2) /\ (length (ob_K o') =? 2)%nat && fin_list (ob_K o') = true /\
    fq_sel_room 24 128 2 1 (fun _ => 0%nat) (qcl 2 (kf_A kf_st)) (qcl 1 (ob_K o')) (at_ X_st) (fun _ => 3%Q) = true).
  { destruct sz; do 3 eexists; (split; [vm_compute; reflexivity|]); (split; [vm_compute; reflexivity|]); split; vm_compute; reflexivity. }
  destruct E as (f1 & o' & f2 & E1 & E2 & E3 & E4). exists f1, o', f2. apply andb_prop in E3. destruct E3 as (E3 & E5). apply Nat.eqb_eq in E3.
  split; [apply (predict_tiny c Hc), E1|]. split; [apply (correct_tiny c Hc), E2|]. split; [apply fin_list_matrix; assumption|].
  apply fq_sel_room_ok in E4. rewrite !rcell_f, X_st_eq in E4. replace (Q2R 3) with 3 in E4 by (unfold Q2R; cbn; lra). exact E4.
Qed.
