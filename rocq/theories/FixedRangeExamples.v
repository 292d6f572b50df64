(** * Concrete fixed-point filters for PropFixedRange.v *)
From Coq Require Import ZArith QArith Qabs Lia Lqa.
From Verif Require Import Prelude Spec SpecBits SpecDefined Matrix Filter SpecFilter History BuildSim FloatWit FixedNum SpecFixed SpecFixedRange FixedProof Defined FixedRange FixedSteps FixedStable FixedScalar FixedWit.
Open Scope Z_scope.


Section Ex.
Variables (c : cfg).
Hypothesis Hc : (255 <= usize_max c)%nat.

(** ** the panic for a product that is not used: I16F16, S = diag(2^-14, 1000) *)
Notation one := 65536.
Definition kf_id : kalman Z := mk_kalman [one; 0; 0; one] [0; 0] [2; 0; 0; 500 * one] [0; 0; 0; 0] [0; 0] [0; 0; 0; 0].
Definition ob_id : observation Z := mk_obs [one; 0; 0; one] [one; one] [2; 0; 0; 500 * one] [0; 0] [0; 0; 0; 0] [0; 0; 0; 0] [0; 0; 0; 0] [0; 0; 0; 0] [0; 0; 0; 0] [0; 0; 0; 0].
Lemma idle_product : kf_valid c 2 kf_id /\ ob_valid c 2 2 ob_id /\
  correct c (i16f16_num true true) 2 2 ob_id kf_id = Panic NumPanic /\
  exists o' f', correct c (i16f16_num false false) 2 2 ob_id kf_id = Ok (o', f') /\ correct c (unlimited 16) 2 2 ob_id kf_id = Ok (o', f') /\ kf_x f' = [32768; 32500] /\
    cholesky_decompose_lower c (i16f16_num true true) 2 2 [4; 0; 0; 1000 * one] = Panic NumPanic /\
    cholesky_decompose_lower c (unlimited 16) 2 2 [4; 0; 0; 1000 * one] = Ok (true, [512; 0; 0; 2072430]).
Proof.
  split; [red; vt Hc|]. split; [red; vt Hc|]. split; [apply (correct_tiny_panic c Hc); vm_compute; reflexivity|].
  assert (E : exists o' f', correct tiny (i16f16_num false false) 2 2 ob_id kf_id = Ok (o', f') /\ correct tiny (unlimited 16) 2 2 ob_id kf_id = Ok (o', f') /\ kf_x f' = [32768; 32500]).
  { do 2 eexists. split; [vm_compute; reflexivity|]. split; [vm_compute; reflexivity|]. vm_compute. reflexivity. }
  destruct E as (o' & f' & E1 & E2 & E3). exists o', f'. split; [apply (correct_tinyZ c Hc), E1|]. split; [apply (correct_tinyZ c Hc), E2|]. split; [exact E3|].
  split; [eapply sim_eq; [apply sim_cholesky, tiny_stricter, Hc|vm_compute; reflexivity|discriminate..]|].
  eapply sim_ok; [apply sim_cholesky, tiny_stricter, Hc|]. vm_compute. reflexivity.
Qed.

(** ** ordinary filters *)
(** I16F16: a control with one input *)
Definition ct_fx : control Z := mk_ctl [32768; one] [2 * one] [one] [0; 0].
Lemma q_list frac C l B R : (0 <= frac) -> (0 <= B) -> forallb (fun z => Z.abs z <=? B * 2 ^ frac) l = true -> q_at_most frac R C l (inject_Z B).
Proof.
  intros Hf HB H i j Hi Hj. unfold qcell. destruct (cell C l i j) as [z|] eqn:E.
  - unfold cell in E. apply nth_error_In in E. apply (proj1 (forallb_forall _ _) H) in E. apply Z.leb_le in E. apply Z.abs_le in E.
    assert (EB : (fval frac (B * 2 ^ frac) == inject_Z B)%Q) by (unfold fval; rewrite inject_Z_mult; field; apply QB0, Hf).
    apply Qabs_le_iff. rewrite <- EB. rewrite <- (v_opp frac Hf). split; apply (proj2 (fval_le frac Hf _ _)); lia.
  - cbn. unfold Qle; cbn. lia.
Qed.
Lemma range_example : kf_valid c 2 kf_fx /\ ct_valid c 2 1 ct_fx /\
  (q_at_most 16 2 2 (kf_A kf_fx) 3 /\ q_at_most 16 2 1 (kf_x kf_fx) 3 /\ q_at_most 16 2 2 (kf_P kf_fx) 3 /\ q_at_most 16 2 2 (kf_Q kf_fx) 3) /\
  (q_at_most 16 2 1 (ct_B ct_fx) 3 /\ q_at_most 16 1 1 (ct_u ct_fx) 3 /\ q_at_most 16 1 1 (ct_Q ct_fx) 3) /\
  (4 * (qn 2 * qn 2) * (3 * 3 * 3) <= fx_top 32 16)%Q.
Proof.
  split; [red; vt Hc|]. split; [red; vt Hc|]. split; [|split].
  - repeat split; (apply (q_list 16 _ _ 3); [lia|lia|vm_compute; reflexivity]).
  - repeat split; (apply (q_list 16 _ _ 3); [lia|lia|vm_compute; reflexivity]).
  - vm_compute. discriminate.
Qed.
(** I16F16: the system of C96, C97 *)
Definition kf_stz : kalman Z := mk_kalman [32768; 8192; 0; 32768] [one; 2 * one] [one; 0; 0; one] [8192; 0; 0; 8192] [0; 0] [0; 0; 0; 0].
Definition ct_stz : control Z := mk_ctl [one; 32768] [0] [8192] [0; 0].
Lemma forever_example : fx_setup c 16 2 1 kf_stz ct_stz (5#8) 1 4 (1#8) (1#8) 16 2 /\ fx_keeps 32 16 2 1 (5#8) 1 4 (1#8) (1#8) 16 2 /\
  fx_turn_ok 16 1 4 (Some [- 3 * one]) /\ fx_turn_ok 16 1 4 None /\
  (fx_turn_err 16 2 1 / (1 - (5#8)) <= 1 # 8192)%Q /\ (fx_turn_cov_err 16 2 1 (5#8) 1 / (1 - (5#8) * (5#8)) <= 1 # 7000)%Q.
Proof.
  repeat match goal with |- _ /\ _ => split end.
  - red. split; [red; vt Hc|]. split; [red; vt Hc|]. split; [vm_compute; discriminate|].
    split; [|split; [|split; [|split; [|split]]]].
    + intros [|[|i]] Hi; [..|lia]; vm_compute; discriminate.
    + intros [|[|i]] [|[|j]] Hi Hj; try lia; vm_compute; discriminate.
    + intros [|[|i]] Hi; [..|lia]; vm_compute; discriminate.
    + intros [|i] [|j] Hi Hj; try lia; vm_compute; discriminate.
    + intros [|[|i]] [|j] Hi Hj; try lia; vm_compute; discriminate.
    + intros [|[|i]] [|[|j]] Hi Hj; try lia; vm_compute; discriminate.
  - red. cbv zeta. repeat match goal with |- _ /\ _ => split end; vm_compute; discriminate.
  - split; [reflexivity|]. intros [|i] [|j] Hi Hj; try lia; vm_compute; discriminate.
  - exact I.
  - vm_compute. discriminate.
  - vm_compute. discriminate.
Qed.
(** I32F32: position and velocity, the position measured *)
Notation two32 := 4294967296.
Definition kf_fx2 : kalman Z := mk_kalman [two32; two32; 0; two32] [3 * two32; 2147483648] [2 * two32; two32; two32; two32] [429496729; 0; 0; 429496729] [0; 0] [0; 0; 0; 0].
Definition ob_fx2 : observation Z := mk_obs [two32; 0] [4 * two32] [2147483648] [0] [0] [0; 0] [0] [0; 0] [0; 0] [0; 0; 0; 0].
Lemma scalar_example : fx_scalar_setup c 32 2 ob_fx2 kf_fx2 4 /\ (32 * 1 * (qn 2 * qn 2) * (4 * 4 * 4 * 4) <= fx_top 64 32)%Q /\
  (1 / 1 + qn 2 * (1 + qn 2 * 4) * ulp 32 <= q_innovation_variance 2 (fun l => qcell 32 2 (ob_H ob_fx2) 0 l) (qcell 32 2 (kf_P kf_fx2)) (qcell 32 1 (ob_R ob_fx2) 0 0))%Q /\
  (41 * (1 * 1) * (qn 2 * qn 2 * qn 2 * qn 2) * (4 * 4 * 4 * 4 * 4) * ulp 32 <= 1 # 6000)%Q.
Proof.
  split; [|split; [|split]].
  - red. split; [red; vt Hc|]. split; [red; vt Hc|]. repeat split; (apply (q_list 32 _ _ 4); [lia|lia|vm_compute; reflexivity]).
  - vm_compute. discriminate.
  - vm_compute. discriminate.
  - vm_compute. discriminate.
Qed.
Lemma defined_example : can_predict (i16f16_num true true) 2 (cell 2 (kf_A kf_fx)) (cell 1 (kf_x kf_fx)) (cell 2 (kf_P kf_fx)) (cell 2 (kf_Q kf_fx)) /\
  can_control (i16f16_num true true) 2 1 (cell 1 (kf_x kf_fx)) (cell 2 (kf_P kf_fx)) (cell 1 (ct_B ct_fx)) (cell 1 (ct_u ct_fx)) (cell 1 (ct_Q ct_fx)) /\
  can_correct (i32f32_num true true) 2 1 (cell 2 (ob_H ob_fx2)) (cell 1 (ob_z ob_fx2)) (cell 1 (ob_R ob_fx2)) (cell 1 (kf_x kf_fx2)) (cell 2 (kf_P kf_fx2)).
Proof.
  destruct range_example as (V1 & V2 & (B1 & B2 & B3 & B4) & (B5 & B6 & B7) & HT). split; [|split].
  - apply (predict_defined c _ 2 kf_fx (le_S _ _ (le_n 1)) V1). destruct (fx_predict_simple c 32 16 ltac:(lia) 2 kf_fx 3 (le_S _ _ (le_n 1)) V1 ltac:(discriminate) B1 B2 B3 B4 HT) as (f' & E & _). exists f'. apply E.
  - apply (control_defined c _ 2 1 ct_fx kf_fx (le_S _ _ (le_n 1)) (le_n 1) V1 V2). destruct (fx_control_simple c 32 16 ltac:(lia) 2 1 ct_fx kf_fx 3 (le_S _ _ (le_n 1)) (le_n 1) V1 V2 ltac:(discriminate) B2 B3 B5 B6 B7 ltac:(vm_compute; discriminate)) as (k' & f' & E & _). exists k', f'. apply E.
  - destruct scalar_example as ((W1 & W2 & W3 & W4 & W5 & W6 & W7) & _).
    apply (scalar_defined c 64 32 ltac:(lia) 2 ob_fx2 kf_fx2 4 1 (le_S _ _ (le_n 1)) W1 W2 W3 W4 W5 W6 W7); [discriminate|discriminate|vm_compute; discriminate|vm_compute; discriminate].
Qed.
End Ex.
