(** * Concrete programs for PropPoison.v: two states, one sensor of two components, one control, f32 *)
From Coq Require Import Lia.
From Verif Require Import Spec Matrix Filter Extended SpecFilter History SpecGen SpecFloats SpecPoison FloatWit BitsExamples HistTwo.

Definition inf32 : spec_float := S754_infinity false.
(** a NaN in the second component of the state *)
Definition kf_nan_x : kalman spec_float := mk_kalman (kf_A kf_ex) [f32 3 0; S754_nan] (kf_P kf_ex) (kf_Q kf_ex) (kf_px kf_ex) (kf_tP kf_ex).
(** an infinite variance of the first component *)
Definition kf_inf_P : kalman spec_float := mk_kalman (kf_A kf_ex) (kf_x kf_ex) [inf32; f32 1 0; f32 1 0; f32 2 0] (kf_Q kf_ex) (kf_px kf_ex) (kf_tP kf_ex).
(** a sensor that delivers a NaN in its second component, an infinite control input *)
Definition ob_nan : observation spec_float :=
  mk_obs (ob_H ob_ex) [f32 2 0; S754_nan] (ob_R ob_ex) (ob_y ob_ex) (ob_S ob_ex) (ob_K ob_ex) (ob_Sinv ob_ex) (ob_HP ob_ex) (ob_PHt ob_ex) (ob_KHP ob_ex).
Definition ct_inf : control spec_float := mk_ctl (ct_B ct_ex) [inf32] (ct_Q ct_ex) (ct_BQ ct_ex).
Definition world_ex (f : kalman spec_float) (k : control spec_float) (o : observation spec_float) : world spec_float := mk_world f [(1, k)] [(2, o)].
Definition prog_ex : list (op spec_float) := [OCorrect 0; OPredict; OControl 0; OPredictTuned (f32 3 (-2)); OCorrectNonlinear 0 st_ex].

Section Ex.
Variables (c : cfg) (sz : bool).
Hypothesis Hc : 255 <= usize_max c.
Notation N := (f32_num sz).

Lemma world_ex_ok f k o : kf_valid c 2 f -> ct_valid c 2 1 k -> ob_valid c 2 2 o -> world_ok c 2 (world_ex f k o).
Proof.
  intros Vf Vk Vo. split; [lia|]. split; [split; [exact Vf|split]|].
  - constructor; [exact Vk|constructor]. - constructor; [exact Vo|constructor].
  - repeat constructor.
Qed.
Lemma st_ex_closure : closure_ok c N 2 2 st_ex.
Proof.
  intros x out [Lx Sx] [Lo So]. destruct x as [|a [|b x]]; cbn in Lx; try (exfalso; clear -Lx; lia). destruct out as [|p [|q out]]; cbn in Lo; try (exfalso; clear -Lo; lia).
  cbn. split; [cbn; clear; lia|exact So].
Qed.
Lemma prog_ex_safe f k o : Forall (op_safe c N 2 (ob_dims (world_ex f k o))) prog_ex.
Proof. constructor; [exact I|]. constructor; [exact I|]. constructor; [exact I|]. constructor; [exact I|]. constructor; [exact st_ex_closure|constructor]. Qed.
Lemma kf_nan_x_valid : kf_valid c 2 kf_nan_x. Proof. red. vt Hc. Qed.
Lemma kf_inf_P_valid : kf_valid c 2 kf_inf_P. Proof. red. vt Hc. Qed.
Lemma ob_nan_valid : ob_valid c 2 2 ob_nan. Proof. red. vt Hc. Qed.
Lemma ct_inf_valid : ct_valid c 2 1 ct_inf. Proof. red. vt Hc. Qed.

Lemma poison_x_example : let w := world_ex kf_nan_x ct_ex ob_ex in
  world_ok c 2 w /\ Forall (op_safe c N 2 (ob_dims w)) prog_ex /\ forallb keeps_x prog_ex = true /\ existsb predicts prog_ex = true /\
  bad_cell 1 (kf_x (w_kf w)) 1 0 /\ ~ bad_cell 1 (kf_x (w_kf w)) 0 0.
Proof.
  intros w. split; [apply world_ex_ok; [apply kf_nan_x_valid|apply ct_ex_valid, Hc|apply ob_ex_valid, Hc]|]. split; [apply prog_ex_safe|].
  split; [reflexivity|]. split; [reflexivity|]. split; [eexists; split; reflexivity|]. intros (v & E & F). vm_compute in E. injection E as <-. discriminate F.
Qed.
Lemma poison_P_example : let w := world_ex kf_inf_P ct_ex ob_ex in
  world_ok c 2 w /\ Forall (op_safe c N 2 (ob_dims w)) prog_ex /\ forallb keeps_P prog_ex = true /\ existsb predicts prog_ex = true /\
  bad_cell 2 (kf_P (w_kf w)) 0 0 /\ ~ bad_cell 2 (kf_P (w_kf w)) 1 1 /\ prog_ex = [] ++ OCorrect 0 :: tl prog_ex /\ forallb keeps_x (tl prog_ex) = true.
Proof.
  intros w. split; [apply world_ex_ok; [apply kf_inf_P_valid|apply ct_ex_valid, Hc|apply ob_ex_valid, Hc]|]. split; [apply prog_ex_safe|].
  split; [reflexivity|]. split; [reflexivity|]. split; [eexists; split; reflexivity|].
  split; [intros (v & E & F); vm_compute in E; injection E as <-; discriminate F|]. split; reflexivity.
Qed.
Lemma poison_data_example : let w := world_ex kf_ex ct_inf ob_nan in let w2 := world_ex kf_ex ct_ex ob_ex in
  world_ok c 2 w /\ Forall (op_safe c N 2 (ob_dims w)) prog_ex /\ forallb keeps_x prog_ex = true /\
  bad_cell 1 (ob_z ob_nan) 1 0 /\ bad_cell 1 (ct_u ct_inf) 0 0 /\ world_cov c 2 w w2 /\ Forall2 op_cov prog_ex prog_ex.
Proof.
  intros w w2. split; [apply world_ex_ok; [apply kf_ex_valid, Hc|apply ct_inf_valid|apply ob_nan_valid]|]. split; [apply prog_ex_safe|].
  split; [reflexivity|]. split; [eexists; split; reflexivity|]. split; [eexists; split; reflexivity|].
  split; [|repeat (constructor; [reflexivity|]); constructor].
  split; [split; [apply kf_ex_valid, Hc|split; [apply kf_ex_valid, Hc|repeat split; reflexivity]]|].
  split; (constructor; [|constructor]); (split; [reflexivity|]).
  - split; [apply ct_inf_valid|]. split; [apply ct_ex_valid, Hc|]. split; intros q Hq; reflexivity.
  - split; [apply ob_nan_valid|]. split; [apply ob_ex_valid, Hc|]. split; intros q Hq; reflexivity.
Qed.
End Ex.
