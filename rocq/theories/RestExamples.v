(** * Concrete cases for PropRest.v *)
From Coq Require Import ZArith Lia Floats.SpecFloat.
From Verif Require Import Prelude Numeric FloatNum FixedNum Matrix Filter Extended Spec SpecFilter History SpecGen SpecFloats SpecBits BuildSim BitsProof SpecRest Rest FloatWit FixedWit HistGen FloatGen.
Local Open Scope nat_scope.
Notation z0 := (S754_zero false).
Notation one := (f32 1 0).

(** a filter at state 2 (A = 1, P = 1, H = 1, R = 1) that measures 2 *)
Definition kf_two : kalman spec_float := mk_kalman [one] [f32 2 0] [one] [z0] [z0] [z0].
Definition ob_two : observation spec_float := mk_obs [one] [f32 2 0] [one] [z0] [z0] [z0] [z0] [z0] [z0] [z0].
Lemma expected_example (c : cfg) (sz : bool) : 255 <= usize_max c -> kf_valid c 1 kf_two /\ ob_valid c 1 1 ob_two /\
  exists o' f' g, correct c (f32_num sz) 1 1 ob_two kf_two = Ok (o', f') /\
  (forall i z p, i < 1 -> cell 1 (ob_z ob_two) i 0 = Some z -> b_prodv (f32_num sz) 1 (cell 1 (ob_H ob_two)) (cell 1 (kf_x kf_two)) i 0 = Some p -> sf_finite z = true /\ SFeqb z p = true) /\
  ob_K o' = [g] /\ sf_pos g = true /\ sf_finite g = true /\ kf_x f' = [f32 2 0].
Proof.
  intros Hc. split; [red; vt Hc|]. split; [red; vt Hc|].
  assert (E : exists o' f' g, correct tiny (f32_num sz) 1 1 ob_two kf_two = Ok (o', f') /\ ob_K o' = [g] /\ sf_pos g = true /\ sf_finite g = true /\ kf_x f' = [f32 2 0]).
  { destruct sz; vm_compute; do 3 eexists; repeat split. }
  destruct E as (o' & f' & g & E & H1 & H2 & H3 & H4). exists o', f', g. split; [exact (correct_tiny c Hc _ _ _ _ _ _ E)|].
  split; [|repeat split; assumption]. intros i z p Hi Ez Ep. replace i with 0 in * by lia. vm_compute in Ez. injection Ez as <-. destruct sz; vm_compute in Ep; injection Ep as <-; split; vm_compute; reflexivity.
Qed.
(** the same in fixed point: state 2, reading 2 *)
Lemma expected_example_fixed (c : cfg) : 255 <= usize_max c -> kf_valid c 1 (kfz 65536 131072 65536 0) /\ ob_valid c 1 1 (obz 65536 131072 65536) /\
  (forall i, i < 1 -> cell 1 (ob_z (obz 65536 131072 65536)) i 0 = b_prodv (i16f16_num true true) 1 (cell 1 (ob_H (obz 65536 131072 65536))) (cell 1 (kf_x (kfz 65536 131072 65536 0))) i 0) /\
  exists o' f' g, correct c (i16f16_num true true) 1 1 (obz 65536 131072 65536) (kfz 65536 131072 65536 0) = Ok (o', f') /\ ob_K o' = [g] /\ (0 < g)%Z /\ kf_x f' = [131072%Z].
Proof.
  intros Hc. split; [red; vt Hc|]. split; [red; vt Hc|]. split; [intros i Hi; replace i with 0 by lia; vm_compute; reflexivity|].
  assert (E : exists o' f' g, correct tiny (i16f16_num true true) 1 1 (obz 65536 131072 65536) (kfz 65536 131072 65536 0) = Ok (o', f') /\ ob_K o' = [g] /\ (0 < g)%Z /\ kf_x f' = [131072%Z]).
  { vm_compute; do 3 eexists; repeat split. }
  destruct E as (o' & f' & g & E & H1 & H2 & H3). exists o', f', g. split; [exact (correct_tinyZ c Hc _ _ _ _ _ _ E)|]. repeat split; assumption.
Qed.

(** without finite gains the claim is false: a filter at rest, certain of its state (P = 0), corrected by a perfect sensor (R = 0) that reads what it expects *)
Definition kf_sure : kalman spec_float := mk_kalman [one] [z0] [z0] [z0] [z0] [z0].
Definition ob_sure : observation spec_float := mk_obs [one] [z0] [z0] [z0] [z0] [z0] [z0] [z0] [z0] [z0].
Lemma sure_example (c : cfg) (sz : bool) : 255 <= usize_max c -> kf_valid c 1 kf_sure /\ ob_valid c 1 1 ob_sure /\
  exists o' f', correct c (f32_num sz) 1 1 ob_sure kf_sure = Ok (o', f') /\ kf_x f' = [S754_nan].
Proof.
  intros Hc. split; [red; vt Hc|]. split; [red; vt Hc|].
  assert (E : exists o' f', correct tiny (f32_num sz) 1 1 ob_sure kf_sure = Ok (o', f') /\ kf_x f' = [S754_nan]).
  { destruct sz; vm_compute; do 2 eexists; split; reflexivity. }
  destruct E as (o' & f' & E & H1). exists o', f'. split; [exact (correct_tiny c Hc _ _ _ _ _ _ E)|exact H1].
Qed.

(** a program at rest: one state, one control, one sensor *)
Definition ct_rest : control spec_float := mk_ctl [f32 3 0] [S754_zero true] [z0] [z0].
Definition w_rest : world spec_float := mk_world (mk_kalman [f32 2 0] [S754_zero true] [one] [one] [z0] [z0]) [(1, ct_rest)] [(1, mk_obs [f32 (-1) 0] [z0] [one] [z0] [z0] [z0] [z0] [z0] [z0] [z0])].
Definition prog_rest : list (op spec_float) := [OPredict; OControl 0; OCorrect 0; OSetP [f32 5 0]; OPredictTuned (f32 3 0); OCorrect 0].
Lemma one_cell1 (P : spec_float -> Prop) R C a : P a -> R <= 1 -> C <= 1 -> all_cells R C P [a].
Proof. intros H HR HC i j v Hi Hj. replace i with 0 by lia. replace j with 0 by lia. replace C with 1 by lia. cbn. intros [= <-]. exact H. Qed.
Lemma prog_rest_hyps (c : cfg) (sz : bool) : 255 <= usize_max c ->
  world_ok c 1 w_rest /\ Forall (op_safe c (f32_num sz) 1 (ob_dims w_rest)) prog_rest /\ Forall (restful float_zero 1 (ob_dims w_rest)) prog_rest /\ at_rest float_zero float_finite 1 w_rest.
Proof.
  intros Hc. split; [|split; [|split]].
  - split; [lia|]. split; [|constructor; [cbn; lia|constructor]]. split; [red; vt Hc|]. split; (constructor; [red; vt Hc|constructor]).
  - repeat constructor; cbn; try (intros; exact I); try (apply valid_tiny; [exact Hc|reflexivity|reflexivity]).
  - repeat constructor.
  - split; [apply one_cell1; [exact I|lia|lia]|]. split; [apply one_cell1; [reflexivity|lia|lia]|]. split.
    + intros [|[|i]] m k E; try discriminate E. injection E as <- <-. split; apply one_cell1; try exact I; try reflexivity; lia.
    + intros [|[|i]] m k E; try discriminate E. injection E as <- <-. split; apply one_cell1; try exact I; try reflexivity; lia.
Qed.

(** ... whose gains are finite *)
Fixpoint gains_check (sz : bool) (w : world spec_float) (os : list (op spec_float)) : bool :=
  match os with
  | [] => true
  | o :: os => match step tiny (f32_num sz) 1 w o with
      | Ok w' => (match w_ob w' with [(_, b)] => forallb sf_finite (ob_K b) | _ => false end) && gains_check sz w' os
      | _ => false end
  end.
Lemma gains_check_ok (c : cfg) (sz : bool) : 255 <= usize_max c -> forall os w, gains_check sz w os = true -> gains_harmless c (f32_num sz) float_finite 1 w os.
Proof.
  intros Hc. induction os as [|o os IH]; intros w H; [exact I|]. cbn [gains_check] in H. destruct (step tiny (f32_num sz) 1 w o) as [w1|] eqn:E; try discriminate H.
  apply andb_prop in H as [H1 H2]. intros w' E'. apply (sim_ok _ _ _ (sim_step_ (f32_num sz) tiny c (tiny_stricter c Hc) 1 w o)) in E. rewrite E in E'. injection E' as <-.
  split; [|exact (IH w1 H2)].
  assert (G : forall j, match nth_error (w_ob w1) j with Some (m, b) => all_cells 1 m float_finite (ob_K b) | None => True end).
  { intros j. destruct (w_ob w1) as [|[m b] [|? ?]]; try discriminate H1. destruct j as [|[|j]]; cbn; try exact I. intros i k v Hi Hk Ev.
    assert (Hin : In v (ob_K b)) by (unfold cell in Ev; exact (nth_error_In _ _ Ev)). exact (proj1 (forallb_forall _ _) H1 v Hin). }
  destruct o; try exact I; apply G.
Qed.
Lemma prog_rest_gains (c : cfg) (sz : bool) : 255 <= usize_max c -> gains_harmless c (f32_num sz) float_finite 1 w_rest prog_rest.
Proof. intros Hc. apply gains_check_ok; [exact Hc|]. destruct sz; vm_compute; reflexivity. Qed.
