(** * Concrete cases for PropPeriod.v *)
From Coq Require Import ZArith Lia List Floats.SpecFloat.
From Verif Require Import Prelude Numeric FloatNum FixedNum Matrix Filter Extended History Spec SpecFilter SpecGen SpecParam SpecUnit SpecFloats SpecReal FloatWit FixedWit BuildSim SpecPeriod MirrorExamples.
Import ListNotations.
Local Open Scope nat_scope.

(** f32: one state, one control, one sensor, a reading that counts turns *)
Definition cycle_ex (k : nat) : list (op spec_float) := [OPredict; OControl 0; OSetZ 0 [binary_normalize 24 128 (Z.of_nat k mod 64) 0 false]; OCorrect 0].
Definition w_cycle : world spec_float := w_m (f32 7 0) (f32 (-3) 0) (f32 11 (-2)).
Lemma small_format z : (0 <= z < 64)%Z -> in_format 24 128 (binary_normalize 24 128 z 0 false).
Proof.
  intros H. assert (B : forallb (fun k => valid_binary 24 128 (binary_normalize 24 128 (Z.of_nat k) 0 false)) (seq 0 (64)) = true) by (vm_compute; reflexivity).
  rewrite forallb_forall in B. specialize (B (Z.to_nat z)). rewrite Z2Nat.id in B by lia. apply B. apply in_seq. change (0 <= Z.to_nat z < 0 + 64). lia.
Qed.
Ltac rels := repeat (first [apply Forall2_nil | apply Forall2_cons | split]); try reflexivity.
Lemma cycle_example (c : cfg) (sz : bool) : 255 <= usize_max c -> world_ok c 1 w_cycle /\ SpecParam.world_rel (within (in_format 24 128)) w_cycle w_cycle /\
  (forall k, Forall (op_safe c (f32_num sz) 1 (ob_dims w_cycle)) (cycle_ex k)) /\ (forall k, forallb data_or_call (cycle_ex k) = true) /\
  (forall k, Forall (fun o => SpecParam.op_rel False (within (in_format 24 128)) o o) (cycle_ex k)) /\ (forall i k, Forall2 op_cov (cycle_ex i) (cycle_ex k)) /\
  flat_map corrected (cycle_ex 0) = [0].
Proof.
  intros Hc. split; [|split; [|split; [|split; [|split; [|split]]]]].
  - split; [lia|]. split; [|constructor; [cbn; lia|constructor]]. split; [red; vt Hc|]. split; (constructor; [red; vt Hc|constructor]).
  - rels.
  - intros k. repeat constructor.
  - reflexivity.
  - intros k. repeat constructor. apply small_format. apply Z.mod_pos_bound. lia.
  - intros i k. repeat constructor.
  - reflexivity.
Qed.

(** I16F16: a filter certain of its state, corrected again and again *)
Definition w_sure : world Z := mk_world (mk_kalman [65536%Z] [131072%Z] [0%Z] [0%Z] [131072%Z] [0%Z]) [] [(1, mk_obs [65536%Z] [196608%Z] [65536%Z] [65536%Z] [65536%Z] [0%Z] [65536%Z] [0%Z] [0%Z] [0%Z])].
Definition cycle_sure (k : nat) : list (op Z) := [OPredict; OCorrect 0].
Lemma sure_turn : run tiny (i16f16_num true true) 1 w_sure (cycle_sure 0) = Ok w_sure.
Proof. vm_compute. reflexivity. Qed.
Lemma cycle_example_fixed (c : cfg) : 255 <= usize_max c -> turns c (i16f16_num true true) 1 cycle_sure (fun _ => w_sure) /\ world_ok c 1 w_sure /\
  SpecParam.world_rel (within (fx_in 32)) w_sure w_sure /\ (forall k, Forall (op_safe c (i16f16_num true true) 1 (ob_dims w_sure)) (cycle_sure k)) /\
  (forall k, forallb data_or_call (cycle_sure k) = true) /\ (forall k, Forall (fun o => SpecParam.op_rel False (within (fx_in 32)) o o) (cycle_sure k)) /\ (forall i k, Forall2 op_cov (cycle_sure i) (cycle_sure k)).
Proof.
  intros Hc. split; [|split; [|split; [|split; [|split; [|split]]]]].
  - intros k. exact (sim_ok _ _ _ (sim_run (i16f16_num true true) tiny c (tiny_stricter c Hc) 1 (cycle_sure k) w_sure) sure_turn).
  - split; [lia|]. split; [|constructor; [cbn; lia|constructor]]. split; [red; vt Hc|]. split; [constructor|]. constructor; [red; vt Hc|constructor].
  - rels.
  - intros k. repeat constructor.
  - reflexivity.
  - intros k. repeat constructor.
  - intros i k. repeat constructor.
Qed.
