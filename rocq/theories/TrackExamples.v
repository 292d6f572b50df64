(** * Concrete case for PropTrack.v: f32, different states, measurements and closures *)
From Coq Require Import ZArith Lia List Floats.SpecFloat.
From Verif Require Import Prelude Numeric FloatNum Matrix Filter Extended History Spec SpecFilter SpecGen SpecFloats SpecTrack FloatGen FloatWit MirrorExamples.
Import ListNotations.
Local Open Scope nat_scope.
Definition prog_ekf : list (op spec_float) := [OPredictNonlinear h_cube; OSetA [f32 5 (-1)]; OControl 0; OCorrectNonlinear 0 h_cube; OPredictTuned (f32 1 (-1)); OCorrect 0].
Definition prog_mix : list (op spec_float) := [OPredict; OSetA [f32 5 (-1)]; OControl 0; OCorrect 0; OPredictTunedNonlinear (f32 1 (-1)) h_cube; OCorrectNonlinear 0 h_cube].
Lemma cube_ok (c : cfg) (sz : bool) : 255 <= usize_max c -> closure_ok c (f32_num sz) 1 1 h_cube.
Proof. intros Hc x out (L & _) V. destruct x as [|a x]; [cbn in L; lia|]. cbn [h_cube wp]. vt Hc. Qed.
Lemma track_example (c : cfg) (sz : bool) : 255 <= usize_max c ->
  let w1 := w_m (f32 7 0) (f32 (-3) 0) (f32 11 (-2)) in let w2 := w_m (f32 2 0) z0 (f32 1 3) in
  never_panics (f32_num sz) /\ world_ok c 1 w1 /\ world_ok c 1 w2 /\ world_cov c 1 w1 w2 /\ Forall2 op_track prog_ekf prog_mix /\
  Forall (op_safe c (f32_num sz) 1 (ob_dims w1)) prog_ekf /\ Forall (op_safe c (f32_num sz) 1 (ob_dims w1)) prog_mix.
Proof.
  intros Hc w1 w2. pose proof (cube_ok c sz Hc) as K.
  destruct (w_m_hyps c sz (fun _ _ => True) (f32 7 0) (f32 (-3) 0) (f32 11 (-2)) z0 (f32 2 0) z0 (f32 1 3) z0 Hc I I I I) as (W & _ & _ & _).
  split; [exact (sf_never_panics 24 128 sz)|]. 
  split; [split; [lia|split; [split; [red; vt Hc|split; (constructor; [red; vt Hc|constructor])]|repeat constructor]]|].
  split; [split; [lia|split; [split; [red; vt Hc|split; (constructor; [red; vt Hc|constructor])]|repeat constructor]]|].
  split; [exact W|]. split; [repeat constructor|].
  split; repeat (constructor; [cbn; try exact I; try exact K|]); constructor.
Qed.
