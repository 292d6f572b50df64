(** * Concrete cases for PropMirror.v *)
From Coq Require Import ZArith Lia List Floats.SpecFloat.
From Verif Require Import Prelude Numeric FloatNum FixedNum Matrix Filter Extended History Spec SpecFilter SpecGen SpecFloats FloatWit FixedWit SpecRest SpecMirror Mirror.
Import ListNotations.
Local Open Scope nat_scope.
Notation z0 := (S754_zero false).

(** one state, one control, one sensor; the data are x, u, z *)
Definition w_m (x u z : spec_float) : world spec_float :=
  mk_world (mk_kalman [f32 3 (-1)] [x] [f32 1 0] [f32 1 (-3)] [z0] [z0]) [(1, mk_ctl [f32 5 (-2)] [u] [f32 1 0] [z0])]
    [(1, mk_obs [f32 1 0] [z] [f32 1 (-1)] [z0] [z0] [z0] [z0] [z0] [z0] [z0])].
Definition h_cube : list spec_float -> list spec_float -> res (list spec_float) := fun x _ => match x with a :: _ => Ok [SFmul 24 128 a (SFmul 24 128 a a)] | [] => Ok [] end.
Definition prog_m (z : spec_float) : list (op spec_float) := [OPredict; OControl 0; OCorrect 0; OSetZ 0 [z]; OPredictTuned (f32 1 (-1)); OCorrect 0].
Lemma vec1 (R : spec_float -> spec_float -> Prop) a b : R a b -> same_vector R 1 [a] [b].
Proof. intros H i v v' Hi. replace i with 0 by lia. cbn. intros [= <-] [= <-]. exact H. Qed.
Lemma w_m_hyps (c : cfg) (sz : bool) (R : spec_float -> spec_float -> Prop) x u z y x' u' z' y' : 255 <= usize_max c -> R x x' -> R u u' -> R z z' -> R y y' ->
  world_cov c 1 (w_m x u z) (w_m x' u' z') /\ data_related R 1 (w_m x u z) (w_m x' u' z') /\ Forall (fun m => 1 <= m) (ob_dims (w_m x u z)) /\
  Forall2 (op_related R 1 (ob_dims (w_m x u z))) (prog_m y) (prog_m y') /\
  Forall (op_safe c (f32_num sz) 1 (ob_dims (w_m x u z))) (prog_m y) /\ Forall (op_safe c (f32_num sz) 1 (ob_dims (w_m x u z))) (prog_m y').
Proof.
  intros Hc Hx Hu Hz Hy. split; [|split; [|split; [|split; [|split]]]].
  - split; [split; [red; vt Hc|split; [red; vt Hc|repeat split]]|]. split; (constructor; [|constructor]); (split; [reflexivity|]); (split; [red; vt Hc|split; [red; vt Hc|repeat split]]).
  - split; [apply vec1, Hx|]. split; (constructor; [|constructor]); apply vec1; assumption.
  - repeat constructor.
  - repeat constructor; try exact Hy.
  - repeat constructor.
  - repeat constructor.
Qed.
Lemma mirror_example (c : cfg) (sz : bool) : 255 <= usize_max c ->
  let w1 := w_m (f32 7 0) (f32 (-3) 0) (f32 11 (-2)) in let w2 := w_m (f32 (-7) 0) (f32 3 0) (f32 (-11) (-2)) in
  world_cov c 1 w1 w2 /\ data_related opposite 1 w1 w2 /\ Forall (fun m => 1 <= m) (ob_dims w1) /\ Forall2 (op_related opposite 1 (ob_dims w1)) (prog_m (f32 13 0)) (prog_m (f32 (-13) 0)) /\
  Forall (op_safe c (f32_num sz) 1 (ob_dims w1)) (prog_m (f32 13 0)) /\ Forall (op_safe c (f32_num sz) 1 (ob_dims w1)) (prog_m (f32 (-13) 0)).
Proof. intros Hc. apply w_m_hyps; [exact Hc|left; vm_compute; reflexivity..]. Qed.
Lemma zeros_example (c : cfg) (sz : bool) : 255 <= usize_max c ->
  let w1 := w_m z0 (S754_zero true) (f32 11 (-2)) in let w2 := w_m (S754_zero true) z0 (f32 11 (-2)) in
  world_cov c 1 w1 w2 /\ data_related float_same 1 w1 w2 /\ Forall (fun m => 1 <= m) (ob_dims w1) /\ Forall2 (op_related float_same 1 (ob_dims w1)) (prog_m z0) (prog_m (S754_zero true)) /\
  Forall (op_safe c (f32_num sz) 1 (ob_dims w1)) (prog_m z0) /\ Forall (op_safe c (f32_num sz) 1 (ob_dims w1)) (prog_m (S754_zero true)).
Proof. intros Hc. apply w_m_hyps; [exact Hc|right; split; exact I|right; split; exact I|left; reflexivity|right; split; exact I]. Qed.
(** an odd closure *)
Lemma cube_example : closures_related opposite 1 1 h_cube h_cube.
Proof.
  intros x1 x2 o1 o2 r1 r2 Hx E1 E2. destruct x1 as [|a x1], x2 as [|b x2]; cbn in E1, E2; injection E1 as <-; injection E2 as <-.
  - intros i v v' Hi. replace i with 0 by lia. cbn. discriminate.
  - intros i v v' Hi. replace i with 0 by lia. cbn. discriminate.
  - intros i v v' Hi. replace i with 0 by lia. cbn. discriminate.
  - pose proof (Hx 0 a b ltac:(lia) eq_refl eq_refl) as H. apply vec1.
    destruct H as [->|[Ha Hb]].
    + left. destruct a as [s|s| |s m e]; try reflexivity; try (destruct s; reflexivity).
      assert (Q : SFmul 24 128 (SFopp (S754_finite s m e)) (SFopp (S754_finite s m e)) = SFmul 24 128 (S754_finite s m e) (S754_finite s m e)) by (cbn; destruct s; reflexivity).
      rewrite Q. generalize (SFmul 24 128 (S754_finite s m e) (S754_finite s m e)). intros k. destruct k as [t|t| |t n f]; cbn; try reflexivity; try (destruct s, t; reflexivity).
      rewrite <- round_aux_opp. f_equal. destruct s, t; reflexivity.
    + destruct a; try contradiction; destruct b; try contradiction. right. destruct s, s0; split; exact I.
Qed.

(** fixed point: A = 1/2 maps the smallest positive number to 0 and the largest negative one to itself *)
Lemma fixed_no_mirror (c : cfg) : 255 <= usize_max c -> exists f g f' g' : kalman Z, kf_valid c 1 f /\ kf_valid c 1 g /\
  kf_A f = kf_A g /\ kf_P f = kf_P g /\ kf_Q f = kf_Q g /\ kf_x f = [1%Z] /\ kf_x g = [(-1)%Z] /\
  predict c (i16f16_num true true) 1 f = Ok f' /\ predict c (i16f16_num true true) 1 g = Ok g' /\ kf_x f' = [0%Z] /\ kf_x g' = [(-1)%Z].
Proof.
  intros Hc.
  assert (E : exists f' g', predict tiny (i16f16_num true true) 1 (kfz 32768 1 65536 0) = Ok f' /\ predict tiny (i16f16_num true true) 1 (kfz 32768 (-1) 65536 0) = Ok g' /\ kf_x f' = [0%Z] /\ kf_x g' = [(-1)%Z]).
  { vm_compute. do 2 eexists. repeat split. }
  destruct E as (f' & g' & E1 & E2 & X1 & X2). exists (kfz 32768 1 65536 0), (kfz 32768 (-1) 65536 0), f', g'.
  split; [apply kfz_valid, Hc|]. split; [apply kfz_valid, Hc|]. repeat (split; [reflexivity|]). split; [exact (predict_tinyZ c Hc _ _ _ _ E1)|]. split; [exact (predict_tinyZ c Hc _ _ _ _ E2)|]. split; assumption.
Qed.
