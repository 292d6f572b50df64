(** * Concrete cases for PropRadar.v *)
From Coq Require Import Reals ZArith List Lra Lia Floats.SpecFloat.
From Verif Require Import Prelude Numeric FloatNum Matrix Storage Filter Extended Builder Spec SpecFilter FloatGen Radar SpecRadar RadarDeriv RadarProof RadarMain.
Import ListNotations.

(** f32 with a coarse [powi] and no angle at all still runs for the example's 100 steps, with noise that is not a number *)
Definition coarse : maths spec_float :=
  {| ma_num := f32_num false; ma_lit := fun p q => SFdiv 24 128 (binary_normalize 24 128 p 0 false) (binary_normalize 24 128 q 0 false); ma_div := SFdiv 24 128;
     ma_powi := fun x _ => SFmul 24 128 x x; ma_root := SFsqrt 24 128; ma_atan2 := fun _ _ => S754_zero false |}.
Lemma runs_example (c : cfg) : (255 <= usize_max c)%nat -> exists s, radar_main c coarse 100 (fun _ => (S754_nan, S754_nan, S754_nan)) = Ok s.
Proof.
  intros Hc. destruct (main_runs c coarse Hc 100 (fun _ => (S754_nan, S754_nan, S754_nan))) as (f & o & _ & E & _); [exact (sf_never_panics 24 128 false)|]. eexists. exact E.
Qed.

Open Scope R_scope.
(** the initial state of the example is in view, and there is a state at which the first entry of the third row is right, and one at which it is wrong *)
Lemma view_example : in_view 0 0 /\ in_view 3 1 /\ ~ in_view 0 1.
Proof. split; [left; lra|]. split; [right; lra|]. intros [H|H]; lra. Qed.
Lemma speed_example (c : cfg) : (255 <= usize_max c)%nat ->
  (exists J, radar_observation_jacobian c real_maths [3; 1; 5; 7] (repeat 0 12) = Ok J /\ partial_derivative seen 2 0 [3; 1; 5; 7] (nth 8 J 0)) /\
  (exists J, radar_observation_jacobian c real_maths [0; 0; 1 / 2; 2] (repeat 0 12) = Ok J /\ ~ partial_derivative seen 2 0 [0; 0; 1 / 2; 2] (nth 8 J 0)).
Proof.
  intros Hc. split.
  - destruct (wrong_rows c Hc 3 1 5 7 (repeat 0 12) (or_intror (ltac:(lra) : 2 < 3)) eq_refl) as (J & E & _ & _ & _ & _ & H & _). exists J. split; [exact E|]. apply H. lra.
  - destruct (wrong_rows c Hc 0 0 (1 / 2) 2 (repeat 0 12) (or_introl (ltac:(lra) : 0 <> 1)) eq_refl) as (J & E & _ & _ & _ & _ & H & _). exists J. split; [exact E|]. rewrite H. lra.
Qed.
Lemma distance_example : distance 5 5 = 5 /\ nth 0 (seen [5; 5; 1; 1]) 0 = 5.
Proof.
  assert (E : distance 5 5 = 5). { unfold distance. replace ((5 - 2) ^ 2 + (5 - 1) ^ 2) with (5 * 5) by ring. apply sqrt_square. lra. }
  split; [exact E|]. cbn [nth seen]. exact E.
Qed.
