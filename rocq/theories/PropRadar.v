(** * C119, C120: examples/radar_2d.rs *)
From Coq Require Import Reals ZArith List Floats.SpecFloat.
From Verif Require Import Prelude Numeric FloatNum Matrix Storage Filter Extended Builder Spec SpecFilter Radar SpecRadar RadarDeriv RadarProof RadarMain RadarExamples.
Import ListNotations.

(** C119: for every element type whose arithmetic does not panic (so f32), whatever its powers, roots, quotients and angles are, whatever the noise, and however long it runs, the radar
    example does not panic, its buffers stay usable and the noise covariances are those it started with *)
Theorem C119_radar_runs : forall (T : Type) (c : cfg) (M : maths T), (255 <= usize_max c)%nat -> never_panics (ma_num M) -> forall (steps : nat) (noise : nat -> T * T * T),
  exists f o s0, radar_main c M steps noise = Ok (f, o) /\ kf_valid c 4 f /\ ob_valid c 4 3 o /\
    radar_setup c M = Ok s0 /\ kf_Q f = kf_Q (fst s0) /\ ob_R o = ob_R (snd s0).
Proof. exact (fun T c M Hc HN steps noise => main_runs c M Hc steps noise HN). Qed.
Print Assumptions C119_radar_runs.
Example C119_example : forall c : cfg, (255 <= usize_max c)%nat -> exists s, radar_main c coarse 100 (fun _ => (S754_nan, S754_nan, S754_nan)) = Ok s.
Proof. exact runs_example. Qed.

Open Scope R_scope.
(** C120: over the real numbers.  The closures compute constant motion and what the radar sees; *)
Theorem C120_closures : forall c : cfg, (255 <= usize_max c)%nat ->
  closure_computes 4 4 moved (radar_transition real_maths) /\ closure_computes 4 3 seen (radar_observe c real_maths).
Proof. exact (fun c Hc => conj transition_computes (observe_computes c Hc)). Qed.
Print Assumptions C120_closures.

(** the transition Jacobian is the derivative of the transition, at every state; *)
Theorem C120_transition_jacobian : forall c : cfg, (255 <= usize_max c)%nat -> forall m s : list R, length m = 16%nat -> length s = 4%nat ->
  exists J, radar_transition_jacobian c real_maths m = Ok J /\
    forall i j, (i < 4)%nat -> (j < 4)%nat -> partial_derivative moved i j s (nth (4 * i + j) J 0).
Proof. exact transition_right. Qed.
Print Assumptions C120_transition_jacobian.

(** of the observation Jacobian the row of the bearing is, at every state at which the bearing has a derivative *)
Theorem C120_bearing_jacobian_partial : forall c : cfg, (255 <= usize_max c)%nat -> forall (x y vx vy : R) (m : list R), in_view x y -> length m = 12%nat ->
  exists J, radar_observation_jacobian c real_maths [x; y; vx; vy] m = Ok J /\
    forall j, (j < 4)%nat -> partial_derivative seen 1 j [x; y; vx; vy] (nth (4 + j) J 0).
Proof. exact angle_row. Qed.
Print Assumptions C120_bearing_jacobian_partial.

(** but the rows of the distance and of the speed are not: four entries are wrong at every such state, two more at every state off a curve *)
Theorem C120_observation_jacobian_refuted : forall c : cfg, (255 <= usize_max c)%nat -> forall (x y vx vy : R) (m : list R), in_view x y -> length m = 12%nat ->
  exists J, radar_observation_jacobian c real_maths [x; y; vx; vy] m = Ok J /\
    ~ partial_derivative seen 0 0 [x; y; vx; vy] (nth 0 J 0) /\ ~ partial_derivative seen 0 1 [x; y; vx; vy] (nth 1 J 0) /\
    partial_derivative seen 0 2 [x; y; vx; vy] (nth 2 J 0) /\ partial_derivative seen 0 3 [x; y; vx; vy] (nth 3 J 0) /\
    (partial_derivative seen 2 0 [x; y; vx; vy] (nth 8 J 0) <-> (y - 1) * vy = (y - 1) * ((y - 1) * vx - (x - 2) * vy)) /\
    (partial_derivative seen 2 1 [x; y; vx; vy] (nth 9 J 0) <-> (x - 2) * vy + (y - 1) * vx = (x - 2) * ((x - 2) * vy - (y - 1) * vx)) /\
    ~ partial_derivative seen 2 2 [x; y; vx; vy] (nth 10 J 0) /\ ~ partial_derivative seen 2 3 [x; y; vx; vy] (nth 11 J 0).
Proof. exact wrong_rows. Qed.
Print Assumptions C120_observation_jacobian_refuted.

(** what the Jacobian would have to be *)
Theorem C120_right_jacobian : forall (x y vx vy : R) (i j : nat), in_view x y -> (i < 3)%nat -> (j < 4)%nat ->
  partial_derivative seen i j [x; y; vx; vy] (nth (4 * i + j) (seen_jacobian x y vx vy) 0).
Proof. exact seen_derivatives. Qed.
Print Assumptions C120_right_jacobian.

(** the simulation fits the filter's model: without noise the measurement at time t is what the radar sees of an object at (t, t) moving at (1, 1), and the transition keeps such an object on its track *)
Theorem C120_simulation : forall c : cfg, (255 <= usize_max c)%nat -> forall (t : R) (z : list R), length z = 3%nat ->
  radar_measure c real_maths t (0, 0, 0) z = Ok (seen [t; t; 1; 1]) /\ moved [t; t; 1; 1] = [t + 1 / 10; t + 1 / 10; 1; 1].
Proof. exact (fun c Hc t z Hz => conj (measure_noiseless c Hc t z Hz) (true_track t)). Qed.
Print Assumptions C120_simulation.

Example C120_view_example : in_view 0 0 /\ in_view 3 1 /\ ~ in_view 0 1.
Proof. exact view_example. Qed.
Example C120_speed_example : forall c : cfg, (255 <= usize_max c)%nat ->
  (exists J, radar_observation_jacobian c real_maths [3; 1; 5; 7] (repeat 0 12) = Ok J /\ partial_derivative seen 2 0 [3; 1; 5; 7] (nth 8 J 0)) /\
  (exists J, radar_observation_jacobian c real_maths [0; 0; 1 / 2; 2] (repeat 0 12) = Ok J /\ ~ partial_derivative seen 2 0 [0; 0; 1 / 2; 2] (nth 8 J 0)).
Proof. exact speed_example. Qed.
Example C120_distance_example : distance 5 5 = 5 /\ nth 0 (seen [5; 5; 1; 1]) 0 = 5.
Proof. exact distance_example. Qed.
