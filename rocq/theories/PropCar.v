(** * Property C126: examples/car_1d.rs for all readings *)
From Coq Require Import Reals.
From Verif Require Import SpecCar Car CarProof.
Local Open Scope R_scope.

(** C126: the example passes all its assertions if the readings it uses (indices 0, 2, 4, 6, 8) are at most 12 mm from the ones in the repository;
    it may fail if one is 14.1 mm off *)
Theorem C126_car_passes : forall (c : cfg) (sz : bool) (l : list spec_float), (255 <= usize_max c)%nat ->
  even_readings_near car_observations 0.012 l -> car_main c sz l = Ok tt.
Proof. exact car_passes. Qed.
Print Assumptions C126_car_passes.
Theorem C126_car_fails : forall (c : cfg) (sz : bool), (255 <= usize_max c)%nat ->
  even_readings_near car_observations 0.0141 bad_readings /\ car_main c sz bad_readings = Panic AssertFailed.
Proof. exact car_fails. Qed.
Print Assumptions C126_car_fails.

(** with readings up to 1 m off it ends with finite numbers, which depend on the readings in this way: estimated position, velocity and acceleration *)
Theorem C126_car_sensitivity : forall l : list spec_float, even_readings_near car_observations 1 l ->
  forall (c : cfg) (sz : bool), (255 <= usize_max c)%nat -> let d := off car_observations l in
  exists p v a, car_run c sz l = Ok [p; v; a] /\ all_in_format 24 128 [p; v; a] /\
    (sf_finite p = true /\ sf_finite v = true /\ sf_finite a = true) /\
    Rabs (val p - (35.622738 + weighted d 0.014661 0.185079 (-0.067866) (-0.890508) 1.771599)) <= 0.006 /\
    Rabs (val v - (-0.568421 + weighted d (-0.006082) 0.233884 0.053810 (-1.186212) 0.919355)) <= 0.0025 /\
    Rabs (val a - (-1.241077 + weighted d (-0.015087) 0.100000 0.113236 (-0.431444) 0.238570)) <= 0.0006.
Proof. exact car_sensitivity. Qed.
Print Assumptions C126_car_sensitivity.

(** the readings with an odd index are never used *)
Theorem C126_car_unused : forall (c : cfg) (sz : bool) (l1 l2 : list spec_float), length l1 = 10%nat -> length l2 = 10%nat ->
  (forall k, Nat.even k = true -> nth k l1 (S754_zero false) = nth k l2 (S754_zero false)) -> car_main c sz l1 = car_main c sz l2.
Proof. exact car_unused. Qed.
Print Assumptions C126_car_unused.

(** the table in the repository meets the hypotheses, and this is where it leads *)
Example C126_ex : even_readings_near car_observations 0.012 car_observations.
Proof. exact car_shipped. Qed.
Example C126_state : forall (c : cfg) (sz : bool), (255 <= usize_max c)%nat ->
  car_run c sz car_observations = Ok [S754_finite false 9338287 (-18); S754_finite true 9536539 (-24); S754_finite true 10410909 (-23)].
Proof. exact car_shipped_state. Qed.
