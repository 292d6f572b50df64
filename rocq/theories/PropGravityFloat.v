(** * Properties C111-C113: the repository's programs that track a falling body, in floating point, for every table of errors *)
From Coq Require Import QArith Qreals.
From Verif Require Import SpecGravityFloat GravityFloat GravityTables GravityFloatMain GravityTables2 GravityExample.
Open Scope R_scope.

(** C111: the test of tests/gravity.rs (f32, 15 readings) passes whatever the table of errors, if none exceeds 4.5 in magnitude *)
Theorem C111_gravity_test_passes : forall (c : cfg) (sz : bool) (E : list spec_float), (255 <= usize_max c)%nat ->
  errors_within 24 128 15 (Q2R (9 # 2)) E -> gravity_test c 24 128 sz E = Ok tt.
Proof. exact gravity_test_passes. Qed.
Print Assumptions C111_gravity_test_passes.
(** with some errors of 5 it fails *)
Theorem C111_gravity_test_fails : forall (c : cfg) (sz : bool), (255 <= usize_max c)%nat ->
  errors_within 24 128 15 (Q2R 5) bad_32 /\ gravity_test c 24 128 sz bad_32 = Panic AssertFailed.
Proof. exact gravity_test_fails. Qed.
Print Assumptions C111_gravity_test_fails.
(** the table in the repository meets the hypothesis *)
Example C111_ex : errors_within 24 128 15 (Q2R (9 # 2)) (test_error 24 128).
Proof. exact shipped_32. Qed.

(** C112: the test of tests/gravity_q_tuned.rs (f64, predict_tuned with 0.5) passes for every table of errors up to 0.15 *)
Theorem C112_gravity_tuned_test_passes : forall (c : cfg) (sz : bool) (E : list spec_float), (255 <= usize_max c)%nat ->
  errors_within 53 1024 15 (Q2R (15 # 100)) E -> gravity_tuned_test c 53 1024 sz E = Ok tt.
Proof. exact gravity_tuned_passes. Qed.
Print Assumptions C112_gravity_tuned_test_passes.
(** it passes with the table in the repository, whose errors go up to 0.8946, but fails with some errors below 0.171 *)
Theorem C112_gravity_tuned_test_shipped : forall (c : cfg) (sz : bool), (255 <= usize_max c)%nat -> gravity_tuned_test c 53 1024 sz (test_error 53 1024) = Ok tt.
Proof. exact shipped_64. Qed.
Print Assumptions C112_gravity_tuned_test_shipped.
Theorem C112_gravity_tuned_test_fails : forall (c : cfg) (sz : bool), (255 <= usize_max c)%nat ->
  errors_within 53 1024 15 (Q2R (171 # 1000)) bad_64 /\ gravity_tuned_test c 53 1024 sz bad_64 = Panic AssertFailed.
Proof. exact gravity_tuned_fails. Qed.
Print Assumptions C112_gravity_tuned_test_fails.
Example C112_ex : errors_within 53 1024 15 (Q2R (15 # 100)) errs_64.
Proof. exact errs_64_ok. Qed.

(** C113: examples/gravity.rs (f32, 100 readings, with a control input) ends without a panic for all noise up to 0.08 *)
Theorem C113_gravity_example_passes : forall (c : cfg) (sz : bool) (noise : list spec_float), (255 <= usize_max c)%nat ->
  errors_within 24 128 100 (Q2R (8 # 100)) noise -> example_main c 24 128 sz noise = Ok tt.
Proof. exact gravity_example_passes. Qed.
Print Assumptions C113_gravity_example_passes.
(** its assertion fails for some noise below 0.131, which the generator (a normal distribution with standard deviation 0.025) can draw *)
Theorem C113_gravity_example_fails : forall (c : cfg) (sz : bool), (255 <= usize_max c)%nat ->
  errors_within 24 128 100 (Q2R (131 # 1000)) bad_ex /\ example_main c 24 128 sz bad_ex = Panic AssertFailed.
Proof. exact gravity_example_fails. Qed.
Print Assumptions C113_gravity_example_fails.
Example C113_ex : errors_within 24 128 100 (Q2R (8 # 100)) good_ex.
Proof. exact good_ex_ok. Qed.
