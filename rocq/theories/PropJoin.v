(** * Structure of whole histories, exact arithmetic: C91 (unrelated systems), C92 (choice of the origin), C93 (repeated corrections).

    Vocabulary: SpecHistory.v (textbook histories; [denotes]: which textbook operation a library call stands for), SpecJoin.v, SpecShift.v. *)
From Verif Require Import Spec Matrix Filter Extended SpecFilter History SpecGen SpecExact SpecHistory SpecWorld SpecJoin SpecShift JoinMath ShiftMath.
From Verif Require Import ExampleData Represent ExactExamples JoinExamples ShiftExamples.
From mathcomp Require Import all_ssreflect all_algebra.
Import GRing.Theory Num.Theory.
Local Open Scope ring_scope.
Local Notation N := exact_num.
Local Notation wx n w := (mx n 1 (kf_x (w_kf w))).
Local Notation wP n w := (mx n n (kf_P (w_kf w))).
Local Notation den c n w os ts := (List.Forall2 (@denotes _ c n w) os ts).

(** ** C91: two unrelated systems in one filter give what two filters give, and no correlation *)
Theorem C91_decoupled : forall (R : rcfType) (c c1 c2 : cfg) (n1 n2 : nat) (w w1 w2 : world R) (os os1 os2 : seq (op R)) (js : seq (jop R n1 n2)),
  world_ok c (n1 + n2) w -> world_ok c1 n1 w1 -> world_ok c2 n2 w2 ->
  world_abs (n1 + n2) w = join (world_abs n1 w1) (world_abs n2 w2) -> jops_ok (world_abs n1 w1) (world_abs n2 w2) js ->
  den c (n1 + n2) w os (joint_ops (world_abs n1 w1) (world_abs n2 w2) js) ->
  den c1 n1 w1 os1 (all_1 js) -> den c2 n2 w2 os2 (all_2 js) ->
  ops_ok (world_abs n1 w1) (all_1 js) -> ops_ok (world_abs n2 w2) (all_2 js) ->
  exists w' w1' w2', run c N (n1 + n2) w os = Ok w' /\ run c1 N n1 w1 os1 = Ok w1' /\ run c2 N n2 w2 os2 = Ok w2' /\
    wx (n1 + n2) w' = col_mx (wx n1 w1') (wx n2 w2') /\ wP (n1 + n2) w' = block_mx (wP n1 w1') 0 0 (wP n2 w2').
Proof. exact run_decoupled. Qed.
Print Assumptions C91_decoupled.

Example C91_example : forall R : rcfType, exists w w1 w2 os os1 os2, world_ok cfg64 (2 + 2) w /\ world_ok cfg64 2 w1 /\ world_ok cfg64 2 w2 /\
  world_abs (2 + 2) w = join (world_abs 2 w1) (world_abs 2 w2) /\ jops_ok (world_abs 2 w1) (world_abs 2 w2) (x_js R) /\
  den cfg64 (2 + 2) w os (joint_ops (world_abs 2 w1) (world_abs 2 w2) (x_js R)) /\
  den cfg64 2 w1 os1 (all_1 (x_js R)) /\ den cfg64 2 w2 os2 (all_2 (x_js R)) /\
  ops_ok (world_abs 2 w1) (all_1 (x_js R)) /\ ops_ok (world_abs 2 w2) (all_2 (x_js R)).
Proof. exact decoupled_example. Qed.

(** ** C92: with the state measured from another origin and sensor readings offset, the filter (extended calls with the affine models) gives the
    same covariance and the shifted estimate *)
Theorem C92_origin : forall (R : rcfType) (c : cfg) (n : nat) (s : 'cV[R]_n) (d : nat -> forall m, 'cV[R]_m) (w1 w2 : world R) (os1 os2 : seq (op R)) (ts : seq (top R n)),
  world_ok c n w1 -> world_ok c n w2 ->
  den c n w1 os1 ts -> den c n w2 os2 (ops_shift s d (world_abs n w1) ts) -> ops_ok (world_abs n w1) ts ->
  world_abs n w2 = tw_shift s d (world_abs n w1) ->
  exists w1' w2', run c N n w1 os1 = Ok w1' /\ run c N n w2 os2 = Ok w2' /\ wx n w2' = wx n w1' + s /\ wP n w2' = wP n w1'.
Proof. exact run_origin. Qed.
Print Assumptions C92_origin.

Example C92_example : forall R : rcfType, exists w1 w2 os1 os2, world_ok cfg64 2 w1 /\ world_ok cfg64 2 w2 /\
  den cfg64 2 w1 os1 (x_ts R) /\ den cfg64 2 w2 os2 (ops_shift (x_s R) (x_d R) (x_tw R) (x_ts R)) /\
  ops_ok (x_tw R) (x_ts R) /\ world_abs 2 w1 = x_tw R /\ world_abs 2 w2 = tw_shift (x_s R) (x_d R) (x_tw R).
Proof. exact origin_example. Qed.

(** ** C93: after k corrections by a sensor, among any others, the measured quantity's covariance is at most the sensor's divided by k *)
Theorem C93_repeated : forall (R : rcfType) (c : cfg) (n : nat) (w : world R) (os : seq (op R)) (ts : seq (top R n)) (j m : nat) (b : observation R),
  world_ok c n w -> tw_good (world_abs n w) -> den c n w os ts -> all (@measuring R n) ts -> nth_error (w_ob w) j = Some (m, b) ->
  exists w', run c N n w os = Ok w' /\
    lemx ((count (uses j) ts)%:R *: (mx m n (ob_H b) *m wP n w' *m (mx m n (ob_H b))^T)) (mx m m (ob_R b)).
Proof. exact run_repeated. Qed.
Print Assumptions C93_repeated.

Example C93_example : forall R : rcfType, exists w os m b, world_ok cfg64 2 w /\ tw_good (world_abs 2 w) /\ den cfg64 2 w os (x_ms R) /\
  all (@measuring R 2) (x_ms R) /\ nth_error (w_ob w) 0 = Some (m, b) /\ count (uses 0) (x_ms R) = 3%N.
Proof. exact repeated_example. Qed.
