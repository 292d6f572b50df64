(** * The filter on random systems: C70, C71, C72.

    [sim_from w D0 ss] lists everything that can happen, with probabilities, when a random true state (distribution D0) is followed through
    the steps [ss] (SpecProb.v): each outcome is the list of calls the program made and the final true state.  [prog] is any translation of
    those calls to calls of the library; [expect] is the expectation over the outcomes.  Inputs may be chosen from the estimate by any law. *)
From Verif Require Import Spec Matrix Filter Extended SpecFilter History SpecGen SpecExact SpecHistory SpecWorld SpecProb ProbMain ExampleData Represent ExactExamples ProbExamples.
From mathcomp Require Import all_ssreflect all_algebra.
Import GRing.Theory Num.Theory.
Local Open Scope ring_scope.
Local Notation N := exact_num.
Local Notation wx n w := (mx n 1 (kf_x (w_kf w))).
Local Notation wP n w := (mx n n (kf_P (w_kf w))).
Local Notation den c n w os ts := (List.Forall2 (@denotes _ c n w) os ts).

(** ** C70: the estimate is unbiased and the covariance reported is the mean square error *)
Theorem C70_covariance_is_mean_square_error : forall (R : rcfType) (c : cfg) (n : nat) (w : world R) (D0 : dist R 'cV[R]_n) (ss : seq (sop R n))
    (prog : seq (top R n) -> seq (op R)),
  world_ok c n w -> good_start (world_abs n w) D0 -> sops_ok (world_abs n w) ss ->
  let outs := sim_from (world_abs n w) D0 ss in
  List.Forall (fun o => den c n w (prog o.2.1) o.2.1) outs ->
  let err (o : seq (top R n) * 'cV[R]_n) := (if run c N n w (prog o.1) is Ok w' then wx n w' else 0) - o.2 in
  exists P : 'M[R]_n,
    List.Forall (fun o => exists w', run c N n w (prog o.2.1) = Ok w' /\ wP n w' = P) outs /\
    mass outs = 1 /\ expect outs err = 0 /\ expect outs (fun o => err o *m (err o)^T) = P.
Proof. exact run_true_cov. Qed.
Print Assumptions C70_covariance_is_mean_square_error.

(** ** C71: innovations have mean zero and covariance H P H' + R, P being the covariance before the measurement *)
Theorem C71_innovation : forall (R : rcfType) (c : cfg) (n : nat) (w : world R) (D0 : dist R 'cV[R]_n) (ss : seq (sop R n)) (j : nat) (D : dist R (noise R))
    (m : nat) (H : 'M[R]_(m, n)) (z : 'cV[R]_m) (Rm : 'M[R]_m) (prog : seq (top R n) -> seq (op R)),
  world_ok c n w -> good_start (world_abs n w) D0 -> sops_ok (world_abs n w) (rcons ss (SMeasure j D)) ->
  nth_error (tw_ob (srun (world_abs n w) ss)) j = Some (TObs H z Rm) ->
  let outs := sim_from (world_abs n w) D0 (rcons ss (SMeasure j D)) in
  List.Forall (fun o => den c n w (prog o.2.1) o.2.1) outs ->
  let y (o : seq (top R n) * 'cV[R]_n) : 'cV[R]_m :=
    if run c N n w (prog o.1) is Ok w' then (if nth_error (w_ob w') j is Some (_, b) then mx m 1 (ob_y b) else 0) else 0 in
  List.Forall (fun o => exists w', run c N n w (prog o.2.1) = Ok w') outs /\
  expect outs y = 0 /\
  expect outs (fun o => y o *m (y o)^T) = H *m e_P (tw_s (srun (world_abs n w) ss)) *m H^T + Rm.
Proof. exact run_innovation. Qed.
Print Assumptions C71_innovation.

(** ** C72: innovations of two measurements of the same run are uncorrelated *)
Theorem C72_innovations_white : forall (R : rcfType) (c : cfg) (n : nat) (w : world R) (D0 : dist R 'cV[R]_n) (ss1 ss2 : seq (sop R n))
    (j1 : nat) (D1 : dist R (noise R)) (m1 : nat) (H1 : 'M[R]_(m1, n)) (z1 : 'cV[R]_m1) (R1 : 'M[R]_m1)
    (j2 : nat) (D2 : dist R (noise R)) (m2 : nat) (H2 : 'M[R]_(m2, n)) (z2 : 'cV[R]_m2) (R2 : 'M[R]_m2) (prog : seq (top R n) -> seq (op R)),
  world_ok c n w -> good_start (world_abs n w) D0 ->
  sops_ok (world_abs n w) (rcons ss1 (SMeasure j1 D1) ++ rcons ss2 (SMeasure j2 D2)) ->
  nth_error (tw_ob (srun (world_abs n w) ss1)) j1 = Some (TObs H1 z1 R1) ->
  nth_error (tw_ob (srun (world_abs n w) (rcons ss1 (SMeasure j1 D1) ++ ss2))) j2 = Some (TObs H2 z2 R2) ->
  let both := sim_two (world_abs n w) D0 (rcons ss1 (SMeasure j1 D1)) (rcons ss2 (SMeasure j2 D2)) in
  List.Forall (fun o => den c n w (prog o.2.1) o.2.1) (sim_from (world_abs n w) D0 (rcons ss1 (SMeasure j1 D1))) ->
  List.Forall (fun o => den c n w (prog (o.2.1.1 ++ o.2.2.1)) (o.2.1.1 ++ o.2.2.1)) both ->
  let y (j m : nat) (ts : seq (top R n)) : 'cV[R]_m :=
    if run c N n w (prog ts) is Ok w' then (if nth_error (w_ob w') j is Some (_, b) then mx m 1 (ob_y b) else 0) else 0 in
  expect both (fun o => y j2 m2 (o.1.1 ++ o.2.1) *m (y j1 m1 o.1.1)^T) = 0.
Proof. exact run_white. Qed.
Print Assumptions C72_innovations_white.

(** a two-state system with an input chosen from the estimate by any law [g], four-point noise in every component, and two measurements *)
Example C70_C71_C72_example : forall (R : rcfType) (g : est R 2 -> noise R),
  exists (w : world R) (prog : seq (top R 2) -> seq (op R)), world_ok cfg64 2 w /\ good_start (world_abs 2 w) (x_D0 R) /\
  sops_ok (world_abs 2 w) (rcons (x_sim1 g) (SMeasure 0 (x_D R)) ++ rcons (x_sim2 R) (SMeasure 1 (x_D R))) /\
  sops_ok (world_abs 2 w) (rcons (x_sim1 g) (SMeasure 0 (x_D R))) /\
  (exists z, nth_error (tw_ob (srun (world_abs 2 w) (x_sim1 g))) 0 = Some (TObs (delta_mx 0 0 : 'M[R]_(1, 2)) z 1%:M)) /\
  (exists z, nth_error (tw_ob (srun (world_abs 2 w) (rcons (x_sim1 g) (SMeasure 0 (x_D R)) ++ (x_sim2 R)))) 1 = Some (TObs (x_A R : 'M[R]_2) z 1%:M)) /\
  forall ts, List.Forall2 (@denotes R cfg64 2 w) (prog ts) ts.
Proof. exact prob_example. Qed.
