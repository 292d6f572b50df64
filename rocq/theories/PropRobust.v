(** * Overstated noise is safe, and consistency statistics: C89, C90.

    As in PropProb.v, [sim_from w D0 ss] lists everything that can happen, with probabilities, when a random true state (distribution D0) is
    followed through the steps [ss]; [prog] is any translation of the calls made to calls of the library.  [sops_safe]/[safe_start]
    (SpecRobust.v) say that the noise actually drawn has at most the covariances the filter has been told, and that tuning factors are at
    most one in size; [sops_ok]/[good_start] (SpecProb.v) say that the noise has exactly those covariances.  [lemx A B]: B - A is positive
    semidefinite; [qf M v] = v' M v. *)
From Verif Require Import Spec Matrix Filter Extended SpecFilter History SpecGen SpecExact SpecHistory SpecWorld SpecProb SpecRobust Robust ExampleData Represent ExactExamples ProbExamples RobustExamples.
From mathcomp Require Import all_ssreflect all_algebra.
Import GRing.Theory Num.Theory.
Local Open Scope ring_scope.
Local Notation N := exact_num.
Local Notation wx n w := (mx n 1 (kf_x (w_kf w))).
Local Notation wP n w := (mx n n (kf_P (w_kf w))).
Local Notation den c n w os ts := (List.Forall2 (@denotes _ c n w) os ts).

(** ** C89: with noise at most as large as declared, the estimate is unbiased and the mean square error is at most the covariance reported *)
Theorem C89_conservative : forall (R : rcfType) (c : cfg) (n : nat) (w : world R) (D0 : dist R 'cV[R]_n) (ss : seq (sop R n))
    (prog : seq (top R n) -> seq (op R)),
  world_ok c n w -> safe_start (world_abs n w) D0 -> sops_safe (world_abs n w) ss ->
  let outs := sim_from (world_abs n w) D0 ss in
  List.Forall (fun o => den c n w (prog o.2.1) o.2.1) outs ->
  let err (o : seq (top R n) * 'cV[R]_n) := (if run c N n w (prog o.1) is Ok w' then wx n w' else 0) - o.2 in
  exists P : 'M[R]_n,
    List.Forall (fun o => exists w', run c N n w (prog o.2.1) = Ok w' /\ wP n w' = P) outs /\
    mass outs = 1 /\ expect outs err = 0 /\ lemx (expect outs (fun o => err o *m (err o)^T)) P.
Proof. exact run_conservative. Qed.
Print Assumptions C89_conservative.

(** everything the filter is told is twice what is true; a prediction tuned with 1/2, an input chosen from the estimate by any law, a measurement *)
Example C89_example : forall (R : rcfType) (g : est R 2 -> noise R),
  exists (w : world R) (prog : seq (top R 2) -> seq (op R)), world_ok cfg64 2 w /\ safe_start (world_abs 2 w) (x_D0 R) /\
  sops_safe (world_abs 2 w) (x_sim3 g) /\ forall ts, List.Forall2 (@denotes R cfg64 2 w) (prog ts) ts.
Proof. exact robust_example. Qed.

(** ** C90: the estimation error, normalised by the covariance reported, has expectation n *)
Theorem C90_nees : forall (R : rcfType) (c : cfg) (n : nat) (w : world R) (D0 : dist R 'cV[R]_n) (ss : seq (sop R n))
    (prog : seq (top R n) -> seq (op R)),
  world_ok c n w -> good_start (world_abs n w) D0 -> sops_ok (world_abs n w) ss ->
  let outs := sim_from (world_abs n w) D0 ss in
  List.Forall (fun o => den c n w (prog o.2.1) o.2.1) outs ->
  let err (o : seq (top R n) * 'cV[R]_n) := (if run c N n w (prog o.1) is Ok w' then wx n w' else 0) - o.2 in
  exists P : 'M[R]_n,
    List.Forall (fun o => exists w', run c N n w (prog o.2.1) = Ok w' /\ wP n w' = P) outs /\
    (P \in unitmx -> \sum_(o <- outs) o.1 * qf (invmx P) (err o.2) = n%:R).
Proof. exact run_nees. Qed.
Print Assumptions C90_nees.

(** at most n when the filter has been told too much noise *)
Theorem C90_nees_at_most : forall (R : rcfType) (c : cfg) (n : nat) (w : world R) (D0 : dist R 'cV[R]_n) (ss : seq (sop R n))
    (prog : seq (top R n) -> seq (op R)),
  world_ok c n w -> safe_start (world_abs n w) D0 -> sops_safe (world_abs n w) ss ->
  let outs := sim_from (world_abs n w) D0 ss in
  List.Forall (fun o => den c n w (prog o.2.1) o.2.1) outs ->
  let err (o : seq (top R n) * 'cV[R]_n) := (if run c N n w (prog o.1) is Ok w' then wx n w' else 0) - o.2 in
  exists P : 'M[R]_n,
    List.Forall (fun o => exists w', run c N n w (prog o.2.1) = Ok w' /\ wP n w' = P) outs /\
    (pd P -> \sum_(o <- outs) o.1 * qf (invmx P) (err o.2) <= n%:R).
Proof. exact run_nees_le. Qed.
Print Assumptions C90_nees_at_most.

(** the innovation the library leaves in the y buffer, normalised by H P H' + R, has expectation m *)
Theorem C90_nis : forall (R : rcfType) (c : cfg) (n : nat) (w : world R) (D0 : dist R 'cV[R]_n) (ss : seq (sop R n)) (j : nat) (D : dist R (noise R))
    (m : nat) (H : 'M[R]_(m, n)) (z : 'cV[R]_m) (Rm : 'M[R]_m) (prog : seq (top R n) -> seq (op R)),
  world_ok c n w -> good_start (world_abs n w) D0 -> sops_ok (world_abs n w) (rcons ss (SMeasure j D)) ->
  nth_error (tw_ob (srun (world_abs n w) ss)) j = Some (TObs H z Rm) ->
  let outs := sim_from (world_abs n w) D0 (rcons ss (SMeasure j D)) in
  List.Forall (fun o => den c n w (prog o.2.1) o.2.1) outs ->
  let y (o : seq (top R n) * 'cV[R]_n) : 'cV[R]_m :=
    if run c N n w (prog o.1) is Ok w' then (if nth_error (w_ob w') j is Some (_, b) then mx m 1 (ob_y b) else 0) else 0 in
  \sum_(o <- outs) o.1 * qf (invmx (H *m e_P (tw_s (srun (world_abs n w) ss)) *m H^T + Rm)) (y o.2) = m%:R.
Proof. exact run_nis. Qed.
Print Assumptions C90_nis.

(** C90_nis has the hypotheses of C71: see C70_C71_C72_example *)
Example C90_example : forall (R : rcfType) (g : est R 2 -> noise R),
  exists (w : world R) (prog : seq (top R 2) -> seq (op R)), world_ok cfg64 2 w /\ good_start (world_abs 2 w) (x_D0 R) /\
  sops_ok (world_abs 2 w) (x_sim1 g) /\ pd (e_P (tw_s (srun (world_abs 2 w) (x_sim1 g)))) /\ forall ts, List.Forall2 (@denotes R cfg64 2 w) (prog ts) ts.
Proof. exact nees_example. Qed.
Example C90_example_at_most : forall (R : rcfType) (g : est R 2 -> noise R),
  exists (w : world R) (prog : seq (top R 2) -> seq (op R)), world_ok cfg64 2 w /\ safe_start (world_abs 2 w) (x_D0 R) /\
  sops_safe (world_abs 2 w) (take 3 (x_sim3 g)) /\ pd (e_P (tw_s (srun (world_abs 2 w) (take 3 (x_sim3 g))))) /\
  forall ts, List.Forall2 (@denotes R cfg64 2 w) (prog ts) ts.
Proof. exact nees_le_example. Qed.
