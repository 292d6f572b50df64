(** * Properties of long runs: C73 (batch least squares), C74 and C75 (repeated cycles), C76 (forgetting). Vocabulary: SpecMap.v, SpecCycle.v. *)
From Verif Require Import Spec Matrix Filter Extended SpecFilter History SpecGen SpecExact SpecHistory SpecWorld SpecMap SpecCycle MapMath CycleMain Forget.
From Verif Require Import ExampleData Represent ExactExamples MapExamples CycleExamples.
From mathcomp Require Import all_ssreflect all_algebra.
Import GRing.Theory Num.Theory.
Local Open Scope ring_scope.
Local Notation N := exact_num.
Local Notation wx n w := (mx n 1 (kf_x (w_kf w))).
Local Notation wP n w := (mx n n (kf_P (w_kf w))).
Local Notation den c n w os ts := (List.Forall2 (@denotes _ c n w) os ts).

(** ** C73: the estimate is the final state of the cheapest explanation of the whole history *)
Theorem C73_cheapest_explanation : forall (R : rcfType) (n : nat) (c : cfg) (w : world R) (os : seq (op R)) (ts : seq (top R n)),
  world_ok c n w -> den c n w os ts -> pd (wP n w) -> ls_ops (world_abs n w) ts ->
  exists (w' : world R) x a, run c N n w os = Ok w' /\
    let: (xb, best) := explain (world_abs n w) ts x a in wx n w' = xb /\
    forall x2 a2, let: (x', cost) := explain (world_abs n w) ts x2 a2 in best <= cost /\ (x' <> xb -> best < cost).
Proof. exact run_map. Qed.
Print Assumptions C73_cheapest_explanation.
(** and the covariance tells how much an explanation ending elsewhere costs at least; that bound is attained at every final state *)
Theorem C73_cost_of_final_state : forall (R : rcfType) (n : nat) (c : cfg) (w : world R) (os : seq (op R)) (ts : seq (top R n)),
  world_ok c n w -> den c n w os ts -> pd (wP n w) -> ls_ops (world_abs n w) ts ->
  exists (w' : world R) (J : R), run c N n w os = Ok w' /\ pd (wP n w') /\
    (forall x a, let: (x', cost) := explain (world_abs n w) ts x a in J + qf (invmx (wP n w')) (x' - wx n w') <= cost) /\
    (forall x', exists x a, explain (world_abs n w) ts x a = (x', J + qf (invmx (wP n w')) (x' - wx n w'))).
Proof. exact run_cheapest. Qed.
Print Assumptions C73_cost_of_final_state.
Example C73_example : forall R : rcfType, exists (w : world R) os, world_ok cfg64 2 w /\ den cfg64 2 w os (x_ls R) /\
  pd (wP 2 w) /\ ls_ops (world_abs 2 w) (x_ls R).
Proof. exact map_example. Qed.

(** ** C74: repeating a cycle, the covariance is monotone *)
Theorem C74_cycles_monotone : forall (R : rcfType) (c : cfg) (n : nat) (w : world R) (oss : seq (seq (op R))) (ts0 : seq (top R n)) (tss : seq (seq (top R n))),
  world_ok c n w -> tw_good (world_abs n w) -> List.Forall2 (fun os ts => den c n w os ts) oss tss ->
  List.Forall (same_calls ts0) tss -> List.Forall (@no_zero_factor R n) ts0 ->
  exists Ps : nat -> 'M[R]_n,
    (forall k, (k <= size oss)%N -> exists w', run c N n w (flatten (take k oss)) = Ok w' /\ wP n w' = Ps k) /\
    (lemx (Ps 0%N) (Ps 1%N) -> forall k, (k < size oss)%N -> lemx (Ps k) (Ps k.+1)) /\
    (lemx (Ps 1%N) (Ps 0%N) -> forall k, (k < size oss)%N -> lemx (Ps k.+1) (Ps k)).
Proof. exact cycle_monotone. Qed.
Print Assumptions C74_cycles_monotone.
Theorem C74_from_certainty : forall (R : rcfType) (c : cfg) (n : nat) (w : world R) (oss : seq (seq (op R))) (ts0 : seq (top R n)) (tss : seq (seq (top R n))),
  world_ok c n w -> tw_good (world_abs n w) -> List.Forall2 (fun os ts => den c n w os ts) oss tss ->
  List.Forall (same_calls ts0) tss -> List.Forall (@no_zero_factor R n) ts0 -> wP n w = 0 ->
  forall k, (k < size oss)%N -> exists w1 w2 : world R, run c N n w (flatten (take k oss)) = Ok w1 /\
    run c N n w (flatten (take k.+1 oss)) = Ok w2 /\ lemx (wP n w1) (wP n w2).
Proof. exact cycle_from_zero. Qed.
Print Assumptions C74_from_certainty.
Example C74_example : forall R : rcfType, exists (w w1 : world R) oss, world_ok cfg64 2 w /\ tw_good (world_abs 2 w) /\
  List.Forall2 (fun os ts => den cfg64 2 w os ts) oss (x_cycles R) /\ List.Forall (same_calls (x_cycle 0 0)) (x_cycles R) /\
  List.Forall (@no_zero_factor R 2) (x_cycle 0 0) /\ size oss = 3%N /\
  run cfg64 N 2 w (flatten (take 1 oss)) = Ok w1 /\ lemx (wP 2 w) (wP 2 w1).
Proof. exact cycle_example. Qed.

(** ** C75: a covariance which one cycle does not increase bounds every filter started below it, forever *)
Theorem C75_bounded_forever : forall (R : rcfType) (c : cfg) (n : nat) (w ws ws' : world R) (oss : seq (seq (op R))) (os0 : seq (op R))
    (ts0 : seq (top R n)) (tss : seq (seq (top R n))),
  world_ok c n w -> tw_good (world_abs n w) -> List.Forall2 (fun os ts => den c n w os ts) oss tss ->
  List.Forall (same_calls ts0) tss -> List.Forall (@no_zero_factor R n) ts0 ->
  world_ok c n ws -> psd (wP n ws) -> den c n ws os0 ts0 -> List.Forall (fun t => skeleton t <> None) ts0 ->
  world_abs n ws = tw_est (world_abs n w) (Est (e_x (tw_s (world_abs n ws))) (wP n ws)) ->
  run c N n ws os0 = Ok ws' -> lemx (wP n ws') (wP n ws) -> lemx (wP n w) (wP n ws) ->
  forall k, (k <= size oss)%N -> exists w', run c N n w (flatten (take k oss)) = Ok w' /\ lemx (wP n w') (wP n ws).
Proof. exact cycle_bound. Qed.
Print Assumptions C75_bounded_forever.
Example C75_example : forall R : rcfType, exists (w ws ws' : world R) oss os0, world_ok cfg64 2 w /\ tw_good (world_abs 2 w) /\
  List.Forall2 (fun os ts => den cfg64 2 w os ts) oss (x_cycles R) /\ List.Forall (same_calls (x_cycle 0 0)) (x_cycles R) /\
  List.Forall (@no_zero_factor R 2) (x_cycle 0 0) /\
  world_ok cfg64 2 ws /\ psd (wP 2 ws) /\ den cfg64 2 ws os0 (x_cycle 0 0) /\ List.Forall (fun t => skeleton t <> None) (x_cycle (0 : R) 0) /\
  world_abs 2 ws = tw_est (world_abs 2 w) (Est (e_x (tw_s (world_abs 2 ws))) (wP 2 ws)) /\
  run cfg64 N 2 ws os0 = Ok ws' /\ lemx (wP 2 ws') (wP 2 ws) /\ lemx (wP 2 w) (wP 2 ws).
Proof. exact bound_example. Qed.

(** ** C76: in units of the reported covariance the influence of the initial guess never grows, and shrinks by lambda^2 with each tuned prediction *)
Theorem C76_initial_guess_forgotten : forall (R : rcfType) (c : cfg) (n : nat) (w1 w2 : world R) (os1 os2 : seq (op R)) (ts : seq (top R n)),
  world_ok c n w1 -> world_ok c n w2 -> den c n w1 os1 ts -> den c n w2 os2 ts ->
  world_abs n w2 = tw_est (world_abs n w1) (Est (wx n w2) (wP n w1)) -> pd (wP n w1) -> ls_ops (world_abs n w1) ts ->
  exists w1' w2', run c N n w1 os1 = Ok w1' /\ run c N n w2 os2 = Ok w2' /\ wP n w1' = wP n w2' /\ pd (wP n w1') /\
    qf (invmx (wP n w1')) (wx n w1' - wx n w2') <= discount ts * qf (invmx (wP n w1)) (wx n w1 - wx n w2).
Proof. exact run_forget. Qed.
Print Assumptions C76_initial_guess_forgotten.
Example C76_example : forall R : rcfType, exists (w1 w2 : world R) os1 os2, world_ok cfg64 2 w1 /\ world_ok cfg64 2 w2 /\
  den cfg64 2 w1 os1 (x_ls R) /\ den cfg64 2 w2 os2 (x_ls R) /\
  world_abs 2 w2 = tw_est (world_abs 2 w1) (Est (wx 2 w2) (wP 2 w1)) /\ pd (wP 2 w1) /\ ls_ops (world_abs 2 w1) (x_ls R) /\
  wx 2 w1 <> wx 2 w2 /\ discount (x_ls R) = 4%:R.
Proof. exact forget_example. Qed.
