(** * C132: steady state *)
From Verif Require Import Spec Matrix Filter Extended SpecFilter History SpecGen SpecExact SpecHistory SpecWorld SpecCycle SpecMap SpecFade SpecSteady.
From Verif Require Import ExampleData FilterExact HistExact Steady SteadyExamples.
From mathcomp Require Import all_ssreflect all_algebra.
Set Implicit Arguments.
Unset Strict Implicit.
Unset Printing Implicit Defensive.
Import Order.TTheory GRing.Theory Num.Theory.
Local Open Scope ring_scope.
Local Notation N := (@exact_num _).
Local Notation den c n w os ts := (List.Forall2 (@denotes _ c n w) os ts).
Local Notation wP n w := (mx n n (kf_P (w_kf w))).

(** Two covariance levels L <= U <= al L, checked on one cycle ts0 of calls: from L the cycle ends above L, from U below U, and along the cycle started at U
    the process noise is at least th times what each prediction carries over.  Then any two runs that repeat the cycle at least k times (the number of cycles,
    the data and the starting covariances, anywhere between L and U, may differ) end with covariances that agree up to (al - 1) / (1 + th)^(predictions made in k cycles),
    times U.  In particular every run has a limit, approached geometrically, and it is the same for all. *)
Theorem C132_steady_state : forall (R : rcfType) (c : cfg) (n : nat) (th : R) (w0 : tworld R n) (L U : 'M[R]_n) (ts0 : seq (top R n)) (al : R),
  0 <= th -> tw_good w0 -> List.Forall (@no_zero_factor R n) ts0 -> List.Forall (fun t => skeleton t <> None) ts0 ->
  pd L -> lemx L U -> 1 <= al -> lemx U (al *: L) -> lemx L (cov_after w0 ts0 L) -> lemx (cov_after w0 ts0 U) U ->
  ls_ops (start w0 L) ts0 -> noisy th (start w0 U) ts0 ->
  forall (w1 w2 : world R) (oss1 oss2 : seq (seq (op R))) (tss1 tss2 : seq (seq (top R n))) (k : nat),
  world_ok c n w1 -> world_ok c n w2 -> same_matrices w0 (world_abs n w1) -> same_matrices w0 (world_abs n w2) ->
  List.Forall2 (fun os ts => den c n w1 os ts) oss1 tss1 -> List.Forall2 (fun os ts => den c n w2 os ts) oss2 tss2 ->
  List.Forall (same_calls ts0) tss1 -> List.Forall (same_calls ts0) tss2 ->
  lemx L (wP n w1) -> lemx (wP n w1) U -> lemx L (wP n w2) -> lemx (wP n w2) U -> (k <= size oss1)%N -> (k <= size oss2)%N ->
  exists w1' w2' : world R, run c N n w1 (flatten oss1) = Ok w1' /\ run c N n w2 (flatten oss2) = Ok w2' /\
    lemx L (wP n w1') /\ lemx (wP n w1') U /\
    forall i j, `|wP n w1' i j - wP n w2' i j| <= (al - 1) / (1 + th) ^+ (k * predictions ts0) * ((U i i + U j j) / 2%:R).
Proof. exact steady. Qed.
Print Assumptions C132_steady_state.

(** two drifting numbers, both measured in every cycle: L = 1/2, U = 1, al = 2, th = 1 *)
Example C132_example : forall R : rcfType, exists (w1 w2 : world R) oss1 oss2, world_ok cfg64 2 w1 /\ world_ok cfg64 2 w2 /\
  tw_good (s_tw (2%:R^-1 : R)) /\ List.Forall (@no_zero_factor R 2) (s_cycle 0) /\ List.Forall (fun t => skeleton t <> None) (s_cycle (0 : R)) /\
  pd (2%:R^-1%:M : 'M[R]_2) /\ lemx (2%:R^-1%:M : 'M[R]_2) 1%:M /\ lemx (1%:M : 'M[R]_2) (2%:R *: 2%:R^-1%:M) /\
  lemx (2%:R^-1%:M : 'M[R]_2) (cov_after (s_tw (2%:R^-1 : R)) (s_cycle 0) 2%:R^-1%:M) /\ lemx (cov_after (s_tw (2%:R^-1 : R)) (s_cycle 0) 1%:M) (1%:M : 'M[R]_2) /\
  ls_ops (start (s_tw (2%:R^-1 : R)) (2%:R^-1%:M)) (s_cycle 0) /\ noisy 1 (start (s_tw (2%:R^-1 : R)) (1%:M)) (s_cycle 0) /\
  same_matrices (s_tw (2%:R^-1 : R)) (world_abs 2 w1) /\ same_matrices (s_tw (2%:R^-1 : R)) (world_abs 2 w2) /\
  List.Forall2 (fun os ts => den cfg64 2 w1 os ts) oss1 (s_cycles1 R) /\ List.Forall2 (fun os ts => den cfg64 2 w2 os ts) oss2 (s_cycles2 R) /\
  List.Forall (same_calls (s_cycle 0)) (s_cycles1 R) /\ List.Forall (same_calls (s_cycle 0)) (s_cycles2 R) /\
  wP 2 w1 = 2%:R^-1%:M /\ wP 2 w2 = 1%:M /\ size oss1 = 3%N /\ size oss2 = 4%N /\ predictions (s_cycle (0 : R)) = 1%N.
Proof. exact steady_example. Qed.
