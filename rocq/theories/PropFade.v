(** * C125: with process noise the filter forgets how it was started, exponentially fast.  Vocabulary: SpecFade.v, SpecMap.v. *)
From Verif Require Import Spec Matrix Filter Extended SpecFilter History SpecGen SpecExact SpecHistory SpecWorld SpecMap SpecFade Fade.
From Verif Require Import ExampleData Represent ExactExamples FadeExamples.
From mathcomp Require Import all_ssreflect all_algebra.
Import GRing.Theory Num.Theory.
Local Open Scope ring_scope.
Local Notation N := exact_num.
Local Notation wx n w := (mx n 1 (kf_x (w_kf w))).
Local Notation wP n w := (mx n n (kf_P (w_kf w))).
Local Notation den c n w os ts := (List.Forall2 (@denotes _ c n w) os ts).

(** two filters that differ in the initial state only *)
Theorem C125_state_forgotten : forall (R : rcfType) (c : cfg) (n : nat) (th : R), 0 <= th ->
  forall (w1 w2 : world R) (os1 os2 : seq (op R)) (ts : seq (top R n)),
  world_ok c n w1 -> world_ok c n w2 -> den c n w1 os1 ts -> den c n w2 os2 ts ->
  world_abs n w2 = tw_est (world_abs n w1) (Est (wx n w2) (wP n w1)) -> pd (wP n w1) ->
  ls_ops (world_abs n w1) ts -> noisy th (world_abs n w1) ts ->
  exists w1' w2', run c N n w1 os1 = Ok w1' /\ run c N n w2 os2 = Ok w2' /\ wP n w1' = wP n w2' /\ pd (wP n w1') /\
    qf (invmx (wP n w1')) (wx n w1' - wx n w2')
      <= discount ts / (1 + th) ^+ predictions ts * qf (invmx (wP n w1)) (wx n w1 - wx n w2).
Proof. exact run_fades_state. Qed.
Print Assumptions C125_state_forgotten.
Example C125_state_example : forall R : rcfType, exists (w1 w2 : world R) os1 os2, world_ok cfg64 2 w1 /\ world_ok cfg64 2 w2 /\
  den cfg64 2 w1 os1 (f_ts R) /\ den cfg64 2 w2 os2 (f_ts R) /\
  world_abs 2 w2 = tw_est (world_abs 2 w1) (Est (wx 2 w2) (wP 2 w1)) /\
  pd (wP 2 w1) /\ ls_ops (world_abs 2 w1) (f_ts R) /\ noisy (200%:R)^-1 (world_abs 2 w1) (f_ts R) /\
  wx 2 w1 <> wx 2 w2 /\ predictions (f_ts R) = 3%N.
Proof. exact fade_state_example. Qed.

(** two filters that differ in the initial state and covariance: a factor between the covariances tends to 1 *)
Theorem C125_covariance_forgotten : forall (R : rcfType) (c : cfg) (n : nat) (th : R), 0 <= th ->
  forall (w1 w2 : world R) (os1 os2 : seq (op R)) (ts : seq (top R n)) (al : R),
  world_ok c n w1 -> world_ok c n w2 -> den c n w1 os1 ts -> den c n w2 os2 ts ->
  world_abs n w2 = tw_est (world_abs n w1) (Est (wx n w2) (wP n w2)) -> pd (wP n w1) -> pd (wP n w2) ->
  ls_ops (world_abs n w1) ts -> ls_ops (world_abs n w2) ts -> noisy th (world_abs n w1) ts ->
  1 <= al -> lemx (wP n w2) (al *: wP n w1) ->
  exists w1' w2', run c N n w1 os1 = Ok w1' /\ run c N n w2 os2 = Ok w2' /\
    lemx (wP n w2') ((1 + (al - 1) / (1 + th) ^+ predictions ts) *: wP n w1').
Proof. exact run_fades_cov. Qed.
Print Assumptions C125_covariance_forgotten.
Theorem C125_variances_agree : forall (R : rcfType) (c : cfg) (n : nat) (th : R), 0 <= th ->
  forall (w1 w2 : world R) (os1 os2 : seq (op R)) (ts : seq (top R n)) (al : R),
  world_ok c n w1 -> world_ok c n w2 -> den c n w1 os1 ts -> den c n w2 os2 ts ->
  world_abs n w2 = tw_est (world_abs n w1) (Est (wx n w2) (wP n w2)) -> pd (wP n w1) -> pd (wP n w2) ->
  ls_ops (world_abs n w1) ts -> ls_ops (world_abs n w2) ts -> noisy th (world_abs n w1) ts -> noisy th (world_abs n w2) ts ->
  1 <= al -> lemx (wP n w2) (al *: wP n w1) -> lemx (wP n w1) (al *: wP n w2) ->
  exists w1' w2', run c N n w1 os1 = Ok w1' /\ run c N n w2 os2 = Ok w2' /\
    forall i, `|wP n w2' i i - wP n w1' i i| <= (al - 1) / (1 + th) ^+ predictions ts * Num.max (wP n w1' i i) (wP n w2' i i).
Proof. exact run_fades_var. Qed.
Print Assumptions C125_variances_agree.
Example C125_covariance_example : forall R : rcfType, exists (w1 w2 : world R) os1 os2, world_ok cfg64 2 w1 /\ world_ok cfg64 2 w2 /\
  den cfg64 2 w1 os1 (f_ts R) /\ den cfg64 2 w2 os2 (f_ts R) /\
  world_abs 2 w2 = tw_est (world_abs 2 w1) (Est (wx 2 w2) (wP 2 w2)) /\
  pd (wP 2 w1) /\ pd (wP 2 w2) /\ ls_ops (world_abs 2 w1) (f_ts R) /\ ls_ops (world_abs 2 w2) (f_ts R) /\
  noisy (200%:R)^-1 (world_abs 2 w1) (f_ts R) /\ noisy (200%:R)^-1 (world_abs 2 w2) (f_ts R) /\
  lemx (wP 2 w2) (2%:R *: wP 2 w1) /\ lemx (wP 2 w1) (2%:R *: wP 2 w2) /\
  wP 2 w1 <> wP 2 w2 /\ predictions (f_ts R) = 3%N.
Proof. exact fade_cov_example. Qed.
