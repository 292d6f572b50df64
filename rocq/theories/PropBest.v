(** * C128: no linear combination of what was measured beats the filter.  Vocabulary: SpecProb.v, SpecBest.v; [sim_from] as in PropProb.v. *)
From Verif Require Import Spec Matrix Filter Extended SpecFilter History SpecGen SpecExact SpecHistory SpecWorld SpecProb SpecBest ProbMain Best ExampleData Represent ExactExamples ProbExamples.
From mathcomp Require Import all_ssreflect all_algebra.
Import GRing.Theory Num.Theory.
Local Open Scope ring_scope.
Local Notation N := exact_num.
Local Notation wx n w := (mx n 1 (kf_x (w_kf w))).
Local Notation wP n w := (mx n n (kf_P (w_kf w))).
Local Notation den c n w os ts := (List.Forall2 (@denotes _ c n w) os ts).

(** x: the state the filter returns; rival: x plus a constant plus any weighted sum of the innovations of all corrections *)
Theorem C128_best_linear : forall (R : rcfType) (c : cfg) (n : nat) (w : world R) (D0 : dist R 'cV[R]_n) (ss : seq (sop R n))
    (prog : seq (top R n) -> seq (op R)) (L : weights R n) (b : 'cV[R]_n),
  world_ok c n w -> good_start (world_abs n w) D0 -> sops_ok (world_abs n w) ss ->
  let outs := sim_from (world_abs n w) D0 ss in
  List.Forall (fun o => den c n w (prog o.2.1) o.2.1) outs ->
  let x (o : seq (top R n) * 'cV[R]_n) := if run c N n w (prog o.1) is Ok w' then wx n w' else 0 in
  let rival o := x o + b + innovation_sum L (world_abs n w) o.1 in
  exists P : 'M[R]_n,
    List.Forall (fun o => exists w', run c N n w (prog o.2.1) = Ok w' /\ wP n w' = P) outs /\
    expect outs (fun o => (x o - o.2) *m (x o - o.2)^T) = P /\
    expect outs (fun o => rival o - o.2) = b /\
    lemx (P + b *m b^T) (expect outs (fun o => (rival o - o.2) *m (rival o - o.2)^T)) /\
    lemx P (expect outs (fun o => (rival o - o.2) *m (rival o - o.2)^T)).
Proof. exact run_best. Qed.
Print Assumptions C128_best_linear.

(** a two-state system with an input chosen from the estimate by any law [g], four-point noise in every component, and two measurements *)
Example C128_example : forall (R : rcfType) (g : est R 2 -> noise R),
  exists (w : world R) (prog : seq (top R 2) -> seq (op R)), world_ok cfg64 2 w /\ good_start (world_abs 2 w) (x_D0 R) /\
  sops_ok (world_abs 2 w) (rcons (x_sim1 g) (SMeasure 0 (x_D R)) ++ rcons (x_sim2 R) (SMeasure 1 (x_D R))) /\
  forall ts, List.Forall2 (@denotes R cfg64 2 w) (prog ts) ts.
Proof. exact best_example. Qed.
