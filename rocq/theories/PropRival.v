(** * C127: no other choice of gains does better, over any history *)
From Verif Require Import Spec Matrix Filter Extended SpecFilter History SpecGen SpecExact SpecHistory SpecWorld SpecRival ExampleData ExactExamples Rival RivalExamples.
From mathcomp Require Import all_ssreflect all_algebra.
Set Implicit Arguments.
Unset Strict Implicit.
Unset Printing Implicit Defensive.
Import Order.TTheory GRing.Theory Num.Theory.
Local Open Scope ring_scope.

Local Notation N := exact_num.
Local Notation wP n w := (mx n n (kf_P (w_kf w))).
Local Notation den c n w os ts := (List.Forall2 (@denotes _ c n w) os ts).

(** whatever gains a rival uses, the covariance the filter reports is at most the rival's true error covariance *)
Theorem C127_any_gains : forall (R : rcfType) (c : cfg) (n : nat) (w : world R) (os : seq (op R)) (ts : seq (top R n)) (g : gains R n),
  world_ok c n w -> den c n w os ts -> tw_good (world_abs n w) -> ops_good (world_abs n w) ts ->
  exists w', run c N n w os = Ok w' /\ lemx (wP n w') (rival_cov (world_abs n w) ts g (wP n w)).
Proof. exact @run_rival. Qed.
Print Assumptions C127_any_gains.

(** ... and one rival reaches it *)
Theorem C127_attained : forall (R : rcfType) (c : cfg) (n : nat) (w : world R) (os : seq (op R)) (ts : seq (top R n)),
  world_ok c n w -> den c n w os ts -> tw_good (world_abs n w) -> ops_good (world_abs n w) ts ->
  exists w' g, run c N n w os = Ok w' /\ wP n w' = rival_cov (world_abs n w) ts g (wP n w).
Proof. exact @run_own. Qed.
Print Assumptions C127_attained.

(** the part of the bound that stems from the initial uncertainty, and the part that does not *)
Theorem C127_split : forall (R : rcfType) (c : cfg) (n : nat) (w : world R) (os : seq (op R)) (ts : seq (top R n)) (g : gains R n),
  world_ok c n w -> den c n w os ts -> tw_good (world_abs n w) -> ops_good (world_abs n w) ts ->
  exists w', run c N n w os = Ok w' /\
    lemx (wP n w') (rival_phi (world_abs n w) ts g *m wP n w *m (rival_phi (world_abs n w) ts g)^T + rival_cov (world_abs n w) ts g 0).
Proof. exact @run_rival_split. Qed.
Print Assumptions C127_split.

(** if some gains forget the start altogether, the filter's covariance is bounded independently of the initial one *)
Theorem C127_deadbeat : forall (R : rcfType) (c : cfg) (n : nat) (w : world R) (os : seq (op R)) (ts : seq (top R n)) (g : gains R n),
  world_ok c n w -> den c n w os ts -> tw_good (world_abs n w) -> ops_good (world_abs n w) ts ->
  rival_phi (world_abs n w) ts g = 0 ->
  exists w', run c N n w os = Ok w' /\ lemx (wP n w') (rival_cov (world_abs n w) ts g 0).
Proof. exact @run_deadbeat. Qed.
Print Assumptions C127_deadbeat.

(** if some gains keep the covariance below M over one cycle of calls, the filter's stays below M over any number of such cycles, whatever is measured *)
Theorem C127_for_ever : forall (R : rcfType) (c : cfg) (n : nat) (w : world R) (os : seq (op R)) (cs : seq (seq (top R n))) (ts0 : seq (top R n))
  (g : gains R n) (M : 'M[R]_n),
  world_ok c n w -> den c n w os (List.concat cs) -> tw_good (world_abs n w) -> ops_good (world_abs n w) (List.concat cs) ->
  List.Forall (fun ts => List.Forall2 (@same_call R n) ts ts0) cs ->
  lemx (wP n w) M -> lemx (rival_cov (world_abs n w) ts0 g M) M ->
  exists w', run c N n w os = Ok w' /\ lemx (wP n w') M.
Proof. exact @run_for_ever. Qed.
Print Assumptions C127_for_ever.

(** a program with every kind of call; any gains will do *)
Example C127_example : forall R : rcfType, exists (w : world R) os, world_ok cfg64 2 w /\ world_abs 2 w = x_tw R /\ den cfg64 2 w os (x_ts R) /\
  tw_good (x_tw R) /\ ops_good (x_tw R) (x_ts R).
Proof. exact @rival_example. Qed.
(** position and velocity, the position measured: with gain (1, 1) two cycles forget the start *)
Example C127_example_deadbeat : forall (R : rcfType) (z1 z2 : R), exists (w : world R) os, world_ok cfg64 2 w /\ world_abs 2 w = x_tw R /\
  den cfg64 2 w os (d_ts z1 z2) /\ tw_good (x_tw R) /\ ops_good (x_tw R) (d_ts z1 z2) /\ rival_phi (x_tw R) (d_ts z1 z2) (d_g R) = 0.
Proof. exact @deadbeat_example. Qed.
(** ... so there is a bound for any number of cycles and any readings *)
Example C127_example_for_ever : forall (R : rcfType) (zs : seq (R * R)), exists (w : world R) os M, let cs := [seq d_ts z.1 z.2 | z <- zs] in
  world_ok cfg64 2 w /\ world_abs 2 w = x_tw R /\ den cfg64 2 w os (List.concat cs) /\ tw_good (x_tw R) /\ ops_good (x_tw R) (List.concat cs) /\
  List.Forall (fun ts => List.Forall2 (@same_call R 2) ts (d_ts 0 0)) cs /\
  lemx (wP 2 w) M /\ lemx (rival_cov (x_tw R) (d_ts 0 0) (d_g R) M) M.
Proof. exact @for_ever_example. Qed.
