(** * Specification: the covariance after a cycle of calls.  Nothing here refers to the model's functions. *)
From Verif Require Import Spec SpecExact SpecHistory SpecWorld.
From mathcomp Require Import all_ssreflect all_algebra.
Set Implicit Arguments.
Unset Strict Implicit.
Unset Printing Implicit Defensive.
Local Open Scope ring_scope.

Section SpecSteady.
Variable R : rcfType.
Variable n : nat.
(** the textbook filter w started with the covariance P (and, say, the state 0), and its covariance after the calls ts *)
Definition start (w : tworld R n) (P : 'M[R]_n) : tworld R n := tw_est w (Est 0 P).
Definition cov_after (w : tworld R n) (ts : seq (top R n)) (P : 'M[R]_n) : 'M[R]_n := e_P (tw_s (trun (start w P) ts)).
(** the same A, Q, B, control covariances, H and R; inputs, measurements and the estimate may differ *)
Variant ctl_mats : tctl R n -> tctl R n -> Prop :=
| CtlMats m (B : 'M[R]_(n, m)) u1 u2 Qc : ctl_mats (TCtl B u1 Qc) (TCtl B u2 Qc).
Variant obs_mats : tobs R n -> tobs R n -> Prop :=
| ObsMats m (H : 'M[R]_(m, n)) z1 z2 Rm : obs_mats (TObs H z1 Rm) (TObs H z2 Rm).
Definition same_matrices (w1 w2 : tworld R n) : Prop :=
  tw_A w1 = tw_A w2 /\ tw_Q w1 = tw_Q w2 /\ List.Forall2 ctl_mats (tw_ct w1) (tw_ct w2) /\ List.Forall2 obs_mats (tw_ob w1) (tw_ob w2).
End SpecSteady.
