(** * Specification: noise no larger than the filter has been told, and normalised errors (C89, C90).

    Nothing here refers to the model's functions. *)
From Verif Require Import Spec SpecExact SpecHistory SpecWorld SpecProb.
From mathcomp Require Import all_ssreflect all_algebra.
Set Implicit Arguments.
Unset Strict Implicit.
Unset Printing Implicit Defensive.
Import Order.TTheory GRing.Theory Num.Theory.
Local Open Scope ring_scope.

Section SpecRobust.
Variable R : rcfType.
Variable n : nat.

(** probabilities add up to one, zero mean, covariance at most C *)
Definition at_most (m : nat) (D : dist R (noise R)) (C : 'M[R]_m) : Prop :=
  mass D = 1 /\ expect D (fun v => v m) = 0 /\ lemx (expect D (fun v => v m *m (v m)^T)) C.

(** the filter has been told sane covariances, and the noise is at most that; tuning factors discount (|lambda| <= 1) *)
Definition sop_safe (w : tworld R n) (s : sop R n) : Prop :=
  match s with
  | SPredict D => psd (tw_Q w) /\ at_most D (tw_Q w)
  | STuned lam D => lam != 0 /\ lam ^+ 2 <= 1 /\ psd (tw_Q w) /\ at_most D (tw_Q w)
  | SControl i D => if nth_error (tw_ct w) i is Some (TCtl m B u Qc) then psd Qc /\ at_most D Qc else mass D = 1
  | SMeasure j D => if nth_error (tw_ob w) j is Some (TObs m H z Rm) then (0 < m)%N /\ pd Rm /\ at_most D Rm else mass D = 1
  | SInput _ _ => True
  | SSet (TSetA _) | SSet (TSetQ _) | SSet (TSetB _ _) | SSet (TSetCQ _ _) | SSet (TSetH _ _) | SSet (TSetR _ _) => True
  | SSet _ => False
  end.
Fixpoint sops_safe (w : tworld R n) (ss : seq (sop R n)) : Prop :=
  match ss with
  | [::] => True
  | s :: ss => sop_safe w s /\ sops_safe (trun w (sdo w 0 s (@no_noise R)).1) ss
  end.
(** the initial error has mean zero and covariance at most P *)
Definition safe_start (w : tworld R n) (D0 : dist R 'cV[R]_n) : Prop :=
  psd (e_P (tw_s w)) /\ mass D0 = 1 /\ expect D0 (fun xt => e_x (tw_s w) - xt) = 0 /\
  lemx (expect D0 (fun xt => (e_x (tw_s w) - xt) *m (e_x (tw_s w) - xt)^T)) (e_P (tw_s w)).
End SpecRobust.
