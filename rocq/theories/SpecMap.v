(** * Specification: explanations of a history and what they cost.

    An explanation of a sequence of calls is a starting state and a choice of disturbances; it yields a final state.  Its cost is the
    weighted sum of squares of everything it assumes: distance of the start from the initial estimate, disturbances, measurement
    residuals.  Disturbances are written v = Q a and cost a' Q a, which is v' Q^-1 v when Q is invertible and also makes sense
    when Q is singular (disturbances outside the range of Q are impossible).  Nothing here refers to the model's functions. *)
From Verif Require Import Spec SpecExact SpecHistory SpecWorld.
From mathcomp Require Import all_ssreflect all_algebra.
Set Implicit Arguments.
Unset Strict Implicit.
Unset Printing Implicit Defensive.
Import Order.TTheory GRing.Theory Num.Theory.
Local Open Scope ring_scope.

Section SpecMap.
Variable R : rcfType.
Variable n : nat.

(** a choice for each step, of whatever dimension is needed *)
Definition choice : Type := nat -> forall m : nat, 'cV[R]_m.

Definition explain_step (w : tworld R n) (t : top R n) (a : forall m, 'cV[R]_m) (xJ : 'cV[R]_n * R) : 'cV[R]_n * R :=
  let: (x, J) := xJ in
  match t with
  | TPredict => (tw_A w *m x + tw_Q w *m a n, J + qf (tw_Q w) (a n))
  | TTuned lam => (tw_A w *m x + tw_Q w *m a n, lam ^+ 2 * J + qf (tw_Q w) (a n))       (* older evidence is discounted by lambda^2 *)
  | TControl i => if nth_error (tw_ct w) i is Some (TCtl m B u Qc) then (x + B *m (u + Qc *m a m), J + qf Qc (a m)) else (x, J)
  | TCorrect j => if nth_error (tw_ob w) j is Some (TObs m H z Rm) then (x, J + qf (invmx Rm) (z - H *m x)) else (x, J)
  | _ => (x, J)
  end.
(** the matrices, inputs and measurements in force at each step are those of the program ([tstep]) *)
Fixpoint explain_from (w : tworld R n) (ts : seq (top R n)) (a : choice) (xJ : 'cV[R]_n * R) : 'cV[R]_n * R :=
  match ts with
  | [::] => xJ
  | t :: ts => explain_from (tstep w t) ts (fun k => a k.+1) (explain_step w t (a 0%N) xJ)
  end.
(** final state and cost of the explanation starting at x *)
Definition explain (w : tworld R n) (ts : seq (top R n)) (x : 'cV[R]_n) (a : choice) : 'cV[R]_n * R :=
  explain_from w ts a (x, qf (invmx (e_P (tw_s w))) (x - e_x (tw_s w))).

(** linear calls with sane covariances; the predicted covariance stays definite (e.g. A invertible, or Q definite) *)
Definition ls_op (w : tworld R n) (t : top R n) : Prop :=
  match t with
  | TPredict => psd (tw_Q w) /\ pd (e_P (t_predict (tw_A w) (tw_Q w) (tw_s w)))
  | TTuned lam => lam != 0 /\ psd (tw_Q w) /\ pd (e_P (t_predict_tuned lam (tw_A w) (tw_Q w) (tw_s w)))
  | TControl i => if nth_error (tw_ct w) i is Some (TCtl m B u Qc) then psd Qc else True
  | TCorrect j => if nth_error (tw_ob w) j is Some (TObs m H z Rm) then (0 < m)%N /\ pd Rm else True
  | TSetA _ | TSetQ _ | TSetB _ _ | TSetU _ _ | TSetCQ _ _ | TSetH _ _ | TSetZ _ _ | TSetR _ _ => True
  | _ => False
  end.
Fixpoint ls_ops (w : tworld R n) (ts : seq (top R n)) : Prop :=
  match ts with [::] => True | t :: ts => ls_op w t /\ ls_ops (tstep w t) ts end.

(** how much a history discounts old evidence: the product of the lambda^2 of its tuned predictions *)
Definition discount (ts : seq (top R n)) : R := \prod_(t <- ts) (if t is TTuned lam then lam ^+ 2 else 1).
End SpecMap.
