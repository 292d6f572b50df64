(** * Specification: a rival filter that follows the same calls with gains of its own choice.

    It predicts like the model says and corrects with x + G (z - H x) for whatever matrix G it likes at each correction.
    [rival_cov] is its error covariance (textbook: A S A' + Q, S + B Q B', (1 - G H) S (1 - G H)' + G R G'), and [rival_phi] the matrix that
    maps its initial error to its final one.  Nothing here refers to the model's functions. *)
From Verif Require Import Spec SpecExact SpecHistory SpecWorld.
From mathcomp Require Import all_ssreflect all_algebra.
Set Implicit Arguments.
Unset Strict Implicit.
Unset Printing Implicit Defensive.
Import Order.TTheory GRing.Theory Num.Theory.
Local Open Scope ring_scope.

Section SpecRival.
Variable R : rcfType.
Variable n : nat.
Implicit Types (w : tworld R n) (t : top R n).

(** the gain for the k-th call, for whatever number of measured components (ignored if that call is no correction) *)
Definition gains : Type := nat -> forall m : nat, 'M[R]_(n, m).

(** what the step does to an error, apart from adding noise *)
Definition phi_step w t (g : forall m, 'M[R]_(n, m)) : 'M[R]_n :=
  match t with
  | TPredict | TPredictNl _ => tw_A w
  | TTuned lam | TTunedNl lam _ => lam^-1 *: tw_A w
  | TCorrect j | TCorrectNl j _ => if nth_error (tw_ob w) j is Some (TObs m H z Rm) then 1%:M - g m *m H else 1%:M
  | TSetP _ => 0
  | _ => 1%:M
  end.
(** the covariance of the noise it adds *)
Definition noise_step w t (g : forall m, 'M[R]_(n, m)) : 'M[R]_n :=
  match t with
  | TPredict | TPredictNl _ | TTuned _ | TTunedNl _ _ => tw_Q w
  | TControl i => if nth_error (tw_ct w) i is Some (TCtl m B u Qc) then B *m Qc *m B^T else 0
  | TCorrect j | TCorrectNl j _ => if nth_error (tw_ob w) j is Some (TObs m H z Rm) then g m *m Rm *m (g m)^T else 0
  | TSetP M => M
  | _ => 0
  end.
Fixpoint rival_cov w (ts : seq (top R n)) (g : gains) (S : 'M[R]_n) : 'M[R]_n :=
  match ts with
  | [::] => S
  | t :: ts => let F := phi_step w t (g 0%N) in
      rival_cov (tstep w t) ts (fun k => g k.+1) (F *m S *m F^T + noise_step w t (g 0%N))
  end.
Fixpoint rival_phi w (ts : seq (top R n)) (g : gains) : 'M[R]_n :=
  match ts with
  | [::] => 1%:M
  | t :: ts => rival_phi (tstep w t) ts (fun k => g k.+1) *m phi_step w t (g 0%N)
  end.

(** what a system's covariances depend on: everything but the estimate, the inputs and the measurements *)
Definition model_of w : tworld R n :=
  TW (tw_A w) (tw_Q w) (Est 0 0) (List.map (fun k : tctl R n => let: TCtl m B u Qc := k in TCtl B 0 Qc) (tw_ct w))
     (List.map (fun o : tobs R n => let: TObs m H z Rm := o in TObs H 0 Rm) (tw_ob w)).
(** the same call, with possibly other data (nonlinear functions, states, inputs, measurements); calls that change the model are excluded *)
Definition same_call t1 t2 : Prop :=
  match t1, t2 with
  | TPredict, TPredict | TPredictNl _, TPredictNl _ | TSetX _, TSetX _ => True
  | TTuned l1, TTuned l2 | TTunedNl l1 _, TTunedNl l2 _ => l1 = l2
  | TControl i, TControl j | TCorrect i, TCorrect j | TCorrectNl i _, TCorrectNl j _ | TSetU i _, TSetU j _ | TSetZ i _, TSetZ j _ => i = j
  | _, _ => False
  end.
End SpecRival.
