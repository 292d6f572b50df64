(** * Specification: process noise that is never negligible, and how much a history forgets.

    [noisy th w ts]: every call of the program is linear with sane covariances ([ls_ops], SpecMap.v) and at every prediction the
    added process noise is, in every direction, at least th times the covariance that is carried over.  Nothing here refers to
    the model's functions. *)
From Verif Require Import Spec SpecExact SpecHistory SpecWorld SpecMap.
From mathcomp Require Import all_ssreflect all_algebra.
Set Implicit Arguments.
Unset Strict Implicit.
Unset Printing Implicit Defensive.
Import Order.TTheory GRing.Theory Num.Theory.
Local Open Scope ring_scope.

Section SpecFade.
Variable R : rcfType.
Variable n : nat.

Definition noisy_op (th : R) (w : tworld R n) (t : top R n) : Prop :=
  match t with
  | TPredict => lemx (th *: (tw_A w *m e_P (tw_s w) *m (tw_A w)^T)) (tw_Q w)
  | TTuned lam => lemx (th *: ((lam ^+ 2)^-1 *: (tw_A w *m e_P (tw_s w) *m (tw_A w)^T))) (tw_Q w)
  | _ => True
  end.
Fixpoint noisy (th : R) (w : tworld R n) (ts : seq (top R n)) : Prop :=
  match ts with [::] => True | t :: ts => noisy_op th w t /\ noisy th (tstep w t) ts end.

(** number of predictions of a history *)
Definition is_predict (t : top R n) : bool := match t with TPredict | TTuned _ => true | _ => false end.
Definition predictions (ts : seq (top R n)) : nat := count is_predict ts.
End SpecFade.
