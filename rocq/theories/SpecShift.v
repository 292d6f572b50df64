(** * Specification: choice of the origin (C92); repeated corrections (C93).  Nothing here refers to the model's functions. *)
From Verif Require Import Spec SpecExact SpecHistory SpecWorld.
From mathcomp Require Import all_ssreflect all_algebra.
Set Implicit Arguments.
Unset Strict Implicit.
Unset Printing Implicit Defensive.
Import Order.TTheory GRing.Theory Num.Theory.
Local Open Scope ring_scope.

Section SpecShift.
Variable R : rcfType.
Variable n : nat.

(** ** the state measured from another origin, x~ = x + s, and the readings of the j-th sensor offset by d j *)
Section Shift.
Variables (s : 'cV[R]_n) (d : nat -> forall m, 'cV[R]_m).
Definition obs_off (v : forall m, 'cV[R]_m) (o : tobs R n) : tobs R n := let: TObs m H z Rm := o in TObs H (z + v m) Rm.
Fixpoint offs (j : nat) (l : seq (tobs R n)) : seq (tobs R n) :=
  match l with [::] => [::] | o :: l => obs_off (d j) o :: offs j.+1 l end.
Definition tw_shift (w : tworld R n) : tworld R n :=
  TW (tw_A w) (tw_Q w) (Est (e_x (tw_s w) + s) (e_P (tw_s w))) (tw_ct w) (offs 0 (tw_ob w)).
(** linear models become affine ones, for which the calls taking functions are needed *)
Definition op_shift (w : tworld R n) (t : top R n) : top R n :=
  match t with
  | TPredict => TPredictNl (fun x => tw_A w *m (x - s) + s)
  | TTuned lam => TTunedNl lam (fun x => tw_A w *m (x - s) + s)
  | TPredictNl F => TPredictNl (fun x => F (x - s) + s)
  | TTunedNl lam F => TTunedNl lam (fun x => F (x - s) + s)
  | TCorrect j => TCorrectNl j (fun m x => (if nth_error (tw_ob w) j is Some (TObs m' H z Rm) then conform_mx 0 (H *m (x - s)) else 0) + d j m)
  | TCorrectNl j F => TCorrectNl j (fun m x => F m (x - s) + d j m)
  | TSetX v => TSetX (v + s)
  | TSetZ j v => TSetZ j (fun m => v m + d j m)
  | _ => t
  end.
Fixpoint ops_shift (w : tworld R n) (ts : seq (top R n)) : seq (top R n) :=
  match ts with [::] => [::] | t :: ts => op_shift w t :: ops_shift (tstep w t) ts end.
End Shift.

(** ** histories of measurements: corrections, new readings, new states; how often sensor j is used *)
Definition measuring (t : top R n) : bool :=
  match t with TCorrect _ | TCorrectNl _ _ | TSetZ _ _ | TSetX _ => true | _ => false end.
Definition uses (j : nat) (t : top R n) : bool :=
  match t with TCorrect i | TCorrectNl i _ => i == j | _ => false end.
End SpecShift.
