(** * Vocabulary: infinities and NaN in the filter *)
From Verif Require Export SpecFloats SpecGen.

(** the cell (i, j) holds an infinity or a NaN *)
Definition bad_cell (COLS : nat) (l : list spec_float) (i j : nat) : Prop :=
  exists v, cell COLS l i j = Some v /\ sf_finite v = false.
(** every cell does *)
Definition all_bad (ROWS COLS : nat) (l : list spec_float) : Prop := forall i j, i < ROWS -> j < COLS -> bad_cell COLS l i j.

(** everything a program can do, except replacing the state itself: writing to it, or a nonlinear prediction, whose user-supplied
    function may ignore the old state *)
Definition keeps_x {T} (o : op T) : bool :=
  match o with OSetX _ | OPredictNonlinear _ | OPredictTunedNonlinear _ _ => false | _ => true end.
(** everything a program can do, except writing to the covariance *)
Definition keeps_P {T} (o : op T) : bool := match o with OSetP _ => false | _ => true end.

Definition predicts {T} (o : op T) : bool :=
  match o with OPredict | OPredictTuned _ | OPredictNonlinear _ | OPredictTunedNonlinear _ _ => true | _ => false end.
(** a correction by the j-th observation *)
Definition corrects {T} (j : nat) (o : op T) : bool :=
  match o with OCorrect k | OCorrectNonlinear k _ => Nat.eqb k j | _ => false end.
