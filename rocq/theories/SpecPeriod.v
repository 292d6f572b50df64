(** * Vocabulary: a filter that repeats a cycle of calls *)
From Coq Require Import ZArith Floats.SpecFloat.
From Verif Require Import Prelude Numeric Spec SpecFilter History SpecGen.
Local Open Scope nat_scope.

(** there are at most M values satisfying D: they can be numbered 0 .. M-1 *)
Definition at_most {T : Type} (M : Z) (D : T -> Prop) : Prop :=
  exists number : T -> Z, (forall t, D t -> (0 <= number t < M)%Z) /\ (forall a b, D a -> D b -> number a = number b -> a = b).

Section Cycle.
Context {T : Type} (c : cfg) (N : num T).
(** [w k] is the program's state before its k-th turn, [os k] what it does in that turn *)
Definition turns (n : nat) (os : nat -> list (op T)) (w : nat -> world T) : Prop :=
  forall k, run c N n (w k) (os k) = Ok (w (S k)).
(** a call of the library, or writing the state, a control input or a reading *)
Definition data_or_call (o : op T) : bool := is_call o || match o with OSetX _ | OSetU _ _ | OSetZ _ _ => true | _ => false end.
(** the observations a program corrects with *)
Definition corrected (o : op T) : list nat := match o with OCorrect j | OCorrectNonlinear j _ => [j] | _ => [] end.
(** the gains reported for the observations js are the same, element by element *)
Definition gains_same (n : nat) (js : list nat) (w1 w2 : world T) : Prop :=
  forall j m b1 b2, In j js -> nth_error (w_ob w1) j = Some (m, b1) -> nth_error (w_ob w2) j = Some (m, b2) -> same_matrix n m (ob_K b1) (ob_K b2).
End Cycle.
