(** * Vocabulary: falling objects (for examples/gravity_fixed.rs) *)
From Verif Require Export SpecFixed SpecFixedRange.
From Coq Require Export ZArith QArith Qabs List.
Open Scope Q_scope.

(** the reading at index t: distance plus measurement error, in metres *)
Definition reading (distance error : list Z) (t : nat) : Q := fval 16 (nth t distance 0%Z + nth t error 0%Z).
(** all readings lie within 4 km *)
Definition in_range (distance error : list Z) : Prop := forall t, (t < length distance)%nat -> Qabs (reading distance error t) <= 4000.
(** where a body with constant acceleration a0 that was at s0 with speed v0 is after t seconds, and how fast *)
Definition fall (s0 v0 a0 : Q) (t : nat) : Q := s0 + v0 * qn t + a0 * (qn t * qn t) / 2.
Definition speed (v0 a0 : Q) (t : nat) : Q := v0 + a0 * qn t.
