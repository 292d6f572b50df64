(** * Vocabulary: an observation without one of its components *)
From Coq Require Import ZArith Floats.SpecFloat.
From Verif Require Import Prelude Numeric FloatNum Spec SpecFilter SpecBits SpecFloats SpecRest.
Local Open Scope nat_scope.

(** the indices of m + 1 things without the k-th: 0, ..., k - 1, k + 1, ..., m *)
Definition skip (k i : nat) : nat := if i <? k then i else S i.

(** [o1] (m measured components) is [o] (m + 1 components) with the k-th component left out: its row of H, its reading, its row and column of R *)
Definition leaves_out {T} (n m k : nat) (o o1 : observation T) : Prop :=
  (forall i j, i < m -> j < n -> cell n (ob_H o1) i j = cell n (ob_H o) (skip k i) j) /\
  (forall i, i < m -> cell 1 (ob_z o1) i 0 = cell 1 (ob_z o) (skip k i) 0) /\
  (forall i j, i < m -> j < m -> cell m (ob_R o1) i j = cell (S m) (ob_R o) (skip k i) (skip k j)).

(** the innovation covariance (H P) H' + R of the correction could be decomposed: the S buffer holds its factor *)
Definition decomposed {T} (N : num T) (n m : nat) (o o' : observation T) (f : kalman T) : Prop :=
  b_factor N m (fun i j => b_add N (b_prodt N n (b_prod N n (cell n (ob_H o)) (cell n (kf_P f))) (cell n (ob_H o)) i j) (cell m (ob_R o) i j)) (cell m (ob_S o')).

(** the n x n matrices l and l' are numerically the same *)
Definition same_cells (n : nat) (l l' : list spec_float) : Prop :=
  forall i j v v', i < n -> j < n -> cell n l i j = Some v -> cell n l' i j = Some v' -> float_same v v'.

(** the correction gave no weight to its component k: column k of the n x m gain is zero *)
Definition switched_off (n m k : nat) (o' : observation spec_float) : Prop :=
  forall i v, i < n -> cell m (ob_K o') i k = Some v -> float_zero v.
