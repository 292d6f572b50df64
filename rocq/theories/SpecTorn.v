(** * Vocabulary: matrix operations that panic half-way *)
From Verif Require Export Spec SpecBits SpecCrash CrashMatrix.

Section SpecTorn.
Context {T : Type} (c : cfg) (N : num T).
Notation mat := (nat -> nat -> option T).

(** an R x C matrix that was being overwritten when the new value of cell (p, q) could not be computed ([after p q = None]); [first i j p q]: cell (i, j)
    is overwritten before cell (p, q).  The earlier cells are new, all others old. *)
Definition torn (first : nat -> nat -> nat -> nat -> Prop) (R C : nat) (before after now : mat) : Prop :=
  exists p q, p < R /\ q < C /\ after p q = None /\
    forall i j, i < R -> j < C -> (first i j p q -> now i j = after i j) /\ (~ first i j p q -> now i j = before i j).
(** row by row from the first cell; row by row from the last cell backwards; the columns from the last to the first, each from the top *)
Definition by_rows (i j p q : nat) : Prop := i < p \/ (i = p /\ j < q).
Definition backwards (i j p q : nat) : Prop := p < i \/ (i = p /\ q < j).
Definition by_columns (i j p q : nat) : Prop := q < j \/ (j = q /\ i < p).

(** what an operation with the output (or in-place) matrix [old] leaves: an arithmetic panic, the storage after the matrix untouched, the matrix torn *)
Definition left_by (first : nat -> nat -> nat -> nat -> Prop) (R C : nat) (old : list T) (after : mat) (r : cr (list T)) : Prop :=
  match r with
  | Returned new => same_tail R C old new /\ forall i j, i < R -> j < C -> cell C new i j = after i j /\ after i j <> None
  | Unwound s p => p = NumPanic /\ same_tail R C old s /\ torn first R C (cell C old) after (cell C s)
  end.
(** a Cholesky decomposition of A that panicked in column k: the columns before k are those of the factor, column k may hold anything from the diagonal down,
    everything else is as in A *)
Definition left_cholesky (n : nat) (A t : list T) : Prop :=
  same_tail n n A t /\ exists k, k < n /\ (forall q, q < k -> b_column N n (cell n A) (cell n t) q) /\
    forall p q, p < n -> q < n -> p < q \/ k < q -> cell n t p q = cell n A p q.
End SpecTorn.
