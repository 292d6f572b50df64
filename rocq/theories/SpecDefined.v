(** * Vocabulary: when can a formula be evaluated in an element type whose operations may panic (fixed point)? *)
From Verif Require Export SpecBits.

Section Defined.
Context {T : Type} (N : num T).
Notation mat := (nat -> nat -> option T).

(** all entries of the R x C matrix have values *)
Definition defined (R C : nat) (M : mat) : Prop := forall i j, i < R -> j < C -> M i j <> None.

(** A x, and (A P) A' + Q, can be evaluated *)
Definition can_predict (n : nat) (A x P Q : mat) : Prop :=
  defined n 1 (b_prodv N n A x) /\ defined n n (fun i j => b_add N (b_prodt N n (b_prod N n A P) A i j) (Q i j)).
(** x + B u, and P + (B Q) B', can be evaluated *)
Definition can_control (n m : nat) (x P B u Q : mat) : Prop :=
  defined n 1 (fun i j => b_add N (x i j) (b_prodv N m B u i j)) /\ defined n n (fun i j => b_add N (P i j) (b_prodt N m (b_prod N m B Q) B i j)).

(** L is the factor of S and besides each pivot S_ii - L_i0^2 - ... - L_i,i-1^2 can be multiplied by the reciprocal of the previous diagonal
    entry of L (by zero for i = 0): the code does so, and then does not use the product *)
Definition b_pivot (S L : mat) (i : nat) : option T := obind (S i i) (fun a => subdot N i a (fun k => L i k) (fun k => L i k)).
Definition b_idle (n : nat) (S L : mat) : Prop :=
  forall i, i < n -> b_mul N (b_pivot S L i) (match i with 0 => Some (n_zero N) | S i' => obind (L i' i') (o_recip N) end) <> None.

(** the formulas of a correction - innovation, S = (H P) H' + R, its factor and inverse, gain, state and covariance - can be evaluated *)
Definition can_correct (n m : nat) (H z R x P : mat) : Prop := exists y S L Si K x' P' : mat,
  (forall i, i < m -> y i 0 = b_sub N (z i 0) (b_prodv N n H x i 0)) /\
  (forall i j, i < m -> j < m -> S i j = b_add N (b_prodt N n (b_prod N n H P) H i j) (R i j)) /\
  b_factor N m S L /\ b_inverse N m L Si /\
  (forall i j, i < n -> j < m -> K i j = b_prod N m (b_prodt N n P H) Si i j) /\
  (forall i, i < n -> x' i 0 = b_add N (x i 0) (b_prodv N m K y i 0)) /\
  (forall i j, i < n -> j < n -> P' i j = b_sub N (P i j) (b_prod N m K (b_prod N n H P) i j)) /\
  defined m 1 y /\ defined m m S /\ defined m m Si /\ defined n m K /\ defined n 1 x' /\ defined n n P' /\
  b_idle m S L.
End Defined.
