(** * Vocabulary: the exact sequence of operations behind each result, in the element type's own arithmetic.

    Matrices are given by their cells ([A i j = Some v]).  [dot], [dot1], [subdot], [osum] (Spec.v) are sums accumulated left to
    right.  Nothing here refers to the model's functions. *)
From Verif Require Export Spec.

Section Bits.
Context {T : Type} (N : num T).
Notation mat := (nat -> nat -> option T).

(** a + b, a - b, a * b, for cells *)
Definition b_add (a b : option T) : option T := obind a (fun u => obind b (fun v => o_add N u v)).
Definition b_sub (a b : option T) : option T := obind a (fun u => obind b (fun v => o_sub N u v)).
Definition b_mul (a b : option T) : option T := obind a (fun u => obind b (fun v => o_mul N u v)).

(** A * B, A * B', A * v (K the inner dimension); the last sum starts from its first product *)
Definition b_prod (K : nat) (A B : mat) : mat := fun i j => dot N K (fun k => A i k) (fun k => B k j).
Definition b_prodt (K : nat) (A B : mat) : mat := fun i j => dot N K (fun k => A i k) (fun k => B j k).
Definition b_prodv (K : nat) (A V : mat) : mat := fun i _ => dot1 N K (fun k => A i k) (fun k => V k 0).

(** column i of the n x n lower factor L of S: with s = S_ii - L_i0^2 - ... - L_i,i-1^2 not [<= 0],
      L_ii = sqrt s,  L_ji = (S_ij - L_i0 L_j0 - ... - L_i,i-1 L_j,i-1) * (1 / L_ii)  for j > i *)
Definition b_column (n : nat) (S L : mat) (i : nat) : Prop := exists s l d,
  obind (S i i) (fun a => subdot N i a (fun k => L i k) (fun k => L i k)) = Some s /\
  n_le N s (n_zero N) = false /\ o_sqrt N s = Some l /\ o_recip N l = Some d /\ L i i = Some l /\
  forall j, i < j < n ->
    L j i = b_mul (obind (S i j) (fun a => subdot N i a (fun k => L i k) (fun k => L j k))) (Some d) /\ L j i <> None.

(** L is the lower factor of S, with zeros above the diagonal *)
Definition b_factor (n : nat) (S L : mat) : Prop :=
  (forall i, i < n -> b_column n S L i) /\ (forall i j, i < j < n -> L i j = Some (n_zero N)).

(** S has no factor: some pivot s = S_ii - L_i0^2 - ... - L_i,i-1^2 is [<= 0].  L then holds the columns of the factor before column i,
    at (i, i) the product of s and the reciprocal of the diagonal element before it (of s and zero if i = 0), and S elsewhere *)
Definition b_no_factor (n : nat) (S L : mat) : Prop :=
  exists i s d, i < n /\ (forall i', i' < i -> b_column n S L i') /\
    obind (S i i) (fun a => subdot N i a (fun k => L i k) (fun k => L i k)) = Some s /\ n_le N s (n_zero N) = true /\
    match i with 0 => Some (n_zero N) | Datatypes.S k => obind (L k k) (o_recip N) end = Some d /\ L i i = o_mul N s d /\ L i i <> None /\
    forall p q, p < n -> q < n -> p < q \/ i <= q -> (p, q) <> (i, i) -> L p q = S p q.

(** sum of (- M k) * X k over k = lo .. lo + cnt - 1 *)
Definition b_negsum (lo cnt : nat) (m x : nat -> option T) : option T :=
  osum N lo cnt (fun k => obind (m k) (fun a => obind (o_neg N a) (fun a' => obind (x k) (fun b => o_mul N a' b)))).

(** X obtained from the lower factor L by two substitutions:
      Y_ji = (delta_ij + sum_{j<=k<i} (-L_ik) Y_jk) * (1/L_ii)              (j <= i)
      X_ij = X_ji = (Y_ji + sum_{i<k<n} (-L_ki) X_jk) * (1/L_ii)            (j <= i) *)
Definition b_inverse (n : nat) (L X : mat) : Prop :=
  exists Y : mat, forall i, i < n -> exists r, obind (L i i) (o_recip N) = Some r /\ forall j, j <= i ->
    Y j i = b_mul (b_add (Some (if i =? j then n_one N else n_zero N)) (b_negsum j (i - j) (fun k => L i k) (fun k => Y j k))) (Some r) /\
    X i j = b_mul (b_add (Y j i) (b_negsum (i + 1) (n - (i + 1)) (fun k => L k i) (fun k => X j k))) (Some r) /\
    X j i = X i j.


(** a correction by m components of an n-component state: with S = (H P) H' + R, its factor L (if there is one) and the inverse Si
    computed from L,
      K = (P H') Si,   x' = x + K y,   P' = P - K (H P) *)
Definition b_update (n m : nat) (H R P x y L Si K x' P' : mat) : Prop := exists S : mat,
  (forall i j, i < m -> j < m -> S i j = b_add (b_prodt n (b_prod n H P) H i j) (R i j)) /\
  (b_factor m S L \/ b_no_factor m S L) /\
  b_inverse m L Si /\
  (forall i j, i < n -> j < m -> K i j = b_prod m (b_prodt n P H) Si i j) /\
  (forall i, i < n -> x' i 0 = b_add (x i 0) (b_prodv m K y i 0)) /\
  (forall i j, i < n -> j < n -> P' i j = b_sub (P i j) (b_prod m K (b_prod n H P) i j)).

(** P' = (A P) A' + Q and P' = ((A P) A') * f + Q *)
Definition b_cov (n : nat) (A P Q P' : mat) : Prop :=
  forall i j, i < n -> j < n -> P' i j = b_add (b_prodt n (b_prod n A P) A i j) (Q i j).
Definition b_cov_tuned (n : nat) (f : T) (A P Q P' : mat) : Prop :=
  forall i j, i < n -> j < n -> P' i j = b_add (b_mul (b_prodt n (b_prod n A P) A i j) (Some f)) (Q i j).
End Bits.
