(** * Specification vocabulary for statements about buffers (any element type).

    Nothing here refers to the model's functions. *)
From Verif Require Export Numeric.

(** A call that returns gives [Q], a call that panics gives [E]. *)
Definition wp {A} (m : res A) (Q : A -> Prop) (E : panic -> Prop) : Prop :=
  match m with Ok a => Q a | Panic p => E p end.

(** Two calls end the same way: both return, with results related by [Rel], or both panic alike. *)
Definition rres {A B} (Rel : A -> B -> Prop) (m1 : res A) (m2 : res B) : Prop :=
  match m1, m2 with
  | Ok a, Ok b => Rel a b
  | Panic p, Panic q => p = q
  | _, _ => False
  end.

(** Every Rust slice of a non-zero-sized type has at most isize::MAX elements. *)
Definition slice_ok {T} (c : cfg) (l : list T) : Prop := (Z.of_nat (length l) <= imax c)%Z.

(** A ROWS x COLS matrix stored in slice [l]: the slice is large enough. *)
Definition valid {T} (c : cfg) (ROWS COLS : nat) (l : list T) : Prop :=
  ROWS * COLS <= length l /\ slice_ok c l.

(** The element in row i, column j (row-major). *)
Definition cell {T} (COLS : nat) (l : list T) (i j : nat) : option T := nth_error l (i * COLS + j).

Definition obind {A B} (o : option A) (k : A -> option B) : option B :=
  match o with Some a => k a | None => None end.

(** f 0 * g 0 + ... + f (K-1) * g (K-1), accumulated left to right starting from
    zero, in the element type's own arithmetic; [None] if an operation panics. *)
Fixpoint dot {T} (N : num T) (K : nat) (f g : nat -> option T) : option T :=
  match K with
  | 0 => Some (n_zero N)
  | S k => obind (dot N k f g) (fun acc =>
           obind (f k) (fun u => obind (g k) (fun v =>
           obind (o_mul N u v) (fun p => o_add N acc p))))
  end.

(** The same, started from the first product instead of zero (K >= 1). *)
Fixpoint dot1 {T} (N : num T) (K : nat) (f g : nat -> option T) : option T :=
  match K with
  | 0 => None
  | S 0 => obind (f 0) (fun u => obind (g 0) (fun v => o_mul N u v))
  | S k => obind (dot1 N k f g) (fun acc =>
           obind (f k) (fun u => obind (g k) (fun v =>
           obind (o_mul N u v) (fun p => o_add N acc p))))
  end.

(** [r] is the outcome of assigning to each cell (i,j) of the ROWS x COLS matrix
    [old] the value [f i j v] ([v] its old value), leaving everything else alone:
    either all succeed, or some [f i j v] is [None] and the call panics for that reason. *)
Definition cellwise {T} (ROWS COLS : nat) (old : list T) (f : nat -> nat -> T -> option T)
    (r : res (list T)) : Prop :=
  match r with
  | Ok new =>
      length new = length old
      /\ (forall i j v, i < ROWS -> j < COLS -> cell COLS old i j = Some v ->
            cell COLS new i j = f i j v)
      /\ (forall p, ROWS * COLS <= p -> nth_error new p = nth_error old p)
  | Panic e =>
      e = NumPanic /\
      exists i j v, i < ROWS /\ j < COLS /\ cell COLS old i j = Some v /\ f i j v = None
  end.

(** a - f 0 * g 0 - ... - f (K-1) * g (K-1), left to right. *)
Fixpoint subdot {T} (N : num T) (K : nat) (a : T) (f g : nat -> option T) : option T :=
  match K with
  | 0 => Some a
  | S k => obind (subdot N k a f g) (fun acc =>
           obind (f k) (fun u => obind (g k) (fun v =>
           obind (o_mul N u v) (fun p => o_sub N acc p))))
  end.

(** f lo + ... + f (lo+cnt-1), left to right, started from the element type's
    [Sum] start value. *)
Fixpoint osum {T} (N : num T) (lo cnt : nat) (f : nat -> option T) : option T :=
  match cnt with
  | 0 => Some (n_sum0 N)
  | S k => obind (osum N lo k f) (fun acc => obind (f (lo + k)) (fun v => o_add N acc v))
  end.

(** [l'] and [l] agree outside the logical ROWS x COLS matrix. *)
Definition same_tail {T} (ROWS COLS : nat) (l l' : list T) : Prop :=
  length l' = length l /\ forall p, ROWS * COLS <= p -> nth_error l' p = nth_error l p.

(** An element type whose arithmetic never panics, apart from taking reciprocals and
    square roots: those are only required of numbers greater than zero (more
    precisely: numbers not [<= 0]).  True of floats and of exact real arithmetic. *)
Definition num_total {T} (N : num T) : Prop :=
  (forall a b, o_add N a b <> None) /\ (forall a b, o_sub N a b <> None) /\
  (forall a b, o_mul N a b <> None) /\ (forall a, o_neg N a <> None) /\
  (forall s, n_le N s (n_zero N) = false -> exists l, o_sqrt N s = Some l /\ o_recip N l <> None).

(** Two buffers hold the same ROWS x COLS matrix. *)
Definition same_matrix {T} (ROWS COLS : nat) (a b : list T) : Prop :=
  forall p, p < ROWS * COLS -> nth_error a p = nth_error b p.

(** An element type none of whose operations ever panics (f32, f64). *)
Definition never_panics {T} (N : num T) : Prop :=
  (forall a b, o_add N a b <> None) /\ (forall a b, o_sub N a b <> None) /\
  (forall a b, o_mul N a b <> None) /\ (forall a, o_neg N a <> None) /\
  (forall a, o_recip N a <> None) /\ (forall a, o_sqrt N a <> None).

(** Panics that come from the element type's own arithmetic (so never for f32, f64). *)
Definition arith_only {T} (N : num T) (e : panic) : Prop := e = NumPanic /\ ~ never_panics N.

(** Two valid matrices with the same contents. *)
Definition mrel {T} (c : cfg) (R C : nat) (a b : list T) : Prop :=
  valid c R C a /\ valid c R C b /\ same_matrix R C a b.

(** If both calls return, the results are related *)
Definition rok {A B} (Rel : A -> B -> Prop) (m1 : res A) (m2 : res B) : Prop :=
  match m1, m2 with Ok a, Ok b => Rel a b | _, _ => True end.
