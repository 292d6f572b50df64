(** * Vocabulary: a filter that has nothing to do *)
From Coq Require Import ZArith Floats.SpecFloat.
From Verif Require Import Prelude Numeric FloatNum FixedNum Spec SpecFilter History SpecGen SpecFloats.
Local Open Scope nat_scope.

(** ** element types with a notion of "zero", of "harmless factor" and of "numerically the same" *)
Section Rest.
Context {T : Type} (c : cfg) (N : num T) (zero harmless : T -> Prop) (same : T -> T -> Prop).

(** a harmless factor times a zero is a zero, sums and differences of zeros are zeros, and adding a zero changes nothing *)
Definition zero_laws : Prop :=
  (forall a b v, harmless a -> zero b -> o_mul N a b = Some v -> zero v) /\
  (forall a b v, zero a -> zero b -> o_add N a b = Some v -> zero v) /\
  (forall a b v, zero a -> zero b -> o_sub N a b = Some v -> zero v) /\
  (forall a b v, zero b -> o_add N a b = Some v -> same a v).

(** all elements of the ROWS x COLS matrix l *)
Definition all_cells (ROWS COLS : nat) (P : T -> Prop) (l : list T) : Prop :=
  forall i j v, i < ROWS -> j < COLS -> cell COLS l i j = Some v -> P v.
(** the vectors l and l' of n elements are numerically the same *)
Definition same_vector (n : nat) (l l' : list T) : Prop :=
  forall i v v', i < n -> cell 1 l i 0 = Some v -> cell 1 l' i 0 = Some v' -> same v v'.

(** the state, every measurement and every control are zero, and the model matrices A, B, H are harmless *)
Definition at_rest (n : nat) (w : world T) : Prop :=
  all_cells n 1 zero (kf_x (w_kf w)) /\ all_cells n n harmless (kf_A (w_kf w)) /\
  (forall i m k, nth_error (w_ct w) i = Some (m, k) -> all_cells m 1 zero (ct_u k) /\ all_cells n m harmless (ct_B k)) /\
  (forall j m b, nth_error (w_ob w) j = Some (m, b) -> all_cells m 1 zero (ob_z b) /\ all_cells m n harmless (ob_H b)).
(** what the program may do meanwhile: everything but writing to A, x, B, u, H, z; its closures map zero states to zeros *)
Definition restful (n : nat) (dims : list nat) (o : op T) : Prop :=
  match o with
  | OPredictNonlinear h | OPredictTunedNonlinear _ h => forall x out r, all_cells n 1 zero x -> h x out = Ok r -> all_cells n 1 zero r
  | OCorrectNonlinear j h => match nth_error dims j with Some m => forall x out r, all_cells n 1 zero x -> h x out = Ok r -> all_cells m 1 zero r | None => True end
  | OPredict | OPredictTuned _ | OControl _ | OCorrect _ | OSetP _ | OSetQ _ | OSetCQ _ _ | OSetR _ _ => True
  | _ => False
  end.
(** every correction of the run computes a harmless gain *)
Fixpoint gains_harmless (n : nat) (w : world T) (os : list (op T)) : Prop :=
  match os with
  | [] => True
  | o :: os => forall w', step c N n w o = Ok w' ->
      (match o with
       | OCorrect j | OCorrectNonlinear j _ => match nth_error (w_ob w') j with Some (m, b) => all_cells n m harmless (ob_K b) | None => True end
       | _ => True end) /\
      gains_harmless n w' os
  end.
End Rest.

(** ** floats: +0 and -0; finite numbers; equal, or zeros of any sign *)
Definition float_zero (v : spec_float) : Prop := match v with S754_zero _ => True | _ => False end.
Definition float_same (a v : spec_float) : Prop := a = v \/ (float_zero a /\ float_zero v).
Definition float_finite (v : spec_float) : Prop := sf_finite v = true.
(** ** fixed-point numbers: 0; all numbers; equal (for numbers of the type) *)
Definition fixed_zero (v : Z) : Prop := v = 0%Z.
Definition fixed_any (v : Z) : Prop := True.
Definition fixed_same (bits : Z) (a v : Z) : Prop := fx_fits bits a = true -> v = a.
