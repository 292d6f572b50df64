(** * Element types: the trait [MatrixDataType]. *)
From Verif Require Export Prelude.

(** matrix/data_type.rs:6-31: [MatrixDataTypeBase] and [MatrixDataType].  Each
    arithmetic operation may panic ([None]; overflow-checked fixed-point types do,
    floats never).  [n_sum0] is the start value of [core::iter::Sum] (0.0 or -0.0
    for floats, depending on the Rust release).  [AddAssign]/[SubAssign] are taken
    to be [Add]/[Sub] (true of f32, f64 and the fixed types); [Div] and
    [FromPrimitive] are not modelled: the library calls neither, apart from [Div] in
    the default [recip]. *)
Record num (T : Type) : Type := mk_num {
  n_zero : T;                         (* Zero::zero *)
  n_one : T;                          (* One::one *)
  o_add : T -> T -> option T;         (* +, += *)
  o_sub : T -> T -> option T;         (* -, -= *)
  o_mul : T -> T -> option T;         (* * *)
  o_neg : T -> option T;              (* unary - *)
  o_recip : T -> option T;            (* MatrixDataType::recip, data_type.rs:25-27 *)
  o_sqrt : T -> option T;             (* MatrixDataType::square_root, data_type.rs:30 *)
  n_le : T -> T -> bool;              (* PartialOrd <= *)
  n_sum0 : T                          (* initial value of Iterator::sum *)
}.
Arguments mk_num {T}.
Arguments n_zero {T}. Arguments n_one {T}. Arguments o_add {T}. Arguments o_sub {T}.
Arguments o_mul {T}. Arguments o_neg {T}. Arguments o_recip {T}. Arguments o_sqrt {T}.
Arguments n_le {T}. Arguments n_sum0 {T}.

(** An element operation inside a function body: a panic of the element type
    unwinds the function. *)
Definition of_opt {T} (o : option T) : res T :=
  match o with Some v => Ok v | None => Panic NumPanic end.

Definition n_add {T} (N : num T) (a b : T) : res T := of_opt (o_add N a b).
Definition n_sub {T} (N : num T) (a b : T) : res T := of_opt (o_sub N a b).
Definition n_mul {T} (N : num T) (a b : T) : res T := of_opt (o_mul N a b).
Definition n_neg {T} (N : num T) (a : T) : res T := of_opt (o_neg N a).
Definition n_recip {T} (N : num T) (a : T) : res T := of_opt (o_recip N a).
Definition n_sqrt {T} (N : num T) (a : T) : res T := of_opt (o_sqrt N a).
