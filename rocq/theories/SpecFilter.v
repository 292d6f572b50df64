(** * Specification vocabulary for filters: well-formed objects, what is observable *)
From Verif Require Export Spec Filter.

Section SpecFilter.
Context {T : Type} (c : cfg).

(** every buffer is large enough for its matrix *)
Definition kf_valid (n : nat) (f : kalman T) : Prop :=
  valid c n n (kf_A f) /\ valid c n 1 (kf_x f) /\ valid c n n (kf_P f) /\ valid c n n (kf_Q f) /\
  valid c n 1 (kf_px f) /\ valid c n n (kf_tP f).

Definition ob_valid (n m : nat) (o : observation T) : Prop :=
  valid c m n (ob_H o) /\ valid c m 1 (ob_z o) /\ valid c m m (ob_R o) /\ valid c m 1 (ob_y o) /\
  valid c m m (ob_S o) /\ valid c n m (ob_K o) /\ valid c m m (ob_Sinv o) /\ valid c m n (ob_HP o) /\
  valid c n m (ob_PHt o) /\ valid c n n (ob_KHP o).

Definition ct_valid (n m : nat) (k : control T) : Prop :=
  valid c n m (ct_B k) /\ valid c m 1 (ct_u k) /\ valid c m m (ct_Q k) /\ valid c n m (ct_BQ k).

(** the filter's model matrices are untouched *)
Definition kf_same_model (f f' : kalman T) : Prop := kf_A f' = kf_A f /\ kf_Q f' = kf_Q f.
(** the observation's / control's model and data are untouched *)
Definition ob_same_model (o o' : observation T) : Prop :=
  ob_H o' = ob_H o /\ ob_z o' = ob_z o /\ ob_R o' = ob_R o.
Definition ct_same_model (k k' : control T) : Prop :=
  ct_B k' = ct_B k /\ ct_u k' = ct_u k /\ ct_Q k' = ct_Q k.

(** x and P changed only inside the logical matrices *)
Definition kf_same_tail (n : nat) (f f' : kalman T) : Prop :=
  same_tail n 1 (kf_x f) (kf_x f') /\ same_tail n n (kf_P f) (kf_P f').

(** two filters / observations / controls agree on everything that is not scratch space *)
Definition kf_same (n : nat) (f g : kalman T) : Prop :=
  same_matrix n n (kf_A f) (kf_A g) /\ same_matrix n 1 (kf_x f) (kf_x g) /\
  same_matrix n n (kf_P f) (kf_P g) /\ same_matrix n n (kf_Q f) (kf_Q g).
Definition ob_same (n m : nat) (o o' : observation T) : Prop :=
  same_matrix m n (ob_H o) (ob_H o') /\ same_matrix m 1 (ob_z o) (ob_z o') /\ same_matrix m m (ob_R o) (ob_R o').
Definition ct_same (n m : nat) (k k' : control T) : Prop :=
  same_matrix n m (ct_B k) (ct_B k') /\ same_matrix m 1 (ct_u k) (ct_u k') /\ same_matrix m m (ct_Q k) (ct_Q k').

(** well-formed on both sides, and equal up to scratch space *)
Definition kf_rel (n : nat) (f g : kalman T) : Prop := kf_valid n f /\ kf_valid n g /\ kf_same n f g.
Definition ob_rel (n m : nat) (o o' : observation T) : Prop := ob_valid n m o /\ ob_valid n m o' /\ ob_same n m o o'.
Definition ct_rel (n m : nat) (k k' : control T) : Prop := ct_valid n m k /\ ct_valid n m k' /\ ct_same n m k k'.

(** a closure for the extended filter that keeps its output slice large enough and panics only for arithmetic reasons *)
Definition closure_ok (N : num T) (m n : nat) (h : list T -> list T -> res (list T)) : Prop :=
  forall x out, valid c n 1 x -> valid c m 1 out -> wp (h x out) (fun o => valid c m 1 o) (arith_only N).

(** two closures that compute the same function of the state, whatever the output slice held before *)
Definition closure_two (m n : nat) (h1 h2 : list T -> list T -> res (list T)) : Prop :=
  forall x1 x2 o1 o2, mrel c n 1 x1 x2 -> valid c m 1 o1 -> valid c m 1 o2 -> rres (mrel c m 1) (h1 x1 o1) (h2 x2 o2).

End SpecFilter.
