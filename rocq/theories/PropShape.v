(** * Shape queries and vector accessors: C61, C62.  Vocabulary: Spec.v *)
From Verif Require Import Spec Matrix ShapeProof.

(** ** C61: [len], [is_valid] and [is_empty] tell the truth *)
Theorem C61_len : forall (c : cfg) (R C : nat), R * C <= usize_max c -> m_len c R C = Ok (R * C).
Proof. exact len_ok. Qed.
Print Assumptions C61_len.
Theorem C61_is_valid : forall (T : Type) (c : cfg) (R C : nat) (m : list T), R * C <= usize_max c ->
  exists b, is_valid c R C m = Ok b /\ (b = true <-> R * C <= length m).
Proof. intros T. exact is_valid_ok. Qed.
Print Assumptions C61_is_valid.
Theorem C61_is_empty : forall (c : cfg) (R C : nat), R * C <= usize_max c -> exists b, is_empty c R C = Ok b /\ (b = true <-> R = 0 \/ C = 0).
Proof. exact is_empty_ok. Qed.
Print Assumptions C61_is_empty.
(** a shape that cannot exist panics in debug builds *)
Theorem C61_overflow : forall (T : Type) (c : cfg) (R C : nat) (m : list T), usize_max c < R * C -> overflow_checks c = true ->
  m_len c R C = Panic UsizeOverflow /\ is_valid c R C m = Panic UsizeOverflow /\ is_empty c R C = Panic UsizeOverflow.
Proof. intros T. exact shape_overflow. Qed.
Print Assumptions C61_overflow.
(** in release builds there is a non-empty shape for which an empty slice is "valid" and the matrix "empty" *)
Theorem C61_release_refuted : forall (T : Type) (c : cfg) (h : nat), overflow_checks c = false -> usize_max c + 1 = 2 * h -> 1 <= h ->
  exists R C, 1 <= R /\ 1 <= C /\ is_valid c R C (@nil T) = Ok true /\ is_empty c R C = Ok true.
Proof. intros T. exact shape_wraps. Qed.
Print Assumptions C61_release_refuted.

(** ** C62: vector and scalar accessors address the named component *)
Theorem C62_get_row : forall (T : Type) (c : cfg) (R : nat) (m : list T) (i : nat), valid c R 1 m -> i < R -> exists v, cell 1 m i 0 = Some v /\ get_row c m i = Ok v.
Proof. intros T. exact vector_get. Qed.
Print Assumptions C62_get_row.
Theorem C62_get_col : forall (T : Type) (c : cfg) (C : nat) (m : list T) (j : nat), valid c 1 C m -> j < C -> exists v, cell C m 0 j = Some v /\ get_col c C m j = Ok v.
Proof. intros T. exact vector_get_col. Qed.
Print Assumptions C62_get_col.
Theorem C62_get_value : forall (T : Type) (c : cfg) (m : list T), valid c 1 1 m -> exists v, cell 1 m 0 0 = Some v /\ get_value c m = Ok v.
Proof. intros T. exact scalar_get. Qed.
Print Assumptions C62_get_value.
Theorem C62_set_row : forall (T : Type) (c : cfg) (R : nat) (m : list T) (i : nat) (v : T), valid c R 1 m -> i < R ->
  exists m', set_row c m i v = Ok m' /\ length m' = length m /\ cell 1 m' i 0 = Some v /\ forall p, p <> i -> nth_error m' p = nth_error m p.
Proof. intros T. exact vector_set. Qed.
Print Assumptions C62_set_row.
Theorem C62_set_col : forall (T : Type) (c : cfg) (C : nat) (m : list T) (j : nat) (v : T), valid c 1 C m -> j < C ->
  exists m', set_col c C m j v = Ok m' /\ length m' = length m /\ cell C m' 0 j = Some v /\ forall p, p <> j -> nth_error m' p = nth_error m p.
Proof. intros T. exact vector_set_col. Qed.
Print Assumptions C62_set_col.
Theorem C62_set_value : forall (T : Type) (c : cfg) (m : list T) (v : T), valid c 1 1 m ->
  exists m', set_value c m v = Ok m' /\ length m' = length m /\ cell 1 m' 0 0 = Some v /\ forall p, p <> 0 -> nth_error m' p = nth_error m p.
Proof. intros T. exact scalar_set. Qed.
Print Assumptions C62_set_value.
Example C61_C62_example : forall (T : Type) (c : cfg) (v : T), 255 <= usize_max c ->
  2 * 3 <= usize_max c /\ valid c 3 1 [v; v; v] /\ valid c 1 3 [v; v; v] /\ valid c 1 1 [v].
Proof. intros T. exact ex_shape. Qed.
