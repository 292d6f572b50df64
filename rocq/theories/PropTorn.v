(** * Matrix operations a program calls itself, and catches the panic of: C131.

    [left_by first R C old after r] (SpecTorn.v): when the call returns, cell (i, j) of the output (or in-place) matrix is [after i j]; when it panics, some cell
    (p, q) has no value ([after p q = None]: the element type's arithmetic panics there), the cells written before it hold their new values, all others their old
    ones, and the storage behind the matrix is as it was.  The inputs of these functions are shared references, so they stay as they are. *)
From Verif Require Import Spec SpecBits SpecFilter SpecGen Matrix Crash SpecTorn CrashMatrix.
From Verif Require Import BuildSim CrashErase CrashMat CrashMatChol MatExamples FixedNum TornExamples.
From Coq Require Import ZArith.
Open Scope nat_scope.

Theorem C131_mult : forall (T : Type) (c : cfg) (N : num T) (M K U : nat) (a b cm : list T), valid c M K a -> valid c K U b -> valid c M U cm ->
  left_by by_columns M U cm (b_prod N K (cell K a) (cell U b)) (mult_cr c N M K U a b cm).
Proof. exact @mult_torn. Qed.
Print Assumptions C131_mult.

Theorem C131_mult_buffered : forall (T : Type) (c : cfg) (N : num T) (M K U : nat) (a b cm aux : list T), 1 <= K -> valid c M K a -> valid c K U b -> valid c M U cm ->
  valid c K 1 aux /\ (no_assert c = true \/ debug_assertions c = false \/ length aux = K) ->
  left_by by_columns M U cm (b_prod N K (cell K a) (cell U b)) (cmap fst (mult_buffered_cr c N M K U a b cm aux)).
Proof. exact @mult_buffered_torn. Qed.
Print Assumptions C131_mult_buffered.

Theorem C131_mult_rowvector : forall (T : Type) (c : cfg) (N : num T) (M K : nat) (a x cm : list T), 1 <= K -> valid c M K a -> valid c K 1 x -> valid c M 1 cm ->
  left_by by_rows M 1 cm (b_prodv N K (cell K a) (cell 1 x)) (mult_rowvector_cr c N M K a x cm).
Proof. exact @rowvector_torn. Qed.
Print Assumptions C131_mult_rowvector.

Theorem C131_multadd_rowvector : forall (T : Type) (c : cfg) (N : num T) (M K : nat) (a x cm : list T), 1 <= K -> valid c M K a -> valid c K 1 x -> valid c M 1 cm ->
  left_by by_rows M 1 cm (fun i j => b_add N (cell 1 cm i j) (b_prodv N K (cell K a) (cell 1 x) i j)) (multadd_rowvector_cr c N M K a x cm).
Proof. exact @add_rowvector_torn. Qed.
Print Assumptions C131_multadd_rowvector.

Theorem C131_mult_transb : forall (T : Type) (c : cfg) (N : num T) (M K U : nat) (a b cm : list T), valid c M K a -> valid c U K b -> valid c M U cm ->
  left_by by_rows M U cm (b_prodt N K (cell K a) (cell K b)) (mult_transb_cr c N M K U a b cm).
Proof. exact @transb_torn. Qed.
Print Assumptions C131_mult_transb.

Theorem C131_multadd_transb : forall (T : Type) (c : cfg) (N : num T) (M K U : nat) (a b cm : list T), valid c M K a -> valid c U K b -> valid c M U cm ->
  left_by by_rows M U cm (fun i j => b_add N (cell U cm i j) (b_prodt N K (cell K a) (cell K b) i j)) (multadd_transb_cr c N M K U a b cm).
Proof. exact @add_transb_torn. Qed.
Print Assumptions C131_multadd_transb.

Theorem C131_multscale_transb : forall (T : Type) (c : cfg) (N : num T) (scale : T) (M K U : nat) (a b cm : list T), valid c M K a -> valid c U K b -> valid c M U cm ->
  left_by by_rows M U cm (fun i j => b_mul N (b_prodt N K (cell K a) (cell K b) i j) (Some scale)) (multscale_transb_cr c N scale M K U a b cm).
Proof. exact @scale_transb_torn. Qed.
Print Assumptions C131_multscale_transb.

Theorem C131_sub : forall (T : Type) (c : cfg) (N : num T) (R C : nat) (a b cm : list T), valid c R C a -> valid c R C b -> valid c R C cm ->
  left_by backwards R C cm (fun i j => b_sub N (cell C a i j) (cell C b i j)) (m_sub_cr c N R C a b cm).
Proof. exact @m_sub_torn. Qed.
Print Assumptions C131_sub.

Theorem C131_add_inplace_a : forall (T : Type) (c : cfg) (N : num T) (R C : nat) (a b : list T), valid c R C a -> valid c R C b ->
  left_by backwards R C a (fun i j => b_add N (cell C a i j) (cell C b i j)) (add_inplace_a_cr c N R C a b).
Proof. exact @add_a_torn. Qed.
Print Assumptions C131_add_inplace_a.

Theorem C131_add_inplace_b : forall (T : Type) (c : cfg) (N : num T) (R C : nat) (a b : list T), valid c R C a -> valid c R C b ->
  left_by backwards R C b (fun i j => b_add N (cell C b i j) (cell C a i j)) (add_inplace_b_cr c N R C a b).
Proof. exact @add_b_torn. Qed.
Print Assumptions C131_add_inplace_b.

Theorem C131_sub_inplace_a : forall (T : Type) (c : cfg) (N : num T) (R C : nat) (a b : list T), valid c R C a -> valid c R C b ->
  left_by backwards R C a (fun i j => b_sub N (cell C a i j) (cell C b i j)) (sub_inplace_a_cr c N R C a b).
Proof. exact @sub_a_torn. Qed.
Print Assumptions C131_sub_inplace_a.

Theorem C131_sub_inplace_b : forall (T : Type) (c : cfg) (N : num T) (R C : nat) (a b : list T), valid c R C a -> valid c R C b ->
  left_by backwards R C b (fun i j => b_sub N (cell C a i j) (cell C b i j)) (sub_inplace_b_cr c N R C a b).
Proof. exact @sub_b_torn. Qed.
Print Assumptions C131_sub_inplace_b.

(** a decomposition that panics in column k: the columns before k are the factor's, column k may hold anything from the diagonal down, the rest is A *)
Theorem C131_cholesky : forall (T : Type) (c : cfg) (N : num T) (n : nat) (A t : list T) (p : panic), 1 <= n -> valid c n n A -> cholesky_cr c N n n A = Unwound t p -> p = NumPanic /\ left_cholesky N n A t.
Proof. exact @cholesky_left'. Qed.
Print Assumptions C131_cholesky.

Theorem C131_invert : forall (T : Type) (c : cfg) (N : num T) (n : nat) (L inv t : list T) (p : panic), 1 <= n -> valid c n n L -> valid c n n inv -> invert_l_cholesky_cr c N n L inv = Unwound t p ->
  p = NumPanic /\ same_tail n n inv t.
Proof. exact @invert_left. Qed.
Print Assumptions C131_invert.

(** forgetting the memory of a panicking call gives the model of the other files *)
Theorem C131_forgets : forall (T : Type) (c : cfg) (N : num T) (M K U : nat) (s : T) (a b cm aux : list T),
  erase (mult_cr c N M K U a b cm) = mult c N M K U a b cm /\
  erase (mult_buffered_cr c N M K U a b cm aux) = mult_buffered c N M K U a b cm aux /\
  erase (mult_rowvector_cr c N M K a b cm) = mult_rowvector c N M K a b cm /\
  erase (multadd_rowvector_cr c N M K a b cm) = multadd_rowvector c N M K a b cm /\
  erase (mult_transb_cr c N M K U a b cm) = mult_transb c N M K U a b cm /\
  erase (multadd_transb_cr c N M K U a b cm) = multadd_transb c N M K U a b cm /\
  erase (multscale_transb_cr c N s M K U a b cm) = multscale_transb c N s M K U a b cm /\
  erase (m_sub_cr c N M K a b cm) = m_sub c N M K a b cm /\
  erase (add_inplace_a_cr c N M K a b) = add_inplace_a c N M K a b /\ erase (add_inplace_b_cr c N M K a b) = add_inplace_b c N M K a b /\
  erase (sub_inplace_a_cr c N M K a b) = sub_inplace_a c N M K a b /\ erase (sub_inplace_b_cr c N M K a b) = sub_inplace_b c N M K a b /\
  erase (invert_l_cholesky_cr c N M a b) = invert_l_cholesky c N M a b /\
  erase (cholesky_cr c N M K a) = bind (cholesky_decompose_lower c N M K a) (fun r => Ok (snd r)).
Proof. exact @forgets_all. Qed.
Print Assumptions C131_forgets.

(** I16F16 with overflow checks (fixed one = 65536), on builds with at least 16-bit pointers: each operation stops half-way *)
Example C131_mult_example : forall c : cfg, 255 <= usize_max c -> valid c 2 1 [131072; 13107200]%Z /\ valid c 1 2 [65536; 13107200]%Z /\ valid c 2 2 [0; 0; 0; 0]%Z /\
  mult_cr c (i16f16_num true true) 2 1 2 [131072; 13107200]%Z [65536; 13107200]%Z [0; 0; 0; 0]%Z = Unwound [0; 26214400; 0; 0]%Z NumPanic.
Proof. exact mult_half. Qed.
Example C131_add_inplace_a_example : forall c : cfg, 255 <= usize_max c -> valid c 3 1 [65536; 1966080000; 1966080000]%Z /\ valid c 3 1 [65536; 1966080000; 65536]%Z /\
  add_inplace_a_cr c (i16f16_num true true) 3 1 [65536; 1966080000; 1966080000]%Z [65536; 1966080000; 65536]%Z = Unwound [65536; 1966080000; 1966145536]%Z NumPanic.
Proof. exact add_half. Qed.
Example C131_cholesky_example : forall c : cfg, 255 <= usize_max c -> valid c 2 2 [1; 13107200; 13107200; 65536]%Z /\
  cholesky_cr c (i16f16_num true true) 2 2 [1; 13107200; 13107200; 65536]%Z = Unwound [256; 13107200; 13107200; 65536]%Z NumPanic.
Proof. exact cholesky_half. Qed.
Example C131_invert_example : forall c : cfg, 255 <= usize_max c -> valid c 2 2 [512; 0; 0; 256]%Z /\ valid c 2 2 [0; 0; 0; 0]%Z /\
  exists s, invert_l_cholesky_cr c (i16f16_num true true) 2 [512; 0; 0; 256]%Z [0; 0; 0; 0]%Z = Unwound s NumPanic /\ s <> [0; 0; 0; 0]%Z.
Proof. exact invert_half. Qed.
Example C131_mult_buffered_example : valid cfg8 2 1 [131072; 13107200]%Z /\ valid cfg8 1 2 [65536; 13107200]%Z /\ valid cfg8 2 2 [0; 0; 0; 0]%Z /\ valid cfg8 1 1 [0]%Z /\
  cmap fst (mult_buffered_cr cfg8 (i16f16_num true true) 2 1 2 [131072; 13107200]%Z [65536; 13107200]%Z [0; 0; 0; 0]%Z [0]%Z) = Unwound [0; 26214400; 0; 0]%Z NumPanic.
Proof. exact buffered_half. Qed.
Example C131_sub_example : valid cfg8 2 1 [-1966080000; 65536]%Z /\ valid cfg8 2 1 [1966080000; 65536]%Z /\ valid cfg8 2 1 [7; 8]%Z /\
  m_sub_cr cfg8 (i16f16_num true true) 2 1 [-1966080000; 65536]%Z [1966080000; 65536]%Z [7; 8]%Z = Unwound [7; 0]%Z NumPanic.
Proof. exact sub_half. Qed.
