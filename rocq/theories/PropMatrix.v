(** * Properties C01-C06, C08-C10, C13, C15, C17: matrices of any element type, any size, any build mode.

    Vocabulary: Spec.v ([valid], [cell], [cellwise], [dot], [same_tail], [same_matrix], [wp], [rres]).
    [c] is the build configuration (pointer width, overflow checks, assertions), [N] the element type's arithmetic. *)
From Verif Require Import Spec Matrix Filter SpecFilter Wp Kernels Access Chol Inv FilterGen MatMain ExampleData MatExamples.

(** ** C01 *)
Theorem C01_set_then_get : forall (T : Type) (c : cfg) (ROWS COLS : nat) (m : list T) (i j : nat) (v : T),
  valid c ROWS COLS m -> i < ROWS -> j < COLS ->
  exists m', set_at c COLS m i j v = Ok m'
    /\ length m' = length m
    /\ get_at c COLS m' i j = Ok v
    /\ (forall i' j', i' < ROWS -> j' < COLS -> (i', j') <> (i, j) -> get_at c COLS m' i' j' = get_at c COLS m i' j')
    /\ (forall p, ROWS * COLS <= p -> nth_error m' p = nth_error m p).
Proof. exact @set_get. Qed.
Print Assumptions C01_set_then_get.

(** [get] reads the row-major element *)
Theorem C01_get_cell : forall (T : Type) (c : cfg) (ROWS COLS : nat) (m : list T) (i j : nat),
  valid c ROWS COLS m -> i < ROWS -> j < COLS -> exists v, cell COLS m i j = Some v /\ get_at c COLS m i j = Ok v.
Proof. exact @get_at_cell. Qed.
Print Assumptions C01_get_cell.

Example C01_example : valid cfg64 2 3 [1; 2; 3; 4; 5; 6; 7]%Z /\ 1 < 2 /\ 2 < 3.
Proof. exact (conj (valid64 2 3 [1; 2; 3; 4; 5; 6; 7]%Z eq_refl eq_refl) (conj (le_n 2) (le_n 3))). Qed.

(** ** C02: false for columns (and, without overflow checks, for huge rows); what remains true is the second theorem *)
Theorem C02_bad_column_refuted : forall c, (4 <= imax c)%Z ->
  exists m : list Z, valid c 2 2 m /\ length m = 4 /\ get_at c 2 m 0 2 = get_at c 2 m 1 0 /\ get_at c 2 m 0 2 = Ok 3%Z.
Proof. exact bad_column_witness. Qed.
Print Assumptions C02_bad_column_refuted.

Theorem C02_bad_column_aliases : forall (T : Type) (c : cfg) (ROWS COLS : nat) (m : list T) (i j : nat),
  valid c ROWS COLS m -> i + 1 < ROWS -> j < COLS -> get_at c COLS m i (COLS + j) = get_at c COLS m (i + 1) j.
Proof. exact @bad_column_aliases. Qed.
Print Assumptions C02_bad_column_aliases.

Theorem C02_wrapping_row_aliases : forall (T : Type) (c : cfg) (h : nat) (m : list T),
  overflow_checks c = false -> usize_max c + 1 = 2 * h -> 1 < usize_max c -> get_at c 2 m h 0 = get_at c 2 m 0 0.
Proof. exact @wrap_aliases. Qed.
Print Assumptions C02_wrapping_row_aliases.

Theorem C02_bad_row_rejected_partial : forall (T : Type) (c : cfg) (ROWS COLS : nat) (m : list T) (i j : nat) (v : T),
  slice_ok c m -> length m = ROWS * COLS -> ROWS <= i ->
  overflow_checks c = true \/ i * COLS + j <= usize_max c ->
  (exists e, get_at c COLS m i j = Panic e) /\ (exists e, set_at c COLS m i j v = Panic e).
Proof. exact @bad_row_rejected. Qed.
Print Assumptions C02_bad_row_rejected_partial.

Example C02_example : exists m : list Z, valid cfg64 2 2 m /\ length m = 4 /\ exists e, get_at cfg64 2 m 2 0 = Panic e.
Proof. exact bad_row_witness. Qed.

(** ** C03 *)
Theorem C03_get_column_copy : forall (T : Type) (c : cfg) (ROWS COLS : nat) (src : list T) (col : nat) (buf : list T),
  1 <= ROWS -> col < COLS -> valid c ROWS COLS src -> valid c ROWS 1 buf ->
  cellwise ROWS 1 buf (fun r _ _ => cell COLS src r col) (get_column_copy c ROWS COLS src col buf).
Proof. exact @get_column_copy_cellwise. Qed.
Print Assumptions C03_get_column_copy.

(** ** C04: wrong for every row but the first *)
Theorem C04_get_row_copy_refuted : forall c, (4 <= imax c)%Z ->
  exists data out : list Z, valid c 2 2 data /\ get_row_copy c 2 data 1 [0; 0]%Z = Ok out /\
    nth_error out 0 <> cell 2 data 1 0 /\ nth_error out 1 <> cell 2 data 1 1.
Proof. exact get_row_copy_witness. Qed.
Print Assumptions C04_get_row_copy_refuted.

(** for every dimension and every row >= 1 there is a matrix whose row is not returned *)
Theorem C04_get_row_copy_wrong_refuted : forall (T : Type) (c : cfg) (ROWS COLS row : nat) (v w : T),
  1 <= COLS -> 1 <= row < ROWS -> v <> w -> (Z.of_nat (ROWS * COLS) <= imax c)%Z ->
  exists data tgt out, valid c ROWS COLS data /\ valid c COLS 1 tgt /\
    get_row_copy c COLS data row tgt = Ok out /\
    cell COLS data row (COLS - 1) = Some v /\ nth_error out (COLS - 1) = Some w.
Proof. exact @get_row_copy_wrong. Qed.
Print Assumptions C04_get_row_copy_wrong_refuted.

(** what it does return: the COLS elements from position row * (COLS - 1) on *)
Theorem C04_get_row_copy_actual : forall (T : Type) (c : cfg) (ROWS COLS : nat) (data : list T) (row : nat) (buf : list T),
  1 <= COLS -> row < ROWS -> valid c ROWS COLS data -> valid c COLS 1 buf ->
  cellwise COLS 1 buf (fun k _ _ => nth_error data (row * (COLS - 1) + k)) (get_row_copy c COLS data row buf).
Proof. exact @get_row_copy_cellwise. Qed.
Print Assumptions C04_get_row_copy_actual.

Theorem C04_get_row_copy_row0_partial : forall (T : Type) (c : cfg) (ROWS COLS : nat) (data buf : list T),
  1 <= COLS -> 1 <= ROWS -> valid c ROWS COLS data -> valid c COLS 1 buf ->
  cellwise COLS 1 buf (fun k _ _ => cell COLS data 0 k) (get_row_copy c COLS data 0 buf).
Proof. exact @get_row_copy_row0. Qed.
Print Assumptions C04_get_row_copy_row0_partial.
Example C03_C04_example : valid cfg8 2 3 [1; 2; 3; 4; 5; 6]%Z /\ valid cfg8 2 1 [0; 0]%Z /\ valid cfg8 3 1 [0; 0; 0]%Z /\
  get_column_copy cfg8 2 3 [1; 2; 3; 4; 5; 6]%Z 1 [0; 0]%Z = Ok [2; 5]%Z /\
  get_row_copy cfg8 3 [1; 2; 3; 4; 5; 6]%Z 0 [0; 0; 0]%Z = Ok [1; 2; 3]%Z /\
  get_row_copy cfg8 3 [1; 2; 3; 4; 5; 6]%Z 1 [0; 0; 0]%Z = Ok [3; 4; 5]%Z.
Proof. exact copy_example. Qed.

(** ** C05 *)
Theorem C05_mult : forall (T : Type) (c : cfg) (N : num T) (M K U : nat) (a b out : list T),
  valid c M K a -> valid c K U b -> valid c M U out ->
  cellwise M U out (fun i j _ => dot N K (fun k => cell K a i k) (fun k => cell U b k j)) (mult c N M K U a b out).
Proof. exact @mult_cellwise. Qed.
Print Assumptions C05_mult.

Theorem C05_mult_transb : forall (T : Type) (c : cfg) (N : num T) (M K U : nat) (a b out : list T),
  valid c M K a -> valid c U K b -> valid c M U out ->
  cellwise M U out (fun i j _ => dot N K (fun k => cell K a i k) (fun k => cell K b j k)) (mult_transb c N M K U a b out).
Proof. exact @mult_transb_cellwise. Qed.
Print Assumptions C05_mult_transb.

Theorem C05_multadd_transb : forall (T : Type) (c : cfg) (N : num T) (M K U : nat) (a b out : list T),
  valid c M K a -> valid c U K b -> valid c M U out ->
  cellwise M U out (fun i j old => obind (dot N K (fun k => cell K a i k) (fun k => cell K b j k)) (fun t => o_add N old t))
    (multadd_transb c N M K U a b out).
Proof. exact @multadd_transb_cellwise. Qed.
Print Assumptions C05_multadd_transb.

Theorem C05_multscale_transb : forall (T : Type) (c : cfg) (N : num T) (scale : T) (M K U : nat) (a b out : list T),
  valid c M K a -> valid c U K b -> valid c M U out ->
  cellwise M U out (fun i j _ => obind (dot N K (fun k => cell K a i k) (fun k => cell K b j k)) (fun t => o_mul N t scale))
    (multscale_transb c N scale M K U a b out).
Proof. exact @multscale_transb_cellwise. Qed.
Print Assumptions C05_multscale_transb.

Theorem C05_mult_rowvector : forall (T : Type) (c : cfg) (N : num T) (M K : nat) (a x out : list T),
  1 <= K -> valid c M K a -> valid c K 1 x -> valid c M 1 out ->
  cellwise M 1 out (fun i _ _ => dot1 N K (fun k => cell K a i k) (fun k => cell 1 x k 0)) (mult_rowvector c N M K a x out).
Proof. exact @mult_rowvector_cellwise. Qed.
Print Assumptions C05_mult_rowvector.

Theorem C05_multadd_rowvector : forall (T : Type) (c : cfg) (N : num T) (M K : nat) (a x out : list T),
  1 <= K -> valid c M K a -> valid c K 1 x -> valid c M 1 out ->
  cellwise M 1 out (fun i _ old => obind (dot1 N K (fun k => cell K a i k) (fun k => cell 1 x k 0)) (fun t => o_add N old t))
    (multadd_rowvector c N M K a x out).
Proof. exact @multadd_rowvector_cellwise. Qed.
Print Assumptions C05_multadd_rowvector.

Example C05_example : valid cfg64 2 3 [1; 2; 3; 4; 5; 6]%Z /\ valid cfg64 3 2 [1; 0; 0; 1; 1; 1]%Z /\ valid cfg64 2 2 [9; 9; 9; 9]%Z.
Proof.
  exact (conj (valid64 2 3 [1; 2; 3; 4; 5; 6]%Z eq_refl eq_refl)
        (conj (valid64 3 2 [1; 0; 0; 1; 1; 1]%Z eq_refl eq_refl) (valid64 2 2 [9; 9; 9; 9]%Z eq_refl eq_refl))).
Qed.

(** ** C06 *)
Theorem C06_mult_buffered_is_mult : forall (T : Type) (c : cfg) (N : num T) (M K U : nat) (a b out aux : list T),
  1 <= K -> valid c M K a -> valid c K U b -> valid c M U out -> valid c K 1 aux ->
  no_assert c = true \/ debug_assertions c = false \/ length aux = K ->
  rres (fun r out' => fst r = out') (mult_buffered c N M K U a b out aux) (mult c N M K U a b out).
Proof. exact @mult_buffered_same. Qed.
Print Assumptions C06_mult_buffered_is_mult.
Example C06_example : valid cfg8 2 3 [1; 2; 3; 4; 5; 6]%Z /\ valid cfg8 3 2 [1; 0; 0; 1; 1; 1]%Z /\ valid cfg8 2 2 [9; 9; 9; 9; 7]%Z /\ valid cfg8 3 1 [8; 8; 8]%Z /\ length [8; 8; 8]%Z = 3 /\
  mult cfg8 z_num 2 3 2 [1; 2; 3; 4; 5; 6]%Z [1; 0; 0; 1; 1; 1]%Z [9; 9; 9; 9; 7]%Z = Ok [4; 5; 10; 11; 7]%Z /\
  exists aux, mult_buffered cfg8 z_num 2 3 2 [1; 2; 3; 4; 5; 6]%Z [1; 0; 0; 1; 1; 1]%Z [9; 9; 9; 9; 7]%Z [8; 8; 8]%Z = Ok ([4; 5; 10; 11; 7]%Z, aux).
Proof. exact buffered_example. Qed.

(** ** C08 *)
Theorem C08_sub : forall (T : Type) (c : cfg) (N : num T) (R C : nat) (a b out : list T),
  valid c R C a -> valid c R C b -> valid c R C out ->
  cellwise R C out (fun i j _ => obind (cell C a i j) (fun u => obind (cell C b i j) (fun v => o_sub N u v))) (m_sub c N R C a b out).
Proof. exact @m_sub_cellwise. Qed.
Print Assumptions C08_sub.
Theorem C08_add_inplace_a : forall (T : Type) (c : cfg) (N : num T) (R C : nat) (a b : list T), valid c R C a -> valid c R C b ->
  cellwise R C a (fun i j old => obind (cell C b i j) (fun u => o_add N old u)) (add_inplace_a c N R C a b).
Proof. exact @add_inplace_a_cellwise. Qed.
Print Assumptions C08_add_inplace_a.
Theorem C08_add_inplace_b : forall (T : Type) (c : cfg) (N : num T) (R C : nat) (a b : list T), valid c R C a -> valid c R C b ->
  cellwise R C b (fun i j old => obind (cell C a i j) (fun u => o_add N old u)) (add_inplace_b c N R C a b).
Proof. exact @add_inplace_b_cellwise. Qed.
Print Assumptions C08_add_inplace_b.
Theorem C08_sub_inplace_a : forall (T : Type) (c : cfg) (N : num T) (R C : nat) (a b : list T), valid c R C a -> valid c R C b ->
  cellwise R C a (fun i j old => obind (cell C b i j) (fun u => o_sub N old u)) (sub_inplace_a c N R C a b).
Proof. exact @sub_inplace_a_cellwise. Qed.
Print Assumptions C08_sub_inplace_a.
Theorem C08_sub_inplace_b : forall (T : Type) (c : cfg) (N : num T) (R C : nat) (a b : list T), valid c R C a -> valid c R C b ->
  cellwise R C b (fun i j old => obind (cell C a i j) (fun u => o_sub N u old)) (sub_inplace_b c N R C a b).
Proof. exact @sub_inplace_b_cellwise. Qed.
Print Assumptions C08_sub_inplace_b.
Theorem C08_copy_to : forall (T : Type) (c : cfg) (R C : nat) (a b : list T), 1 <= R -> 1 <= C -> valid c R C a -> valid c R C b ->
  cellwise R C b (fun i j _ => cell C a i j) (copy_to c R C a b).
Proof. exact @copy_to_cellwise. Qed.
Print Assumptions C08_copy_to.
Example C08_example : valid cfg8 2 2 [1; 2; 3; 4; 5]%Z /\ valid cfg8 2 2 [10; 20; 30; 40; 50]%Z /\
  m_sub cfg8 z_num 2 2 [1; 2; 3; 4; 5]%Z [10; 20; 30; 40; 50]%Z [0; 0; 0; 0; 7]%Z = Ok [-9; -18; -27; -36; 7]%Z /\
  add_inplace_a cfg8 z_num 2 2 [1; 2; 3; 4; 5]%Z [10; 20; 30; 40; 50]%Z = Ok [11; 22; 33; 44; 5]%Z /\
  sub_inplace_b cfg8 z_num 2 2 [1; 2; 3; 4; 5]%Z [10; 20; 30; 40; 50]%Z = Ok [-9; -18; -27; -36; 50]%Z /\
  copy_to cfg8 2 2 [1; 2; 3; 4; 5]%Z [10; 20; 30; 40; 50]%Z = Ok [1; 2; 3; 4; 50]%Z.
Proof. exact elementwise_example. Qed.

(** ** C09 *)
Theorem C09_make_comatrix : forall (T : Type) (c : cfg) (n : nat) (d o : T) (m : list T), valid c n n m ->
  cellwise n n m (fun i j _ => Some (if i =? j then d else o)) (make_comatrix c n d o m).
Proof. exact @make_comatrix_cellwise. Qed.
Print Assumptions C09_make_comatrix.
Theorem C09_make_identity : forall (T : Type) (c : cfg) (N : num T) (n : nat) (m : list T), valid c n n m ->
  cellwise n n m (fun i j _ => Some (if i =? j then n_one N else n_zero N)) (make_identity c N n m).
Proof. exact (fun T c N n => @make_comatrix_cellwise T c n (n_one N) (n_zero N)). Qed.
Print Assumptions C09_make_identity.
Theorem C09_make_scalar : forall (T : Type) (c : cfg) (N : num T) (n : nat) (d : T) (m : list T), valid c n n m ->
  cellwise n n m (fun i j _ => Some (if i =? j then d else n_zero N)) (make_scalar c N n d m).
Proof. exact (fun T c N n d => @make_comatrix_cellwise T c n d (n_zero N)). Qed.
Print Assumptions C09_make_scalar.
Theorem C09_set_diagonal_to_scalar : forall (T : Type) (c : cfg) (n : nat) (d : T) (m : list T), valid c n n m ->
  cellwise n n m (fun i j old => Some (if i =? j then d else old)) (set_diagonal_to_scalar c n d m).
Proof. exact @set_diagonal_cellwise. Qed.
Print Assumptions C09_set_diagonal_to_scalar.
Theorem C09_set_symmetric : forall (T : Type) (c : cfg) (n : nat) (m : list T) (i j : nat) (v : T), valid c n n m -> i < n -> j < n ->
  exists m', set_symmetric c n m i j v = Ok m'
    /\ length m' = length m
    /\ cell n m' i j = Some v /\ cell n m' j i = Some v
    /\ (forall i' j', i' < n -> j' < n -> (i', j') <> (i, j) -> (i', j') <> (j, i) -> cell n m' i' j' = cell n m i' j')
    /\ (forall p, n * n <= p -> nth_error m' p = nth_error m p).
Proof. exact @set_symmetric_spec. Qed.
Print Assumptions C09_set_symmetric.
Theorem C09_set_all : forall (T : Type) (R C : nat) (m : list T) (v : T) (i j : nat),
  R * C <= length m -> i < R -> j < C -> cell C (set_all m v) i j = Some v.
Proof. exact @set_all_cell. Qed.
Print Assumptions C09_set_all.
Theorem C09_clear : forall (T : Type) (N : num T) (R C : nat) (m : list T) (i j : nat),
  R * C <= length m -> i < R -> j < C -> cell C (clear N m) i j = Some (n_zero N) /\ cell C (set_zero N m) i j = Some (n_zero N).
Proof. exact (fun T N R C m i j H Hi Hj => conj (@set_all_cell T R C m (n_zero N) i j H Hi Hj) (@set_all_cell T R C m (n_zero N) i j H Hi Hj)). Qed.
Print Assumptions C09_clear.
Example C09_example : valid cfg8 2 2 [1; 2; 3; 4; 5]%Z /\ 2 * 2 <= length [1; 2; 3; 4; 5]%Z /\
  make_comatrix cfg8 2 6%Z 8%Z [1; 2; 3; 4; 5]%Z = Ok [6; 8; 8; 6; 5]%Z /\ set_diagonal_to_scalar cfg8 2 6%Z [1; 2; 3; 4; 5]%Z = Ok [6; 2; 3; 6; 5]%Z /\
  set_symmetric cfg8 2 [1; 2; 3; 4; 5]%Z 0 1 9%Z = Ok [1; 9; 9; 4; 5]%Z.
Proof. exact fill_example. Qed.

(** ** C10: false for set_all / clear / set_zero; true of everything else.  C16: and only the element type's own arithmetic can panic *)
Theorem C10_set_all_refuted : exists (m : list Z) p, valid cfg64 1 1 m /\ 1 * 1 <= p /\ nth_error (set_all m 7%Z) p <> nth_error m p.
Proof. exact set_all_overruns. Qed.
Print Assumptions C10_set_all_refuted.
Theorem C10_C16_kernels : forall (T : Type) (c : cfg) (N : num T) (R C U n : nat) (a b out tgt aux : list T) (i j : nat) (v s : T),
  valid c R C a ->
  (valid c C U b -> valid c R U out -> wp (mult c N R C U a b out) (same_tail R U out) (arith_only N)) /\
  (1 <= C -> valid c C U b -> valid c R U out -> valid c C 1 aux ->
     no_assert c = true \/ debug_assertions c = false \/ length aux = C ->
     wp (mult_buffered c N R C U a b out aux) (fun r => same_tail R U out (fst r)) (arith_only N)) /\
  (1 <= C -> valid c C 1 b -> valid c R 1 out -> wp (mult_rowvector c N R C a b out) (same_tail R 1 out) (arith_only N)) /\
  (1 <= C -> valid c C 1 b -> valid c R 1 out -> wp (multadd_rowvector c N R C a b out) (same_tail R 1 out) (arith_only N)) /\
  (valid c U C b -> valid c R U out -> wp (mult_transb c N R C U a b out) (same_tail R U out) (arith_only N)) /\
  (valid c U C b -> valid c R U out -> wp (multadd_transb c N R C U a b out) (same_tail R U out) (arith_only N)) /\
  (valid c U C b -> valid c R U out -> wp (multscale_transb c N s R C U a b out) (same_tail R U out) (arith_only N)) /\
  (valid c R C b -> valid c R C out -> wp (m_sub c N R C a b out) (same_tail R C out) (arith_only N)) /\
  (valid c R C b -> wp (add_inplace_a c N R C a b) (same_tail R C a) (arith_only N)) /\
  (valid c R C b -> wp (add_inplace_b c N R C a b) (same_tail R C b) (arith_only N)) /\
  (valid c R C b -> wp (sub_inplace_a c N R C a b) (same_tail R C a) (arith_only N)) /\
  (valid c R C b -> wp (sub_inplace_b c N R C a b) (same_tail R C b) (arith_only N)) /\
  (1 <= R -> 1 <= C -> valid c R C b -> wp (copy_to c R C a b) (same_tail R C b) (fun _ => False)) /\
  (1 <= R -> j < C -> valid c R 1 tgt -> wp (get_column_copy c R C a j tgt) (same_tail R 1 tgt) (fun _ => False)) /\
  (1 <= C -> i < R -> valid c C 1 tgt -> wp (get_row_copy c C a i tgt) (same_tail C 1 tgt) (fun _ => False)) /\
  (i < R -> j < C -> wp (set_at c C a i j v) (same_tail R C a) (fun _ => False)) /\
  (i < n -> j < n -> valid c n n tgt -> wp (set_symmetric c n tgt i j v) (same_tail n n tgt) (fun _ => False)) /\
  (valid c n n tgt -> wp (make_comatrix c n v s tgt) (same_tail n n tgt) (fun _ => False)) /\
  (valid c n n tgt -> wp (set_diagonal_to_scalar c n v tgt) (same_tail n n tgt) (fun _ => False)) /\
  (1 <= n -> valid c n n tgt -> wp (cholesky_decompose_lower c N n n tgt) (fun r => same_tail n n tgt (snd r)) (arith_only N)) /\
  (1 <= n -> valid c n n b -> valid c n n tgt -> wp (invert_l_cholesky c N n b tgt) (same_tail n n tgt) (arith_only N)).
Proof. exact @no_overrun. Qed.
Print Assumptions C10_C16_kernels.
Example C10_example : valid cfg8 2 3 [1; 2; 3; 4; 5; 6; 7]%Z /\ valid cfg8 3 2 [1; 0; 0; 1; 1; 1]%Z /\ valid cfg8 2 2 [9; 9; 9; 9; 7]%Z /\ valid cfg8 3 1 [8; 8; 8]%Z.
Proof. exact kernels_example. Qed.

(** ** C13 *)
Theorem C13_cholesky_upper_triangle : forall (T : Type) (c : cfg) (N : num T) (n : nat) (A1 A2 : list T),
  1 <= n -> valid c n n A1 -> valid c n n A2 ->
  (forall i j, i <= j < n -> cell n A1 i j = cell n A2 i j) ->
  rres (fun r1 r2 => fst r1 = fst r2 /\ (fst r1 = true -> same_matrix n n (snd r1) (snd r2)))
    (cholesky_decompose_lower c N n n A1) (cholesky_decompose_lower c N n n A2).
Proof. exact @cholesky_upper. Qed.
Print Assumptions C13_cholesky_upper_triangle.

(** ** C15 *)
Theorem C15_inverse_symmetric : forall (T : Type) (c : cfg) (N : num T) (n : nat) (m inv0 X : list T),
  1 <= n -> valid c n n m -> valid c n n inv0 -> invert_l_cholesky c N n m inv0 = Ok X ->
  forall i j, i < n -> j < n -> cell n X i j = cell n X j i.
Proof. exact @invert_symmetric. Qed.
Print Assumptions C15_inverse_symmetric.
Theorem C15_inverse_ignores_target : forall (T : Type) (c : cfg) (N : num T) (n : nat) (m inv1 inv2 : list T),
  1 <= n -> valid c n n m -> valid c n n inv1 -> valid c n n inv2 ->
  rres (same_matrix n n) (invert_l_cholesky c N n m inv1) (invert_l_cholesky c N n m inv2).
Proof. exact @invert_target. Qed.
Print Assumptions C15_inverse_ignores_target.
Example C13_C15_example : valid cfg64 2 2 [4; 2; 2; 5]%Z /\ valid cfg64 2 2 [4; 2; 77; 5]%Z /\
  (forall i j, i <= j < 2 -> cell 2 [4; 2; 2; 5]%Z i j = cell 2 [4; 2; 77; 5]%Z i j).
Proof. exact chol_example. Qed.

(** ** C17: empty matrices panic, in every build mode; an empty control is fine *)
Theorem C17_predict_no_states_refuted : forall (T : Type) (c : cfg) (N : num T) (f : kalman T), kf_x f = [] -> predict c N 0 f = Panic IndexOOB.
Proof. exact @predict_no_states. Qed.
Print Assumptions C17_predict_no_states_refuted.
Theorem C17_correct_no_states_refuted : forall (T : Type) (c : cfg) (N : num T) (m : nat) (o : observation T) (f : kalman T),
  kf_x f = [] -> correct c N 0 m o f = Panic IndexOOB.
Proof. exact @correct_no_states. Qed.
Print Assumptions C17_correct_no_states_refuted.
Theorem C17_copy_empty_refuted : forall (T : Type) (c : cfg) (COLS : nat) (a tgt : list T), a = [] -> exists e, copy_to c 0 COLS a tgt = Panic e.
Proof. exact @copy_to_empty. Qed.
Print Assumptions C17_copy_empty_refuted.
Theorem C17_mult_rowvector_empty_refuted : forall (T : Type) (c : cfg) (N : num T) (R C : nat) (a x out : list T),
  x = [] -> mult_rowvector c N R C a x out = Panic IndexOOB.
Proof. exact @mult_rowvector_empty. Qed.
Print Assumptions C17_mult_rowvector_empty_refuted.
Theorem C17_control_empty_partial : forall (T : Type) (c : cfg) (N : num T) (n m : nat) (k : control T) (f : kalman T),
  n * m = 0 \/ m = 0 -> ct_valid c n m k -> control_ c N n m k f = Ok (k, f).
Proof. exact @control_empty. Qed.
Print Assumptions C17_control_empty_partial.
Example C17_example : ct_valid cfg8 2 0 (mk_ctl (@nil Z) [] [] []) /\ (2 * 0 = 0 \/ 0 = 0) /\ ct_valid cfg8 0 2 (mk_ctl (@nil Z) [1; 2]%Z [1; 0; 0; 1]%Z []) /\ (0 * 2 = 0 \/ 2 = 0).
Proof. exact ct_empty_example. Qed.
