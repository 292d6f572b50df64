(** * Storage, construction and stale buffers: C37, C38, C48, C49, C60.  Vocabulary: Spec.v, SpecFilter.v, SpecGen.v, SpecStore.v. *)
From Verif Require Import Spec Matrix Storage Filter Extended Builder SpecFilter History SpecGen SpecStore StoreProof StoreExamples FloatNum SpecFloats FloatWit.

(** ** C37: a closure that writes nothing does not leave the state alone, nor does it give zero.
    The state the program has just set is replaced by the result [v] of an earlier, unrelated prediction *)
Theorem C37_stale_prediction : forall (T : Type) (c : cfg) (N : num T) (n : nat) (w : world T) (h : list T -> list T -> res (list T)) (l : list T),
  never_panics N -> world_ok c n w -> closure_ok c N n n h ->
  exists v w', h (kf_x (w_kf w)) (kf_px (w_kf w)) = Ok v /\
    run c N n w [OPredictNonlinear h; OSetX l; OPredictNonlinear writes_nothing] = Ok w' /\ same_matrix n 1 v (kf_x (w_kf w')).
Proof. intros T c N n w h l HN. exact (stale_predict c N HN n w h l). Qed.
Print Assumptions C37_stale_prediction.
(** and the innovation becomes z minus the innovation left by the previous correction *)
Theorem C37_stale_innovation : forall (T : Type) (c : cfg) (N : num T) (n m : nat) (o : observation T) (f : kalman T),
  never_panics N -> 1 <= n -> 1 <= m -> ob_valid c n m o -> kf_valid c n f ->
  exists o' f', correct_nonlinear c N n m writes_nothing o f = Ok (o', f') /\
    forall i, i < m -> cell 1 (ob_y o') i 0 = obind (cell 1 (ob_z o) i 0) (fun a => obind (cell 1 (ob_y o) i 0) (fun b => o_sub N a b)).
Proof. intros T c N n m o f HN. exact (stale_correct c N HN n m o f). Qed.
Print Assumptions C37_stale_innovation.
(** f32: after a prediction to 7 the program sets the state to 1 and calls [predict_nonlinear] with a closure that writes nothing: the state is 7 *)
Theorem C37_clean_output_refuted : forall (c : cfg) (sz : bool), 255 <= usize_max c ->
  exists w h l w' x', world_ok c 2 w /\ closure_ok c (f32_num sz) 2 2 h /\
    run c (f32_num sz) 2 w [OPredictNonlinear h; OSetX l; OPredictNonlinear writes_nothing] = Ok w' /\
    cell 1 l 0 0 = Some (f32 1 0) /\ cell 1 (kf_x (w_kf w')) 0 0 = Some x' /\ x' = f32 7 0.
Proof. exact stale_refuted. Qed.
Print Assumptions C37_clean_output_refuted.
(** floats never panic, and there are filters, closures and observations as the theorems above want them *)
Example C37_example : forall (c : cfg) (sz : bool), 255 <= usize_max c -> never_panics (f32_num sz) /\ kf_valid c 1 (kf1 (f32 1 0) (f32 2 0) (f32 2 0)) /\
  ob_valid c 1 1 (ob1 (f32 1 0) (f32 2 0)) /\ closure_ok c (f32_num sz) 1 1 writes_nothing.
Proof. exact ex_stale. Qed.

(** ** C38: builders *)
Theorem C38_build_filter : forall (T : Type) (c : cfg) (d : T) (n : nat), allocatable c (n * n) ->
  exists f, build_filter c d n = Ok f /\ kf_fresh d n f /\ kf_valid c n f.
Proof. intros T. exact build_filter_full. Qed.
Print Assumptions C38_build_filter.
Theorem C38_build_control : forall (T : Type) (c : cfg) (d : T) (n m : nat), allocatable c (n * m) -> allocatable c (m * m) ->
  exists k, build_control c d n m = Ok k /\ ct_fresh d n m k /\ ct_valid c n m k.
Proof. intros T. exact build_control_full. Qed.
Print Assumptions C38_build_control.
Theorem C38_build_observation : forall (T : Type) (c : cfg) (d : T) (n m : nat), allocatable c (n * n) -> allocatable c (n * m) -> allocatable c (m * m) ->
  exists o, build_observation c d n m = Ok o /\ ob_fresh d n m o /\ ob_valid c n m o.
Proof. intros T. exact build_observation_full. Qed.
Print Assumptions C38_build_observation.
(** any number of predictions and control steps on fresh objects returns and changes nothing at all *)
Theorem C38_fresh_program : forall (T : Type) (c : cfg) (N : num T) (n : nat) (w : world T) (os : list (op T)),
  zero_laws N -> 1 <= n -> world_allocatable c n w -> world_fresh (n_zero N) n w -> Forall time_update os -> run c N n w os = Ok w.
Proof. intros T c N n w os HZ. exact (fresh_run c N HZ n w os). Qed.
Print Assumptions C38_fresh_program.
(** the hypothesis on the element type holds for all floats *)
Theorem C38_float_zero_laws : forall (prec emax : Z) (sz : bool), zero_laws (sf_num prec emax sz).
Proof. exact sf_zero_laws. Qed.
Print Assumptions C38_float_zero_laws.
(** a correction with a fresh observation, however, destroys the state, for every float format and number of states *)
Theorem C38_fresh_correct_destroys : forall (c : cfg) (prec emax : Z) (sz : bool) (n : nat) (o : observation spec_float) (f : kalman spec_float),
  255 <= usize_max c -> 1 <= n -> allocatable c (n * n) -> kf_fresh (S754_zero false) n f -> ob_fresh (S754_zero false) n 1 o ->
  exists o' f', correct c (sf_num prec emax sz) n 1 o f = Ok (o', f') /\
    (forall i, i < n -> exists v, cell 1 (kf_x f') i 0 = Some v /\ sf_finite v = false) /\
    (forall i j, i < n -> j < n -> exists v, cell n (kf_P f') i j = Some v /\ sf_finite v = false).
Proof. exact fresh_correct. Qed.
Print Assumptions C38_fresh_correct_destroys.
Example C38_example : forall c : cfg, 255 <= usize_max c -> exists f k o,
  build_filter c (S754_zero false) 3 = Ok f /\ build_control c (S754_zero false) 3 2 = Ok k /\ build_observation c (S754_zero false) 3 1 = Ok o /\
  let w := mk_world f [(2, k)] [(1, o)] in world_allocatable c 3 w /\ world_fresh (S754_zero false) 3 w /\ Forall time_update [@OPredict spec_float; OControl 0; OPredict].
Proof. exact ex_fresh. Qed.

(** ** C48: constructors.  Boxed data and [MatrixDataArray::new] check for exactly ROWS*COLS elements *)
Theorem C48_checked : forall (T : Type) (c : cfg) (R C : nat) (data : list T), no_assert c = false -> R * C <= usize_max c ->
  boxed_new c R C data = (if length data =? R * C then Ok data else Panic AssertFailed) /\
  array_new c R C data = (if length data =? R * C then Ok data else Panic AssertFailed).
Proof. intros T. exact checked_new. Qed.
Print Assumptions C48_checked.
(** whatever they accept is valid, for all ROWS and COLS, if overflow is checked *)
Theorem C48_checked_valid : forall (T : Type) (c : cfg) (R C : nat) (data m : list T), no_assert c = false -> overflow_checks c = true -> slice_ok c data ->
  boxed_new c R C data = Ok m \/ array_new c R C data = Ok m -> m = data /\ length m = R * C /\ valid c R C m.
Proof. intros T. exact checked_new_valid. Qed.
Print Assumptions C48_checked_valid.
(** buffer wrappers check for at least ROWS*COLS in debug builds *)
Theorem C48_wrapper : forall (T : Type) (c : cfg) (R C : nat) (data : list T), no_assert c = false -> debug_assertions c = true -> R * C <= usize_max c ->
  buffer_from c R C data = (if R * C <=? length data then Ok data else Panic AssertFailed).
Proof. intros T. exact wrapper_from. Qed.
Print Assumptions C48_wrapper.
Theorem C48_wrapper_valid : forall (T : Type) (c : cfg) (R C : nat) (data m : list T),
  no_assert c = false -> debug_assertions c = true -> overflow_checks c = true -> slice_ok c data ->
  buffer_from c R C data = Ok m -> m = data /\ valid c R C m.
Proof. intros T. exact wrapper_from_valid. Qed.
Print Assumptions C48_wrapper_valid.
(** unchecked constructors, release wrappers and [no_assert] builds accept everything *)
Theorem C48_unchecked : forall (T : Type) (c : cfg) (R C : nat) (data : list T),
  array_new_unchecked R C data = Ok data /\ ref_new R C data = Ok data /\
  (debug_assertions c = false \/ no_assert c = true -> buffer_from c R C data = Ok data) /\
  (no_assert c = true -> boxed_new c R C data = Ok data /\ array_new c R C data = Ok data).
Proof. intros T. exact unchecked_accept. Qed.
Print Assumptions C48_unchecked.
(** in a release build even the checked constructors accept an invalid matrix, because ROWS*COLS wraps *)
Theorem C48_wrapped_refuted : forall (T : Type) (c : cfg) (h : nat),
  no_assert c = false -> overflow_checks c = false -> usize_max c + 1 = 2 * h -> 1 <= h ->
  exists (R C : nat) (data : list T), boxed_new c R C data = Ok data /\ array_new c R C data = Ok data /\ ~ valid c R C data.
Proof. intros T. exact wrapped_new_ex. Qed.
Print Assumptions C48_wrapped_refuted.
(** using a matrix whose slice is too short: reading returns elements of the slice or panics, ... *)
Theorem C48_get_inside : forall (T : Type) (c : cfg) (C : nat) (m : list T) (i j : nat) (v : T), get_at c C m i j = Ok v -> exists p, nth_error m p = Some v.
Proof. intros T. exact get_inside. Qed.
Print Assumptions C48_get_inside.
(** ... access to a missing cell panics, ... *)
Theorem C48_get_missing : forall (T : Type) (c : cfg) (R C : nat) (m : list T) (i j : nat),
  i < R -> j < C -> R * C <= usize_max c -> length m <= i * C + j -> get_at c C m i j = Panic IndexOOB.
Proof. intros T. exact get_short. Qed.
Print Assumptions C48_get_missing.
Theorem C48_set_missing : forall (T : Type) (c : cfg) (R C : nat) (m : list T) (i j : nat) (v : T),
  i < R -> j < C -> R * C <= usize_max c -> length m <= i * C + j -> set_at c C m i j v = Panic IndexOOB.
Proof. intros T. exact set_short. Qed.
Print Assumptions C48_set_missing.
(** ... every elementwise operation on it panics, ... *)
Theorem C48_elementwise_panics : forall (T : Type) (c : cfg) (N : num T) (R C : nat) (a b : list T),
  R * C <= usize_max c -> length a < R * C \/ length b < R * C ->
  copy_to c R C a b = Panic IndexOOB /\ add_inplace_b c N R C a b = Panic IndexOOB /\ sub_inplace_b c N R C a b = Panic IndexOOB /\
  add_inplace_a c N R C a b = Panic IndexOOB /\ sub_inplace_a c N R C a b = Panic IndexOOB.
Proof. intros T. exact elementwise_short. Qed.
Print Assumptions C48_elementwise_panics.
(** ... and a product only returns if all three matrices are complete *)
Theorem C48_mult_sizes : forall (T : Type) (c : cfg) (N : num T) (M K U : nat) (a b cm r : list T), 1 <= M -> 1 <= K -> 1 <= U ->
  M * K <= usize_max c -> K * U <= usize_max c -> M * U <= usize_max c ->
  mult c N M K U a b cm = Ok r -> M * K <= length a /\ K * U <= length b /\ M * U <= length cm.
Proof. intros T. exact mult_returns_sizes. Qed.
Print Assumptions C48_mult_sizes.
Example C48_example : forall (T : Type) (c : cfg) (v : T), 255 <= usize_max c -> no_assert c = false -> debug_assertions c = true ->
  boxed_new c 2 3 (repeat v 6) = Ok (repeat v 6) /\ boxed_new c 2 3 (repeat v 7) = Panic AssertFailed /\ array_new c 2 3 (repeat v 5) = Panic AssertFailed /\
  buffer_from c 2 3 (repeat v 7) = Ok (repeat v 7) /\ buffer_from c 2 3 (repeat v 5) = Panic AssertFailed.
Proof. intros T. exact ex_constructors. Qed.
Example C48_wrapped_example : exists c h, no_assert c = false /\ overflow_checks c = false /\ usize_max c + 1 = 2 * h /\ 1 <= h.
Proof. exact ex_wrapped. Qed.

(** ** C49: the nalgebra view *)
Theorem C49_same_cells : forall (T : Type) (c : cfg) (R C : nat) (m : list T) (i j : nat), valid c R C m -> i < R -> j < C ->
  nalgebra_offset R C i j < nalgebra_slice_len R C /\ nalgebra_slice_len R C <= length m /\
  exists v, nth_error m (nalgebra_offset R C i j) = Some v /\ get_at c C m i j = Ok v.
Proof. intros T. exact nalgebra_cell. Qed.
Print Assumptions C49_same_cells.
(** the contiguous slice consists of exactly the cells, each once *)
Theorem C49_bijective : forall R C p : nat, p < nalgebra_slice_len R C ->
  exists i j, i < R /\ j < C /\ nalgebra_offset R C i j = p /\
    forall i' j', i' < R -> j' < C -> nalgebra_offset R C i' j' = p -> i' = i /\ j' = j.
Proof. exact nalgebra_onto. Qed.
Print Assumptions C49_bijective.
(** but the array constructor used everywhere does not check, and then the view reaches outside the array (undefined behaviour) *)
Theorem C49_escapes_refuted : forall (T : Type) (R C : nat) (data : list T), length data < R * C ->
  exists m i j, array_new_unchecked R C data = Ok m /\ i < R /\ j < C /\ length m < nalgebra_slice_len R C /\ length m <= nalgebra_offset R C i j.
Proof. intros T. exact nalgebra_escapes. Qed.
Print Assumptions C49_escapes_refuted.

(** ** C60: indexing with [\[\]] is row-major access *)
Theorem C60_index_get : forall (T : Type) (c : cfg) (R C : nat) (m : list T) (i j : nat), valid c R C m -> i < R -> j < C ->
  index_get m (i * C + j) = get_at c C m i j.
Proof. intros T. exact index_is_get. Qed.
Print Assumptions C60_index_get.
Theorem C60_index_set : forall (T : Type) (c : cfg) (R C : nat) (m : list T) (i j : nat) (v : T), valid c R C m -> i < R -> j < C ->
  index_set m (i * C + j) v = set_at c C m i j v.
Proof. intros T. exact index_is_set. Qed.
Print Assumptions C60_index_set.
Example C49_C60_example : forall (T : Type) (c : cfg) (a b d e f g h : T), 255 <= usize_max c -> valid c 2 3 [a; b; d; e; f; g; h] /\
  nalgebra_slice_len 2 3 = 6 /\ nalgebra_offset 2 3 1 2 = 5 /\ index_get [a; b; d; e; f; g; h] (1 * 3 + 2) = Ok g /\
  index_set [a; b; d; e; f; g; h] (1 * 3 + 0) a = Ok [a; b; d; a; f; g; h].
Proof. exact @ex_index. Qed.
