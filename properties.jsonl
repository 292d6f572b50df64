{"id": "C01", "title": "Cell writes are read back and disturb nothing else", "statement": "After `set(r,c,v)` with r < ROWS and c < COLS on a matrix whose buffer is at least ROWS*COLS long, neither call panics, `get(r,c)` returns v, every other cell (and every buffer element past ROWS*COLS) is unchanged.", "quantifier": "all dimensions, all buffers (also longer than needed), all in-range cells and all values of any element type", "why_tests_cant": "A unit test fixes one shape and a few cells; the claim is about every shape, cell pair and oversize buffer.", "anchors": ["crates/minikalman/src/matrix/row_major.rs:get_at", "crates/minikalman/src/matrix/row_major.rs:set_at", "crates/minikalman/src/matrix/traits.rs:Matrix::get", "crates/minikalman/src/matrix/traits.rs:MatrixMut::set"]}
{"id": "C02", "title": "Out-of-range cell access is rejected", "statement": "`get`/`set` with a row >= ROWS or a column >= COLS panics instead of touching some other cell.", "quantifier": "all dimensions, all (row, column) pairs, checked and unchecked arithmetic builds", "why_tests_cant": "Tests probe a handful of bad indices; a bad column inside the buffer or a product that wraps is a particular combination of shape and index.", "anchors": ["crates/minikalman/src/matrix/row_major.rs:get_at", "crates/minikalman/src/matrix/row_major.rs:set_at"]}
{"id": "C03", "title": "get_column_copy extracts exactly the requested column", "statement": "`get_column_copy(c, buf)` writes cell (r,c) to buf[r] for every row r, leaves the rest of buf alone and never panics when ROWS >= 1, c < COLS and both buffers are large enough.", "quantifier": "all shapes, columns, contents, oversize target buffers, all build modes", "why_tests_cant": "The index arithmetic walks backwards in isize; only all shapes together cover every stride.", "anchors": ["crates/minikalman/src/matrix/traits.rs:Matrix::get_column_copy"]}
{"id": "C04", "title": "get_row_copy extracts exactly the requested row", "statement": "`get_row_copy(r, buf)` writes cell (r,c) to buf[c] for every column c.", "quantifier": "all shapes, all rows r < ROWS, all contents", "why_tests_cant": "Existing tests happen to look at row 0 (or square-ish layouts); the claim is for every row.", "anchors": ["crates/minikalman/src/matrix/traits.rs:Matrix::get_row_copy"]}
{"id": "C05", "title": "Matrix product kernels compute the documented product in the documented order", "statement": "For every element type, `mult`, `mult_transb`, `multadd_transb`, `multscale_transb`, `mult_rowvector` and `multadd_rowvector` leave in each output cell exactly the left-to-right accumulated sum of products of the corresponding row and column (started at zero, resp. at the first product; added to / scaled as documented), change no element past the logical matrix, and panic only if one of those element operations itself panics.", "quantifier": "all shapes, buffers (also oversize), contents and element types including floats and overflow-checked fixed-point", "why_tests_cant": "Every shape and every rounding/overflow behaviour is needed; a test sees a few shapes in f32.", "anchors": ["crates/minikalman/src/matrix/traits.rs:Matrix::mult", "crates/minikalman/src/matrix/traits.rs:Matrix::mult_transb", "crates/minikalman/src/matrix/traits.rs:Matrix::multadd_transb", "crates/minikalman/src/matrix/traits.rs:Matrix::multscale_transb", "crates/minikalman/src/matrix/traits.rs:Matrix::mult_rowvector", "crates/minikalman/src/matrix/traits.rs:Matrix::multadd_rowvector"]}
{"id": "C06", "title": "mult_buffered and mult agree bit for bit", "statement": "`a.mult_buffered(b, c, aux)` leaves the same contents in c as `a.mult(b, c)` whatever aux held before.", "quantifier": "all shapes, contents, scratch contents, element types", "why_tests_cant": "Bitwise agreement over all inputs and scratch contents is not enumerable.", "anchors": ["crates/minikalman/src/matrix/traits.rs:Matrix::mult_buffered", "crates/minikalman/src/matrix/traits.rs:Matrix::mult"]}
{"id": "C07", "title": "Kernels implement matrix algebra in exact arithmetic", "statement": "Over exact real arithmetic the kernels compute A*B, A*x, C+A*x, A*Bᵀ, C+A*Bᵀ, s*A*Bᵀ, A-B, A+B, B:=A-B and copy, as matrices.", "quantifier": "all shapes and all real matrices", "why_tests_cant": "Universally quantified algebraic identity.", "anchors": ["crates/minikalman/src/matrix/traits.rs:Matrix", "crates/minikalman/src/matrix/traits.rs:MatrixMut"]}
{"id": "C08", "title": "Element-wise kernels act on exactly the logical matrix", "statement": "`sub`, `add_inplace_a/b`, `sub_inplace_a/b` and `copy_to` perform the element operation once on every cell of the logical matrix, leave elements beyond ROWS*COLS unchanged and panic only when an element operation panics (copy_to: never, for non-empty matrices).", "quantifier": "all shapes, contents, element types, oversize buffers", "why_tests_cant": "All shapes and element types.", "anchors": ["crates/minikalman/src/matrix/traits.rs:Matrix::sub", "crates/minikalman/src/matrix/traits.rs:Matrix::add_inplace_b", "crates/minikalman/src/matrix/traits.rs:Matrix::sub_inplace_b", "crates/minikalman/src/matrix/traits.rs:MatrixMut::add_inplace_a", "crates/minikalman/src/matrix/traits.rs:MatrixMut::sub_inplace_a", "crates/minikalman/src/matrix/traits.rs:Matrix::copy_to"]}
{"id": "C09", "title": "Fill and diagonal constructors produce the documented matrix", "statement": "`make_identity`, `make_scalar`, `make_comatrix`, `set_diagonal_to_scalar`, `set_symmetric`, `set_all`, `clear`/`set_zero` leave exactly the documented value in each logical cell.", "quantifier": "all sizes, contents, values, element types", "why_tests_cant": "All sizes and contents.", "anchors": ["crates/minikalman/src/matrix/traits.rs:SquareMatrixMut::make_comatrix", "crates/minikalman/src/matrix/traits.rs:SquareMatrixMut::set_diagonal_to_scalar", "crates/minikalman/src/matrix/traits.rs:MatrixMut::set_symmetric", "crates/minikalman/src/matrix/traits.rs:MatrixMut::set_all"]}
{"id": "C10", "title": "Mutators never write past the logical matrix", "statement": "No mutating matrix operation changes buffer elements at index ROWS*COLS or beyond (a caller may pass a longer slice, e.g. a shared scratch area).", "quantifier": "all mutating operations, all shapes, all oversize buffers", "why_tests_cant": "Tests use exact-size buffers.", "anchors": ["crates/minikalman/src/matrix/traits.rs:MatrixMut::set_all", "crates/minikalman/src/matrix/traits.rs:MatrixMut", "crates/minikalman/src/matrix/data.rs:new_mut"]}
{"id": "C11", "title": "Cholesky succeeds exactly on positive definite matrices and yields the factor", "statement": "For a symmetric matrix A, `cholesky_decompose_lower` returns true iff A is positive definite, and then the buffer holds the unique lower triangular L with positive diagonal and L*Lᵀ = A (exact arithmetic).", "quantifier": "all n >= 1, all real symmetric matrices", "why_tests_cant": "Equivalence with definiteness quantifies over all vectors and all matrices.", "anchors": ["crates/minikalman/src/matrix/traits.rs:MatrixMut::cholesky_decompose_lower"]}
{"id": "C12", "title": "Cholesky return value follows the documented semi-definiteness contract", "statement": "The documentation says `cholesky_decompose_lower` returns false iff the matrix is not positive semi-definite.", "quantifier": "all symmetric matrices, in particular singular semi-definite ones", "why_tests_cant": "The boundary (singular) matrices are measure zero.", "anchors": ["crates/minikalman/src/matrix/traits.rs:MatrixMut::cholesky_decompose_lower"]}
{"id": "C13", "title": "Cholesky depends only on the upper triangle", "statement": "The result flag and resulting buffer (logical part) of `cholesky_decompose_lower`, when it succeeds, are determined by the cells on and above the diagonal; whatever the strict lower triangle held is ignored.", "quantifier": "all n, all pairs of buffers agreeing on the upper triangle, every element type", "why_tests_cant": "Two-run property over all contents.", "anchors": ["crates/minikalman/src/matrix/traits.rs:MatrixMut::cholesky_decompose_lower"]}
{"id": "C14", "title": "invert_l_cholesky after Cholesky is the inverse", "statement": "If `cholesky_decompose_lower` succeeded on symmetric A then `invert_l_cholesky` fills the target with A⁻¹ (A*X = X*A = I), whatever the target held before.", "quantifier": "all n >= 1, all positive definite real matrices, all target contents", "why_tests_cant": "Inverse identity for all sizes.", "anchors": ["crates/minikalman/src/matrix/traits.rs:SquareMatrix::invert_l_cholesky", "crates/minikalman/src/matrix/traits.rs:MatrixMut::cholesky_decompose_lower"]}
{"id": "C15", "title": "The computed inverse is exactly symmetric", "statement": "Whatever the input, `invert_l_cholesky` leaves an exactly (bitwise) symmetric matrix in the target, which does not depend on the target's previous contents.", "quantifier": "all n >= 1, all inputs, every element type including floats with NaN/infinity", "why_tests_cant": "Bitwise symmetry over all float inputs.", "anchors": ["crates/minikalman/src/matrix/traits.rs:SquareMatrix::invert_l_cholesky"]}
{"id": "C16", "title": "Valid, non-empty matrices never cause an index or arithmetic-overflow panic", "statement": "With buffers at least as large as their logical size and dimensions >= 1, no matrix operation, predict, control or correct call can panic on an index, a usize/isize overflow or a debug assertion, in any build mode; only the element type's own arithmetic can panic.", "quantifier": "all operations, shapes, contents, element types, build configurations", "why_tests_cant": "Absence of panics over all shapes and builds.", "anchors": ["crates/minikalman/src/matrix/traits.rs", "crates/minikalman/src/kalman/regular.rs:predict", "crates/minikalman/src/observations/regular.rs:correct", "crates/minikalman/src/controls.rs:apply_control"]}
{"id": "C17", "title": "Empty matrices are handled", "statement": "Operations on matrices with zero rows or columns, and filters with zero states or observations, do nothing instead of panicking.", "quantifier": "all operations and all shapes with a zero dimension", "why_tests_cant": "Degenerate shapes in every operation and build mode.", "anchors": ["crates/minikalman/src/matrix/traits.rs:Matrix::copy_to", "crates/minikalman/src/matrix/traits.rs:Matrix::mult_rowvector", "crates/minikalman/src/matrix/traits.rs:SquareMatrix::invert_l_cholesky", "crates/minikalman/src/controls.rs:apply_control"]}
{"id": "C18", "title": "predict implements the textbook time update", "statement": "`predict()` replaces x by A*x and P by A*P*Aᵀ + Q and changes neither A nor Q (exact arithmetic).", "quantifier": "all state counts, all A, Q, x, P, all temporary contents", "why_tests_cant": "For all matrices and sizes.", "anchors": ["crates/minikalman/src/kalman/regular.rs:predict", "crates/minikalman/src/kalman/regular.rs:predict_x", "crates/minikalman/src/kalman/regular.rs:predict_P"]}
{"id": "C19", "title": "predict_tuned inflates exactly by 1/λ²", "statement": "`predict_tuned(λ)` with λ ≠ 0 replaces x by A*x and P by A*P*Aᵀ/λ² + Q; λ = 1 is the same as `predict()`; for 0 < λ ≤ 1 and semi-definite P the result is at least the untuned covariance, and a smaller λ gives a larger one.", "quantifier": "all sizes, matrices and λ", "why_tests_cant": "For all matrices and λ; the order claim quantifies over all vectors.", "anchors": ["crates/minikalman/src/kalman/regular.rs:predict_tuned", "crates/minikalman/src/kalman/regular.rs:predict_P_tuned"]}
{"id": "C20", "title": "control applies x + B*u and P + B*Q*Bᵀ", "statement": "`control(..)` replaces x by x + B*u and P by P + B*Q*Bᵀ, leaves u, B, Q unchanged; a control with zero inputs (or zero states) leaves the filter untouched.", "quantifier": "all state/control counts, all matrices, all temporary contents", "why_tests_cant": "For all matrices and sizes, including empty ones.", "anchors": ["crates/minikalman/src/controls.rs:apply_control", "crates/minikalman/src/kalman/regular.rs:control"]}
{"id": "C21", "title": "correct implements the textbook measurement update", "statement": "If S = H*P*Hᵀ + R is symmetric positive definite, `correct(..)` replaces x by x + K*(z - H*x) and P by P - K*H*P where K = P*Hᵀ*S⁻¹, and changes neither H, z nor R.", "quantifier": "all state and observation counts, all matrices with S positive definite, all temporary contents", "why_tests_cant": "For all matrices and sizes.", "anchors": ["crates/minikalman/src/observations/regular.rs:correct", "crates/minikalman/src/observations/regular.rs:update_with_innovation"]}
{"id": "C22", "title": "The user-supplied gain and innovation buffers hold the values actually used", "statement": "After `correct`, the buffer the user supplied for the gain holds K = P*Hᵀ*S⁻¹ and the one supplied for the innovation holds z - H*x, for the prior x and P.", "quantifier": "all sizes and matrices with S positive definite", "why_tests_cant": "For all matrices.", "anchors": ["crates/minikalman/src/observations/regular.rs:correct"]}
{"id": "C23", "title": "The user-supplied innovation covariance buffer holds S after a correction", "statement": "After `correct`, the buffer the user supplied for the innovation (residual) covariance S holds S = H*P*Hᵀ + R.", "quantifier": "all sizes and matrices with S positive definite", "why_tests_cant": "For all matrices; the in-place factorisation reuses the buffer.", "anchors": ["crates/minikalman/src/observations/regular.rs:update_with_innovation"]}
{"id": "C24", "title": "The covariance stays symmetric and positive semi-definite for ever", "statement": "Starting from a symmetric positive semi-definite P, after any sequence of predict, predict_tuned (λ ≠ 0), control and correct calls with symmetric semi-definite Q, control Q and symmetric positive definite R, P is symmetric positive semi-definite (exact arithmetic) and no call panics.", "quantifier": "all finite histories, sizes (observation/control sizes may vary per call) and matrices", "why_tests_cant": "Unbounded histories.", "anchors": ["crates/minikalman/src/kalman/regular.rs", "crates/minikalman/src/observations/regular.rs", "crates/minikalman/src/controls.rs"]}
{"id": "C25", "title": "A correction never increases uncertainty", "statement": "After `correct` with symmetric P ≥ 0 and S positive definite, P_before - P_after is positive semi-definite; in particular no state variance grows.", "quantifier": "all sizes and matrices", "why_tests_cant": "Quantifies over all vectors and matrices.", "anchors": ["crates/minikalman/src/observations/regular.rs:update_with_innovation"]}
{"id": "C26", "title": "The gain used is the optimal one", "statement": "For symmetric P ≥ 0 and S positive definite, the covariance after `correct` equals the Joseph form of the gain used and is ≤ (in the semi-definite order) the Joseph-form covariance of any other gain.", "quantifier": "all matrices and all competing gains", "why_tests_cant": "Quantifies over all gains.", "anchors": ["crates/minikalman/src/observations/regular.rs:update_with_innovation"]}
{"id": "C27", "title": "Correction is the information-form / weighted-least-squares update", "statement": "If P and R are symmetric positive definite then after `correct`: P'⁻¹ = P⁻¹ + Hᵀ R⁻¹ H, P'⁻¹ x' = P⁻¹ x + Hᵀ R⁻¹ z, and x' is the unique minimiser of (ξ-x)ᵀP⁻¹(ξ-x) + (z-Hξ)ᵀR⁻¹(z-Hξ).", "quantifier": "all sizes, matrices, measurements, candidate states ξ", "why_tests_cant": "Optimality over all candidate states.", "anchors": ["crates/minikalman/src/observations/regular.rs:correct"]}
{"id": "C28", "title": "Independent observations can be applied in any order", "statement": "Correcting with two observations with separate noise, in either order, gives the same x and P, and the same as one stacked observation with block-diagonal noise.", "quantifier": "all sizes and matrices with P, R1, R2 positive definite", "why_tests_cant": "Commutation over all matrices.", "anchors": ["crates/minikalman/src/observations/regular.rs:correct"]}
{"id": "C29", "title": "The covariance path is independent of the data", "statement": "P (and K) after any sequence of calls do not depend on the state x, the measurements z or the control inputs u.", "quantifier": "all histories that differ only in data", "why_tests_cant": "Two-run property over unbounded histories.", "anchors": ["crates/minikalman/src/kalman/regular.rs", "crates/minikalman/src/observations/regular.rs", "crates/minikalman/src/controls.rs"]}
{"id": "C30", "title": "Zero innovation leaves the state alone", "statement": "If z = H*x then `correct` leaves x unchanged (P is still updated); the posterior residual z - H*x' equals R*S⁻¹*(z - H*x), so a noise-free measurement (R = 0) is reproduced exactly and P' has no remaining uncertainty in H.", "quantifier": "all sizes and matrices with S positive definite", "why_tests_cant": "For all matrices.", "anchors": ["crates/minikalman/src/observations/regular.rs:correct"]}
{"id": "C31", "title": "Scratch buffers never influence results", "statement": "Two filters/measurements/controls that agree on their model matrices, x, P and data but differ arbitrarily in predicted-x, temp-P, y, S, K, S_inv, HP, PHt, KHP and BQ buffers give bitwise identical x and P after any sequence of calls.", "quantifier": "all element types, contents, sizes, histories", "why_tests_cant": "Two-run property over all scratch contents and histories.", "anchors": ["crates/minikalman/src/kalman/regular.rs:predict", "crates/minikalman/src/observations/regular.rs:correct", "crates/minikalman/src/controls.rs:apply_control"]}
{"id": "C32", "title": "Permitted buffer aliasing is harmless", "statement": "Under every aliasing of temporaries the documentation permits (S_inv with KHP; S_inv with HP; HP with PHt; PHt with KHP; temp_P with temp_BQ) x and P after the call are bitwise the same as with separate buffers.", "quantifier": "all sizes, contents, element types, all permitted aliasings", "why_tests_cant": "All contents and shapes for each aliasing.", "anchors": ["crates/minikalman/src/observations/regular.rs:RegularObservationBuilder::new (aliasing notes)", "crates/minikalman/src/observations/extended.rs:176-202", "crates/minikalman/src/controls.rs"]}
{"id": "C33", "title": "Forbidden buffer aliasing is genuinely harmful", "statement": "Each aliasing the documentation forbids (S_inv with PHt; HP with KHP) changes the resulting x or P for some input, so the restriction is necessary.", "quantifier": "existence of inputs for each forbidden aliasing", "why_tests_cant": "Documents the boundary of the aliasing contract; tests never alias.", "anchors": ["crates/minikalman/src/observations/extended.rs:176-202"]}
{"id": "C34", "title": "correct reports or survives a non-positive-definite innovation covariance", "statement": "If S is not positive definite, `correct` either leaves x and P usable or signals the failure.", "quantifier": "all inputs with S not positive definite", "why_tests_cant": "Failure needs specific numeric inputs.", "anchors": ["crates/minikalman/src/observations/regular.rs:update_with_innovation"]}
{"id": "C35", "title": "Extended filter with linear models equals the regular filter", "statement": "`predict_nonlinear`/`correct_nonlinear` with closures computing A*x and H*x give bitwise the same x, P, K, y as `predict`/`correct`, for any history.", "quantifier": "all sizes, contents, element types, histories", "why_tests_cant": "Two implementations compared over all inputs.", "anchors": ["crates/minikalman/src/kalman/extended.rs:predict_nonlinear", "crates/minikalman/src/observations/extended.rs:correct_nonlinear"]}
{"id": "C36", "title": "Extended filter implements the EKF equations", "statement": "`predict_nonlinear(f)` sets x to f(x) and P to A*P*Aᵀ + Q (tuned: scaled by 1/λ²) with A the Jacobian currently stored; `correct_nonlinear(h)` sets x to x + K*(z - h(x)) and P to P - K*H*P.", "quantifier": "all sizes, matrices, closures writing their whole output", "why_tests_cant": "All closures and matrices.", "anchors": ["crates/minikalman/src/kalman/extended.rs", "crates/minikalman/src/observations/extended.rs"]}
{"id": "C37", "title": "Nonlinear closures start from a clean output", "statement": "A closure passed to `predict_nonlinear`/`correct_nonlinear` that leaves an output component unwritten yields zero (or the old state) in it, never data of an earlier, unrelated computation.", "quantifier": "all closures that write only part of their output", "why_tests_cant": "Needs a history plus a partial closure.", "anchors": ["crates/minikalman/src/kalman/extended.rs:predict_x_nonlinear", "crates/minikalman/src/observations/extended.rs:correct_nonlinear"]}
{"id": "C38", "title": "Builders produce correctly sized zero filters", "statement": "The builders return filters, controls and observations in which every buffer has exactly the documented size and is filled with T::default(); predict and control on them never panic and, in exact arithmetic, leave x = 0 and P = 0.", "quantifier": "all state/control/observation counts >= 1, element types", "why_tests_cant": "All sizes.", "anchors": ["crates/minikalman/src/kalman_builder/regular.rs", "crates/minikalman/src/kalman_builder/extended.rs", "crates/minikalman/src/buffers/builder.rs"]}
{"id": "C39", "title": "Any history refines the textbook Kalman filter", "statement": "For every sequence of predict / predict_tuned / control / correct / setter calls, the (x, P) observable after each call equals the (x, P) of the mathematical Kalman filter run on the same sequence (exact arithmetic), as long as each S met is positive definite.", "quantifier": "all finite histories", "why_tests_cant": "Unbounded histories.", "anchors": ["crates/minikalman/src/kalman/regular.rs", "crates/minikalman/src/observations/regular.rs", "crates/minikalman/src/controls.rs"]}
{"id": "C40", "title": "k predictions have the closed form", "statement": "k successive `predict()` calls give x = Aᵏ x₀ and P = Aᵏ P₀ (Aᵏ)ᵀ + Σ_{i<k} Aⁱ Q (Aⁱ)ᵀ.", "quantifier": "all k, sizes and matrices", "why_tests_cant": "All k.", "anchors": ["crates/minikalman/src/kalman/regular.rs:predict"]}
{"id": "C41", "title": "More prior certainty never hurts", "statement": "If P₁ ≤ P₂ (symmetric, semi-definite order) then after the same predict / predict_tuned / control / correct call the resulting covariances are still ordered.", "quantifier": "all matrices with R positive definite, histories", "why_tests_cant": "Order over all vectors and histories (monotonicity of the Riccati map).", "anchors": ["crates/minikalman/src/kalman/regular.rs", "crates/minikalman/src/observations/regular.rs", "crates/minikalman/src/controls.rs"]}
{"id": "C42", "title": "Estimation error obeys the error recursion (unbiasedness)", "statement": "If the true state follows x* := A x* + w and the measurement is z = H x* + v, then after predict the error x - x* is A e - w, and after correct it is (I - K H) e + K v; with no noise an exact estimate stays exact for ever.", "quantifier": "all histories, matrices, noises", "why_tests_cant": "All histories.", "anchors": ["crates/minikalman/src/kalman/regular.rs:predict", "crates/minikalman/src/observations/regular.rs:correct"]}
{"id": "C43", "title": "Results do not depend on the choice of units / coordinates", "statement": "Running the filter in transformed coordinates (x̃ = T x, P̃ = T P Tᵀ, Ã = T A T⁻¹, Q̃ = T Q Tᵀ, H̃ = H T⁻¹, B̃ = T B) commutes with every call.", "quantifier": "all invertible T, all histories", "why_tests_cant": "All transformations and histories.", "anchors": ["crates/minikalman/src/kalman/regular.rs", "crates/minikalman/src/observations/regular.rs", "crates/minikalman/src/controls.rs"]}
{"id": "C44", "title": "Floating-point covariance stays exactly symmetric", "statement": "With f32/f64 elements, a bitwise symmetric P stays bitwise symmetric under predict and correct.", "quantifier": "all f32 contents", "why_tests_cant": "Needs specific roundings.", "anchors": ["crates/minikalman/src/kalman/regular.rs:predict_P", "crates/minikalman/src/observations/regular.rs:update_with_innovation"]}
{"id": "C45", "title": "Floating-point variances stay non-negative", "statement": "With f32 elements, correct with P ≥ 0 and R > 0 never produces a negative variance.", "quantifier": "all f32 contents", "why_tests_cant": "Needs specific roundings.", "anchors": ["crates/minikalman/src/observations/regular.rs:update_with_innovation"]}
{"id": "C46", "title": "Cholesky success implies a usable factor in floating point", "statement": "With f32/f64 elements, if `cholesky_decompose_lower` returns true then the diagonal of the result is positive (not NaN).", "quantifier": "all float contents including NaN and infinities", "why_tests_cant": "NaN in particular cells.", "anchors": ["crates/minikalman/src/matrix/traits.rs:MatrixMut::cholesky_decompose_lower"]}
{"id": "C47", "title": "Floating-point products are backward accurate", "statement": "With f32/f64 elements, in absence of overflow and underflow, each cell computed by `mult`/`mult_transb` differs from the exact product by at most ((1+u)^k - 1) * Σ|a||b|.", "quantifier": "all shapes and finite contents", "why_tests_cant": "Rounding error bound over all inputs.", "anchors": ["crates/minikalman/src/matrix/traits.rs:Matrix::mult", "crates/minikalman/src/matrix/traits.rs:Matrix::mult_transb"]}
{"id": "C48", "title": "Constructors accept exactly the buffers they document", "statement": "Checked constructors (boxed data, `MatrixDataArray::new`, `From` for arrays) accept a buffer iff its length equals ROWS*COLS; buffer wrappers accept iff it is at least ROWS*COLS (debug builds), and what they accept is valid; unchecked constructors and release builds may produce an invalid matrix whose use panics instead of reading foreign memory.", "quantifier": "all shapes, lengths, build modes", "why_tests_cant": "All lengths and builds.", "anchors": ["crates/minikalman/src/matrix/data/matrix_data_boxed.rs:new", "crates/minikalman/src/matrix/data/matrix_data_array.rs:new", "crates/minikalman/src/buffers/types/state_vector_buffer.rs:From", "crates/minikalman/src/matrix/data.rs"]}
{"id": "C49", "title": "nalgebra view addresses the same elements", "statement": "The nalgebra storage view of an array matrix (row stride COLS, column stride 1, contiguous slice of ROWS*COLS elements) addresses exactly the cells `get` addresses and stays inside the array.", "quantifier": "all shapes, array lengths the constructors accept", "why_tests_cant": "All shapes and accepted lengths; out-of-range raw access is undefined behaviour a test may not notice.", "anchors": ["crates/minikalman/src/matrix/nalgebra_support.rs", "crates/minikalman/src/matrix/data.rs:new_array"]}
{"id": "C50", "title": "After a correction the filter is at least as certain as the sensor", "statement": "After `correct`, the covariance of the predicted measurement is at most the measurement noise: H P Hᵀ ≤ R in the semi-definite order.", "quantifier": "all sizes, P ≥ 0, R symmetric positive definite", "why_tests_cant": "Order over all vectors and contents.", "anchors": ["crates/minikalman/src/observations/regular.rs:correct"]}
{"id": "C51", "title": "A correction only moves states correlated with what was observed", "statement": "If P Hᵀ has a zero row i (state i is uncorrelated with everything measured) then `correct` leaves x_i and row and column i of P unchanged.", "quantifier": "all matrices and states i with S positive definite", "why_tests_cant": "All sizes and correlation patterns.", "anchors": ["crates/minikalman/src/observations/regular.rs:correct"]}
{"id": "C52", "title": "A certain filter ignores measurements", "statement": "If P = 0 then `correct` computes K = 0 and leaves x and P unchanged, whatever is measured.", "quantifier": "all H, z and positive definite R", "why_tests_cant": "All contents.", "anchors": ["crates/minikalman/src/observations/regular.rs:correct"]}
{"id": "C53", "title": "Measurement units do not matter", "statement": "Re-expressing a sensor in other units (H' = M H, z' = M z, R' = M R Mᵀ with M invertible) leaves x and P after `correct` unchanged.", "quantifier": "all invertible M, all contents", "why_tests_cant": "All transformations.", "anchors": ["crates/minikalman/src/observations/regular.rs:correct"]}
{"id": "C54", "title": "Calls change only the state, the covariance and scratch", "statement": "No predict / control / correct call (regular or extended) changes A, Q, H, R, B, z, u or the control covariance, nor any element of the x and P buffers outside the logical matrix.", "quantifier": "all element types, sizes, histories", "why_tests_cant": "Frame condition over all histories.", "anchors": ["crates/minikalman/src/kalman/regular.rs", "crates/minikalman/src/kalman/extended.rs", "crates/minikalman/src/observations/regular.rs", "crates/minikalman/src/observations/extended.rs", "crates/minikalman/src/controls.rs"]}
{"id": "C55", "title": "Only ratios of covariances matter for the estimate", "statement": "Multiplying P, Q, R and the control covariance by a common positive factor leaves every state estimate of a whole history unchanged and multiplies every covariance by the factor.", "quantifier": "all positive factors, all histories", "why_tests_cant": "All histories.", "anchors": ["crates/minikalman/src/kalman/regular.rs", "crates/minikalman/src/observations/regular.rs", "crates/minikalman/src/controls.rs"]}
{"id": "C56", "title": "Superposition", "statement": "For fixed model matrices and covariances the state estimate after any history is linear in (initial state, controls, measurements).", "quantifier": "all histories and linear combinations", "why_tests_cant": "All histories.", "anchors": ["crates/minikalman/src/kalman/regular.rs", "crates/minikalman/src/observations/regular.rs", "crates/minikalman/src/controls.rs"]}
{"id": "C57", "title": "Repeating a measurement accumulates information linearly", "statement": "k corrections with the same sensor and no prediction between give P⁻¹ = P₀⁻¹ + k Hᵀ R⁻¹ H.", "quantifier": "all k, sizes, P and R positive definite", "why_tests_cant": "All k.", "anchors": ["crates/minikalman/src/observations/regular.rs:correct"]}
{"id": "C58", "title": "The build configuration does not change results", "statement": "A program whose buffers are large enough computes bit for bit the same in debug and release builds, with and without the no_assert feature and for every pointer width.", "quantifier": "all element types, sizes, histories, pairs of build configurations", "why_tests_cant": "All inputs under all pairs of builds; a test suite runs in one.", "anchors": ["crates/minikalman/src/matrix/traits.rs", "crates/minikalman/src/matrix/row_major.rs", "crates/minikalman/src/kalman/regular.rs", "crates/minikalman/src/observations/regular.rs"]}
{"id": "C59", "title": "Floating-point corrections with sound data keep the state finite", "statement": "With f32/f64 elements, corrections with moderate finite data, positive variances and positive sensor noise (hence S positive definite) leave x and P finite.", "quantifier": "all finite histories with moderate, positive definite data", "why_tests_cant": "Needs specific roundings.", "anchors": ["crates/minikalman/src/observations/regular.rs:update_with_innovation", "crates/minikalman/src/matrix/traits.rs:MatrixMut::cholesky_decompose_lower"]}
{"id": "C60", "title": "Square-bracket indexing is row-major access", "statement": "`m[i * COLS + j]` and `m[i * COLS + j] = v` read and write the same element as `get(i, j)` and `set(i, j, v)`, for array, boxed, borrowed and mutably borrowed data.", "quantifier": "all shapes, valid buffers, in-range rows and columns", "why_tests_cant": "All shapes and positions.", "anchors": ["crates/minikalman/src/matrix/data/matrix_data_array.rs:Index", "crates/minikalman/src/matrix/data/matrix_data_boxed.rs:Index", "crates/minikalman/src/matrix/data/matrix_data_ref.rs:Index", "crates/minikalman/src/matrix/data/matrix_data_mut.rs:Index"]}
{"id": "C61", "title": "Shape queries tell the truth", "statement": "`len` is ROWS*COLS, `is_valid` holds iff the slice has at least ROWS*COLS elements, `is_empty` iff ROWS or COLS is zero; a shape too large for usize panics.", "quantifier": "all shapes, slices, build modes", "why_tests_cant": "All shapes, including those near usize::MAX, and all builds.", "anchors": ["crates/minikalman/src/matrix/row_major.rs:len", "crates/minikalman/src/matrix/row_major.rs:is_valid", "crates/minikalman/src/matrix/row_major.rs:is_empty"]}
{"id": "C62", "title": "Vector and scalar accessors address the named component", "statement": "`get_row`/`set_row`, `get_col`/`set_col` and `get_value`/`set_value` read and write exactly the named component and nothing else.", "quantifier": "all vector lengths, indices, contents", "why_tests_cant": "All lengths and positions.", "anchors": ["crates/minikalman/src/matrix/traits.rs:RowVector", "crates/minikalman/src/matrix/traits.rs:ColumnVector", "crates/minikalman/src/matrix/traits.rs:Scalar", "crates/minikalman/src/matrix/traits.rs:RowVectorMut", "crates/minikalman/src/matrix/traits.rs:ColumnVectorMut", "crates/minikalman/src/matrix/traits.rs:ScalarMut"]}
{"id": "C63", "title": "Every step is one fixed sequence of element operations", "statement": "For every element type, `predict`, `predict_tuned`, their nonlinear variants, `control`, `correct`, `correct_nonlinear`, `cholesky_decompose_lower` and `invert_l_cholesky`, when they return, have evaluated exactly the documented formulas in one fixed order and association - (A P) A' + Q, ((A P) A') f + Q with f = 1/(lambda lambda), x + B u, P + (B Q) B', z - H x, (H P) H' + R, (P H') S^-1, x + K y, P - K (H P), column-wise Cholesky, two substitutions - so results are reproducible bit for bit and depend on nothing else.", "quantifier": "all element types (floats, overflow-checked), sizes, contents, scratch contents", "why_tests_cant": "Exact-arithmetic tests cannot tell associations apart and a test samples a few roundings.", "anchors": ["crates/minikalman/src/kalman/regular.rs:predict_x", "crates/minikalman/src/kalman/regular.rs:predict_P", "crates/minikalman/src/kalman/regular.rs:predict_P_tuned", "crates/minikalman/src/controls.rs:apply_control", "crates/minikalman/src/observations/regular.rs:correct", "crates/minikalman/src/observations/regular.rs:update_with_innovation", "crates/minikalman/src/matrix/traits.rs:MatrixMut::cholesky_decompose_lower", "crates/minikalman/src/matrix/traits.rs:Matrix::invert_l_cholesky"]}
{"id": "C64", "title": "Integer-valued data is processed without rounding", "statement": "With f32/f64 elements holding integers whose sums of absolute products stay within 2^24 / 2^53, `mult`, `mult_transb` and `predict` return exactly the integer results (so an integer covariance stays exactly symmetric under predict).", "quantifier": "all sizes, all integer contents within the bound", "why_tests_cant": "Needs every rounding decision at every size.", "anchors": ["crates/minikalman/src/matrix/traits.rs:Matrix::mult", "crates/minikalman/src/matrix/traits.rs:Matrix::mult_transb", "crates/minikalman/src/kalman/regular.rs:predict"]}
{"id": "C65", "title": "A floating-point prediction has a bounded error", "statement": "With f32/f64 elements, each finite component of the predicted covariance differs from A P A' + Q by at most ((1+u)^(2n+1) - 1) (|A||P||A'| + |Q|) plus an underflow term of order n * eta * (1 + sum |A|), and each finite component of the predicted state differs from A x by at most ((1+u)^n - 1) |A||x| plus n (1+u)^n eta.", "quantifier": "all sizes, all finite float contents", "why_tests_cant": "Rounding error bound over all inputs.", "anchors": ["crates/minikalman/src/kalman/regular.rs:predict_x", "crates/minikalman/src/kalman/regular.rs:predict_P"]}
{"id": "C66", "title": "Statically declared buffers equal built ones", "statement": "For every state, input and measurement count, a filter, control or observation assembled from buffers declared with the `impl_buffer_*` macros is the same zero-initialised, correctly sized object the builders construct, so both ways behave identically.", "quantifier": "all sizes that can be allocated, all element types, all initial values", "why_tests_cant": "Sizes are const generics and a macro per buffer: a transposed pair of dimensions shows up only for non-square sizes.", "anchors": ["crates/minikalman/src/static_macros.rs", "crates/minikalman/src/kalman_builder/regular.rs"]}
{"id": "C67", "title": "Fixed-point overflow is never silent", "statement": "With I16F16/I32F32 elements any program of predictions, controls and corrections either computes what unlimited-range fixed-point arithmetic computes or panics; whatever a checked build computes every build computes.", "quantifier": "all sizes, contents, histories, bit widths, builds", "why_tests_cant": "All inputs near the range limits in all intermediate results.", "anchors": ["crates/minikalman/src/matrix/data_type.rs", "crates/minikalman/src/kalman/regular.rs", "crates/minikalman/src/observations/regular.rs", "crates/minikalman/src/controls.rs"]}
{"id": "C68", "title": "Fixed-point rounding is bounded and integers are exact", "statement": "With I16F16/I32F32 elements each entry of a product is below the true value by less than one unit in the last place per term, a predicted covariance is off by at most n ulp (1 + sum |A|), predictions with an integer transition matrix are exact, and control steps and corrections (innovation, gain, state, covariance) have corresponding explicit bounds.", "quantifier": "all sizes, contents, fractional widths, when no overflow occurs", "why_tests_cant": "Rounding bound over all inputs.", "anchors": ["crates/minikalman/src/matrix/data_type.rs", "crates/minikalman/src/matrix/traits.rs:Matrix::mult", "crates/minikalman/src/matrix/traits.rs:Matrix::mult_transb", "crates/minikalman/src/matrix/traits.rs:Matrix::mult_rowvector", "crates/minikalman/src/kalman/regular.rs:predict"]}
{"id": "C69", "title": "A successful fixed-point Cholesky has a positive diagonal", "statement": "With I16F16/I32F32 elements, whenever `cholesky_decompose_lower` returns true every diagonal entry of the factor is strictly positive, in every build, so later divisions by it never divide by zero.", "quantifier": "all sizes, contents, bit widths, builds (including wrapping ones)", "why_tests_cant": "All contents and all overflow patterns.", "anchors": ["crates/minikalman/src/matrix/traits.rs:MatrixMut::cholesky_decompose_lower", "crates/minikalman/src/matrix/data_type.rs"]}
{"id": "C70", "title": "The reported covariance is the true mean square error", "statement": "Follow a random linear system with the filter: noise of zero mean and the covariances Q, the control covariance and R the filter was given, independent draws, inputs chosen from the current estimate by any law, matrices rewritten at will. Then after any sequence of `predict`, `control` and `correct` calls the expected estimation error is zero and its expected outer product is exactly the covariance the filter reports, which is the same in every outcome.", "quantifier": "all systems, sizes, finite noise distributions, feedback laws, histories", "why_tests_cant": "An expectation over all outcomes and all histories; a test draws samples.", "anchors": ["crates/minikalman/src/kalman/regular.rs:predict", "crates/minikalman/src/controls.rs:apply_control", "crates/minikalman/src/observations/regular.rs:correct"]}
{"id": "C71", "title": "Innovations are centred with covariance H P H' + R", "statement": "In such a run the innovation (measurement minus prediction, left in the innovation buffer the user supplied by a `correct` call) has expectation zero and expected outer product H P H' + R, where P is the covariance reported before that call: the basis of every innovation gate or consistency check.", "quantifier": "all systems, sizes, finite noise distributions, feedback laws, histories", "why_tests_cant": "An expectation over all outcomes and all histories.", "anchors": ["crates/minikalman/src/observations/regular.rs:correct", "crates/minikalman/src/buffers/types/innovation_vector_buffer.rs"]}
{"id": "C72", "title": "Innovations of different measurements are uncorrelated", "statement": "In such a run the expected product of the innovations of any two different `correct` calls is zero, however the inputs were chosen in between.", "quantifier": "all systems, sizes, finite noise distributions, feedback laws, pairs of calls in all histories", "why_tests_cant": "An expectation over all outcomes and all histories.", "anchors": ["crates/minikalman/src/observations/regular.rs:correct", "crates/minikalman/src/kalman/regular.rs:predict"]}
{"id": "C73", "title": "The estimate solves the batch least squares problem", "statement": "After any history of `predict`, `predict_tuned`, `control` and `correct` calls (matrices, inputs and measurements rewritten at will between them) the state estimate is the final state of the explanation of the whole history - initial state, disturbances, measurement errors - that minimises the weighted sum of squares; every explanation ending elsewhere costs strictly more, and the inverse covariance is exactly the quadratic increase of the minimal cost. predict_tuned discounts everything before it by lambda^2.", "quantifier": "all linear histories, sizes and data with definite initial covariance, semi-definite (possibly singular) process noise, definite measurement noise", "why_tests_cant": "A minimum over all trajectories of an arbitrary history.", "anchors": ["crates/minikalman/src/kalman/regular.rs:predict", "crates/minikalman/src/kalman/regular.rs:predict_tuned", "crates/minikalman/src/controls.rs:apply_control", "crates/minikalman/src/observations/regular.rs:correct"]}
{"id": "C74", "title": "Repeating a cycle of calls changes the covariance monotonically", "statement": "When the same sequence of calls is repeated (with any inputs and measurements), the reported covariance never decreases from cycle to cycle if the first cycle did not decrease it - in particular when started from zero covariance - and never increases if the first cycle did not increase it.", "quantifier": "all cycles, numbers of repetitions, sizes, data", "why_tests_cant": "An order between matrices after every number of repetitions.", "anchors": ["crates/minikalman/src/kalman/regular.rs:predict", "crates/minikalman/src/controls.rs:apply_control", "crates/minikalman/src/observations/regular.rs:correct"]}
{"id": "C75", "title": "A covariance that a cycle does not increase is a bound forever", "statement": "If a cycle of calls started with covariance S ends with a covariance of at most S, then every filter with the same matrices started at most at S keeps a covariance of at most S after any number of such cycles, whatever is measured.", "quantifier": "all cycles, bounds S, numbers of repetitions, sizes, data", "why_tests_cant": "An order between matrices after every number of repetitions.", "anchors": ["crates/minikalman/src/kalman/regular.rs:predict", "crates/minikalman/src/controls.rs:apply_control", "crates/minikalman/src/observations/regular.rs:correct"]}
{"id": "C76", "title": "The influence of the initial guess never grows", "statement": "Two filters that differ only in their initial state, given the same linear calls and data, keep equal covariances, and the squared distance of their estimates in units of the reported covariance never grows; each `predict_tuned(lambda)` multiplies it by at most lambda^2.", "quantifier": "all linear histories, sizes, data, initial states", "why_tests_cant": "An inequality along every history.", "anchors": ["crates/minikalman/src/kalman/regular.rs:predict", "crates/minikalman/src/kalman/regular.rs:predict_tuned", "crates/minikalman/src/controls.rs:apply_control", "crates/minikalman/src/observations/regular.rs:correct"]}
{"id": "C77", "title": "Infinities and NaN are never repaired", "statement": "With f32/f64 elements a component of the state that is infinite or NaN stays so through every sequence of calls that does not overwrite the state, and the first prediction spreads it to all components; the same holds of the covariance, and a non-finite covariance entry in row i destroys state component i at the next correction.", "quantifier": "all sizes, contents, IEEE formats, histories", "why_tests_cant": "An invariant of every history, for all other contents.", "anchors": ["crates/minikalman/src/kalman/regular.rs:predict", "crates/minikalman/src/controls.rs:apply_control", "crates/minikalman/src/observations/regular.rs:correct", "crates/minikalman/src/kalman/extended.rs"]}
{"id": "C78", "title": "One non-finite datum silently destroys the whole state", "statement": "With f32/f64 elements a `correct` with one infinite or NaN component in the measurement, or a `control` with one such input component, makes every component of the state non-finite, permanently, without a panic or an error; and the covariance stays exactly what it would have been with good data, so the reported uncertainty gives no hint.", "quantifier": "all sizes, contents, IEEE formats, histories after the bad datum", "why_tests_cant": "All contents and all later histories.", "anchors": ["crates/minikalman/src/controls.rs:apply_control", "crates/minikalman/src/observations/regular.rs:correct", "crates/minikalman/src/observations/extended.rs"]}
{"id": "C79", "title": "Rounding error of a control application is bounded", "statement": "With f32/f64 elements every finite entry of the state and covariance after `control` differs from the exact x + B u and P + B Q B' of the stored numbers by at most the classical a-priori bound: ((1+u)^k - 1) times the sum of absolute values of the terms, with k growing linearly in the number of inputs, plus a multiple of the underflow unit.", "quantifier": "all sizes, contents, IEEE formats", "why_tests_cant": "A bound over all floating-point inputs.", "anchors": ["crates/minikalman/src/controls.rs:apply_control", "crates/minikalman/src/matrix/traits.rs:mult"]}
{"id": "C80", "title": "What a correction reports is consistent up to rounding", "statement": "With f32/f64 elements, after `correct` every finite entry of the innovation is z - H x, of the gain P H' Sinv, of the state x + K y and of the covariance P - K (H P), evaluated exactly on the numbers the observation reports, up to the a-priori rounding bound of such an expression; whatever the accuracy of Sinv itself.", "quantifier": "all sizes, contents, IEEE formats", "why_tests_cant": "A bound over all floating-point inputs.", "anchors": ["crates/minikalman/src/observations/regular.rs:correct"]}
{"id": "C81", "title": "A finite Cholesky factor is backward stable", "statement": "With f32/f64 elements, whenever `cholesky_decompose_lower` reports success and the lower triangle of the result L is finite, L L' equals the decomposed matrix (read from its upper triangle) up to ((1+u)^(i+3) - 1) times the corresponding entry of |L||L'| plus an underflow term: the decomposition is exact for a nearby matrix, of any size.", "quantifier": "all sizes, contents, IEEE formats", "why_tests_cant": "A bound over all floating-point matrices of all sizes.", "anchors": ["crates/minikalman/src/matrix/traits.rs:cholesky_decompose_lower"]}
{"id": "C82", "title": "The gain for a single measured component solves its equation up to rounding", "statement": "With f32/f64 elements and one measured component, after a `correct` that leaves the state and the innovation deviation finite, the reported gain K satisfies K (H P H' + R) = P H' up to an explicit rounding bound, without any assumption on definiteness or conditioning.", "quantifier": "all numbers of states, contents, IEEE formats", "why_tests_cant": "A bound over all floating-point inputs.", "anchors": ["crates/minikalman/src/observations/regular.rs:correct", "crates/minikalman/src/matrix/traits.rs:invert_l_cholesky"]}
{"id": "C83", "title": "Filters compute with IEEE 754 arithmetic and nothing else", "statement": "Every program of library calls on f32/f64 filters yields the values obtained by evaluating the same calls with the IEEE 754 operations (correctly rounded +, -, *, /, sqrt, comparison), as formalised independently of this model.", "quantifier": "all programs, sizes, contents, IEEE formats", "why_tests_cant": "All programs and all numbers.", "anchors": ["crates/minikalman/src/matrix/data_type.rs", "crates/minikalman/src/kalman/regular.rs", "crates/minikalman/src/observations/regular.rs"]}
{"id": "C84", "title": "The code depends on the element type only through its operations", "statement": "If a correspondence between the numbers of two element types is respected by zero, one, comparison and the arithmetic operations, then every program of library calls run with both types on corresponding data yields corresponding results (values, and panics), cell by cell including all working buffers.", "quantifier": "all pairs of element types, correspondences, programs, sizes, contents", "why_tests_cant": "A statement about every element type a user may supply.", "anchors": ["crates/minikalman/src/matrix/data_type.rs", "crates/minikalman/src/kalman/regular.rs", "crates/minikalman/src/kalman/extended.rs", "crates/minikalman/src/observations/regular.rs", "crates/minikalman/src/controls.rs"]}
{"id": "C85", "title": "Moderate data cannot overflow", "statement": "With f32/f64 elements and finite matrices, a computed cell of a product, of a prediction, of a control step, and (given a finite gain) of a correction is finite whenever the sum of the magnitudes of the terms of its exact expression, times an explicit rounding factor, is below the format's overflow threshold; in particular `predict` keeps the filter finite if all entries are at most M and 8 n^2 M^3 is below the threshold.", "quantifier": "all sizes, contents, IEEE formats", "why_tests_cant": "Overflow depends on all inputs at once.", "anchors": ["crates/minikalman/src/matrix/traits.rs:mult", "crates/minikalman/src/kalman/regular.rs:predict", "crates/minikalman/src/controls.rs:apply_to", "crates/minikalman/src/observations/regular.rs:correct"]}
{"id": "C86", "title": "A single-component correction is accurate", "statement": "With f32/f64 elements and one measured component, if the innovation variance S = H P H' + R exceeds its own rounding error and no intermediate number comes near the overflow threshold, then `correct` leaves x' and P' finite and within an explicit bound, computed from the data alone, of x + P H' (z - H x) / S and P - P H' H P / S.", "quantifier": "all numbers of states, contents, IEEE formats", "why_tests_cant": "A bound over all floating-point inputs.", "anchors": ["crates/minikalman/src/observations/regular.rs:correct", "crates/minikalman/src/kalman/regular.rs:correct"]}
{"id": "C87", "title": "Prediction tuned with factor one is ordinary prediction", "statement": "With f32/f64 and with fixed-point elements, `predict_tuned` with factor 1 (or -1) gives bit for bit the result of `predict`, panics included, and every program in which such tuned predictions are replaced by ordinary ones behaves the same, for regular and extended filters.", "quantifier": "all sizes, contents (non-finite ones included), IEEE and fixed-point formats, programs", "why_tests_cant": "All bit patterns and all programs; an extra rounding would show for few inputs only.", "anchors": ["crates/minikalman/src/kalman/regular.rs:predict_tuned", "crates/minikalman/src/kalman/extended.rs:predict_tuned", "crates/minikalman/src/kalman.rs"]}
{"id": "C88", "title": "The zero a float sum starts from does not matter", "statement": "Whether the standard library's `Iterator::sum` for floats starts from +0.0 (older Rust releases) or -0.0 (newer ones), every program of library calls yields bit for bit the same filter, controls, gain, innovation and innovation covariance buffers; only signs of zeros in the observation's scratch inverse may differ.", "quantifier": "all programs, sizes, contents, IEEE formats", "why_tests_cant": "All programs and all numbers, across compiler releases.", "anchors": ["crates/minikalman/src/matrix/traits.rs:invert_l_cholesky", "crates/minikalman/src/observations/regular.rs:correct"]}
{"id": "C89", "title": "Overstated noise is safe", "statement": "In exact arithmetic, for a random system whose process, control and measurement noise and initial error are unbiased, independent and have covariances at most (in the semidefinite order) those the filter has been told, and with tuning factors of size at most one, after any sequence of `predict`, `predict_tuned`, `control`, `correct` and matrix changes (inputs chosen from the estimate by any law) the estimate is unbiased and its mean square error is at most the covariance the filter reports.", "quantifier": "all systems, finite noise distributions, step sequences, sizes, input laws", "why_tests_cant": "Expectation over all outcomes of arbitrarily long runs.", "anchors": ["crates/minikalman/src/kalman/regular.rs:predict_tuned", "crates/minikalman/src/kalman/regular.rs:predict", "crates/minikalman/src/controls.rs:apply_to", "crates/minikalman/src/observations/regular.rs:correct"]}
{"id": "C90", "title": "Consistency statistics have their nominal size", "statement": "In exact arithmetic and for a random system that is as the filter has been told, the estimation error normalised by the reported covariance (NEES) has expectation n, and the innovation left in the y buffer, normalised by H P H' + R (NIS), has expectation m; with overstated noise the former is at most n.", "quantifier": "all systems, finite noise distributions, step sequences, sizes, input laws", "why_tests_cant": "Expectation over all outcomes of arbitrarily long runs.", "anchors": ["crates/minikalman/src/kalman/regular.rs:predict", "crates/minikalman/src/controls.rs:apply_to", "crates/minikalman/src/observations/regular.rs:correct"]}
{"id": "C91", "title": "Unrelated systems do not influence each other", "statement": "In exact arithmetic, when two systems with nothing in common (block-diagonal A, Q and P, each control and each observation touching the states of one system only) are run in one filter, then after any sequence of predictions (also tuned and nonlinear), controls, corrections and matrix changes the joint estimate and covariance are those of two separate filters put together, and no correlation appears.", "quantifier": "all sizes, systems, histories", "why_tests_cant": "Two implementations compared over all histories; leaks between rows show only for particular shapes.", "anchors": ["crates/minikalman/src/kalman/regular.rs:predict", "crates/minikalman/src/controls.rs:apply_to", "crates/minikalman/src/observations/regular.rs:correct", "crates/minikalman/src/kalman/extended.rs", "crates/minikalman/src/observations/extended.rs"]}
{"id": "C92", "title": "The choice of origin does not matter to the extended filter", "statement": "In exact arithmetic, measuring the state from another origin (x + s) and offsetting each sensor's readings, with the functions passed to the extended filter adapted accordingly (a linear model becomes an affine one), gives after any history the same covariance and the estimate shifted by s; in particular `predict_nonlinear`/`correct_nonlinear` with affine models agree with `predict`/`correct` on the recentred system.", "quantifier": "all sizes, systems, shifts, sensor offsets, histories", "why_tests_cant": "Two programs compared over all histories.", "anchors": ["crates/minikalman/src/kalman/extended.rs:predict_nonlinear", "crates/minikalman/src/observations/extended.rs:correct_nonlinear", "crates/minikalman/src/kalman/regular.rs", "crates/minikalman/src/observations/regular.rs"]}
{"id": "C93", "title": "k measurements are worth k times one", "statement": "In exact arithmetic, after any sequence of corrections (and new readings) in which a sensor with noise R is used k times, the covariance H P H' of what it measures is at most R / k, whatever the other sensors did and however singular the prior.", "quantifier": "all sizes, systems, sequences of corrections, k", "why_tests_cant": "All sequences and all k.", "anchors": ["crates/minikalman/src/observations/regular.rs:correct", "crates/minikalman/src/observations/extended.rs:correct_nonlinear"]}
{"id": "C94", "title": "Any set of maths features gives floats exactly one implementation", "statement": "Cargo features add up: whichever non-empty subset of `std`, `libm`, `micromath` is enabled (by this or any other crate in the build), f32 and f64 are usable as element types with exactly one implementation of reciprocal and square root, `std` taking precedence; with none of them there is no implementation.", "quantifier": "all subsets of the features", "why_tests_cant": "Each test build sees one subset; feature unification happens in the user's dependency graph.", "anchors": ["crates/minikalman/src/matrix/data_type.rs:MatrixDataType for f32", "crates/minikalman/src/matrix/data_type.rs:MatrixDataType for f64"]}
{"id": "C95", "title": "f64 filters work in double precision under every maths feature", "statement": "Whichever of `std`, `libm`, `micromath` is selected, the square root of every positive finite f64 is accurate to f64's precision over its whole range, and a correction reacts to the measurement noise to that precision.", "quantifier": "all positive finite f64, all behaviours of the external square root", "why_tests_cant": "All of f64's range, and any implementation of the external routine.", "anchors": ["crates/minikalman/src/matrix/data_type.rs:square_root", "crates/minikalman/src/matrix/data_type.rs:recip", "crates/minikalman/src/observations/regular.rs:correct"]}
{"id": "C96", "title": "A contracting float system stays in range for ever", "statement": "If the rows of the transition matrix add up (in magnitude) to at most rho and levels X, M exist that one turn maps into themselves, then any number of turns of predict and control, with any representable inputs up to U, returns normally with finite state and covariance within X and M; nothing ever overflows or turns into a NaN.", "quantifier": "all float formats, sizes, systems, numbers of turns and inputs", "why_tests_cant": "Runs of unbounded length with arbitrary inputs.", "anchors": ["crates/minikalman/src/kalman/regular.rs:predict", "crates/minikalman/src/controls.rs:apply_control"]}
{"id": "C97", "title": "Rounding errors of a contracting system do not pile up", "statement": "For such a system with rho < 1 the distance between the computed state and covariance and those of the same run in exact arithmetic has a bound that does not grow with the number of turns.", "quantifier": "all float formats, sizes, systems, numbers of turns and inputs", "why_tests_cant": "Runs of unbounded length, compared with real arithmetic.", "anchors": ["crates/minikalman/src/kalman/regular.rs:predict", "crates/minikalman/src/controls.rs:apply_control"]}
{"id": "C98", "title": "The float Cholesky decomposition accepts what is safely positive definite, and nothing clearly indefinite", "statement": "A matrix whose diagonal is at most sig and whose smallest eigenvalue exceeds about 16 n (n+3) u sig is reported positive definite, with a finite factor that reproduces it up to rounding; conversely a matrix reported positive definite with a finite factor has no eigenvalue below minus such a rounding error.", "quantifier": "all float formats, all sizes, all representable finite matrices (upper triangle)", "why_tests_cant": "Conditioning of all matrices of all sizes; a few well-chosen matrices say nothing about the boundary.", "anchors": ["crates/minikalman/src/matrix/traits.rs:cholesky_decompose_lower"]}
{"id": "C99", "title": "Inverting a well-conditioned matrix is safe and accurate", "statement": "Under the conditions of C98 (and no intermediate near the overflow threshold) decomposing a matrix and inverting it from its factor yields a finite matrix, at most 5/lam in magnitude, that differs from the inverse in exact arithmetic by an explicit bound of the order of the rounding error times the squared condition number.", "quantifier": "all float formats, all sizes, all representable finite matrices (upper triangle)", "why_tests_cant": "All matrices of all sizes; accuracy against real arithmetic.", "anchors": ["crates/minikalman/src/matrix/traits.rs:cholesky_decompose_lower", "crates/minikalman/src/matrix/traits.rs:invert_l_cholesky"]}
{"id": "C100", "title": "A correction with several measured components is finite and accurate", "statement": "When the data are finite and within bounds B, and the innovation covariance has no eigenvalue below 2 lam with lam well above the rounding errors (2048 B^5 u), a correction with any number of measured components returns normally, everything it computes is finite, and gain, state and covariance differ from those of exact arithmetic by at most 8192 B^11 u / lam^2 (or by sharper bounds computed from separate bounds on the data).", "quantifier": "all float formats, numbers of states and components, all data within the bounds", "why_tests_cant": "All sizes and all data; accuracy against real arithmetic.", "anchors": ["crates/minikalman/src/observations/regular.rs:correct", "crates/minikalman/src/matrix/traits.rs:cholesky_decompose_lower", "crates/minikalman/src/matrix/traits.rs:invert_l_cholesky"]}
{"id": "C101", "title": "A step panics for arithmetic reasons only when its own formulas have no value", "statement": "With an element type whose operations can panic (checked fixed point), predict and control return exactly when x := A x, P := A P A' + Q (resp. x + B u, P + B Q B'), evaluated operation by operation in the documented order, have values; a correction returns whenever its formulas have.", "quantifier": "all element types, all sizes, all contents, all builds", "why_tests_cant": "Any partial arithmetic; overflow in an intermediate that no test happens to hit.", "anchors": ["crates/minikalman/src/kalman/regular.rs:predict", "crates/minikalman/src/controls.rs:apply_control", "crates/minikalman/src/observations/regular.rs:correct", "crates/minikalman/src/matrix/traits.rs:cholesky_decompose_lower"]}
{"id": "C102", "title": "With room in the range, fixed-point filters never overflow and all builds agree", "statement": "If for each entry of each product the magnitudes of the terms plus one unit in the last place per product fit in the range of the fixed-point type, then mult, mult_transb, predict and control return normally in every build (with or without overflow checks) with the same result, which is that of fixed-point arithmetic without any limit; entries up to M with 4 n^2 M^3 in range suffice.", "quantifier": "all fixed-point formats, sizes and contents; all builds", "why_tests_cant": "All contents: overflow depends on combinations of values.", "anchors": ["crates/minikalman/src/kalman/regular.rs:predict", "crates/minikalman/src/controls.rs:apply_control", "crates/minikalman/src/matrix/traits.rs:mult", "crates/minikalman/src/matrix/traits.rs:mult_transb", "crates/minikalman/src/matrix/data_type.rs"]}
{"id": "C103", "title": "A contracting fixed-point system stays in range for ever, and its errors do not pile up", "statement": "If the rows of A add up (in magnitude) to at most rho and levels X, M exist that one turn maps into themselves, then any number of turns of predict and control, with any inputs up to U, overflows in no build and keeps the state within X and the covariance within M; if rho < 1 the distance from the same run in exact arithmetic has a bound independent of the number of turns.", "quantifier": "all fixed-point formats, sizes, systems, numbers of turns and inputs; all builds", "why_tests_cant": "Runs of unbounded length with arbitrary inputs.", "anchors": ["crates/minikalman/src/kalman/regular.rs:predict", "crates/minikalman/src/controls.rs:apply_control"]}
{"id": "C104", "title": "A fixed-point correction by one measured number is safe and accurate", "statement": "If no number exceeds M, the exact innovation variance is at least 1/g (plus a small rounding term) and 32 g n^2 M^4 is in range, a correction by one measured component returns in every build with the same result, and state and covariance are within 41 g^2 n^4 M^5 units in the last place of those of the exact correction.", "quantifier": "all fixed-point formats, numbers of states, contents; all builds", "why_tests_cant": "All contents; accuracy against exact arithmetic.", "anchors": ["crates/minikalman/src/observations/regular.rs:correct", "crates/minikalman/src/matrix/traits.rs:cholesky_decompose_lower", "crates/minikalman/src/matrix/traits.rs:invert_l_cholesky"]}
{"id": "C105", "title": "A fixed-point filter that takes readings for ever", "statement": "In a fixed-point type, the covariance and the gain of a predict/correct turn do not depend on states or readings, so one reference run settles them. Where the reference run does not overflow and the magnitudes of state and reading leave room for this gain, a turn overflows in no build (checked or wrapping), has the same covariance and gain, and its state is that of exact arithmetic with this gain, p + K (z - H p) with p = A x, up to a stated number of units in the last place. Any number of turns with any readings up to a bound: if the linear recursion with the filter's gains keeps the state within X, the program runs without overflow in every build and its state follows the recursion and stays within X.", "quantifier": "all pointer widths and build settings, all fixed-point widths and fraction bits, all numbers of states and measurements, all filters, all reference runs, all sequences of readings of any length", "why_tests_cant": "a test runs one sequence of readings for a finite time; overflow can appear with other readings or later", "anchors": ["crates/minikalman/src/kalman/regular.rs:predict", "crates/minikalman/src/kalman/regular.rs:correct", "crates/minikalman/src/observations/regular.rs:correct", "crates/minikalman/src/matrix/data_type.rs"]}
{"id": "C106", "title": "The shipped fixed-point example never overflows", "statement": "The program examples/gravity_fixed.rs (I16F16, three states, one measurement), run on any number of readings each within 4 km, panics in no build, gives bit for bit the same result in checked and wrapping builds, and its state stays within 7400 m, 5500 m/s and 3000 m/s^2.", "quantifier": "all pointer widths and build settings, all tables of distances and errors of any length with readings within 4 km", "why_tests_cant": "the example runs one table of fifteen readings", "anchors": ["crates/minikalman/examples/gravity_fixed.rs:main", "crates/minikalman/src/kalman/regular.rs:predict", "crates/minikalman/src/kalman/regular.rs:correct"]}
{"id": "C107", "title": "The shipped example's assertion is robust", "statement": "The assertion at the end of examples/gravity_fixed.rs (the estimate of g lies between 9 and 10) holds in every build for every table of measurement errors up to 4 m (the shipped errors are below 0.9 m); it does not hold for every table of errors up to 5 m.", "quantifier": "all pointer widths and build settings, all tables of fifteen errors of up to 4 m", "why_tests_cant": "the example is one table of errors", "anchors": ["crates/minikalman/examples/gravity_fixed.rs:main"]}
{"id": "C108", "title": "The shipped example estimates what it claims to", "statement": "For every body with constant acceleration a0 that starts at s0 with speed v0, and readings of its position within 4 km and off by at most W, the example's estimate of the acceleration after its fifteen turns is off by at most 0.022 |s0| + 0.002 |v0| + 0.0003 |6 - a0| + 0.066 W + 0.001, and after any number of turns above 361 the estimates of position, speed and acceleration are off by at most 1.73 W + 0.02, 0.34 W + 0.008 and 0.027 W + 0.0012 (as long as the truth stays within 10000).", "quantifier": "all pointer widths and build settings, all constant accelerations, initial positions and speeds, all error bounds, all tables of readings of any length that meet them", "why_tests_cant": "a test checks one trajectory with one noise sample for fifteen turns", "anchors": ["crates/minikalman/examples/gravity_fixed.rs:main", "crates/minikalman/src/kalman/regular.rs:predict", "crates/minikalman/src/kalman/regular.rs:correct"]}
{"id": "C109", "title": "One turn of a floating-point filter computes what it documents, up to a stated rounding error", "statement": "One turn (predict or predict_tuned, then correct) of a filter in any IEEE-like float format always returns; where the gain it computed is finite and the magnitudes of state, reading and gain leave room below the overflow threshold, the new state is finite and differs from p + K (z - H p), p = A x, evaluated in real arithmetic with that same gain, by at most a stated rounding error; a sharper error holds for a sensor that reads components of the state (the innovation is then rounded once).", "quantifier": "all float formats, all numbers of states and measured components, all finite filters and readings, all pointer widths and builds", "why_tests_cant": "All states, readings and gains; agreement with real arithmetic.", "anchors": ["crates/minikalman/src/kalman/regular.rs:predict", "crates/minikalman/src/kalman/regular.rs:predict_tuned", "crates/minikalman/src/observations/regular.rs:correct"]}
{"id": "C110", "title": "A floating-point filter that takes readings for ever", "statement": "If the gains of a float filter's turns (which depend on no state or reading) are finite, and the linear recursion with these gains, perturbed by rounding, keeps the state within X for all readings within Z, then any number of turns with any readings within Z returns, every state is finite and within X, and the states follow the recursion; a box that each turn maps into itself, rounding included, suffices.", "quantifier": "all float formats, sizes, filters, all sequences of readings of any length", "why_tests_cant": "Runs of unbounded length with arbitrary readings.", "anchors": ["crates/minikalman/src/kalman/regular.rs:predict", "crates/minikalman/src/kalman/regular.rs:correct", "crates/minikalman/src/observations/regular.rs:correct"]}
{"id": "C111", "title": "The shipped f32 test is robust", "statement": "The assertion of tests/gravity.rs (f32, three states, fifteen readings: the estimate of g lies strictly between 9 and 10) holds in every build, whatever zero float sums start from, for every table of fifteen measurement errors of up to 4.5 m in magnitude (the shipped errors are below 0.9 m); it does not hold for every table of errors of up to 5 m.", "quantifier": "all pointer widths and build settings, all tables of fifteen f32 errors of up to 4.5 m", "why_tests_cant": "the test is one table of errors; the claim covers every rounding of every table", "anchors": ["crates/minikalman/tests/gravity.rs:test_gravity_estimation", "crates/minikalman/src/kalman/regular.rs:predict", "crates/minikalman/src/kalman/regular.rs:correct"]}
{"id": "C112", "title": "How far the shipped tuned test can be trusted", "statement": "The assertion of tests/gravity_q_tuned.rs (f64, predict_tuned with 0.5, fifteen readings) holds for every table of errors of up to 0.15 m. It holds for the table in the repository, whose errors go up to 0.8946 m, but not for every table of errors of up to 0.171 m: the test passes because of the signs of its particular errors.", "quantifier": "all pointer widths and build settings, all tables of fifteen f64 errors of up to 0.15 m", "why_tests_cant": "the test is one table of errors, and a lucky one", "anchors": ["crates/minikalman/tests/gravity_q_tuned.rs:test_gravity_estimation_tuned", "crates/minikalman/src/kalman/regular.rs:predict_tuned", "crates/minikalman/src/kalman/regular.rs:correct"]}
{"id": "C113", "title": "The random example's assertion", "statement": "examples/gravity.rs (f32, builders, control input, a hundred readings with random noise) ends without a panic in every build for every noise sequence of up to 0.08 m in magnitude; for some noise of up to 0.131 m, which its generator (normal distribution, standard deviation 0.025 m) can draw, its assertion fails.", "quantifier": "all pointer widths and build settings, all sequences of a hundred f32 noise values of up to 0.08 m", "why_tests_cant": "the example draws fresh noise in each run; no number of runs covers all", "anchors": ["crates/minikalman/examples/gravity.rs:main", "crates/minikalman/examples/gravity.rs:generate_values", "crates/minikalman/src/kalman/regular.rs:predict", "crates/minikalman/src/kalman/regular.rs:control", "crates/minikalman/src/kalman/regular.rs:correct"]}
{"id": "C114", "title": "A closure that panics leaves no trace", "statement": "If the closure passed to predict_nonlinear, predict_tuned_nonlinear or correct_nonlinear panics and the program catches the panic, the state and the covariance are exactly what they were before the call, and so are all models, measurements and controls; whatever the closure wrote to its output is never visible, and every later sequence of calls (with closures that do not look at their output slice) behaves, panics included, as if the call had not been made.", "quantifier": "all element types, sizes, builds, histories, closures, panics, points inside the closure", "why_tests_cant": "a test panics at one point in one state; nothing tests the continuation", "anchors": ["crates/minikalman/src/kalman/extended.rs:predict_nonlinear", "crates/minikalman/src/kalman/extended.rs:predict_tuned_nonlinear", "crates/minikalman/src/kalman/extended.rs:correct_nonlinear", "crates/minikalman/src/observations/extended.rs:correct_nonlinear"]}
{"id": "C115", "title": "Caught panics never leave unusable objects", "statement": "In every program that catches the panics of its calls (arithmetic of the element type, or its own closures) and goes on, whichever calls panic and wherever: all buffers keep their sizes, the library's calls never change A, Q, H, R, B, z or u, later calls panic only for the same two reasons, a program without a panic is the program without catching, and neither scratch space nor the build has any influence on states, outcomes or what a panic leaves.", "quantifier": "all element types, sizes, builds, histories with any number of caught panics", "why_tests_cant": "there is one crash point per arithmetic operation, element and call; tests reach none of them", "anchors": ["crates/minikalman/src/kalman/regular.rs:predict", "crates/minikalman/src/kalman/regular.rs:control", "crates/minikalman/src/kalman/regular.rs:correct", "crates/minikalman/src/kalman/extended.rs:predict_nonlinear", "crates/minikalman/src/kalman/extended.rs:correct_nonlinear"]}
{"id": "C116", "title": "What exactly a panicking call leaves", "statement": "When a prediction panics, either state and covariance are untouched (a component of A x has no value), or the state is completely predicted and the covariance is the old one, or the old one overwritten row by row by A P A' (times the tuning) up to the element that has no value, or A P A' to which Q has been added from the last element back to the one that has no value. A control input leaves the state moved in its first components or completely, and the covariance raised in its leading elements or not at all. A correction leaves everything untouched, or, with the completed gain of the textbook formula, the leading components of the state corrected, or all of them and the covariance corrected from the last element back. No other intermediate state is possible.", "quantifier": "all element types, sizes, builds, filters, controls, observations; every crash point of every call", "why_tests_cant": "one crash point per arithmetic operation and element", "anchors": ["crates/minikalman/src/kalman/regular.rs:predict", "crates/minikalman/src/kalman/regular.rs:predict_tuned", "crates/minikalman/src/kalman/regular.rs:control", "crates/minikalman/src/kalman/regular.rs:correct", "crates/minikalman/src/controls.rs:apply_control", "crates/minikalman/src/observations/regular.rs:correct", "crates/minikalman/src/matrix/traits.rs:multadd_rowvector", "crates/minikalman/src/matrix/traits.rs:mult_transb"]}
{"id": "C117", "title": "A call that panics has no effect", "statement": "A call of predict, control or correct that panics leaves the state and the covariance as they were, so that it can be tried again.", "quantifier": "all element types, sizes, builds, filters; every crash point of every call", "why_tests_cant": "one crash point per arithmetic operation and element", "anchors": ["crates/minikalman/src/kalman/regular.rs:predict", "crates/minikalman/src/kalman/regular.rs:correct"]}
{"id": "C118", "title": "Rollback works", "statement": "After any sequence of predict, control and correct calls (also nonlinear and tuned ones) of which any may have panicked anywhere, writing back the state vector and the covariance matrix saved before restores the filter: every later program computes, up to scratch space, what it would have computed had the calls not been made, with the same panics.", "quantifier": "all element types, sizes, builds, histories with any number of caught panics", "why_tests_cant": "depends on the internal buffers after every possible crash point", "anchors": ["crates/minikalman/src/kalman/regular.rs:state_vector_mut", "crates/minikalman/src/kalman/regular.rs:estimate_covariance_mut", "crates/minikalman/src/kalman/regular.rs:predict", "crates/minikalman/src/kalman/regular.rs:correct"]}
{"id": "C119", "title": "The radar example runs to the end", "statement": "examples/radar_2d.rs (extended filter, nonlinear prediction in every step and a nonlinear correction in every tenth) panics in no build, for whatever noise it draws, however long it runs and whatever the platform's powers, angles, roots and quotients are; its buffers stay usable and its noise covariances stay as they were set.", "quantifier": "all pointer widths and build settings, all element types with arithmetic that does not panic, all interpretations of powi, sqrt, atan2 and division, all noise, any number of steps", "why_tests_cant": "every run draws other noise", "anchors": ["crates/minikalman/examples/radar_2d.rs:main", "crates/minikalman/src/kalman/extended.rs:predict_nonlinear", "crates/minikalman/src/kalman/extended.rs:correct_nonlinear"]}
{"id": "C120", "title": "The radar example's Jacobians are derivatives", "statement": "In examples/radar_2d.rs the matrices given to the extended filter as Jacobians are, at every state at which these exist, the derivatives of the functions given to it; and the simulated measurement without noise is the observation function at the simulated object.", "quantifier": "all real states (off the ray where the bearing jumps), all previous contents of the matrices, all builds", "why_tests_cant": "a derivative at every state; a run with random noise only looks plausible", "anchors": ["crates/minikalman/examples/radar_2d.rs:main", "crates/minikalman/src/observations/extended.rs:observation_jacobian_matrix_mut", "crates/minikalman/src/kalman/extended.rs:state_transition_jacobian_mut"]}
{"id": "C121", "title": "A filter that has nothing to do does nothing", "statement": "A correction with a reading that is exactly what the filter expects (z = H x as computed) leaves the state numerically unchanged: in fixed point whatever the gain, in floating point as long as the gain is finite (state 0, variance 0, noise 0 and reading 0 give NaN). A zero control input leaves it unchanged. A filter whose state, readings and control inputs are zero stays at zero through any history of calls, tuned and nonlinear ones included.", "quantifier": "all element types, sizes, builds, matrices, gains, histories", "why_tests_cant": "a test tries one model and one gain", "anchors": ["crates/minikalman/src/kalman/regular.rs:correct", "crates/minikalman/src/kalman/regular.rs:control", "crates/minikalman/src/kalman/regular.rs:predict", "crates/minikalman/src/observations/regular.rs:correct", "crates/minikalman/src/controls.rs:apply_control"]}
{"id": "C122", "title": "Mirror symmetry", "statement": "Two floating-point programs with the same models and covariances whose initial states, control inputs and readings are the opposite of each other (and whose closures, if any, are odd) have opposite states and identical covariances after any history of calls, bit for bit up to the signs of zeros; in particular a filter treats left and right, or up and down, alike. (It is false in fixed point, where products round downwards.)", "quantifier": "all float formats, sizes, builds, models, data, histories", "why_tests_cant": "a test compares two runs at most", "anchors": ["crates/minikalman/src/kalman/regular.rs:predict", "crates/minikalman/src/kalman/regular.rs:control", "crates/minikalman/src/kalman/regular.rs:correct", "crates/minikalman/src/kalman/extended.rs:predict_nonlinear", "crates/minikalman/src/kalman/extended.rs:correct_nonlinear"]}
{"id": "C123", "title": "Signs of zeros in the data do not matter", "statement": "Two floating-point programs with the same models and covariances whose data differ only in the signs of zeros have identical covariances and states that differ at most in the signs of zeros after any history of calls.", "quantifier": "all float formats, sizes, builds, models, data (infinities and NaN included), histories", "why_tests_cant": "negative zeros appear through rounding and cancellation in runs no test foresees", "anchors": ["crates/minikalman/src/kalman/regular.rs:predict", "crates/minikalman/src/kalman/regular.rs:control", "crates/minikalman/src/kalman/regular.rs:correct"]}
{"id": "C124", "title": "In machine arithmetic the covariance settles into a cycle", "statement": "A program that repeats one cycle of calls for ever (predictions, control inputs, corrections, tuned or nonlinear, with whatever data in each turn) has a covariance that is periodic from some turn on, bit for bit, and so are the gains of all observations it corrects with; with B-bit numbers and n states pre-period plus period are at most 2^(B n n) turns. The covariance can neither drift nor wander for ever.", "quantifier": "all builds, sizes, models, cycles of calls, sequences of data; f32, f64 and fixed-point types", "why_tests_cant": "it is about infinite runs; the period may be astronomically long", "anchors": ["crates/minikalman/src/kalman/regular.rs:predict", "crates/minikalman/src/kalman/regular.rs:control", "crates/minikalman/src/kalman/regular.rs:correct", "crates/minikalman/src/kalman/extended.rs:predict_nonlinear", "crates/minikalman/src/kalman/extended.rs:correct_nonlinear"]}
{"id": "C125", "title": "Process noise makes the filter forget how it was started", "statement": "In exact arithmetic, if at every prediction the process noise is at least theta times the carried-over covariance, then the influence of the initial state, measured in units of the reported covariance, shrinks by 1/(1+theta) (times lambda^2 for a tuned one) with every prediction and never grows in between, and two filters started with different covariances P2 <= alpha P1 have P2 <= (1 + (alpha-1)/(1+theta)^k) P1 after k predictions, so their variances agree relatively, exponentially ever better, whatever the corrections and control inputs in between.", "quantifier": "all sizes, models, readings, control inputs, reconfigurations, lengths of the history, pairs of initial guesses", "why_tests_cant": "a statement about pairs of runs of any length", "anchors": ["crates/minikalman/src/kalman/regular.rs:predict", "crates/minikalman/src/kalman/regular.rs:predict_tuned", "crates/minikalman/src/kalman/regular.rs:correct", "crates/minikalman/src/kalman/regular.rs:control"]}
{"id": "C126", "title": "The car example tolerates centimetre errors", "statement": "examples/car_1d.rs passes all its assertions for every table of readings whose used entries (those with an even index) are at most 12 mm from the ones in the repository; with readings up to 1 m off it still ends without a panic before its last assertions, in finite numbers that depend on the readings linearly, with known coefficients, up to 6 mm, 2.5 mm/s and 0.6 mm/s^2 of rounding. The readings with an odd index have no influence at all.", "quantifier": "all tables of f32 readings, all pointer widths and build settings", "why_tests_cant": "there are infinitely many tables; the repository runs one", "anchors": ["crates/minikalman/examples/car_1d.rs:main", "crates/minikalman/src/kalman/regular.rs:predict", "crates/minikalman/src/kalman/regular.rs:control", "crates/minikalman/src/kalman/regular.rs:correct"]}
{"id": "C127", "title": "No other choice of gains does better, over any history", "statement": "In exact arithmetic, for every sequence of calls and whatever correction gains another filter with the same model chooses at each correction, the covariance this filter reports is at most that other filter's error covariance, and its own gains attain equality. So a bound found by any observer design carries over: if some gains forget the initial error altogether, the covariance is bounded independently of the initial one; if some gains keep the covariance below M over one cycle of calls, this filter's covariance stays below M for any number of such cycles, whatever is measured.", "quantifier": "all sizes, models, sequences of calls and reconfigurations, readings, choices of gains, numbers of cycles", "why_tests_cant": "it compares with every possible gain sequence over runs of any length", "anchors": ["crates/minikalman/src/kalman/regular.rs:predict", "crates/minikalman/src/kalman/regular.rs:predict_tuned", "crates/minikalman/src/kalman/regular.rs:control", "crates/minikalman/src/kalman/regular.rs:correct"]}
{"id": "C128", "title": "No linear estimate does better", "statement": "If initial state and noises have the means and covariances the filter was told, then in exact arithmetic the state it returns has the smallest mean square error among all estimates that add a constant and any linear combination of the innovations of all corrections made so far (that is, among all affine functions of the measurements); a rival's mean square error matrix is larger by at least the square of its bias.", "quantifier": "all sizes, models, programs (inputs may be chosen from the estimate by any law), finite noise distributions, weights", "why_tests_cant": "it compares expectations with every possible linear estimator", "anchors": ["crates/minikalman/src/kalman/regular.rs:predict", "crates/minikalman/src/kalman/regular.rs:control", "crates/minikalman/src/kalman/regular.rs:correct", "crates/minikalman/src/observations/regular.rs:correct"]}
{"id": "C129", "title": "An infinite noise variance switches a measured component off", "statement": "With floats, for any sizes and contents: if the variance R_kk of a measured component is +infinity and the estimate and covariance returned by a correction are finite, then that component had no influence on them: column k of the gain is zero and the results are numerically those of the same correction with the component left out (its row of H, its reading, its row and column of R), or, if it was the only component, the estimate and covariance before the call. An infinite reading combined with an infinite variance, however, destroys the estimate (NaN).", "quantifier": "All IEEE formats, state sizes, observation sizes, positions k of the muted component, contents of all matrices with R_kk = +inf, linear and nonlinear corrections", "why_tests_cant": "Tests try one or two components with a large finite variance; whether the decomposition, the inversion and the gain carry the infinity to exactly zero and leave all other components bit-identical for every size and position needs an induction over columns.", "anchors": ["crates/minikalman/src/kalman/regular.rs:correct", "crates/minikalman/src/kalman/extended.rs:correct_nonlinear"]}
{"id": "C130", "title": "Changing units by powers of two changes nothing but exponents", "statement": "With floats, for any sizes and any history of calls: if state components, control inputs and measurements are re-expressed in units differing by powers of two (a different one for each component) and all matrices accordingly, and neither program over- or underflows, then state, covariance, innovations and gains of the second program are exactly (not approximately) those of the first in the new units.", "quantifier": "All IEEE formats, sizes, builds, power-of-two unit changes per component, models, data and histories during which nothing over- or underflows and every innovation covariance is decomposed", "why_tests_cant": "A statement about pairs of runs of any length and every choice of units; a test compares two.", "anchors": ["crates/minikalman/src/kalman/regular.rs:predict", "crates/minikalman/src/kalman/regular.rs:control", "crates/minikalman/src/kalman/regular.rs:correct", "crates/minikalman/src/kalman/extended.rs:correct_nonlinear", "crates/minikalman/src/matrix/traits.rs:cholesky_decompose_lower"]}
{"id": "C131", "title": "What a panicking matrix operation leaves behind", "statement": "If a product, accumulating product, sum, difference or scaling called by the program panics in the element type's arithmetic and the panic is caught, the output (or in-place) matrix is a prefix of the new result in the operation's write order (rows for products with a vector or a transpose, last element backwards for sums and differences, columns from the right for plain products), the cell that could not be computed and everything after it hold their old values, the inputs and any storage behind the matrix are untouched. A Cholesky decomposition that panics in column k leaves the factor's columns before k and the old matrix after it; an inversion panics only in element arithmetic and never writes behind the matrix.", "quantifier": "all sizes, contents, element types, builds", "why_tests_cant": "the claim is about every point at which arithmetic may panic, for every size", "anchors": ["crates/minikalman/src/matrix/traits.rs:mult", "crates/minikalman/src/matrix/traits.rs:mult_buffered", "crates/minikalman/src/matrix/traits.rs:mult_rowvector", "crates/minikalman/src/matrix/traits.rs:mult_transb", "crates/minikalman/src/matrix/traits.rs:sub", "crates/minikalman/src/matrix/traits.rs:add_inplace_a", "crates/minikalman/src/matrix/traits.rs:cholesky_decompose_lower", "crates/minikalman/src/matrix/traits.rs:invert_l_cholesky"]}
{"id": "C132", "title": "A repeated cycle of calls has a steady state", "statement": "In exact arithmetic, if one cycle of calls (predictions, corrections, inputs, in any order) does not lower the covariance below a definite level L when started from L, nor raise it above U >= L when started from U, and its process noise is at least theta times what the predictions carry over at U, then all runs that repeat the cycle, from any covariance between L and U, with any data and whatever number of repetitions, end up with the same covariance up to a factor (1+theta)^-(number of predictions): the reported covariance converges geometrically to a limit that depends on neither the start nor the data. All conditions are checked on one cycle.", "quantifier": "all sizes, models, cycles, pairs of levels, starting covariances in between, data, numbers of repetitions", "why_tests_cant": "it compares runs of any length from infinitely many starts", "anchors": ["crates/minikalman/src/kalman/regular.rs:predict", "crates/minikalman/src/kalman/regular.rs:predict_tuned", "crates/minikalman/src/kalman/regular.rs:control", "crates/minikalman/src/kalman/regular.rs:correct"]}
{"id": "C133", "title": "A fixed-point factor reproduces the matrix, a refusal points at a pivot that is not positive", "statement": "With fixed point and all checks on, whenever the decomposition reports success the lower factor L it leaves satisfies A = L L' up to rounding: in row i the diagonal entry of A falls short of L L' by at most i units in the last place and exceeds it by at most (2 L_ii + one unit) units, and an entry right of the diagonal differs by at most i units plus L_ii (1 + |A_ij| + the sum of |L_ik L_jk| + i units) units; whenever it reports failure the columns before some i do that and A_ii is at most the sum of the squares of row i of L before the diagonal.", "quantifier": "All fixed-point formats, sizes and matrix contents for which the call returns in a checked build", "why_tests_cant": "Rounding errors of products, roots and reciprocals are accumulated over columns; a test sees a few matrices.", "anchors": ["crates/minikalman/src/matrix/traits.rs:cholesky_decompose_lower", "crates/minikalman/src/matrix/data_type.rs:MatrixDataType"]}
{"id": "C134", "title": "Which matrices the fixed-point decomposition accepts", "statement": "With fixed point, a symmetric matrix whose smallest eigenvalue is at least 2 (n + 1) (n + (1 + s + n u)^2) u, s bounding its diagonal and u being one unit in the last place, and for which 2 (1 + s + n u) (1 + 2 / smallest eigenvalue) stays below the end of the range, is decomposed without overflow and successfully by every build, with all builds giving the same factor; conversely a matrix that a checked build accepts has no eigenvalue below -n (n + (1 + s + n u)^2) u.", "quantifier": "All fixed-point formats, builds, sizes, matrices meeting the stated conditions", "why_tests_cant": "That no intermediate number of any column leaves the range, and no pivot drops to zero by accumulated rounding, is an induction over columns for every size and content.", "anchors": ["crates/minikalman/src/matrix/traits.rs:cholesky_decompose_lower", "crates/minikalman/src/matrix/data_type.rs:MatrixDataType"]}
{"id": "C135", "title": "The fixed-point inverse does not overflow and is accurate", "statement": "With fixed point, a symmetric matrix A that C134 admits with smallest eigenvalue at least m, and for which in addition r = (n + 1 + 3 (s + n u)) u (s bounding the diagonal, u one unit in the last place) satisfies 4 n r <= 1 and 4 n r <= m and 2 (1 + n (s + n u)) + 9/m + 36/m^2 stays below the end of the range, is decomposed and inverted by every build without overflow, all builds giving the same bits, and each entry of the result differs from that of the inverse in the reals by at most r sqrt(8 (n + 1)/m + 16 n/m^2 + 720/m^3) + 2 n (n + (1 + s + n u)^2) u / m^2.", "quantifier": "All fixed-point formats, builds, sizes, matrices meeting the stated conditions, previous contents of the output buffer", "why_tests_cant": "Overflow of any of the n^3 intermediate sums and the accumulated rounding of two substitutions must be bounded for every size and content at once.", "anchors": ["crates/minikalman/src/matrix/traits.rs:invert_l_cholesky", "crates/minikalman/src/matrix/traits.rs:cholesky_decompose_lower", "crates/minikalman/src/matrix/data_type.rs:MatrixDataType"]}
{"id": "C136", "title": "A fixed-point correction with several measured components does not overflow and is accurate", "statement": "With fixed point, a correction with any number of measured components whose data lie within stated bounds (row sums of |H|, entries of P, R, state and measurement) and whose innovation covariance has a smallest eigenvalue well above the rounding errors, the bounds keeping every intermediate quantity below the end of the range, runs without overflow in every build, all builds giving the same bits, and the gain, the state and the covariance differ from those of the exact update (with the exact inverse of the innovation covariance) by at most explicit multiples of one unit in the last place. In simple numbers: with all sizes and data at most B and no eigenvalue below 2 lam (lam <= 1), it suffices that 128 B^7 units are at most lam and 64 B^6/lam^2 is below the end of the range.", "quantifier": "All fixed-point formats, builds, sizes, filters and measurements meeting the stated conditions", "why_tests_cant": "No intermediate sum of any of seven matrix products, a factorisation and an inverse may overflow, and their rounding errors add up; a test sees a few measurements.", "anchors": ["crates/minikalman/src/kalman/regular.rs:correct", "crates/minikalman/src/matrix/traits.rs:cholesky_decompose_lower", "crates/minikalman/src/matrix/traits.rs:invert_l_cholesky", "crates/minikalman/src/matrix/data_type.rs:MatrixDataType"]}
{"id": "C137", "title": "A fixed-point nonlinear correction does not overflow and is accurate", "statement": "With fixed point, a nonlinear correction whose closure returned a predicted measurement of the right size, whose data lie within the bounds of the previous property and whose innovation (measurement minus prediction, taken as it is) is within a stated bound, runs without overflow in every build, all builds giving the same bits, and gain, state and covariance differ from those of the exact update made with that innovation by at most explicit multiples of one unit in the last place.", "quantifier": "All fixed-point formats, builds, sizes, filters, measurements, observation closures and predictions meeting the stated conditions", "why_tests_cant": "Same as for the linear correction, and the observation closure is arbitrary.", "anchors": ["crates/minikalman/src/observations/extended.rs:correct_nonlinear", "crates/minikalman/src/kalman/extended.rs:correct_nonlinear", "crates/minikalman/src/matrix/traits.rs:cholesky_decompose_lower", "crates/minikalman/src/matrix/traits.rs:invert_l_cholesky", "crates/minikalman/src/matrix/data_type.rs:MatrixDataType"]}
{"id": "C138", "title": "A floating-point nonlinear correction with several components stays finite and accurate", "statement": "With f32 or f64, under the conditions of C100 in simple numbers (sizes and data at most B, no eigenvalue of the innovation covariance below 2 lam, lam well above the rounding errors, B^6/lam^3 well below the overflow threshold), a nonlinear correction whose closure returned finite predictions within B of the measurement leaves finite gain, state and covariance that differ from those of the exact update made with that innovation by at most 8192 B^11 u / lam^2.", "quantifier": "All sizes, filters, measurements, observation closures and predictions meeting the stated conditions; f32 and f64", "why_tests_cant": "The closure is arbitrary, and no intermediate result of a factorisation, an inverse and five products may overflow or lose the accuracy; a test sees a few measurements.", "anchors": ["crates/minikalman/src/observations/extended.rs:correct_nonlinear", "crates/minikalman/src/kalman/extended.rs:correct_nonlinear", "crates/minikalman/src/matrix/traits.rs:cholesky_decompose_lower", "crates/minikalman/src/matrix/traits.rs:invert_l_cholesky"]}
{"id": "C139", "title": "An extended filter has the covariances and gains of a regular one", "statement": "Whatever its closures compute, a program of the extended filter leaves the same covariance, and each of its corrections the same gain, bit for bit, as the program that calls the linear functions instead with the same A, Q, H and R, or any mixture of the two, from any states, with any measurements and controls.", "quantifier": "All element types, builds, sizes, programs of any length, closures, states, measurements, controls, stale scratch contents", "why_tests_cant": "It compares runs of any length, and the closures are arbitrary functions.", "anchors": ["crates/minikalman/src/kalman/extended.rs:predict_nonlinear", "crates/minikalman/src/kalman/extended.rs:predict_tuned_nonlinear", "crates/minikalman/src/observations/extended.rs:correct_nonlinear", "crates/minikalman/src/kalman/regular.rs:predict", "crates/minikalman/src/kalman/regular.rs:predict_tuned", "crates/minikalman/src/kalman/regular.rs:correct"]}
