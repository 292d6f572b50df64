{
 "claims": [
  {
   "property": "C01",
   "status": "proved",
   "theorems": [
    "C01_set_then_get",
    "C01_get_cell"
   ],
   "note": ""
  },
  {
   "property": "C02",
   "status": "partial",
   "theorems": [
    "C02_bad_column_refuted",
    "C02_bad_column_aliases",
    "C02_wrapping_row_aliases",
    "C02_bad_row_rejected_partial"
   ],
   "note": "False of the code: columns are never checked, and without overflow checks a huge row wraps (refuted, with the exact aliasing). Proved part: with an exactly sized buffer a row >= ROWS panics in get and set whenever the index computation does not wrap."
  },
  {
   "property": "C03",
   "status": "proved",
   "theorems": [
    "C03_get_column_copy"
   ],
   "note": ""
  },
  {
   "property": "C04",
   "status": "partial",
   "theorems": [
    "C04_get_row_copy_refuted",
    "C04_get_row_copy_wrong_refuted",
    "C04_get_row_copy_actual",
    "C04_get_row_copy_row0_partial"
   ],
   "note": "False of the code: the row offset is row*(COLS-1). Refuted for every shape and every row >= 1; the actual result is characterised exactly; row 0 is right."
  },
  {
   "property": "C05",
   "status": "proved",
   "theorems": [
    "C05_mult",
    "C05_mult_transb",
    "C05_multadd_transb",
    "C05_multscale_transb",
    "C05_mult_rowvector",
    "C05_multadd_rowvector"
   ],
   "note": ""
  },
  {
   "property": "C06",
   "status": "proved",
   "theorems": [
    "C06_mult_buffered_is_mult"
   ],
   "note": ""
  },
  {
   "property": "C07",
   "status": "proved",
   "theorems": [
    "C07_mult",
    "C07_mult_transb",
    "C07_multadd_transb",
    "C07_multscale_transb",
    "C07_mult_rowvector",
    "C07_multadd_rowvector",
    "C07_sub",
    "C07_add_inplace_a",
    "C07_add_inplace_b",
    "C07_sub_inplace_a",
    "C07_sub_inplace_b",
    "C07_copy_to"
   ],
   "note": ""
  },
  {
   "property": "C08",
   "status": "proved",
   "theorems": [
    "C08_sub",
    "C08_add_inplace_a",
    "C08_add_inplace_b",
    "C08_sub_inplace_a",
    "C08_sub_inplace_b",
    "C08_copy_to"
   ],
   "note": ""
  },
  {
   "property": "C09",
   "status": "proved",
   "theorems": [
    "C09_make_comatrix",
    "C09_make_identity",
    "C09_make_scalar",
    "C09_set_diagonal_to_scalar",
    "C09_set_symmetric",
    "C09_set_all",
    "C09_clear"
   ],
   "note": ""
  },
  {
   "property": "C10",
   "status": "partial",
   "theorems": [
    "C10_set_all_refuted",
    "C10_C16_kernels"
   ],
   "note": "False of set_all/clear/set_zero, which fill the whole slice (refuted); proved for every other mutating operation."
  },
  {
   "property": "C11",
   "status": "proved",
   "theorems": [
    "C11_cholesky"
   ],
   "note": ""
  },
  {
   "property": "C12",
   "status": "partial",
   "theorems": [
    "C12_semidefinite_refuted",
    "C12_singular_refused",
    "C12_flag_partial"
   ],
   "note": "The documented contract (semi-definite accepted) is false: every singular semi-definite matrix is refused (refuted / characterised). Proved part: a true result implies positive definiteness, so a non-semi-definite matrix is always refused."
  },
  {
   "property": "C13",
   "status": "proved",
   "theorems": [
    "C13_cholesky_upper_triangle"
   ],
   "note": ""
  },
  {
   "property": "C14",
   "status": "proved",
   "theorems": [
    "C14_inverse"
   ],
   "note": ""
  },
  {
   "property": "C15",
   "status": "proved",
   "theorems": [
    "C15_inverse_symmetric",
    "C15_inverse_ignores_target"
   ],
   "note": ""
  },
  {
   "property": "C16",
   "status": "proved",
   "theorems": [
    "C16_C54_no_panic",
    "C16_floats_never_panic",
    "C10_C16_kernels"
   ],
   "note": ""
  },
  {
   "property": "C17",
   "status": "partial",
   "theorems": [
    "C17_predict_no_states_refuted",
    "C17_correct_no_states_refuted",
    "C17_copy_empty_refuted",
    "C17_mult_rowvector_empty_refuted",
    "C17_control_empty_partial"
   ],
   "note": "False of the code: predict/correct with no states, copy_to and mult_rowvector with no elements panic in every build mode (refuted). Proved part: control with zero inputs or zero states is a no-op."
  },
  {
   "property": "C18",
   "status": "proved",
   "theorems": [
    "C18_predict"
   ],
   "note": ""
  },
  {
   "property": "C19",
   "status": "proved",
   "theorems": [
    "C19_predict_tuned",
    "C19_lambda_one",
    "C19_smaller_lambda",
    "C19_lambda_zero"
   ],
   "note": ""
  },
  {
   "property": "C20",
   "status": "proved",
   "theorems": [
    "C20_control"
   ],
   "note": ""
  },
  {
   "property": "C21",
   "status": "proved",
   "theorems": [
    "C21_C22_correct"
   ],
   "note": ""
  },
  {
   "property": "C22",
   "status": "proved",
   "theorems": [
    "C21_C22_correct"
   ],
   "note": ""
  },
  {
   "property": "C23",
   "status": "partial",
   "theorems": [
    "C23_S_buffer_refuted",
    "C23_S_buffer_actual"
   ],
   "note": "False of the code: the S buffer is overwritten in place by its Cholesky factor (refuted; the actual contents are characterised exactly)."
  },
  {
   "property": "C24",
   "status": "proved",
   "theorems": [
    "C24_stays_psd"
   ],
   "note": ""
  },
  {
   "property": "C25",
   "status": "proved",
   "theorems": [
    "C25_correct_decreases"
   ],
   "note": ""
  },
  {
   "property": "C26",
   "status": "proved",
   "theorems": [
    "C26_optimal_gain"
   ],
   "note": ""
  },
  {
   "property": "C27",
   "status": "proved",
   "theorems": [
    "C27_information_form"
   ],
   "note": ""
  },
  {
   "property": "C28",
   "status": "proved",
   "theorems": [
    "C28_stacked",
    "C28_any_order"
   ],
   "note": ""
  },
  {
   "property": "C29",
   "status": "proved",
   "theorems": [
    "C29_covariance_path",
    "C29_gain"
   ],
   "note": ""
  },
  {
   "property": "C30",
   "status": "proved",
   "theorems": [
    "C30_zero_innovation"
   ],
   "note": ""
  },
  {
   "property": "C31",
   "status": "proved",
   "theorems": [
    "C31_scratch_irrelevant"
   ],
   "note": ""
  },
  {
   "property": "C32",
   "status": "proved",
   "theorems": [
    "C32_permitted_sharing",
    "C32_permitted_sharing_call"
   ],
   "note": ""
  },
  {
   "property": "C33",
   "status": "proved",
   "theorems": [
    "C33_Sinv_PHt_harmful",
    "C33_HP_KHP_harmful"
   ],
   "note": ""
  },
  {
   "property": "C34",
   "status": "partial",
   "theorems": [
    "C34_singular_refuted",
    "C34_scalar_destroys",
    "C34_first_destroys",
    "C34_first_destroys_nonlinear",
    "C34_pivot_destroys",
    "C34_pivot_destroys_nonlinear",
    "C34_garbage_f32_refuted",
    "C34_garbage_f64_refuted"
   ],
   "note": "The guarantee (a bad correction is reported or leaves the state intact) is false of the code: refuted concretely (NaN from a singular S; finite garbage, the estimate moving to -2^24 (f32) or -2^54 (f64) when two good sensors both read 1, from a rounded second pivot), and characterised for every format and any number of states and measured components: a first innovation variance that is not positive, or any pivot whose reciprocal is not finite, turns all of x and P into inf/NaN while the call returns normally. What a refused decomposition leaves in the buffer is exact in C63."
  },
  {
   "property": "C35",
   "status": "proved",
   "theorems": [
    "C35_extended_is_regular",
    "C35_gain_and_innovation",
    "C35_obvious_closure"
   ],
   "note": ""
  },
  {
   "property": "C36",
   "status": "proved",
   "theorems": [
    "C36_predict_nonlinear",
    "C36_predict_tuned_nonlinear",
    "C36_correct_nonlinear"
   ],
   "note": ""
  },
  {
   "property": "C37",
   "status": "partial",
   "theorems": [
    "C37_stale_prediction",
    "C37_stale_innovation",
    "C37_clean_output_refuted"
   ],
   "note": "False of the code: the closure is handed whatever the buffer held (refuted for f32; the leaked value is characterised for every element type, history and closure). What is true is C16: a closure that writes its whole output is independent of earlier contents."
  },
  {
   "property": "C38",
   "status": "proved",
   "theorems": [
    "C38_fixed_zero_laws",
    "C38_build_filter",
    "C38_build_control",
    "C38_build_observation",
    "C38_fresh_program",
    "C38_float_zero_laws",
    "C38_fresh_correct_destroys"
   ],
   "note": ""
  },
  {
   "property": "C39",
   "status": "proved",
   "theorems": [
    "C39_refines_textbook",
    "C39_every_system"
   ],
   "note": ""
  },
  {
   "property": "C40",
   "status": "proved",
   "theorems": [
    "C40_closed_form"
   ],
   "note": ""
  },
  {
   "property": "C41",
   "status": "proved",
   "theorems": [
    "C41_more_certainty"
   ],
   "note": ""
  },
  {
   "property": "C42",
   "status": "proved",
   "theorems": [
    "C42_correct_error",
    "C42_error_recursion",
    "C42_exact_stays_exact"
   ],
   "note": ""
  },
  {
   "property": "C43",
   "status": "proved",
   "theorems": [
    "C43_units"
   ],
   "note": ""
  },
  {
   "property": "C44",
   "status": "partial",
   "theorems": [
    "C44_near_several_partial",
    "C44_predict_fixed_refuted",
    "C44_near_fixed_partial",
    "C44_predict_f32_refuted",
    "C44_predict_f64_refuted",
    "C44_correct_f32_refuted",
    "C44_correct_f64_refuted",
    "C44_near_correct_partial",
    "C44_near_predict_partial"
   ],
   "note": "False of the code: rounding breaks exact symmetry in predict and correct, refuted for f32, f64 and I16F16. Proved part: after a prediction, and after a correction by any number of measured components, the asymmetry is bounded by an explicit rounding bound (for a well-conditioned innovation covariance), for floats and fixed point. In exact arithmetic symmetry holds (C20/C25 families)."
  },
  {
   "property": "C45",
   "status": "partial",
   "theorems": [
    "C45_margin_several_partial",
    "C45_negative_variance_fixed_refuted",
    "C45_margin_fixed_partial",
    "C45_negative_variance_f32_refuted",
    "C45_negative_variance_f64_refuted",
    "C45_margin_partial"
   ],
   "note": "False of the code: a positive variance becomes negative after one correction with a good sensor, refuted for f32, f64 and I16F16. Proved part: for any number of measured components (well-conditioned innovation covariance) a posterior variance that exceeds an explicit error bound is computed as a positive number, with floats and fixed point. In exact arithmetic it holds (C26 family)."
  },
  {
   "property": "C46",
   "status": "partial",
   "theorems": [
    "C46_nan_accepted_refuted",
    "C46_diagonal_partial",
    "C46_finite_accepted_refuted"
   ],
   "note": "False of the code: a NaN is accepted as positive definite, and even a finite symmetric indefinite 3x3 f32 matrix is (both refuted). Proved part: after a true result every diagonal entry of the factor is positive or a NaN, for every format, size and contents; and with a finite factor the matrix is positive semidefinite up to an explicit rounding error (C98_accepted)."
  },
  {
   "property": "C47",
   "status": "proved",
   "theorems": [
    "C47_mult",
    "C47_mult_transb",
    "C47_mult_rowvector"
   ],
   "note": ""
  },
  {
   "property": "C48",
   "status": "proved",
   "theorems": [
    "C48_checked",
    "C48_checked_valid",
    "C48_wrapper",
    "C48_wrapper_valid",
    "C48_unchecked",
    "C48_wrapped_refuted",
    "C48_get_inside",
    "C48_get_missing",
    "C48_set_missing",
    "C48_elementwise_panics",
    "C48_mult_sizes"
   ],
   "note": ""
  },
  {
   "property": "C49",
   "status": "partial",
   "theorems": [
    "C49_same_cells",
    "C49_bijective",
    "C49_escapes_refuted"
   ],
   "note": "Proved for every valid matrix (same cells as get, bijective, inside the array). The bounds part is false for arrays accepted by the unchecked constructor (refuted)."
  },
  {
   "property": "C50",
   "status": "proved",
   "theorems": [
    "C50_as_certain_as_sensor"
   ],
   "note": ""
  },
  {
   "property": "C51",
   "status": "proved",
   "theorems": [
    "C51_unseen_states_untouched"
   ],
   "note": ""
  },
  {
   "property": "C52",
   "status": "proved",
   "theorems": [
    "C52_certain_filter"
   ],
   "note": ""
  },
  {
   "property": "C53",
   "status": "proved",
   "theorems": [
    "C53_measurement_units"
   ],
   "note": ""
  },
  {
   "property": "C54",
   "status": "proved",
   "theorems": [
    "C16_C54_no_panic"
   ],
   "note": ""
  },
  {
   "property": "C55",
   "status": "proved",
   "theorems": [
    "C55_covariance_scale"
   ],
   "note": ""
  },
  {
   "property": "C56",
   "status": "proved",
   "theorems": [
    "C56_superposition"
   ],
   "note": ""
  },
  {
   "property": "C57",
   "status": "proved",
   "theorems": [
    "C57_repeated_measurement"
   ],
   "note": ""
  },
  {
   "property": "C58",
   "status": "proved",
   "theorems": [
    "C58_build_irrelevant"
   ],
   "note": ""
  },
  {
   "property": "C59",
   "status": "partial",
   "theorems": [
    "C59_several_partial",
    "C59_same_sensor_twice_refuted",
    "C59_twin_sensors_refuted",
    "C59_single_component_partial",
    "C59_moderate_partial"
   ],
   "note": "False of the code: finite, well-formed data turns the state non-finite with f32 (refuted by one sensor applied twice and by two equal sensors). Proved part: with one measured component whose innovation variance exceeds its rounding error, and no number near the overflow threshold, gain, state and covariance are finite; likewise for several measured components at once when no eigenvalue of the innovation covariance is below the rounding errors."
  },
  {
   "property": "C60",
   "status": "proved",
   "theorems": [
    "C60_index_get",
    "C60_index_set"
   ],
   "note": ""
  },
  {
   "property": "C61",
   "status": "partial",
   "theorems": [
    "C61_len",
    "C61_is_valid",
    "C61_is_empty",
    "C61_overflow",
    "C61_release_refuted"
   ],
   "note": "Proved for every shape that fits usize, and for larger ones in debug builds; in release builds ROWS*COLS wraps and the queries lie (refuted)."
  },
  {
   "property": "C62",
   "status": "proved",
   "theorems": [
    "C62_get_row",
    "C62_get_col",
    "C62_get_value",
    "C62_set_row",
    "C62_set_col",
    "C62_set_value"
   ],
   "note": ""
  },
  {
   "property": "C63",
   "status": "proved",
   "theorems": [
    "C63_predict",
    "C63_predict_tuned",
    "C63_predict_nonlinear",
    "C63_predict_tuned_nonlinear",
    "C63_control",
    "C63_cholesky",
    "C63_invert",
    "C63_correct",
    "C63_correct_nonlinear"
   ],
   "note": ""
  },
  {
   "property": "C64",
   "status": "proved",
   "theorems": [
    "C64_mult",
    "C64_mult_transb",
    "C64_predict"
   ],
   "note": ""
  },
  {
   "property": "C65",
   "status": "proved",
   "theorems": [
    "C65_predict"
   ],
   "note": ""
  },
  {
   "property": "C66",
   "status": "proved",
   "theorems": [
    "C66_filter",
    "C66_control",
    "C66_observation",
    "C66_sizes"
   ],
   "note": ""
  },
  {
   "property": "C67",
   "status": "partial",
   "theorems": [
    "C67_checked",
    "C67_builds",
    "C67_release_refuted",
    "C67_gain_refuted"
   ],
   "note": "Proved for builds with overflow checks and debug assertions, and that such results are those of every build. Without the checks it is false of the code: a variance of 80000 silently becomes 14464, and with tiny data the gain gets the wrong sign (both refuted)."
  },
  {
   "property": "C68",
   "status": "proved",
   "theorems": [
    "C68_mult",
    "C68_mult_transb",
    "C68_mult_rowvector",
    "C68_predict",
    "C68_predict_exact",
    "C68_control",
    "C68_correct"
   ],
   "note": ""
  },
  {
   "property": "C69",
   "status": "proved",
   "theorems": [
    "C69_diagonal"
   ],
   "note": ""
  },
  {
   "property": "C70",
   "status": "proved",
   "theorems": [
    "C70_covariance_is_mean_square_error"
   ],
   "note": ""
  },
  {
   "property": "C71",
   "status": "proved",
   "theorems": [
    "C71_innovation"
   ],
   "note": ""
  },
  {
   "property": "C72",
   "status": "proved",
   "theorems": [
    "C72_innovations_white"
   ],
   "note": ""
  },
  {
   "property": "C73",
   "status": "proved",
   "theorems": [
    "C73_cheapest_explanation",
    "C73_cost_of_final_state"
   ],
   "note": ""
  },
  {
   "property": "C74",
   "status": "proved",
   "theorems": [
    "C74_cycles_monotone",
    "C74_from_certainty"
   ],
   "note": ""
  },
  {
   "property": "C75",
   "status": "proved",
   "theorems": [
    "C75_bounded_forever"
   ],
   "note": ""
  },
  {
   "property": "C76",
   "status": "proved",
   "theorems": [
    "C76_initial_guess_forgotten"
   ],
   "note": ""
  },
  {
   "property": "C77",
   "status": "proved",
   "theorems": [
    "C77_state",
    "C77_covariance",
    "C77_covariance_destroys_state"
   ],
   "note": ""
  },
  {
   "property": "C78",
   "status": "proved",
   "theorems": [
    "C78_measurement",
    "C78_input"
   ],
   "note": ""
  },
  {
   "property": "C79",
   "status": "proved",
   "theorems": [
    "C79_control"
   ],
   "note": ""
  },
  {
   "property": "C80",
   "status": "proved",
   "theorems": [
    "C80_correct"
   ],
   "note": ""
  },
  {
   "property": "C81",
   "status": "proved",
   "theorems": [
    "C81_cholesky"
   ],
   "note": ""
  },
  {
   "property": "C82",
   "status": "proved",
   "theorems": [
    "C82_scalar_gain"
   ],
   "note": ""
  },
  {
   "property": "C83",
   "status": "proved",
   "theorems": [
    "C83_ieee",
    "C83_image"
   ],
   "note": ""
  },
  {
   "property": "C84",
   "status": "proved",
   "theorems": [
    "C84_programs"
   ],
   "note": ""
  },
  {
   "property": "C85",
   "status": "proved",
   "theorems": [
    "C85_mult",
    "C85_mult_transb",
    "C85_predict",
    "C85_predict_small",
    "C85_control",
    "C85_correct"
   ],
   "note": ""
  },
  {
   "property": "C86",
   "status": "proved",
   "theorems": [
    "C86_single_component"
   ],
   "note": ""
  },
  {
   "property": "C87",
   "status": "proved",
   "theorems": [
    "C87_float",
    "C87_fixed",
    "C87_programs",
    "C87_float_closed",
    "C87_float_one",
    "C87_fixed_closed",
    "C87_fixed_one"
   ],
   "note": ""
  },
  {
   "property": "C88",
   "status": "proved",
   "theorems": [
    "C88_programs",
    "C88_invert"
   ],
   "note": ""
  },
  {
   "property": "C89",
   "status": "proved",
   "theorems": [
    "C89_conservative"
   ],
   "note": ""
  },
  {
   "property": "C90",
   "status": "proved",
   "theorems": [
    "C90_nees",
    "C90_nees_at_most",
    "C90_nis"
   ],
   "note": ""
  },
  {
   "property": "C91",
   "status": "proved",
   "theorems": [
    "C91_decoupled"
   ],
   "note": ""
  },
  {
   "property": "C92",
   "status": "proved",
   "theorems": [
    "C92_origin"
   ],
   "note": ""
  },
  {
   "property": "C93",
   "status": "proved",
   "theorems": [
    "C93_repeated"
   ],
   "note": ""
  },
  {
   "property": "C94",
   "status": "partial",
   "theorems": [
    "C94_additive_refuted",
    "C94_works_partial",
    "C94_fails_partial",
    "C94_unique_partial",
    "C94_std_partial"
   ],
   "note": "False of the code: enabling micromath beside libm without std leaves the functions without a body, so the crate does not compile (refuted). Proved part: exactly which subsets work and which fail, never two implementations, std always wins."
  },
  {
   "property": "C95",
   "status": "partial",
   "theorems": [
    "C95_precision_refuted",
    "C95_range_refuted",
    "C95_correct_refuted",
    "C95_sqrt_partial",
    "C95_else_partial"
   ],
   "note": "False of the code with micromath only: the f64 square root goes through f32, so whatever the external routine computes it is wrong by more than 2^-29 somewhere in [1,2], by more than half somewhere, and a correction cannot tell R = 1/2 from 1/2 + 2^-26 (refuted). Proved part: with std or libm the relative error is at most 2^-prec over the whole range, and everything else is the same with micromath."
  },
  {
   "property": "C96",
   "status": "proved",
   "theorems": [
    "C96_finite_for_ever"
   ],
   "note": ""
  },
  {
   "property": "C97",
   "status": "proved",
   "theorems": [
    "C97_errors_do_not_accumulate"
   ],
   "note": ""
  },
  {
   "property": "C98",
   "status": "proved",
   "theorems": [
    "C98_accepts",
    "C98_accepted"
   ],
   "note": ""
  },
  {
   "property": "C99",
   "status": "proved",
   "theorems": [
    "C99_inverse_exists",
    "C99_inverse"
   ],
   "note": ""
  },
  {
   "property": "C100",
   "status": "proved",
   "theorems": [
    "C100_correct",
    "C100_moderate",
    "C100_symmetric"
   ],
   "note": ""
  },
  {
   "property": "C101",
   "status": "partial",
   "theorems": [
    "C101_predict",
    "C101_control",
    "C101_correct",
    "C101_unused_product_refuted"
   ],
   "note": "Proved for predict and control as an equivalence, every element type. For correct it is false: the decomposition multiplies each pivot by the previous diagonal reciprocal and discards the product (matrix/traits.rs, cholesky_decompose_lower), which can overflow where nothing else does, so a checked fixed-point build panics needlessly (refuted, I16F16); proved part: a correction returns whenever its formulas and these unused products have values."
  },
  {
   "property": "C102",
   "status": "proved",
   "theorems": [
    "C102_mult",
    "C102_mult_transb",
    "C102_predict",
    "C102_control",
    "C102_predict_simple",
    "C102_control_simple"
   ],
   "note": ""
  },
  {
   "property": "C103",
   "status": "proved",
   "theorems": [
    "C103_in_range_for_ever",
    "C103_errors_do_not_accumulate"
   ],
   "note": ""
  },
  {
   "property": "C104",
   "status": "proved",
   "theorems": [
    "C104_scalar_correction"
   ],
   "note": ""
  },
  {
   "property": "C105",
   "status": "proved",
   "theorems": [
    "C105_turn",
    "C105_readings"
   ],
   "note": ""
  },
  {
   "property": "C106",
   "status": "proved",
   "theorems": [
    "C106_gravity_runs"
   ],
   "note": ""
  },
  {
   "property": "C107",
   "status": "proved",
   "theorems": [
    "C107_assertion",
    "C107_sharp"
   ],
   "note": ""
  },
  {
   "property": "C108",
   "status": "proved",
   "theorems": [
    "C108_accuracy",
    "C108_tracks"
   ],
   "note": ""
  },
  {
   "property": "C109",
   "status": "proved",
   "theorems": [
    "C109_turn",
    "C109_tuned_turn",
    "C109_reading_components"
   ],
   "note": ""
  },
  {
   "property": "C110",
   "status": "proved",
   "theorems": [
    "C110_readings",
    "C110_box"
   ],
   "note": ""
  },
  {
   "property": "C111",
   "status": "proved",
   "theorems": [
    "C111_gravity_test_passes",
    "C111_gravity_test_fails"
   ],
   "note": ""
  },
  {
   "property": "C112",
   "status": "proved",
   "theorems": [
    "C112_gravity_tuned_test_passes",
    "C112_gravity_tuned_test_shipped",
    "C112_gravity_tuned_test_fails"
   ],
   "note": ""
  },
  {
   "property": "C113",
   "status": "proved",
   "theorems": [
    "C113_gravity_example_passes",
    "C113_gravity_example_fails"
   ],
   "note": ""
  },
  {
   "property": "C114",
   "status": "proved",
   "theorems": [
    "C114_closure_panics"
   ],
   "note": ""
  },
  {
   "property": "C115",
   "status": "proved",
   "theorems": [
    "C115_forgets_to_the_model",
    "C115_usable",
    "C115_quiet",
    "C115_scratch_irrelevant",
    "C115_build_irrelevant"
   ],
   "note": ""
  },
  {
   "property": "C116",
   "status": "proved",
   "theorems": [
    "C116_predict",
    "C116_predict_tuned",
    "C116_predict_nonlinear",
    "C116_predict_tuned_nonlinear",
    "C116_control",
    "C116_correct",
    "C116_correct_nonlinear"
   ],
   "note": ""
  },
  {
   "property": "C117",
   "status": "partial",
   "theorems": [
    "C117_predict_not_atomic_refuted",
    "C117_predict_half_refuted",
    "C117_correct_not_atomic_refuted"
   ],
   "note": "False of the code: in I16F16 a prediction that panics has already predicted the state (a retry predicts it twice) or leaves a covariance that is neither old nor new, and a correction leaves half the state corrected (refuted). What is left is characterised exactly in C116; a panicking closure does have no effect (C114), and a rollback is possible (C118)."
  },
  {
   "property": "C118",
   "status": "proved",
   "theorems": [
    "C118_rollback"
   ],
   "note": ""
  },
  {
   "property": "C119",
   "status": "proved",
   "theorems": [
    "C119_radar_runs"
   ],
   "note": ""
  },
  {
   "property": "C120",
   "status": "partial",
   "theorems": [
    "C120_closures",
    "C120_transition_jacobian",
    "C120_bearing_jacobian_partial",
    "C120_observation_jacobian_refuted",
    "C120_right_jacobian",
    "C120_simulation"
   ],
   "note": "False of the code: in the observation Jacobian of examples/radar_2d.rs the rows of the distance and of the speed divide x and y (not their offsets from the radar) by the distance, so four entries are wrong at every state, and two more off a curve (refuted; the right Jacobian is proved beside it). Proved part: the transition Jacobian, the bearing's row, both closures, and that the noise-free simulated measurement is the observation of the simulated object."
  },
  {
   "property": "C121",
   "status": "proved",
   "theorems": [
    "C121_expected_float",
    "C121_expected_fixed",
    "C121_unqualified_refuted",
    "C121_control_float",
    "C121_control_fixed",
    "C121_programs",
    "C121_float",
    "C121_fixed"
   ],
   "note": ""
  },
  {
   "property": "C122",
   "status": "proved",
   "theorems": [
    "C122_programs",
    "C122_float",
    "C122_fixed_refuted"
   ],
   "note": ""
  },
  {
   "property": "C123",
   "status": "proved",
   "theorems": [
    "C123_float"
   ],
   "note": ""
  },
  {
   "property": "C124",
   "status": "proved",
   "theorems": [
    "C124_programs",
    "C124_f32",
    "C124_f64",
    "C124_fixed"
   ],
   "note": ""
  },
  {
   "property": "C125",
   "status": "proved",
   "theorems": [
    "C125_state_forgotten",
    "C125_covariance_forgotten",
    "C125_variances_agree"
   ],
   "note": ""
  },
  {
   "property": "C126",
   "status": "proved",
   "theorems": [
    "C126_car_passes",
    "C126_car_fails",
    "C126_car_sensitivity",
    "C126_car_unused"
   ],
   "note": ""
  },
  {
   "property": "C127",
   "status": "proved",
   "theorems": [
    "C127_any_gains",
    "C127_attained",
    "C127_split",
    "C127_deadbeat",
    "C127_for_ever"
   ],
   "note": ""
  },
  {
   "property": "C128",
   "status": "proved",
   "theorems": [
    "C128_best_linear"
   ],
   "note": ""
  },
  {
   "property": "C129",
   "status": "proved",
   "theorems": [
    "C129_only_component",
    "C129_only_component_nonlinear",
    "C129_one_of_many",
    "C129_one_of_many_nonlinear"
   ],
   "note": ""
  },
  {
   "property": "C130",
   "status": "proved",
   "theorems": [
    "C130_history",
    "C130_gain"
   ],
   "note": ""
  },
  {
   "property": "C131",
   "status": "proved",
   "theorems": [
    "C131_mult",
    "C131_mult_buffered",
    "C131_mult_rowvector",
    "C131_multadd_rowvector",
    "C131_mult_transb",
    "C131_multadd_transb",
    "C131_multscale_transb",
    "C131_sub",
    "C131_add_inplace_a",
    "C131_add_inplace_b",
    "C131_sub_inplace_a",
    "C131_sub_inplace_b",
    "C131_cholesky",
    "C131_invert",
    "C131_forgets"
   ],
   "note": ""
  },
  {
   "property": "C132",
   "status": "proved",
   "theorems": [
    "C132_steady_state"
   ],
   "note": ""
  },
  {
   "property": "C133",
   "status": "proved",
   "theorems": [
    "C133_factor"
   ],
   "note": ""
  },
  {
   "property": "C134",
   "status": "proved",
   "theorems": [
    "C134_accepts",
    "C134_accepted"
   ],
   "note": ""
  },
  {
   "property": "C135",
   "status": "proved",
   "theorems": [
    "C135_inverse"
   ],
   "note": ""
  },
  {
   "property": "C136",
   "status": "proved",
   "theorems": [
    "C136_correct",
    "C136_moderate"
   ],
   "note": ""
  },
  {
   "property": "C137",
   "status": "proved",
   "theorems": [
    "C137_correct_nonlinear",
    "C137_moderate"
   ],
   "note": ""
  },
  {
   "property": "C138",
   "status": "proved",
   "theorems": [
    "C138_correct_nonlinear"
   ],
   "note": ""
  },
  {
   "property": "C139",
   "status": "proved",
   "theorems": [
    "C139_covariance_path",
    "C139_both_return",
    "C139_linearised",
    "C139_predict",
    "C139_predict_tuned",
    "C139_gain"
   ],
   "note": ""
  }
 ]
}