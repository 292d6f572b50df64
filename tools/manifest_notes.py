NOTE = {
 "C02": ("partial", "False of the code: columns are never checked, and without overflow checks a huge row wraps (refuted, with the exact aliasing). Proved part: with an exactly sized buffer a row >= ROWS panics in get and set whenever the index computation does not wrap."),
 "C04": ("partial", "False of the code: the row offset is row*(COLS-1). Refuted for every shape and every row >= 1; the actual result is characterised exactly; row 0 is right."),
 "C10": ("partial", "False of set_all/clear/set_zero, which fill the whole slice (refuted); proved for every other mutating operation."),
 "C12": ("partial", "The documented contract (semi-definite accepted) is false: every singular semi-definite matrix is refused (refuted / characterised). Proved part: a true result implies positive definiteness, so a non-semi-definite matrix is always refused."),
 "C17": ("partial", "False of the code: predict/correct with no states, copy_to and mult_rowvector with no elements panic in every build mode (refuted). Proved part: control with zero inputs or zero states is a no-op."),
 "C23": ("partial", "False of the code: the S buffer is overwritten in place by its Cholesky factor (refuted; the actual contents are characterised exactly)."),
 "C34": ("partial", "The guarantee (a bad correction is reported or leaves the state intact) is false of the code: refuted concretely (NaN from a singular S; finite garbage, the estimate moving to -2^24 (f32) or -2^54 (f64) when two good sensors both read 1, from a rounded second pivot), and characterised for every format and any number of states and measured components: a first innovation variance that is not positive, or any pivot whose reciprocal is not finite, turns all of x and P into inf/NaN while the call returns normally. What a refused decomposition leaves in the buffer is exact in C63."),
 "C44": ("partial", "False of the code: rounding breaks exact symmetry in predict and correct, refuted for f32, f64 and I16F16. Proved part: after a prediction, and after a correction by any number of measured components, the asymmetry is bounded by an explicit rounding bound (for a well-conditioned innovation covariance), for floats and fixed point. In exact arithmetic symmetry holds (C20/C25 families)."),
 "C45": ("partial", "False of the code: a positive variance becomes negative after one correction with a good sensor, refuted for f32, f64 and I16F16. Proved part: for any number of measured components (well-conditioned innovation covariance) a posterior variance that exceeds an explicit error bound is computed as a positive number, with floats and fixed point. In exact arithmetic it holds (C26 family)."),
 "C46": ("partial", "False of the code: a NaN is accepted as positive definite, and even a finite symmetric indefinite 3x3 f32 matrix is (both refuted). Proved part: after a true result every diagonal entry of the factor is positive or a NaN, for every format, size and contents; and with a finite factor the matrix is positive semidefinite up to an explicit rounding error (C98_accepted)."),
 "C59": ("partial", "False of the code: finite, well-formed data turns the state non-finite with f32 (refuted by one sensor applied twice and by two equal sensors). Proved part: with one measured component whose innovation variance exceeds its rounding error, and no number near the overflow threshold, gain, state and covariance are finite; likewise for several measured components at once when no eigenvalue of the innovation covariance is below the rounding errors."),
 "C37": ("partial", "False of the code: the closure is handed whatever the buffer held (refuted for f32; the leaked value is characterised for every element type, history and closure). What is true is C16: a closure that writes its whole output is independent of earlier contents."),
 "C49": ("partial", "Proved for every valid matrix (same cells as get, bijective, inside the array). The bounds part is false for arrays accepted by the unchecked constructor (refuted)."),
 "C67": ("partial", "Proved for builds with overflow checks and debug assertions, and that such results are those of every build. Without the checks it is false of the code: a variance of 80000 silently becomes 14464, and with tiny data the gain gets the wrong sign (both refuted)."),
 "C61": ("partial", "Proved for every shape that fits usize, and for larger ones in debug builds; in release builds ROWS*COLS wraps and the queries lie (refuted)."),
 "C94": ("partial", "False of the code: enabling micromath beside libm without std leaves the functions without a body, so the crate does not compile (refuted). Proved part: exactly which subsets work and which fail, never two implementations, std always wins."),
 "C95": ("partial", "False of the code with micromath only: the f64 square root goes through f32, so whatever the external routine computes it is wrong by more than 2^-29 somewhere in [1,2], by more than half somewhere, and a correction cannot tell R = 1/2 from 1/2 + 2^-26 (refuted). Proved part: with std or libm the relative error is at most 2^-prec over the whole range, and everything else is the same with micromath."),
 "C101": ("partial", "Proved for predict and control as an equivalence, every element type. For correct it is false: the decomposition multiplies each pivot by the previous diagonal reciprocal and discards the product (matrix/traits.rs, cholesky_decompose_lower), which can overflow where nothing else does, so a checked fixed-point build panics needlessly (refuted, I16F16); proved part: a correction returns whenever its formulas and these unused products have values."),
 "C117": ("partial", "False of the code: in I16F16 a prediction that panics has already predicted the state (a retry predicts it twice) or leaves a covariance that is neither old nor new, and a correction leaves half the state corrected (refuted). What is left is characterised exactly in C116; a panicking closure does have no effect (C114), and a rollback is possible (C118)."),
 "C120": ("partial", "False of the code: in the observation Jacobian of examples/radar_2d.rs the rows of the distance and of the speed divide x and y (not their offsets from the radar) by the distance, so four entries are wrong at every state, and two more off a curve (refuted; the right Jacobian is proved beside it). Proved part: the transition Jacobian, the bearing's row, both closures, and that the noise-free simulated measurement is the observation of the simulated object."),
}
EXTRA = {"C16": [], "C42": []}
