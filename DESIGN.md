# Formal model of minikalman-rs: design

Everything lives in `rocq/theories`. Three kinds of files:

* **model files** - definitions only, each citing the lines of `/repo/crates/minikalman/src` it models;
* **specification files** (`Spec*.v`) - the vocabulary theorems are stated in (cells of a row-major buffer, mathcomp matrices,
  the textbook Kalman filter, the documented operation order, real/rational values of floats and fixed-point numbers); none of them uses
  the model's loops or helpers;
* **property files** (`Prop*.v`) - only `Theorem ... exact lemma`, `Print Assumptions` and `Example`s showing that
  concrete, non-trivial data meets the hypotheses. All other files hold proofs.

## 1. What is modelled

| model file | models |
|---|---|
| `Prelude.v`  | the panic monad `res`, `usize`/`isize` arithmetic (checked or wrapping), slices, `for`/`while` loops, build configuration `cfg` |
| `Numeric.v`  | `MatrixDataTypeBase`/`MatrixDataType` (matrix/data_type.rs): a record of possibly panicking element operations |
| `Matrix.v`   | matrix/row_major.rs and matrix/traits.rs: every method with a body, except `inspect` (calls a closure with the matrix) |
| `Storage.v`  | matrix/data.rs, matrix/data/*.rs (constructors and assertions, `Index`/`IndexMut`), buffers/types/*.rs (`From`), buffers/builder.rs (sizes allocated), matrix/nalgebra_support.rs (view geometry) |
| `Filter.v`   | kalman/regular.rs, controls.rs, observations/regular.rs: predict, predict_tuned, control, correct |
| `Extended.v` | kalman/extended.rs, observations/extended.rs: the nonlinear variants; a closure is an arbitrary function of input and old output contents that may panic |
| `Builder.v`  | kalman_builder/{regular,extended}.rs |
| `Static.v`   | static_macros.rs: the twenty `impl_buffer_*!` macros and the objects assembled from them |
| `Alias.v`    | correct on a store where several scratch buffers share one memory block (the documentation's notes on buffer reuse) |
| `History.v`  | programs: lists of API calls (setters, predict*, control, correct*) on one filter with any number of controls and observations |
| `FloatNum.v` | `f32`, `f64` as instances of the element type (IEEE-754 via the standard library's `SpecFloat`) |
| `FixedNum.v` | `fixed::types::{I16F16, I32F32}` as instances |
| `GravityFixed.v` | examples/gravity_fixed.rs: `main` (setup through the builder, loop, assertion) with the two tables as arguments; not its printing |
| `GravityFloat.v` | tests/gravity.rs and tests/gravity_q_tuned.rs (static buffers, fill-ins, loop, assertion) with the table of errors as an argument; examples/gravity.rs: `main`, `generate_values` and the fill-ins, with the random noise (`generate_error`) as an argument; not the printing |
| `Crash.v` | the functions of `Filter.v` and `Extended.v` once more (matrix kernels, predict, control, correct, nonlinear variants), with the buffers as they are when a panic unwinds out of the call, and programs that catch panics. Simplification: the indices and sums a kernel keeps in local variables are dropped on unwinding, as in Rust; an abort instead of unwinding (`panic = "abort"`) ends the program and needs no model |
| `CrashMatrix.v` | `mult_buffered` and `sub` once more, with the buffers as they are when a panic unwinds. Simplification: a panic inside `mult_buffered`'s column copy (storage too small) is modelled as leaving the scratch buffer alone |
| `Radar.v` | examples/radar_2d.rs: set-up, closures, Jacobians, simulated measurement, loop; the random draws are an argument, printing is left out |
| `Car.v` | examples/car_1d.rs: set-up, loop and assertions in f32; the table of readings is an argument, printing is left out |
| `DataType.v` | the `#[cfg]` selection of float implementations in matrix/data_type.rs and the element types it yields, incl. micromath with an arbitrary external square root |

Conventions:

* A function mutating through `&mut` returns the new value. A panic is `Panic kind`;
  all panics (index, usize/isize overflow, assertion, element arithmetic) are explicit.
* A buffer is a `list T`, possibly longer than `ROWS*COLS` (the API allows it); `ROWS`, `COLS` are
  `nat` parameters (const generics). Every `+ - *` on indices in the source goes through `uadd`/`usub`/`umul`,
  which panic or wrap at `usize_max` according to `cfg` (overflow checks, debug assertions, feature `no_assert`, pointer width).
* The element type is abstract: `num T` is a record of zero, one, add, sub, mul, neg, recip, sqrt (each may panic),
  `<=` and the start value of `Iterator::sum`. Instances: `exact R` (any real closed field `R : rcfType`, i.e. exact arithmetic;
  `recip 0` and `sqrt` of a negative panic), `f32_num`/`f64_num`, `i16f16_num`/`i32f32_num`, and for specification `unlimited`.
* Loops are structural combinators; `while` has explicit fuel and running out is a separate panic kind
  `OutOfFuel`, which every theorem excludes (they conclude `Ok`, or name the panic).

## 2. How properties are proved

Layers:
1. `Wp.v`: total-correctness rules (`wp m Q E`: m is `Ok` with Q or panics with E) for monad and loops.
2. Kernel theorems for *every* `num T` and *every* `cfg` (`Kernels.v`, `Access.v`, `Chol.v`, `Inv.v`, `MatMain.v`): each kernel's result is cellwise a given fold.
3. Exact theorems: instantiate with `exact R`, represent buffers as mathcomp matrices (`Represent.v`, `Exact.v`, `CholExact.v`, `FilterExact.v`, `CallExact.v`).
4. Matrix theory (`Psd.v`, `KMath.v`): positive (semi)definite matrices, Joseph/information identities, monotonicity.
5. Histories by induction over the list of calls (`HistGen.v`, `HistExact.v`, `HistTwo.v`, `WorldMath.v`, `HistMain.v`).
6. Two-run simulations: different scratch (`FilterTwo.v`, `HistTwo.v`), different builds (`BuildSim.v`), shared buffers (`AliasProof.v`, `AliasMain.v`), different number types (`NumSim.v`).
7. Floats: SpecFloat operations related to real numbers through Flocq (`FloatFlocq.v`), then error analysis by induction on sizes (`FloatErr.v`, `FloatPredict.v`, `FloatInt.v`, `FloatChol.v`); facts needing no real numbers in `FloatGen.v`, `FloatWit.v`.

| property | modelled / proved by |
|---|---|
| C01, C02 | `get_at`/`set_at` on lists; C02 is false of the code: `_refuted` witnesses plus theorems saying exactly what is aliased, and the true part |
| C03 | loop invariant in isize arithmetic |
| C04 | false of the code for row > 0: `_refuted` for every shape, what is read instead is characterised, row 0 proved |
| C05, C06, C08 | kernel theorems (cellwise fold in documented order, tail untouched, only element arithmetic panics) |
| C07 | C05/C08 at `exact R` + bigop identities |
| C09, C10 | loop invariants; C10 is false for `set_all/clear/set_zero` on oversize buffers (`_refuted`), proved for all others |
| C11 | invariant: after column i the first i columns are those of the factor; success => `L Lᵀ = A`; failure => a vector with non-positive quadratic form |
| C12 | `_refuted`: every singular PSD matrix is refused; the true direction proved |
| C13 | relational loop invariant for every `num T` |
| C14 | two-phase invariant: phase 1 leaves L⁻¹ᵀ in the upper triangle, phase 2 solves Lᵀ X = L⁻¹ |
| C15 | invariant for every `num T` |
| C16, C54, C10 | wp of every call for every `num T`; C16 for floats: the element operations never panic |
| C17 | false (`_refuted`: predict/correct with no states, copy_to, mult_rowvector on empty); control with no inputs or states proved |
| C18-C23, C36 | composition of kernel theorems; C23 is false (`_refuted`: the buffer holds the Cholesky factor), with the true fact proved |
| C24, C39-C43, C29, C55-C57 | refinement of call histories to the mathematical filter, then induction |
| C25-C28, C30, C50-C53 | matrix theory on the textbook formulas + C21 |
| C31 | relational theorem for every `num T`, over histories |
| C32, C33 | shared-memory model; simulation for permitted sharing, witnesses for forbidden |
| C34 | `_refuted` in binary32 and binary64 (NaN; finite garbage), and characterised for all formats, sizes and contents: `C34_first_destroys`, `C34_pivot_destroys` (`Garbage.v`) |
| C35 | program transformation: replacing linear calls by nonlinear ones with the linear closure gives the same world, every `num T` |
| C37 | `_refuted` (f32); the leaked value characterised for every element type |
| C38, C48, C49, C60-C62, C66 | direct proofs on constructors, views, accessors, in every build; refuted where release arithmetic wraps |
| C44, C45, C59 | `_refuted` by kernel computation on SpecFloat (f32, f64) and on I16F16 |
| C46 | refuted (NaN accepted; a finite indefinite matrix accepted); diagonal part proved for all formats |
| C47, C64, C65 | Flocq: standard model with underflow term, induction on the number of terms; exactness for integers by bounding partial sums |
| C58 | simulation between any two builds |
| C63 | every call is one explicit expression over cells (SpecBits.v), every `num T` |
| C67 | simulation between checked fixed point and unlimited fixed point over histories; refuted for unchecked builds |
| C68 | rational error analysis by induction on the number of terms, composed for predict, control and correct (`FixedSteps.v`) |
| C69 | invariant of the Cholesky loop in every build |
| C70-C72 | random systems with finite distributions (`SpecProb.v`): the error is an affine function of earlier error and fresh noise; induction over the steps (`ProbMath.v`, `ProbMain.v`). Tuned predictions only with factor ±1 (any factor of size at most one: C89); not covered: the nonlinear calls |
| C73 | dynamic programming: the cost-to-arrive of a state is J + (x-x̂)' P^-1 (x-x̂), by infimal convolution (predict, control) and completing the square (correct); induction over the history (`MapMath.v`) |
| C74, C75 | monotonicity of C41 applied to a history and its tail (`CycleMain.v`) |
| C76 | Lyapunov function d' P^-1 d, same lemmas as C73 (`Forget.v`) |
| C77, C78 | invariant of the interpreter `run` over any operation list: sums and products absorb non-finite operands (`Poison.v`); independence of P from data from the relational theorem of C42 |
| C79, C80 | standard model (as C65) applied to the explicit cell expressions of C63; representability of all intermediate buffers from C84 |
| C81 | induction along the Cholesky recurrences on the cells (`FloatFactor.v`) |
| C82 | chain of relative errors through sqrt, reciprocal and the products (`FloatGain.v`) |
| C85, C86 | a-priori bounds below 2^emax give finiteness (Bmult/Bplus/Bdiv/Bsqrt_correct, `FloatRange.v`, `FloatScalar.v`), then the bounds of C80, C82 combine into a forward error bound (`FloatForward.v`); also the true parts of C44, C45, C59 |
| C87 | `SpecParam` relational theorem with the relation "equal and in the format" gives closure; multiplying by one and the reciprocal of one are exact (Flocq `Bmult_correct`, Z arithmetic for fixed point) |
| C88 | relational proof with "equal or zeros of different signs" through `invert_l_cholesky`; the gain is a sum started from a non-negative-zero-absorbing product, so equality is restored there |
| C89 | as C70 with an inequality: noise covariance at most the one told (`SpecRobust.v`), |λ| ≤ 1; the affine step is monotone in the semidefinite order (`Robust.v`) |
| C90 | trace identity E[e' P⁻¹ e] = tr(P⁻¹ E[e e']) on top of C70/C71/C89; the inequality uses tr(A M) ≥ 0 for A pd, M psd, by the library's own Cholesky factor of A |
| C91 | `SpecJoin.v`: joint system and the two separate ones; block-matrix identities for each operation, induction over histories (`JoinMath.v`) |
| C92 | `SpecShift.v`: shifted world and operations; step lemma, induction (`ShiftMath.v`) |
| C93 | posterior ≤ Joseph form with gain 1/(k+1) in measurement space; induction over histories of corrections (`ShiftMath.v`) |
| C94 | `DataType.v`: the `#[cfg]` attributes as a function of the feature set; case analysis over the sets. False of the code for libm + micromath |
| C95 | `DataType.v`: f64 with the external square root an arbitrary function on f32; two arguments that round to the same f32 (`DataTypeProof.v`). The true part from Flocq's `Bsqrt_correct` |
| C96, C97 | `SpecStable.v`: turns, the ideal run and the level condition `keeps`; C85-style room from row sums for one call, then induction over turns; the ideal run contracts by rho, so per-turn errors form a geometric series (`FloatStable.v`) |
| C98 | `SpecSolve.v`: `eig_above`, `ch_ready`; column by column: the computed columns reproduce the matrix up to rounding (as C81), so the Schur complement of the remaining rows keeps at least lam minus rounding (`RealSchur.schur`), hence the next pivot is positive and finite (`FloatSolve.v`); converse: L L' is a sum of squares, the rest is the backward error (`FloatSolvable.v`) |
| C99 | the two substitutions solve nearby triangular systems (`FloatTri.v`), quadratic-form bounds for L and the residuals (`RealTri.v`) turn this into bounds on X and on X - W (`FloatInv.v`, `FloatInvert.v`) |
| C100 | `SpecCorrect.v` spells out the exact update and the bounds; the computed S is within `s_err` of the exact one, so C99 applies to it (`FloatCorrect.v`); the inverse of the exact S exists by block elimination (`RealInverse.v`); simple-number bounds by a small calculus of monomials (`FloatModerate.v`) |
| C101 | `SpecDefined.v`: the formulas over partial operations; kernels return iff every entry of the fold has a value (`Defined.v`); false for corrections (`_refuted`): the discarded product in `cholesky_decompose_lower` can overflow |
| C102 | magnitudes of partial sums bounded by induction; a value in range is the same in all builds (`FixedRange.v`) |
| C103 | induction over turns with the invariant levels X, M, and a linear recurrence for the error (`FixedStable.v`), on top of the per-call errors of `FixedSteps.v` |
| C104 | S, sqrt, reciprocal, gain one after the other, each with range and error bound over Q (`FixedScalar.v`) |
| C105 | covariance part of a turn for every element type (`FixedGain.v`), state part over Q; induction over turns (`FixedRun.v`) |
| C106 | reference run of 42 turns until covariance and gain repeat exactly, then linear functionals of the state pulled back 80 turns through the closed loop (`LinPath.v`, `ZPath.v`, checker `FixedCert.v` run by `vm_compute`, sound for every number of turns); `GravityProof.v` |
| C107, C108 | explicit weights of the initial state, each reading and rounding in the estimate (`LinPath.v`, `GravityMain.v`) |
| C109 | one float turn with the gain it computed, against real arithmetic (`SpecTurn.v`, `FloatTurn.v`, `TurnProof.v`, `FloatSelect.v`) |
| C110 | the gains do not depend on data (C29), so one reference run settles them; invariant box by induction on the readings (`TurnRun.v`, `TurnReadings.v`, `FloatQ.v`, `FloatCert.v`, `TurnExamples.v`) |
| C111 | reference run settles the 15 gains; the error of the state against the exact fall is a linear path perturbed by rounding, bounded backwards from the last turn in integers (`FloatTrack.v`, `GravityLoop.v`, `GravityTest.v`, certificates in `GravityTables.v`, `GravityFloatMain.v`); a concrete table for the failing side |
| C112 | as C111 in f64 with `predict_tuned`; the shipped table by running the model |
| C113 | as C111 over 100 turns; the zero control changes no value of the state and adds its fixed noise to the covariance (`GravityCtl.v`, `GravityTables2.v`, `GravityExample.v`) |
| C114 | `Crash.v` models every call again with the buffers kept at the point of a panic (`CrashErase.v` proves that forgetting them gives the main model); the continuation by scratch independence of caught programs (`CrashTwo.v`, `CrashMain.v`) |
| C115 | invariant over programs of caught calls (`CrashHist.v`), simulation between builds (`CrashSim.v`), two-run relation (`CrashTwo.v`) |
| C116 | cell-by-cell invariants of each kernel at the panic (`CrashKernels.v`, `CrashTorn.v`), composed through the calls (`CrashCalls.v`) |
| C117 | refuted by computation in I16F16 (`CrashExamples.v`); status partial |
| C118 | same models after any caught calls (C115) and the two-run relation (`CrashMain.v`) |
| C119 | `Radar.v` models `main` of examples/radar_2d.rs over an arbitrary element type with arbitrary powi, sqrt, atan2 and division; an invariant of the loop with the `wp` lemmas of the nonlinear calls (`RadarProof.v`) |
| C120 | the closures and the Jacobians of `Radar.v` evaluated over Coq's real numbers (`SpecRadar.v`), derivatives with Coquelicot's `auto_derive`, stated with the standard library's `derivable_pt_lim` (`RadarDeriv.v`, `RadarMain.v`). The distance and speed rows are refuted |
| C121 | vocabulary `SpecRest.v` (element types with a zero, harmless factors and numerical equality; instances for floats - zeros of both signs, finite factors - and fixed point), the bit-exact descriptions of C63 (`BitsProof.v`) for single calls, induction over histories; the hypothesis that gains are finite is necessary (`C121_unqualified_refuted`) |
| C122 | data independence of the covariance path (C29, `HistTwo.v`), the bit-exact descriptions of C63 and induction over pairs of histories give a theorem for any relation between data that arithmetic respects (`SpecMirror.v`, `Mirror.v`); opposite floats are such a relation because rounding to nearest even is symmetric. Refuted in fixed point |
| C123 | the same theorem with the relation "equal or both zero" |
| C124 | pigeonhole on the covariance's bit patterns (`Period.v`: floats of a format can be numbered), then the covariance path's independence of the data (C29) carries the repetition on for ever; that all numbers stay in the format is parametricity (C84) |
| C125 | the Lyapunov function of C76 with part of the process noise moved into the contraction factor; for the covariances the ratio P2 <= alpha P1 (Thompson's metric): predictions pull alpha towards 1, corrections are monotone and homogeneous and so keep it (`Fade.v`) |
| C126 | `Car.v` models `main` of examples/car_1d.rs with the readings as an argument. The run is repeated by `vm_compute` in affine arithmetic (`Affine.v`: a known f32, or an affine function of the unknown deviations with a bound on the rounding errors), and carried over to all readings with a two-sorted parametricity theorem (`SpecDataPar.v`, `DataPar.v`: models and covariances related by one relation, states, inputs and readings by another) (`CarProof.v`) |
| C127 | `SpecRival.v`: error covariance and error propagation matrix of a filter with arbitrary gains along the textbook history. Induction over the history: Joseph's form with the optimal gain is smallest (`joseph_opt`) and monotone (`joseph_le`); equality by choosing the filter's own gain in each step. Cycles: the recursion depends on the model only (`model_of`), so one certificate covers any number of cycles with any data. Carried to the code by `run_refines`. |
| C128 | Same finite-probability simulation as C70 (`SpecProb.v`); `SpecBest.v` adds the weighted sum of innovations. The joint vector (error, sum) obeys an affine recursion, and its covariance stays block diagonal: the cross term vanishes because K S = P H'. |
| C129 | `SpecMute.v`: an observation without its k-th component; numerically equal (up to the sign of zeros). Starting from the operation-by-operation account of C63, in any IEEE format: finite results force gains, inverse, factor and innovation to be finite; then strong induction over the columns of the factor (the muted column has diagonal +inf and zeros below, the others are those of the reduced factor), over both substitutions of the inversion, then gain, estimate and covariance. Proviso: the reduced innovation covariance could be decomposed, and the results are finite (counterexample given). |
| C130 | `SpecScale.v`: two programs in units differing by powers of two per component; `sf_roomy`, floats that panic on over/underflow, as the definition of "stays in range". Multiplication by 2^e commutes with rounding to unbounded precision-p numbers, hence with every operation that stays in range (`Scale.v`); carried through dot products, Cholesky (square roots of even powers), inversion, gain (`ScaleBits.v`) starting from C63, through every call and by induction over the history (`ScaleHist.v`); results of the plain floats follow by C94's refinement of element types. Proviso shown necessary (overflowing S). |
| C131 | cellwise invariants of C116's kernels (`CrashTorn.v`), now stated on the kernels themselves (`CrashMat.v`), with two more (`mult_buffered`, `sub`); for plain products a loop of loops (columns downwards, rows upwards); for the decomposition the invariant of its correctness proof plus a frame per column (`CrashMatChol.v`) |
| C132 | one cycle keeps covariances between L and U and inherits definiteness from L and noisiness from U by monotonicity (C41's step order, `Steady.v`); C125's contraction of the ratio along the shorter run, both ways, and an entrywise bound for matrices between -E and E |
| C133 | the bits of the factor (C63) in unlimited fixed point; each subtraction of products is at most i units too large, roots are rounded down, reciprocals towards zero (`FixedChol.v`), closed under the global context |
| C134 | column induction as for C98: with the first J columns accurate, the Schur complement of every remaining row keeps at least lam - n eps (`RealSchur.v`), so pivots stay positive and rows short; unlimited arithmetic never panics there, its numbers fit, hence every build does the same (`FixedSolve.v`); conversely v' L L' v >= 0 |
| C135 | the bits of the inverse (C63) in unlimited fixed point: each equation of the two substitutions is met up to rho (1 + the unknown) (`FixedInv.v`); the eigenvalue bound turns residuals into norms and errors (`RealTri.v`, `RealSubst.v`); numbers of that size fit, so every build does the same (`FixedInvert.v`) |
| C136 | every formula of the update evaluated in unlimited fixed point is within an explicit error of the exact one and of a size that fits, so that it has the same value with all checks on (`FixedCorrect.v`); the factor and the inverse exist by C134 and C135; hence a run with all checks succeeds (`Defined.v`), every build agrees with it, and the errors are those of the formulas; the conditions in simple numbers follow by estimating all of them by monomials in B and 1/lam (`FixedModerate.v`) |
| C137 | the update lemma of `FixedCorrect.v` (C136) is stated for any innovation near a given one; the nonlinear innovation z - out is exact, so the lemma applies with error 0 |
| C138 | a mixed two-run lemma shows that the linear and the nonlinear correction of the same filter compute the same gain and covariance cells (C139), so C100 bounds them; the innovation z - out is one rounding away from the exact one, and the state update is bounded as in C100 (`FloatCorrectNl.v`) |
| C139 | two-run relation of C29 (`world_cov`), with linear calls on one side and closures on the other; both compute the innovation or the state first and then run the same covariance code (`Track.v`) |
| C83, C84 | binary logical relation over all loops and calls of the model (`Param.v`); instance Flocq's `binary_float` against SpecFloat |

## 3. Trusted base

* Coq 8.16.1 kernel (with its `vm_compute` machine).
* The axioms of section 4.
* The reading of /repo recorded in the comments of the model files, and the specification files.
* Rust semantics assumed: slice indexing panics out of range; arithmetic on usize/isize panics (overflow checks) or wraps;
  `debug_assert*` active iff debug assertions are on; `for` ranges and iterator adaptors as documented; a slice has at most `isize::MAX` elements;
  f32/f64 operations are IEEE-754 round-to-nearest-even with a single NaN (`sqrt` correctly rounded as with feature `std`; `recip` is 1/x).
* The crate `fixed` (not part of /repo) as documented: `*` rounds down, `recip` towards zero, `sqrt` down; overflow panics or wraps as stated in `FixedNum.v`.
* `Iterator::sum` on f32/f64 starts from +0 or -0 depending on the Rust release; the model is parametric in it and float theorems hold for both.

## 4. Axioms

No axiom is declared in this development. `Print Assumptions` follows every theorem in the property files:

* `PropMatrix.v`, `PropExact.v`, `PropHistory.v`, `PropAlias.v`, `PropFloat.v`, `PropStorage.v`, `PropShape.v`, `PropBits.v`, `PropFixed.v`, `PropProb.v`, `PropRobust.v`, `PropJoin.v`, `PropLong.v`, `PropPoison.v`, `PropFixedRange.v`, `PropGravity.v`, `PropCrash.v`, `PropTorn.v`, `PropSteady.v`, `PropRest.v`, `PropMirror.v`, `PropGarbage.v`, `C119_radar_runs` in `PropRadar.v`, `C124_programs` and `C124_fixed` in `PropPeriod.v`, `C94_*` in `PropDataType.v`, `C87_programs`, `C87_fixed*` in `PropUnit.v`, `C84_programs` in `PropRounding.v`, and `C46_finite_accepted_refuted` in `PropReal.v`:
  "Closed under the global context" for every theorem.
* `PropReal.v` (C47_mult, C47_mult_transb, C47_mult_rowvector, C64_mult, C64_mult_transb, C64_predict, C65_predict, and others there) `PropRounding.v` (C79 to C83) and every theorem of `PropRange.v` (C85, C86 and the parts of C44, C45, C59 proved there), the float theorems of `PropUnit.v` (C87_float*, C88), `C95_*` (except C95_else_partial) in `PropDataType.v`, and both theorems of `PropStable.v` (C96, C97) and of `PropSolve.v` (C98, C99), of `PropCorrect.v` (C100, C138 and parts of C44, C45, C59, C99), of `PropTurn.v` (C109, C110), `PropGravityFloat.v` (C111 to C113), the theorems C120 of `PropRadar.v`, C124_f32 and C124_f64 of `PropPeriod.v`, C130 (`PropScale.v`), C134 (`PropFixedSolve.v`), C135 (`PropFixedInverse.v`), C136, C137 and parts of C44, C45 (`PropFixedCorrect.v`), C126 of `PropCar.v` (except C126_car_unused, which is closed): the axioms of
  the standard library's real numbers, on which Flocq is built:
  `ClassicalDedekindReals.sig_forall_dec`, `ClassicalDedekindReals.sig_not_dec`,
  `FunctionalExtensionality.functional_extensionality_dep`, `Classical_Prop.classic`.

The checker additionally lists opaque constants behind module seals of mathcomp and the standard library's Reals
(`mathcomp...imsetE`, `Rdefinitions.RbaseSymbolsImpl...`): these are defined, not assumed.

## 5. Not modelled

* `Display`/`Debug` output, `inspect`-style closures that only look, newtype forwarding (`Deref`, `AsRef`, `as_matrix`), `Clone`.
* What micromath's `sqrt`/`recip` compute (C95 treats its square root as an arbitrary function); `libm::sqrt` is taken to be correctly rounded like std's; NaN payloads and signs.
* The internals of the `fixed` and `nalgebra` crates (only the geometry of the nalgebra view is modelled).
* The state after a caught panic, except for the calls on filters, controls and observations (Crash.v) and the matrix operations of Crash.v and CrashMatrix.v: the builders, the remaining `Matrix` functions (copies of rows and columns, `set_all`, `make_identity`, ...: they do no element arithmetic and panic only on storage that is too small) and the static-buffer macros are modelled only up to the panic.
* User matrix types implementing the traits with other than row-major slice storage; user-overridden default methods.
* Code outside `crates/minikalman/src`: benches, the printing and the random draws of the examples, the integration test simple.rs (run in `Conform.v` only), the C port's tables.
* `Conform.v` is no proof of a property: it evaluates the repository's own unit tests in the model (values and assertions transcribed), to check the model against expectations written for the Rust code.
