# Formal model of PARLA (BallisticLA/parla) in Coq 8.16.1 / mathcomp

What is modelled, how each property of `properties.jsonl` is stated and proved,
what is trusted, and where the code and its documentation disagree.

## 1. Shape of the model

*Scalars.*  All model code is written once, over an arbitrary scalar type with
bare operations and **no laws** (`Class ops` in `Base.v`).  It is instantiated
twice:

* `rcf_ops R` for an arbitrary real closed field `R` (mathcomp `rcfType`):
  exact real arithmetic.  All numerical theorems (orthonormality, error
  identities, convergence) are about this instance, except that C99 allows inexact
  QR and least squares and C100-C102, C105, C107-C109, C111 are about every arithmetic with a relative error
  of at most u per operation (`fl_arith` in `Float.v`).
* primitive floats (`Tests.v`): the same definitions run on IEEE doubles.  The
  three examples of the `lsqr` docstring are reproduced, including the printed
  residual norms to the last digit.  These are tests of the model, not proofs.

Control-flow theorems (which exception, how many passes, which warnings, index
book-keeping, reproducibility) are stated for arbitrary `ops`, so they also hold
for IEEE floats.

*Arrays.*  A 2-D array is `Arr nr nc rows` (dynamic shape, list of lists), a
1-D array is a `seq`.  Every operation checks shapes the way numpy does and
returns an exception value on mismatch.  `ofmx : 'M[R]_(m,n) -> arr R` and
`ofcv` embed mathcomp matrices; theorems are stated with `ofmx`.

*Python effects.*  `M X := st -> st * (exn + X)`.  The state holds the numpy
`Generator` in use and a log of observable events (warnings, passes over the
data matrix, stabiliser calls, random draws, rangefinder outputs).  Exceptions
are values of `exn`.  `while True` loops take fuel; running out of fuel is the
distinguished exception `Diverge`, which the theorems exclude.  In-place updates
visible to the caller are returned explicitly (C05, C57).

*Parameters.*  Integer arguments are mathcomp `int` (negative values included),
`sampling_factor` is a `rat`, a tolerance is `option T` with `None` for NaN.

*External libraries.*  LAPACK-backed calls (`la.qr`, pivoted `la.qr`, `la.svd`,
`la.eigh`, `la.lu`, `la.lstsq`, `dct/idct`) are fields of a record `lapack`;
theorems take the contract they need (`qr_spec`, `svd_spec`, ...; textbook
specifications in exact arithmetic, for non-empty arguments) as a hypothesis.
`LapackExists.v` constructs `exact_lapack R`, which satisfies all contracts at
once over every real closed field, so none of the hypotheses is vacuous.
`solve_triangular`, `cholesky` and norms are modelled concretely because their
failure branches matter.  `numpy.random.Generator` is a record `rng_ops`; its
contract `rng_ok` says that shapes are right and index draws are in range /
distinct.  Only C76 and C91-C95 (averages, probabilities) assume anything about
distributions, as hypotheses on moments of an abstract expectation; witness
generators satisfy them (for every size in C91-C95).  `np.argsort` and
`np.log` are parameters with a contract.

## 2. Trusted base

* the Coq 8.16.1 kernel (with its VM for `Tests.v` only);
* the faithfulness of the hand translation: each model definition cites the file
  and lines it models and states its simplifications;
* the contracts of the external routines named above (hypotheses, never axioms).

**Axioms.**  Under every property theorem stands `Print Assumptions`; each one
prints `Closed under the global context`: no axioms at all, neither from the
standard library nor from mathcomp.  `Tests.v` uses Coq's primitive floats and
integers; no property theorem depends on it.

No `Admitted`, no axioms, no functors or module types, no kernel check disabled,
no plugin beyond those loaded by ssreflect and the stdlib (`ring`, `field`,
`lia`).

## 3. Code modelled

| Python | Coq |
|---|---|
| `utils/linalg_wrappers.py` | `Aware.v` (orth, lu_stabilize), `Interp.v` (pinv wrappers), `Wrappers.v` (LU wrappers) |
| `utils/sketching.py`, `comps/sketchers/oblivious.py` | `Sketching.v`; `gaussian_operator` in `Aware.v` |
| `utils/stats.py` | `Stats.v` |
| `tests/matmakers.py`, `notebooks/least_squares/helpers.py` | `Makers.v` |
| `comps/sketchers/aware.py` | `Aware.v` |
| `comps/rangefinders.py` | `RangeFinders.v` |
| `comps/qb.py` | `QB.v` |
| `comps/interpolative.py`, `drivers/interpolative.py` | `Interp.v` |
| `comps/preconditioning.py`, `comps/determiter/saddle.py`, `comps/determiter/logging.py` | `Precond.v` |
| `comps/determiter/pcg.py` | `Pcg.v` |
| `comps/determiter/lsqr.py` | `Lsqr.v` |
| `drivers/svd.py`, `drivers/evd.py` | `SvdEvd.v` |
| `drivers/least_squares.py` | `LstSq.v` (classes), `Drivers.v` (functions) |
| `drivers/saddlesys.py` | `SaddleSys.v` (classes), `Drivers.v` (function) |

`P_*.v`, `F_*.v`, `W_*.v` hold lemmas, `Properties_*.v` only property theorems and
their examples.  `Exact.v`, `MxLib.v`, `Chol.v`, `Sel.v`, `RingTac.v` are the
bridge to mathcomp matrices and matrix facts.

## 4. Not modelled

* floating-point rounding in the numerical theorems (exact arithmetic), except: C96 and
  C97 hold for every arithmetic, their specification is `Shape.v`; C99 lets QR and least
  squares err within a bound, specification `Inexact.v`, and keeps the rest exact; C100,
  C101, C102, C105, C107-C109, C111 round every operation, specifications `Float.v`, `FloatEvd.v`,
  `FloatInterp.v` and `FloatNys.v`, in the standard model (relative error
  at most u, no overflow, underflow or NaN, exact comparisons), with sums and products
  evaluated in the order of the model (plain dot products, left to right);
* `spmatrix` / `LinearOperator` values of the data matrix `A` (always a dense
  2-D array; sketching operators may be dense, sparse or `LinearOperator`);
* broadcasting of length-1 axes, array dtypes, array views and aliasing other
  than the in-place updates of QB2 and PcSS1;
* `rng=None` (fresh OS entropy): covered by quantifying over all seeds;
* wall-clock time: the timings stored in a log are arbitrary inputs (`clk`), and
  the model lets each of them vary even where the code leaves one at zero;
* the dtype probe of `scipy.sparse.linalg.LinearOperator`, which calls `matvec`
  once at construction;
* printing (`show`), the text of messages, `utils/misc.py` (docstring helper),
  `tests/` (except `matmakers.py`), notebooks (except `least_squares/helpers.py`);
* divisions by zero that numpy turns into inf/nan: the model returns the
  exception value `Unmodelled` and the theorems make no claim about such runs
  (LSQR with `b = 0` and a supplied non-zero start; the Nystrom branch of SPS1 for
  rank-deficient A; R^2 of constant samples);
* `np.NaN` exists only in numpy < 2; the model takes it to exist.

## 5. Where code and documentation disagree

Each item is stated as a theorem when a property is named.

Low-rank drivers
* `QB2` documents orthonormal Q unconditionally; false for rank-deficient input,
  for every QR routine (C04).
* `exponent_spectrum` and `s_shaped_spectrum` (tests/matmakers.py) take a parameter `rank` and
  build the spectrum from `np.arange(1, rank)`, so the matrix has rank `rank - 1`
  (`C103_exponent_rank_refuted`); `rank <= 1` raises IndexError (`C103_empty`).
* `SVD1` documents 0 < k but asserts nothing about it: a negative k with k + over > 0 is
  accepted and drops the |k| smallest singular values of B (C13).
* `svd1`, `evd1`: singular values / eigenvalues below the *absolute* threshold
  10 eps are dropped, so the relative tolerance documented is missed for small
  matrices (C14, C62).  `evd1` halves `tol` twice (driver and class).
* `EVD2` keeps one pair too few whenever 0 < rank(A) < k: the loop tests
  `sigma[i+1]` and appends `i` (C17).
* `osid2` makes p + 1 passes, `cur1` makes p - 1 and raises for p = 1 (C12, C65).
  `qb_b_pe` makes num_passes + 1, as its Notes admit.
* `rf1` passes `tol=0.0`, not NaN, hence warns on every admissible call (C87_rf1_refuted).

Iterative solvers
* `lsqr` with `x0` and `damp` minimises ||b - Ax||^2 + damp^2 ||x - x0||^2, not the
  documented objective (C54).
* `r1norm` is documented as ||b - Ax||; with damping it is strictly larger until
  convergence (C35_lsqr_r1norm_refuted).
* `anorm` is not updated in an iteration that breaks down (C73).
* position 7 of the result is a scalar on early return, an array otherwise, and
  holds the value at the start of every iteration; documented is one float.
* `pcg` comments speak of squared residuals; norms are recorded (C29).

Least squares and saddle point drivers
* `SketchAndPrecondLog.wrap_up` raises for a scalar error log: SPO/SPS2 with
  logging raise ValueError when the starting point is already exact (for instance
  b = 0); SPU1 raises TypeError for c = 0 in any case (C42, C71).
* `SPS1`: `tol` is documented as an absolute bound on the normal equation
  residual; it is relative to the residual at the starting point (C34).
* `PcSS1` overwrites the caller's preconditioner when it has fewer than n columns
  (C57); a preconditioner with no columns raises IndexError.
* `PcSS2` returns NaN for x when delta = 0 and b = 0 (C39).
* `sps(method='lsqr')` raises whenever b and c are both non-zero (C61, C72).
* log entry 1 is documented as belonging to the initialisation point: it does
  (C59, C77 with i = 0).

Sketching operators
* `sampling_operator`, tall case: the recursive call passes the indices as the
  seed, so user supplied indices are ignored (C44); `rmatmat` raises TypeError
  (C43); with repeated indices `rmatvec` is not the adjoint (C69); not normalised:
  E[S'S] = (rows/cols) I (C76).
* `SkOpSS.__call__` has no `return` (C45).
* `srct_operator` needs a Generator, a seed raises AttributeError (C47); the tall
  case draws twice.
* `sjlt_operator` documents row sparsity for square shapes but treats them as
  wide (C70).
* `sampling_operator` and `sparse_sign_operator` etc. accept seeds; reproducibility
  is C51.

Statistics
* `loglinear_fit`/`loglog_fit` docstrings speak of the sign of the wrong
  coefficient; the slope is the second entry (C50).  Empty samples give NaN.

## 6. Properties, theorems, method

`MANIFEST.json` is the authoritative index. A theorem whose name ends in `_refuted`
exhibits a violation of the documented property; `_partial` would mark an incomplete
proof (there is none).

| id | property | theorems (file) | method | remarks |
|---|---|---|---|---|
| C01 | Blocked QB (QB2) stops only at the target rank or at the tolerance | `C01_qb2_stops`, `C01_qb_b` (Properties_QB.v) | loop invariant over the blocks of QB2; the driver version unfolds qb_b down to the generator | QB2 with any conformant rangefinder, and the driver qb_b from the generator up |
| C02 | QB2 residual accounting is exact | `C02_qb2_accounting` (Properties_QB.v) | invariant: residual array = A - QB and tracked value = its squared Frobenius norm; Pythagoras per block |  |
| C03 | QB2 returns orthonormal Q with B = Q'A when the rangefinder's columns are independent | `C03_log_determines`, `C03_qb2_orthonormal`, `C03_single_block_rank` (Properties_Dec.v, Properties_QB.v) | invariant under the hypothesis that each recorded block of rangefinder output is independent of the previous Q | rangefinder outputs are read from the event log of the run |
| C04 | QB2 orthonormality is unconditional (documented) -- does it hold for rank-deficient input? | `C04_qb2_orthonormality_refuted`, `C04_qb_b_orthonormality_refuted` (Properties_QB.v) | counterexample construction for an arbitrary QR oracle: rank-one input, the second block is orthogonalised zero | the documented unconditional claim is refuted: for every QR routine and row sketcher there is a 2x2 counterexample |
| C05 | QB2 and the caller's array | `C05_qb2_caller_array` (Properties_QB.v) | the model returns the content of the caller's array; invariant of the in-place update |  |
| C06 | QB3 computes the projection on range(A S), independently of the block size | `C06_qb3_block_independent`, `C06_qb3_equals_projector`, `C06_qb3_projection` (Properties_QB.v) | invariant: Q orthonormal, B = Q'A, Q R = (A S) restricted to the first columns; projections are determined by their range |  |
| C07 | QB3 early stopping is sound and deterministic in its column count | `C07_qb3_early_stop`, `C07_qb3_rank_deficient` (Properties_QB.v) | the stopping test is evaluated on the exact error of every prefix | also shows that no earlier block boundary met the tolerance |
| C08 | QB1/RF1: orthonormal basis of the sketch, B = Q'A | `C08_qb1` (Properties_QB.v) | contract of la.qr on the sketch |  |
| C09 | Argument validation of RF1/QB1/QB2/QB3 | `C09_qb1_rejects`, `C09_qb2_clamps`, `C09_qb2_rejects`, `C09_qb3_rejects`, `C09_rf1_rejects`, `C09_rf1_warns` (Properties_QB.v) | case analysis over integer arguments; any scalar type | any scalar type |
| C10 | RS1 pass and stabilisation schedule | `C10_rs1_negative`, `C10_rs1_schedule`, `C10_rs1_shape` (Properties_QB.v) | induction on the number of power steps over the event log | schedule for any scalar type; shape in exact arithmetic |
| C11 | RS1 computes the documented Krylov range | `C11_rs1_range`, `C11_stabilizers` (Properties_QB.v) | induction; stabilisers preserve ranges |  |
| C12 | Pass counts advertised by the procedural drivers | `C12_evd1_passes`, `C12_evd2_passes`, `C12_osid1_passes`, `C12_osid2_one_pass_more`, `C12_osid2_passes_refuted`, `C12_qb_b_passes`, `C12_qb_b_pe_passes`, `C12_qb_passes`, `C12_rf1_passes`, `C12_rocs1_passes`, `C12_svd1_passes`, `C12_tsid1_passes` (Properties_Dec.v, Properties_Interp.v, Properties_QB.v) | pass events counted through the whole call tree of every driver | holds except for osid2, which makes one pass more than its p: refuted there |
| C13 | SVD1 returns a valid truncated SVD | `C13_svd1_form`, `C13_svd1_negative_k` (Properties_Dec.v) | orthonormality through truncation; order of singular values |  |
| C14 | svd1 meets the requested Frobenius tolerance | `C14_svd1_accuracy`, `C14_svd1_tolerance_refuted` (Properties_Dec.v) | bound by Pythagoras plus the dropped part; witness by scaling below the absolute cut-off | the documented unconditional tolerance is refuted (absolute cut-off 10*eps); the bound with the dropped part is proved |
| C15 | EVD1 returns orthonormal eigenvector estimates ordered by magnitude, at most k of them | `C15_evd1_form` (Properties_Dec.v) | argsort contract; orthonormality through column selection | np.argsort through its contract |
| C16 | EVD1 error bound | `C16_evd1_error` (Properties_Dec.v) | Frobenius triangle inequality and Pythagoras |  |
| C17 | EVD2 returns min(k, rank(A)) eigenpairs of a PSD matrix (documented) | `C17_evd2_loses_pairs`, `C17_evd2_rank_refuted` (Properties_Dec.v) | the count of kept pairs is computed exactly; concrete 1x1 driver run | refuted: a pair is lost whenever 0 < rank A < k; concrete witness through the driver |
| C18 | EVD2 is the truncated Nystrom approximation | `C18_evd2_definite`, `C18_evd2_driver`, `C18_evd2_nystrom` (Properties_Dec.v) | Cholesky/SVD algebra of the Nystrom factorisation |  |
| C19 | One-sided ID: the coefficient matrix interpolates | `C19_osid1_col`, `C19_osid1_rank_needed`, `C19_osid1_row`, `C19_qrcp_osid_col`, `C19_qrcp_osid_deficient`, `C19_qrcp_osid_row` (Properties_Interp.v) | block algebra of pivoted QR; permutation matrices | up to the oversampling hypothesis 0 < k+over <= min(m,n) for the driver |
| C20 | OSID2 is the optimal interpolation for its skeleton | `C20_osid2_col`, `C20_osid2_row` (Properties_Interp.v) | normal equations of the projection on skeleton columns |  |
| C21 | Two-sided ID adds no error over the one-sided ID | `C21_tsid1_tall`, `C21_tsid1_wide` (Properties_Interp.v) | the row ID of the skeleton is exact |  |
| C22 | CUR1 reproduces rank-k matrices exactly | `C22_cur1_exact`, `C22_cur1_tall`, `C22_cur1_wide` (Properties_Interp.v) | rank argument plus the pseudo-inverse contract |  |
| C23 | dim_checks clamps the embedding dimension into [n_cols, n_rows] | `C23_dim_checks`, `C23_dim_checks_negative`, `C23_dim_checks_range` (Properties_LS.v) | case analysis on truncation of a rational number | any scalar type |
| C24 | SSO1 solves the sketched ridge problem | `C24_sso1` (Properties_LS.v) | lstsq contract on the lifted sketch |  |
| C25 | a_lift_precond builds the preconditioned operator and its true adjoint | `C25_a_lift_precond` (Properties_LS.v) | operator algebra on lists, lifted blocks | dense and triangular preconditioners |
| C26 | svd_right_precond orthonormalises the sketch | `C26_svd_right_precond` (Properties_LS.v) | SVD contract and the cut-off count |  |
| C27 | SPO's starting point solves the sketched problem, in every mode | `C27_spo_start` (Properties_LS.v) | normal equations in the three factorisation modes (QR, SVD, Cholesky), starting point read off by a call with limit 0 | start observed through calls with iter_lim = 0 |
| C28 | SPO/LSQR never returns something worse than x = 0 | `C28_spo_not_worse` (Properties_LS.v) | LSQR monotonicity (C37) from the accepted starting point |  |
| C29 | PCG: the residual log is the true residual and stopping is honest | `C29_pcg_log`, `C29_pcg_negative_limit` (Properties_Iter.v) | loop invariant: r = rhs - H x; prefix lemma relating runs with different limits | any matrices mat and pre; k-th entry is tied to the run limited to k iterations |
| C30 | PCG terminates with the exact solution in at most n iterations | `C30_pcg_exact` (Properties_Iter.v) | conjugacy induction; n conjugate directions exhaust the space |  |
| C31 | PCG decreases the energy-norm error monotonically | `C31_pcg_energy` (Properties_Iter.v) | energy identity per step |  |
| C32 | PcSS1: y = b - A x always, exact saddle solution at convergence | `C32_pcss1`, `C32_pcss1_no_b` (Properties_LS.v) | unfolding to PCG; y computed from x |  |
| C33 | SPS1 solves the saddle point system for every sketch | `C33_pcss1_full`, `C33_pcss1_low`, `C33_sps1`, `C33_sps1_nystrom_left`, `C33_sps1_nystrom_right` (Properties_LS.v) | PCG facts with the sketched SVD or Nystrom preconditioner, shown positive definite | sketch sizes >= n for any strategy; Nystrom branches for A of full column rank (the code divides by zero singular values otherwise) |
| C34 | SPS1's documented stopping criterion | `C34_absolute_tol_refuted`, `C34_relative_tol` (Properties_LS.v) | concrete 1x1 run; the relative bound is PCG's | the documented absolute criterion is refuted; the relative criterion that holds is proved |
| C35 | LSQR: reported norms are the true norms | `C35_lsqr_norms`, `C35_lsqr_r1norm`, `C35_lsqr_r1norm_refuted`, `C35_lsqr_returns` (Properties_Iter.v) | Golub-Kahan invariants with damping and start; QR of the bidiagonal matrix by induction | general damping and starting point; b = 0 with a supplied start is excluded (the code divides by bnorm = 0) |
| C36 | LSQR: stopping code is honest and the iteration limit is respected | `C36_lsqr_acond`, `C36_lsqr_code`, `C36_lsqr_first_stop`, `C36_lsqr_stop` (Properties_Iter.v) | case analysis of the tests with the identities of C35 | all eight codes; code 6 never occurs |
| C37 | LSQR residual is non-increasing | `C37_lsqr_limits`, `C37_lsqr_start` (Properties_Iter.v) | phi_bar is non-increasing; prefix lemma over limits | also monotone in the iteration limit |
| C38 | Givens rotation _sym_ortho | `C38_sym_ortho` (Properties_Iter.v) | algebra |  |
| C39 | PcSS2 case analysis | `C39_pcss2_b_zero`, `C39_pcss2_both_nonzero`, `C39_pcss2_c_zero` (Properties_LS.v) | unfolding; the two-sided case raises |  |
| C40 | SPS2's reduction to least squares is an equivalence | `C40_sps2_reduction` (Properties_LS.v) | range algebra of the augmented system for an arbitrary solver | for an arbitrary iterative solver |
| C41 | SketchAndPrecondLog.wrap_up | `C41_wrap_up` (Properties_LS.v) | list computation of the time axis |  |
| C42 | Least-squares drivers return for every right-hand side | `C42_spo_refuted`, `C42_spo_zero_rhs`, `C42_sps2_refuted`, `C42_sps2_zero_rhs`, `C42_spu1_refuted`, `C42_spu1_zero_rhs` (Properties_LS.v) | unfolding with zero right-hand sides; concrete runs | refuted: zero right-hand sides raise; universal theorems and concrete runs |
| C43 | sampling_operator selects rows and its adjoint scatters them | `C43_orthonormal_rows`, `C43_sampling_drawn`, `C43_sampling_given` (Properties_Sketch.v) | matrix semantics of the returned LinearOperator | S applied to vectors and matrices, S' on vectors; S' applied to a matrix raises TypeError, which the theorem states |
| C44 | sampling_operator honours user-supplied indices in both orientations | `C44_indices_refuted`, `C44_tall_indices_seed` (Properties_Sketch.v) | concrete call for the refutation | refuted in the tall case: the indices only seed a generator; the wide case is C43_sampling_given |
| C45 | Every SkOp generator returns an operator | `C45_operator_refuted`, `C45_shape`, `C45_sparse_sign_returns_nothing` (Properties_Sketch.v) | every class unfolded; SkOpSS has no return statement | refuted for SkOpSS, which returns None; proved for the other five |
| C46 | sjlt_operator structure | `C46_columns`, `C46_rows`, `C46_warning` (Properties_Sketch.v) | counting non-zeros through the construction of the CSC triplets |  |
| C47 | SRCT operator and its adjoint | `C47_apply_srct`, `C47_seed_raises`, `C47_srct_operator` (Properties_Sketch.v) | explicit matrix of the operator: selection, DCT, signs, permutation | proved for Generator arguments; a seed raises AttributeError |
| C48 | orthonormal_operator | `C48_backend_independent`, `C48_orthonormal`, `C48_rank_deficient_draw` (Properties_Sketch.v) | QR contract on the draw | rank deficient draws provably give a non-orthonormal result |
| C49 | sparse_sign_operator | `C49_entries`, `C49_no_entry` (Properties_Sketch.v) | counting through the loop |  |
| C50 | loglinear_fit / loglog_fit | `C50_exact_data`, `C50_loglinear`, `C50_loglog`, `C50_loglog_raises`, `C50_r_squared`, `C50_size_mismatch`, `C50_unique` (Properties_Stats.v) | lstsq contract on the two-column design; R^2 by Pythagoras | np.log is a parameter; 1-D samples; R squared for non-constant log y |
| C51 | Reproducibility and generator sharing | `C51_checks_axis`, `C51_checks_cur`, `C51_checks_interpolative`, `C51_checks_least_squares`, `C51_checks_qb`, `C51_checks_svd_evd`, `C51_interpolative`, `C51_least_squares`, `C51_qb`, `C51_saddle`, `C51_sketching`, `C51_svd_evd` (Properties_Frame.v) | every driver leaves the outcome a function of the generator state only: frame lemma per function | seeds, Generators and failed argument checks for all drivers and sketching operators |
| C52 | LU wrappers | `C52_lup`, `C52_lupt` (Properties_Interp.v) | LU contract |  |
| C53 | LSQR terminates finitely with a least-squares solution | `C53_lsqr_finite` (Properties_Iter.v) | Golub-Kahan breakdown within min(m,n) steps; conlim/tol hypotheses rule out early stops |  |
| C54 | LSQR with damping and a starting point (documented objective) | `C54_lsqr_damped_start_refuted` (Properties_Iter.v) | concrete 1x1 run | the documented claim is refuted by a 1x1 example; C35 and C53 state what holds instead |
| C55 | SPU1 returns the minimum-norm solution | `C55_spu1` (Properties_LS.v) | LSQR exactness on the preconditioned system (embedding bounds its conditioning) |  |
| C56 | SPO is exact | `C56_spo_exact` (Properties_LS.v) | as C55, in every mode |  |
| C57 | Saddle solvers leave their arguments unchanged | `C57_pcss1_argument_refuted`, `C57_pcss1_argument_square`, `C57_pcss1_overwrites`, `C57_pcss2_argument` (Properties_LS.v) | the model returns the preconditioner array after the call | refuted for PcSS1 with fewer than n columns; proved for square R and for PcSS2 |
| C58 | When SPO fails | `C58_spo_returns` (Properties_LS.v) | rank of the triangular factor decides |  |
| C59 | SPO's error log | `C59_spo_log` (Properties_LS.v) | LSQR log (C35) transported through the preconditioner |  |
| C60 | SPS2 is exact | `C60_sps2_exact` (Properties_LS.v) | C40 and LSQR exactness; minimality from x in the row space |  |
| C61 | SPS1 with the LSQR-based solver | `C61_sps1_lsqr` (Properties_LS.v) | unfolding |  |
| C62 | evd1 meets the requested Frobenius tolerance | `C62_evd1_accuracy`, `C62_evd1_single_block`, `C62_evd1_tolerance_refuted` (Properties_Dec.v) | C14 twice halved; witness | the documented tolerance is refuted; bound with the dropped part is proved |
| C63 | EVD2 never overestimates | `C63_evd2_underestimates` (Properties_Dec.v) | Loewner order from the Nystrom residual |  |
| C64 | SVD1's error is accounted for by the returned singular values | `C64_svd1_error` (Properties_Dec.v) | Pythagoras on the truncated SVD |  |
| C65 | cur1 makes the documented number of passes | `C65_cur1_one_pass_fewer`, `C65_cur1_passes_refuted`, `C65_cur1_single_pass_raises` (Properties_Interp.v) | events counted; p = 1 assertion | refuted: p-1 passes, and p = 1 raises AssertionError |
| C66 | Pivoted-QR interpolation is well conditioned | `C66_coefficient_bound`, `C66_greedy`, `C66_osid1_error` (Properties_Interp.v) | bounds from the pivoting contract |  |
| C67 | rocs1, osid1 and osid2 agree | `C67_osid2_not_worse`, `C67_osid2_not_worse_row`, `C67_same_skeleton` (Properties_Interp.v) | same contract, shared skeleton |  |
| C68 | Pseudo-inverse wrappers | `C68_apply_pinv_on_left`, `C68_apply_pinv_on_right` (Properties_Interp.v) | Moore-Penrose equations from the SVD |  |
| C69 | Adjoint of a sampling operator with repeated indices | `C69_repeated_refuted` (Properties_Sketch.v) | concrete call | refuted by a concrete call |
| C70 | Documented row sparsity of square SJLT operators | `C70_square_rows_refuted` (Properties_Sketch.v) | concrete call | refuted for square shapes by a concrete call; the strictly tall case is C46_rows |
| C71 | Procedural least squares drivers | `C71_spo`, `C71_spo1_is_svd_mode`, `C71_spo1_zero_rhs`, `C71_spu1`, `C71_spu1_orthogonal_rhs`, `C71_sso1` (Properties_Drivers.v) | composition of the class theorems with the SJLT generator theorems | includes two provable failures caused by logging: spo1 with b = 0, spu1 with A c = 0 |
| C72 | Procedural saddle point driver | `C72_sps_lsqr_raises`, `C72_sps_method`, `C72_sps_pcg`, `C72_sps_pcg_small_sketch` (Properties_Drivers.v) | same | method lsqr provably raises when b and c are both non-zero |
| C73 | LSQR: variance, condition and norm estimates | `C73_lsqr_acond`, `C73_lsqr_anorm`, `C73_lsqr_var` (Properties_Iter.v) | further LSQR invariants: sum of squares of dd, xx-norm, bidiagonal Frobenius norm | b = 0 with a supplied start is excluded, as in C35 |
| C74 | LSQR: Krylov optimality | `C74_lsqr_krylov` (Properties_Iter.v) | Krylov basis induction; minimisation over the subspace | b = 0 with a supplied start is excluded, as in C35 |
| C75 | PCG: Krylov optimality | `C75_pcg_krylov` (Properties_Iter.v) | Krylov basis induction; energy minimisation | exact arithmetic |
| C76 | Sketching operators are isotropic on average | `C76_gaussian`, `C76_sampling`, `C76_sjlt`, `C76_srct` (Properties_Sketch.v) | expectation as a normalised linear functional; second moments entrywise | expectations are abstract normalised linear functionals with the stated second moments; sparse sign and orthonormal operators are not covered |
| C77 | Error logs of SPU1, SPS1 and SPS2 | `C77_sps1_log`, `C77_sps2_log`, `C77_spu1_log` (Properties_LS.v) | as C59 | SPS1: from the conclusion of C33; SPS2 with a numerically rank deficient sketch and delta = 0 logs residuals with c projected |
| C78 | Starting points of SPS1 and SPS2 | `C78_sps1_start`, `C78_sps2_not_worse`, `C78_sps2_start` (Properties_LS.v) | start read off by a call with limit 0; uniqueness of the minimum-norm minimiser | SPS1: full sketch, exact cut-off for the converse |
| C79 | PCG: convergence rate | `C79_pcg_rate` (Properties_Rate.v) | Krylov optimality (C75) against an explicit Chebyshev competitor; the Pell identity T^2 - (x^2-1) U^2 = 1 replaces the spectral theorem | exact arithmetic; Chebyshev bound proved without the spectral theorem |
| C80 | LSQR: convergence rate | `C80_lsqr_rate` (Properties_Rate.v) | the same with C74; minimisers exist because LSQR itself finds one | exact arithmetic |
| C81 | SPO converges at a rate independent of the conditioning of A | `C81_spo_rate` (Properties_Rate.v) | C80 applied to the preconditioned operator, whose bounds are 1/hi and 1/lo | exact arithmetic; the embedding property is a hypothesis on the drawn sketch |
| C82 | Quality of sketched least-squares solutions | `C82_spo_quality`, `C82_sso1_quality` (Properties_Rate.v) | comparison of sketched and true objective; the start of SPO is never worse than the sketched solution | exact arithmetic; the embedding property is a hypothesis on the drawn sketch |
| C83 | What a QB factorisation loses through its sketch | `C83_qb1_error`, `C83_qb1_exact`, `C83_qb3_error` (Properties_Opt.v) | orthogonal projection is the best approximation from its range, compared with Q U W V'; rank argument for exactness | exact arithmetic; LAPACK QR contract |
| C84 | Power iterations sharpen the range | `C84_qb1_power` (Properties_Opt.v) | E A'A = E E'E on the complement of an invariant subspace, induction on the number of double passes | exact arithmetic; LAPACK QR contract |
| C85 | SVD1 is as good as the best rank-k approximation up to the QB error | `C85_svd1_best` (Properties_Opt.v) | Eckart-Young (Frobenius) for Q'A; Courant-Fischer style dimension count for the singular values | exact arithmetic; LAPACK SVD contract; the QB step is a hypothesis on its result |
| C86 | EVD1 is as good as the best rank-k approximation up to the QB error | `C86_evd1_best` (Properties_Opt.v) | the same for the compression Q'AQ; Weyl-type inequality from the dimension count | exact arithmetic; LAPACK eigh contract; the QB step is a hypothesis on its result |
| C87 | Warnings are issued exactly in the documented situations | `C87_dim`, `C87_never`, `C87_rank`, `C87_rf1_refuted`, `C87_rf1_warns`, `C87_skop`, `C87_sps` (Properties_Warn.v) | compositional predicate over the effect monad: every run adds exactly the listed warnings | any scalar type, LAPACK and generator; rf1 is refuted: it warns on every admissible call |
| C88 | Interpolative decompositions against the best rank-k approximation | `C88_osid1_col`, `C88_osid1_row`, `C88_qrcp_osid_col`, `C88_qrcp_osid_row` (Properties_Interp.v) | greedy pivots bound the smallest singular value of the triangular factor from below; kernel vector of W restricted to k+1 columns | exact arithmetic; LAPACK pivoted QR contract |
| C89 | CUR loses at most a fixed factor over the interpolative decomposition it starts from | `C89_cur1_error` (Properties_Interp.v) | row ID of the selected columns, least squares optimality of U against the coefficient matrix 1 | exact arithmetic; LAPACK pivoted QR and least squares contracts |
| C90 | SPU1, SPS1 and SPS2 converge at rates independent of the conditioning of A | `C90_sps1_rate`, `C90_sps2_rate`, `C90_spu1_rate` (Properties_Rate.v) | C79/C80 for the preconditioned operators; bounds of A M transfer to its transpose on the range (Cauchy-Schwarz) | exact arithmetic; the embedding property is a hypothesis on the drawn sketch; SPS1: full sketch (Nystrom preconditioners not covered) |
| C91 | Sketched matrix products are right on average, with error decaying like 1/d | `C91_gaussian_product`, `C91_sjlt_product` (Properties_Embed.v) | second moments of S'S - 1 from fourth moments of the draws; then a quadratic form bound valid for any such matrix | expectations are abstract normalised linear functionals with the stated moments; witnesses for all sizes |
| C92 | Gaussian and SJLT operators are subspace embeddings with quantified probability | `C92_gaussian_embedding`, `C92_sjlt_embedding` (Properties_Embed.v) | C91 for an orthonormal basis of the range of A, and Markov | positive expectations; second moment (Markov) bound, so polynomial rather than exponential tails; wide operators |
| C93 | Least squares and saddle point drivers succeed with quantified probability over their own sketch | `C93_spo`, `C93_sps_pcg`, `C93_spu1`, `C93_sso1` (Properties_Embed.v) | C92 combined with C82 and C90; the spectral bounds of A and the embedding rule out the cut-off in the preconditioner | exact arithmetic; conditioning hypothesis rules out the singular value cut-off; spo and spu1: whenever the call returns (their logging can raise, see C71) |
| C94 | Low rank drivers come close to the best low rank error with quantified probability over their own sketch | `C94_evd1`, `C94_qb`, `C94_qb_b`, `C94_qb_b_pe`, `C94_rf1`, `C94_svd1` (Properties_Prob.v) | sketched products (C91 for the transposed operator) bound how much of the trailing part leaks into the leading right or left singular space; Markov; then the sketch bound and the power iteration lemma of C83/C84, monotonicity of the residual over the blocks of QB2, C85/C86 | exact arithmetic; Markov bounds from second and fourth moments, so polynomial rather than exponential failure probabilities; svd1 and evd1 for block sizes covering the rank; qb_b_pe: bound, tolerance stop, or LinAlgError with a rank deficient sketch |
| C95 | The Nystrom eigendecomposition is close to the trailing eigenvalues with quantified probability over its own sketch | `C95_evd2_passes`, `C95_evd2_prob`, `C95_evd2_trace` (Properties_Nys.v) | Nystrom residual as a Schur complement: minimal over M in the Loewner order, so its trace is at most the leak of any M; power iteration and C91-type leak bounds for two weights, Markov; C17 for the returned pairs | exact arithmetic; compared with the eigenvalues beyond the pairs actually returned, because evd2 may return too few (C17); Markov bounds as in C94 |
| C96 | Low rank and interpolative drivers return the documented shapes in any arithmetic | `C96_cur1`, `C96_evd1`, `C96_evd2`, `C96_osid1`, `C96_osid2`, `C96_qb`, `C96_qb_b`, `C96_qb_b_pe`, `C96_rf1`, `C96_rocs1`, `C96_svd1`, `C96_tsid1` (Properties_Shape.v) | compositional predicate over the effect monad: shapes and admissible exceptions, loops by induction on the fuel | no arithmetic law used; LAPACK only assumed to return the right shapes or raise |
| C97 | Least squares and saddle point solvers return vectors of the right length within the iteration limit in any arithmetic | `C97_lsqr`, `C97_pcg`, `C97_spo`, `C97_sps2`, `C97_sps_lsqr`, `C97_sps_pcg`, `C97_spu1`, `C97_sso1` (Properties_Shape.v) | the same; LSQR and PCG loops by induction on the remaining iterations | no arithmetic law used; a division by zero inside the iterative solvers is reported as Unmodelled |
| C98 | Interpolative decompositions come close to the best low rank error with quantified probability over their own sketch | `C98_cur1`, `C98_osid1_col`, `C98_osid1_row`, `C98_osid2_col`, `C98_osid2_row`, `C98_tsid1` (Properties_InterpProb.v) | Y = np-pass sketch: for np = 0 the oblique projector S X V^T, X from the event of C94, plus Markov for the sketched tail; for np > 0 the orthogonal projector on the orthonormal Y; then C88, C67, C21, C89 | exact arithmetic; the moments of rng.normal are hypotheses |
| C99 | QB factorisations and sketch-and-solve degrade gracefully with inexact QR and least squares routines | `C99_exact`, `C99_qb`, `C99_qb1`, `C99_qb2`, `C99_qb2_floor`, `C99_qb_b`, `C99_qb_prob`, `C99_sso1`, `C99_sso1_prob` (Properties_Inexact.v) | induction over the blocks with the invariant | ||A - QB||^2 - (||A||^2 - ||B||^2) | <= eta ||B||^2; Q Q^T as a near projector; the event of C94 with a Markov bound for ||A S||; sharpness with an exact QR scaled by sqrt(1 + eta) | errors of QR and least squares only; the other operations are exact |
| C100 | QB factorisations and sketch-and-solve in rounded arithmetic | `C100_constants`, `C100_qb`, `C100_qb1`, `C100_qb2`, `C100_qb_b`, `C100_qb_prob`, `C100_sso1` (Properties_Float.v) | componentwise forward errors of products, sums and norms (relative error gam), then the near-projector argument of C99 with an absolute sketch error; QB2 by induction over the blocks with three error terms (residual array, its norm, tracked squared norm); an arithmetic that is off by exactly u everywhere as witness | standard model without overflow, underflow, NaN; products as sequential dot products; moments of the generated normals exact; loss of orthogonality between the blocks of qb_b is not bounded |
| C101 | Conjugate gradients in rounded arithmetic: logged residuals and the stopping test refer to the true residual, however many iterations are made | `C101_gap_zero`, `C101_pcg`, `C101_pcss1`, `C101_products`, `C101_sps` (Properties_FloatIter.v) | invariant of the loop: the residual array is within (1+u)^j (fresh + j rec) of b - H x after j updates since the last recomputation, j <= 9; relative error of the norm; the comparison with the tolerance turned around | standard model without overflow, underflow, NaN; the norm bound xi on the iterates is a hypothesis (convergence of CG in rounded arithmetic is not claimed) |
| C102 | The randomised SVD in rounded arithmetic | `C102_SVD1`, `C102_exact`, `C102_svd1`, `C102_svd1_prob` (Properties_FloatSvd.v) | perturbation of the factors: U within fl_du of Q times an orthonormal block, leading blocks of the perturbed SVD, best approximation of B by rank k, cut-off tail; one-block QB2 reduced to a sketch with a second QR (fl_sketch2); the Gaussian event of C100 | standard model without overflow, underflow, NaN; svd1 with a single block (block_size >= k + over): across blocks the orthogonality of Q is not claimed in rounded arithmetic; moments of the generated normals exact in the probability version |
| C103 | The generators of test matrices | `C103_empty`, `C103_exponent_rank_refuted`, `C103_rand_low_rank`, `C103_simple_mat` (Properties_Makers.v) | orthonormal_operator on full-rank draws (C76 lemmas), sorting and normalising the spectrum, rank of U diag V; simple_mat through A = QR without using orthogonality | rank claim of exponent_spectrum and s_shaped_spectrum refuted (they return rank - 1); the generator structure for array spectra; division of a spectrum with maximum 0 not modelled |
| C104 | Least-squares demo problems carry their exact solution | `C104_make_demo`, `C104_resample` (Properties_Makers.v) | normal equations and row space from A = U diag V; norms of the two orthogonal parts of b | only_Ab=True returns (A, b) of the same computation; division by a zero norm not modelled |
| C105 | The randomised eigenvalue decomposition in rounded arithmetic | `C105_EVD1`, `C105_evd1`, `C105_evd1_prob`, `C105_exact` (Properties_FloatEvd.v) | mirroring the lower triangle costs sqrt 2; two-sided compression of a symmetric matrix by a nearly orthonormal Q; selection of the sorted eigenpairs as a permutation matrix; Eckart-Young for the compressed matrix; perturbation of V; one-block QB2 as in C102 | standard model without overflow, underflow, NaN; evd1 with a single block (block_size >= k + over); moments of the generated normals exact in the probability version |
| C106 | With two passes the blocks of blocked QB act as one sketch | `C106_block_size`, `C106_evd1_prob`, `C106_qb_b`, `C106_qb_b_prob`, `C106_svd1_prob` (Properties_Blk.v) | loop invariant at block boundaries: either the sketched columns are independent and Q is an orthonormal basis of their span, or the residual is zero; rank factorisation; uniqueness of the projector for two block sizes; C94 applied to the generator whose single draw is the sequence of normalised blocks | exact arithmetic; two passes (no power iteration: with one, the blocks sketch powers of the residual); genericity of the drawn columns is a hypothesis of the bound because the moment hypotheses do not imply it |
| C107 | Interpolative decompositions keep their guarantees in rounded arithmetic | `C107_CUR1_tall`, `C107_CUR1_wide`, `C107_OSID1_col`, `C107_OSID1_row`, `C107_OSID2_col`, `C107_OSID2_row`, `C107_TSID1_tall`, `C107_TSID1_wide`, `C107_exact`, `C107_osid1`, `C107_qrcp_osid`, `C107_solve_tri` (Properties_FloatInterp.v) | rowwise residual of forward substitution (backward substitution by reversal), then Frobenius norms; the interpolation error in column-permuted coordinates, split into the rows above and below k of the triangular factor; triangle inequalities for the drivers | standard rounding model as for C100; substitution evaluated in the order of the model; the bounds contain the norm of the computed interpolation matrix, which is not bounded a priori |
| C108 | The Nystrom eigendecomposition and the Cholesky factorisation keep their guarantees in rounded arithmetic | `C108_EVD2`, `C108_cholesky`, `C108_coefficients`, `C108_evd2`, `C108_evd2_one`, `C108_exact` (Properties_FloatNys.v) | pivot and row invariants of the Cholesky loop; coercivity of the computed Gram matrix bounds the inverse of the factor; perturbation of K^-1 and of the triangular solve; Eckart-Young for B B^T through the singular values; eigenvalues as rounded squares minus the shift; the power steps by induction over the loop | standard rounding model as for C100; Cholesky and substitution evaluated in the order of the model; the bound is against the Nystrom approximation of the shifted matrix (its distance from A is C95); tol = None |
| C109 | Cholesky factorisation and the drivers built on it do not fail on safely positive definite problems in rounded arithmetic | `C109_EVD2`, `C109_cholesky`, `C109_evd2`, `C109_evd2_one`, `C109_exact`, `C109_spo`, `C109_spo3_chol`, `C109_spo3_qr`, `C109_spo_call`, `C109_spo_qr` (Properties_FloatChol.v) | the leading blocks inherit coercivity; a bordered system whose Schur complement is coercive keeps its rounded pivot positive; induction over the rows of the loop; entrywise error of the computed Gram matrix; whole SPO calls: a singular R would make the lifted sketch nearly singular, otherwise every triangular solve succeeds | rounded arithmetic without underflow or overflow; QR mode: the zeros below the diagonal of R are exact; the Cholesky and triangular solve are the model loops; sufficient conditions, not claimed to be sharp |
| C110 | The log of a sketch-and-precondition call is consistent in every arithmetic | `C110_drivers`, `C110_spo`, `C110_sps1`, `C110_sps2`, `C110_spu` (Properties_Log.v) | a postcondition carried through every bind of the drivers; specification LogSpec.v | the clock differences are parameters of the model |
| C111 | The preconditioned operators are backward stable and adjoint to each other up to rounding | `C111_exact`, `C111_mat`, `C111_tri` (Properties_FloatPre.v) | backward error of the triangular solve and of the products, Cauchy-Schwarz on each of the four error terms of the difference of inner products; specification FloatPre.v | rounded arithmetic without underflow or overflow; k = 1 as in C25 |

## 7. Non-vacuity

Beside the theorems stand `Example`s: concrete runs (small matrices, the
contract-satisfying `exact_lapack R`, concrete sketch generators) that meet the
hypotheses, and for every refuted property a concrete call.  For theorems whose
conclusion is an existential ("the call returns ... with ..."), the statement itself
exhibits the run.

## 8. Mutation tests

`seeded/LOG.jsonl` records one line per wrong program tried: the definition edited,
the edit, the claim it breaks, the theorems whose proofs fail, and the theorems that
were tightened because of it.  Mutants were built in a scratch copy; every failing
lemma was cut off and the run continued, so that the list contains all theorems that
depend on a broken step.
