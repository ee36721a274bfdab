{"id": "C01", "title": "Blocked QB (QB2) stops only at the target rank or at the tolerance", "statement": "For a positive block size and target rank, QB2(rf, blk, overwrite)(A, k, tol, rng) returns after finitely many iterations, without an exception, factors Q (m-by-c) and B (c-by-n) with c <= min(k, m, n); and if c < min(k, m, n) then tol > 0 was supplied and ||A - Q B||_F <= tol*||A||_F for the caller's original A.", "quantifier": "all non-empty shapes, all matrices A, all k > 0, all blk > 0, all tolerances incl. NaN and 0, all conformant rangefinders and random draws", "why_tests_cant": "the loop is 'while True' with a running residual-norm estimate: one must know that the estimate equals the true error at every exit for every matrix and draw; tests sample a few spectra and seeds", "anchors": ["parla/comps/qb.py:QB2.__call__", "parla/comps/qb.py:qb_b"]}
{"id": "C02", "title": "QB2 residual accounting is exact", "statement": "Whatever rangefinder is used (even one producing useless or redundant columns), the squared residual that QB2 tracks is the true ||A - Q B||_F^2 of the returned factors, i.e. ||A - Q B||_F^2 = ||A||_F^2 - ||B||_F^2.", "quantifier": "all matrices, ranks, block sizes, tolerances and rangefinders", "why_tests_cant": "the invariant has to hold after every block for every rangefinder; a finite set of runs cannot rule out an input on which the running estimate drifts away from the true error and the loop stops too early", "anchors": ["parla/comps/qb.py:QB2.__call__"]}
{"id": "C03", "title": "QB2 returns orthonormal Q with B = Q'A when the rangefinder's columns are independent", "statement": "If the columns handed back by all rangefinder calls of one QB2 call are linearly independent, then Q has orthonormal columns, B = Q' A for the original A, and Q B is the orthogonal projection of A on span(Q).", "quantifier": "all matrices, k, blk, tol, rangefinders whose outputs in the run are linearly independent", "why_tests_cant": "needs an induction over the unbounded number of blocks; tests check orthogonality on a few matrices up to 1e-8", "anchors": ["parla/comps/qb.py:QB2.__call__", "parla/comps/qb.py:project_out"]}
{"id": "C04", "title": "QB2 orthonormality is unconditional (documented) -- does it hold for rank-deficient input?", "statement": "The documentation of QBDecomposer/QB2/qb_b promises Q with orthonormal columns for every A and every 0 < k <= min(A.shape), including k > rank(A).", "quantifier": "all matrices, including rank-deficient ones, and all 0 < k <= min(A.shape)", "why_tests_cant": "the failing inputs (k larger than rank(A) with tol = 0 and more than one block) are a measure-zero set that random test matrices avoid", "anchors": ["parla/comps/qb.py:QB2.__call__", "parla/comps/qb.py:QBDecomposer.__call__"]}
{"id": "C05", "title": "QB2 and the caller's array", "statement": "With overwrite_a=False the caller's array A is unchanged after QB2 returns; with overwrite_a=True it holds exactly A - Q B.", "quantifier": "all inputs and both values of overwrite_a", "why_tests_cant": "aliasing/effect property over all executions: tests compare only the returned factors", "anchors": ["parla/comps/qb.py:QB2.__call__"]}
{"id": "C06", "title": "QB3 computes the projection on range(A S), independently of the block size", "statement": "Whenever QB3(sk_op, blk)(A, k, tol, rng) returns, Q has orthonormal columns, B = Q' A, and without early stopping span(Q) = range(A S) for the sketch S that sk_op produced; hence Q B does not depend on blk and equals the QB1 result for the same S.", "quantifier": "all matrices, sketches, block sizes > 0, 0 < k < min(A.shape)", "why_tests_cant": "QB3 never forms Q'A: it uses a block recurrence with triangular solves whose correctness is an induction on the number of blocks, for every blk", "anchors": ["parla/comps/qb.py:QB3.__call__", "parla/comps/qb.py:qb_b_pe"]}
{"id": "C07", "title": "QB3 early stopping is sound and deterministic in its column count", "statement": "QB3 returns c = min(i*blk, k) columns for some i; it stops with c < k only if tol > 0 and ||A - Q B||_F <= tol*||A||_F. With tol = 0 or NaN and a full-rank sketch it returns exactly k columns and raises nothing; a rank-deficient sketch makes it raise LinAlgError rather than return a wrong factorisation.", "quantifier": "all matrices, sketches, tolerances, block sizes", "why_tests_cant": "relates a running scalar to the true error for every input; also needs the error branch for every rank-deficient sketch", "anchors": ["parla/comps/qb.py:QB3.__call__"]}
{"id": "C08", "title": "QB1/RF1: orthonormal basis of the sketch, B = Q'A", "statement": "For 0 < k <= min(A.shape) and a sketch S of shape (n, k), RF1 returns Q of shape (m, k) with orthonormal columns whose span contains range(A S) (equality when A S has full column rank), QB1 returns that Q and B = Q' A, and ||A||_F^2 = ||A - Q B||_F^2 + ||B||_F^2.", "quantifier": "all matrices, shapes, k and sketches", "why_tests_cant": "must hold for every matrix, including rank-deficient sketches that generic tests never draw", "anchors": ["parla/comps/rangefinders.py:RF1.__call__", "parla/comps/qb.py:QB1.__call__", "parla/comps/rangefinders.py:rf1", "parla/comps/qb.py:qb"]}
{"id": "C09", "title": "Argument validation of RF1/QB1/QB2/QB3", "statement": "Out-of-range k (k <= 0, k > min(A.shape); for QB3 k >= min(A.shape)) and, for QB1, tol outside [0,1), raise AssertionError before any random number is drawn or A is read; QB2 instead clamps k to min(A.shape) with one warning; RF1 warns exactly when tol is not NaN.", "quantifier": "all integer k (negative included), all tol, all shapes", "why_tests_cant": "universally quantified decision table over all integers and shapes, including that nothing else happened before the failure", "anchors": ["parla/comps/rangefinders.py:RF1.__call__", "parla/comps/qb.py:QB1.__call__", "parla/comps/qb.py:QB2.__call__", "parla/comps/qb.py:QB3.__call__"]}
{"id": "C10", "title": "RS1 pass and stabilisation schedule", "statement": "RS1(gen, num_pass, stabilizer, passes_per_stab)(A, k, rng) applies A or A' exactly num_pass times, alternating and ending with A', calls the stabilizer exactly after those passes whose index is a multiple of passes_per_stab, draws exactly one sketch (of shape n-by-k if num_pass is even, m-by-k if odd), and returns an n-by-k matrix; negative num_pass raises AssertionError.", "quantifier": "all num_pass >= 0, all passes_per_stab >= 1, all shapes, all k, all generators", "why_tests_cant": "schedule over an unbounded number of passes; tests look only at convergence rates", "anchors": ["parla/comps/sketchers/aware.py:RS1.__call__", "parla/comps/sketchers/aware.py:rs1"]}
{"id": "C11", "title": "RS1 computes the documented Krylov range", "statement": "In exact arithmetic range(S) equals range((A'A)^(num_pass/2) S0) for even num_pass and range((A'A)^((num_pass-1)/2) A' S0) for odd num_pass, for every stabilisation frequency, provided the unstabilised iterate has full column rank. The stabilisers keep the range: orth returns an orthonormal basis of it, lu_stabilize a row permutation of a unit lower trapezoidal basis of it.", "quantifier": "all matrices, passes, stabilisation frequencies and initial sketches S0 with full-rank image", "why_tests_cant": "unbounded number of power steps interleaved with QR/LU; a test cannot compare ranges for all of them", "anchors": ["parla/comps/sketchers/aware.py:RS1.__call__", "parla/utils/linalg_wrappers.py:orth", "parla/utils/linalg_wrappers.py:lu_stabilize"]}
{"id": "C12", "title": "Pass counts advertised by the procedural drivers", "statement": "rf1, qb, qb_b (per block), qb_b_pe, evd2, svd1/evd1 (per block), osid1, osid2 and rocs1 touch A exactly as many times as documented: num_pass, num_passes, inner_num_pass, num_passes+1, num_passes, inner_num_pass, p.", "quantifier": "all values of the pass parameters and all matrices", "why_tests_cant": "counting claim for every parameter value", "anchors": ["parla/comps/rangefinders.py:rf1", "parla/comps/qb.py:qb", "parla/comps/qb.py:qb_b", "parla/comps/qb.py:qb_b_pe", "parla/drivers/evd.py:evd2", "parla/drivers/interpolative.py:osid1", "parla/drivers/interpolative.py:osid2", "parla/comps/interpolative.py:rocs1"]}
{"id": "C13", "title": "SVD1 returns a valid truncated SVD", "statement": "With a QB decomposer returning orthonormal Q, SVD1 returns U, s, Vh with ell <= k (for over = 0 ell <= columns of Q), U'U = I, Vh Vh' = I, s non-increasing and every s_i >= 10*eps, and U diag(s) Vh equals Q times the truncation of B; without truncation or dropping U diag(s) Vh = Q B. A negative k = -p with k + over > 0 is accepted although documented as forbidden, and drops the p smallest singular values of B.", "quantifier": "all matrices, k, over, tolerances and QB decomposers", "why_tests_cant": "orthonormality/ordering must survive truncation and dropping for every spectrum", "anchors": ["parla/drivers/svd.py:SVD1.__call__"]}
{"id": "C14", "title": "svd1 meets the requested Frobenius tolerance", "statement": "svd1 with k = min(A.shape), over = 0 and 0 < tol returns ||A - U diag(s) Vh||_F <= tol*||A||_F (documented guarantee).", "quantifier": "all matrices A, in particular all scalings of A", "why_tests_cant": "the claim ranges over all scalings of A: an absolute cut-off in the code is invisible for test matrices of norm about one", "anchors": ["parla/drivers/svd.py:svd1", "parla/drivers/svd.py:SVD1.__call__"]}
{"id": "C15", "title": "EVD1 returns orthonormal eigenvector estimates ordered by magnitude, at most k of them", "statement": "For symmetric A and an orthonormal-Q QB with B = Q'A, EVD1 returns V with V'V = I and d <= k columns, lamb sorted by decreasing absolute value with |lamb_i| > 10*eps, each pair being a Ritz pair: V' A V = diag(lamb).", "quantifier": "all symmetric matrices, k, over, QB decomposers", "why_tests_cant": "needs the spectral theorem and a sorting argument for every input", "anchors": ["parla/drivers/evd.py:EVD1.__call__"]}
{"id": "C16", "title": "EVD1 error bound", "statement": "If ||A - Q B||_F <= (tol/2)*||A||_F (what the inner QB is asked for) and no Ritz value is dropped, then ||A - V diag(lamb) V'||_F <= tol*||A||_F.", "quantifier": "all symmetric A, all orthonormal Q", "why_tests_cant": "norm inequality over all matrices", "anchors": ["parla/drivers/evd.py:EVD1.__call__", "parla/drivers/evd.py:evd1"]}
{"id": "C17", "title": "EVD2 returns min(k, rank(A)) eigenpairs of a PSD matrix (documented)", "statement": "evd2/EVD2 on a symmetric PSD A returns V with min(k, rank(A)) orthonormal columns.", "quantifier": "all PSD matrices, all k < n, all sketches", "why_tests_cant": "the bookkeeping of dropped components only matters for exactly rank-deficient A, which full-rank test matrices never exercise", "anchors": ["parla/drivers/evd.py:EVD2.__call__", "parla/drivers/evd.py:evd2"]}
{"id": "C18", "title": "EVD2 is the truncated Nystrom approximation", "statement": "When it returns, V has orthonormal columns, at most k of them, and V diag(lamb + nu) V' is the truncation of (A_nu S)(S' A_nu S)^{-1}(A_nu S)' with A_nu = A + nu I; it raises LinAlgError (and does not return) when S'(A+nu I)S is not positive definite, e.g. for A = 0 or k + over > n.", "quantifier": "all symmetric PSD matrices, sketches, k, over", "why_tests_cant": "universal algebraic identity through Cholesky, triangular solve and SVD, plus the failure branch", "anchors": ["parla/drivers/evd.py:EVD2.__call__"]}
{"id": "C19", "title": "One-sided ID: the coefficient matrix interpolates", "statement": "qrcp_osid/OSID1 return k distinct in-range indices and a coefficient matrix containing the k-by-k identity at those indices, so that A[:,Js] = (A[:,Js] X)[:,Js] (rows for axis=0); for rank(Y) = k they reproduce Y exactly: Y = Y[:,Js] X.", "quantifier": "all matrices Y, all k, both axes, all pivot orders", "why_tests_cant": "holds for every pivot order and shape; tests use three ranks", "anchors": ["parla/comps/interpolative.py:qrcp_osid", "parla/drivers/interpolative.py:OSID1.__call__"]}
{"id": "C20", "title": "OSID2 is the optimal interpolation for its skeleton", "statement": "OSID2's coefficient matrix satisfies the interpolation identity (X A[Is,:])[Is,:] = A[Is,:] and minimises ||A - X A[Is,:]||_F over all X for the skeleton it chose.", "quantifier": "all matrices, sketches, k, both axes", "why_tests_cant": "optimality over an infinite set of competitors", "anchors": ["parla/drivers/interpolative.py:OSID2.__call__", "parla/utils/linalg_wrappers.py:apply_pinv_on_left", "parla/utils/linalg_wrappers.py:apply_pinv_on_right"]}
{"id": "C21", "title": "Two-sided ID adds no error over the one-sided ID", "statement": "When TSID1 returns, Z A[Is,Js] X equals the one-sided approximation A[:,Js] X (tall A) or Z A[Is,:] (otherwise) produced by the inner one-sided ID, so its error is exactly the one-sided error; index vectors have length k.", "quantifier": "all matrices, k, over, one-sided ID implementations", "why_tests_cant": "equality of two approximations for every matrix", "anchors": ["parla/drivers/interpolative.py:TSID1.__call__"]}
{"id": "C22", "title": "CUR1 reproduces rank-k matrices exactly", "statement": "If rank(A) = k and the inner one-sided ID reproduces A, then CUR1's A[:,Js] U A[Is,:] equals A, with U k-by-k and distinct indices.", "quantifier": "all rank-k matrices, both aspect ratios", "why_tests_cant": "exactness for every matrix of rank k", "anchors": ["parla/drivers/interpolative.py:CUR1.__call__"]}
{"id": "C23", "title": "dim_checks clamps the embedding dimension into [n_cols, n_rows]", "statement": "dim_checks returns d with n_cols <= d <= n_rows, equal to int(sampling_factor*n_cols) when that lies in range and to n_rows (with one warning) when it exceeds n_rows; it raises AssertionError exactly when n_rows < n_cols or int(sampling_factor*n_cols) < n_cols.", "quantifier": "all shapes and all sampling factors", "why_tests_cant": "decision table over all integers", "anchors": ["parla/drivers/least_squares.py:dim_checks"]}
{"id": "C24", "title": "SSO1 solves the sketched ridge problem", "statement": "SSO1 returns the x minimising ||S A x - S b||^2 + delta ||x||^2 (minimum-norm one if delta = 0 and the sketch is rank deficient); it warns exactly when tol is not NaN or iter_lim > 1.", "quantifier": "all A, b, delta >= 0, sketches", "why_tests_cant": "optimality over all competitors x and all sketches", "anchors": ["parla/drivers/least_squares.py:SSO1.__call__"]}
{"id": "C25", "title": "a_lift_precond builds the preconditioned operator and its true adjoint", "statement": "The operator returned by a_lift_precond is x -> [A; sqrt(delta) I] M x with M = R (upper_tri False) or M = R^{-1} (upper_tri True), its rmatvec is exactly the transpose: <Op x, y> = <x, Op' y>, and M_fwd/M_adj apply M and M'.", "quantifier": "all A, R, delta >= 0, x, y, and any sequence of calls sharing the internal workspace", "why_tests_cant": "adjointness for every pair of vectors; the two closures share one mutable work vector", "anchors": ["parla/comps/preconditioning.py:a_lift_precond", "parla/comps/preconditioning.py:a_lift"]}
{"id": "C26", "title": "svd_right_precond orthonormalises the sketch", "statement": "M, U, sigma, Vh returned by svd_right_precond satisfy A_ske M = U with U'U = I, sigma > 0 sorted, M = Vh' diag(1/sigma), and M has as many columns as singular values above sigma_1 * n * eps.", "quantifier": "all sketches", "why_tests_cant": "universal algebraic identity with a truncation threshold", "anchors": ["parla/comps/preconditioning.py:svd_right_precond"]}
{"id": "C27", "title": "SPO's starting point solves the sketched problem, in every mode", "statement": "In modes 'qr', 'chol' and 'svd' the vector from which SPO starts LSQR (when it does not start from zero) is the solution of the sketched regularised problem min ||S A x - S b||^2 + delta||x||^2, and it is used only if its true residual is smaller than that of x = 0.", "quantifier": "all A, b, delta >= 0, sketches for which the factorisation succeeds, all three modes", "why_tests_cant": "three different factorisation paths must agree for all inputs", "anchors": ["parla/drivers/least_squares.py:SPO.__call__"]}
{"id": "C28", "title": "SPO/LSQR never returns something worse than x = 0", "statement": "The x returned by SPO satisfies ||A x - b||^2 + delta||x||^2 <= ||b||^2 for every iteration limit >= 0 and tolerance.", "quantifier": "all A, b, delta >= 0, tol, iter_lim, sketches, modes", "why_tests_cant": "safety claim for every early stop", "anchors": ["parla/drivers/least_squares.py:SPO.__call__", "parla/comps/determiter/saddle.py:PcSS2.__call__", "parla/comps/determiter/lsqr.py:lsqr"]}
{"id": "C29", "title": "PCG: the residual log is the true residual and stopping is honest", "statement": "pcg(mat, rhs, pre, iter_lim, tol, x0) returns x and residuals with len(residuals) <= iter_lim, residuals[i] = ||rhs - mat x_i||_2 for the iterate at the start of iteration i (residuals[0] at x0), and if it stopped before iter_lim then ||rhs - mat x|| <= tol*||rhs - mat x0||. x0 is not modified.", "quantifier": "all linear mat/pre, all rhs, x0, tol, iter_lim", "why_tests_cant": "unbounded loop with a recurrence for the residual that is refreshed every 10 steps", "anchors": ["parla/comps/determiter/pcg.py:pcg"]}
{"id": "C30", "title": "PCG terminates with the exact solution in at most n iterations", "statement": "For symmetric positive definite n-by-n mat and pre, tol >= 0 and iter_lim >= n, pcg in exact arithmetic performs at most n iterations, never divides by zero and with tol = 0 returns mat^{-1} rhs.", "quantifier": "all n, all SPD mat and pre, all rhs and x0", "why_tests_cant": "needs the conjugacy invariant over all iterations", "anchors": ["parla/comps/determiter/pcg.py:pcg"]}
{"id": "C31", "title": "PCG decreases the energy-norm error monotonically", "statement": "Every PCG iteration strictly decreases the error (x - x*)' mat (x - x*) until convergence.", "quantifier": "all SPD systems and all iterations", "why_tests_cant": "monotonicity along every execution", "anchors": ["parla/comps/determiter/pcg.py:pcg"]}
{"id": "C32", "title": "PcSS1: y = b - A x always, exact saddle solution at convergence", "statement": "PcSS1 returns (x, y, errors) with y = b - A x (so the first block row of the saddle system holds exactly, whatever the stopping point), and if the normal equations residual is zero then (x, y) solves the full saddle point system; b = None behaves as b = 0.", "quantifier": "all A, b, c, delta, preconditioners, tolerances and limits", "why_tests_cant": "must hold at every possible stopping point", "anchors": ["parla/comps/determiter/saddle.py:PcSS1.__call__"]}
{"id": "C33", "title": "SPS1 solves the saddle point system for every sketch", "statement": "For A with full column rank or delta > 0, and any preconditioner R with n independent columns, PcSS1 with tol = 0 and iter_lim >= n returns the exact solution of the saddle system; the same holds for the low-rank (Nystrom) preconditioner path with R = V/s, V orthonormal, s > 0.", "quantifier": "all A, b, c, delta, R", "why_tests_cant": "requires the preconditioner to be SPD for every sketch, then an induction on iterations", "anchors": ["parla/comps/determiter/saddle.py:PcSS1.__call__", "parla/drivers/saddlesys.py:SPS1.__call__"]}
{"id": "C34", "title": "SPS1's documented stopping criterion", "statement": "Documentation of SPS1: 'Stop if ||(A'A + delta I)x - (A'b - c)||_2 <= tol', i.e. a run that ends before iter_lim has absolute normal-equation residual at most tol.", "quantifier": "all inputs and tolerances", "why_tests_cant": "difference between an absolute and a relative criterion shows only when the initial residual is large", "anchors": ["parla/drivers/saddlesys.py:SPS1", "parla/comps/determiter/pcg.py:pcg"]}
{"id": "C35", "title": "LSQR: reported norms are the true norms", "statement": "With damp = 0, in exact arithmetic, after every LSQR iteration the value used for stopping and reported as r1norm/r2norm equals ||b - A x||_2 and the logged arnorms[i] equals ||A'(b - A x_i)||_2 for the iterate at the start of iteration i. With damping, r1norm lies between ||b - A x|| and r2norm and equals ||b - A x|| (as documented) only if no iteration was made, damp = 0, or x is the solution.", "quantifier": "all linear operators A, all b, x0, tolerances and iteration counts", "why_tests_cant": "the norms are produced by scalar recurrences (Givens rotations), never by measuring the residual; equality is an invariant of the whole bidiagonalisation", "anchors": ["parla/comps/determiter/lsqr.py:lsqr", "parla/comps/determiter/lsqr.py:_sym_ortho"]}
{"id": "C36", "title": "LSQR: stopping code is honest and the iteration limit is respected", "statement": "lsqr performs itn <= iter_lim iterations; istop=7 only if itn = iter_lim; istop=2 implies ||A'r|| <= atol*(anorm*||r|| + eps); istop=1 implies ||r|| <= btol*||b|| + atol*anorm*xnorm; the returned error log has exactly itn entries.", "quantifier": "all operators, right-hand sides, tolerances and limits", "why_tests_cant": "decision logic over every execution", "anchors": ["parla/comps/determiter/lsqr.py:lsqr"]}
{"id": "C37", "title": "LSQR residual is non-increasing", "statement": "||b - A x|| of the returned x is at most ||b - A x0|| for every iteration limit; in particular starting from a better point can only help. Of two runs differing only in the iteration limit, either both return the same iterate or the one with the larger limit has a strictly smaller objective and a strictly larger ||x - x0||.", "quantifier": "all operators, b, x0, limits", "why_tests_cant": "monotonicity along every execution", "anchors": ["parla/comps/determiter/lsqr.py:lsqr"]}
{"id": "C38", "title": "Givens rotation _sym_ortho", "statement": "_sym_ortho(a, b) returns (c, s, r) with c*a + s*b = r, s*a - c*b = 0, r = sqrt(a^2+b^2) >= 0 and c^2 + s^2 = 1 unless a = b = 0.", "quantifier": "all pairs of reals", "why_tests_cant": "four-way case split over all reals", "anchors": ["parla/comps/determiter/lsqr.py:_sym_ortho"]}
{"id": "C39", "title": "PcSS2 case analysis", "statement": "PcSS2 with c None or 0 returns y = b - A x; with b None or 0 and delta > 0 it returns x = (A'y - c)/delta (second block row exact), and x = NaN when delta = 0; with both b and c non-zero it raises ValueError.", "quantifier": "all inputs", "why_tests_cant": "complete decision table incl. None arguments", "anchors": ["parla/comps/determiter/saddle.py:PcSS2.__call__"]}
{"id": "C40", "title": "SPS2's reduction to least squares is an equivalence", "statement": "When the sketch has full column rank, minimising ||A_aug x - b_aug|| with the b_aug that SPS2 builds is equivalent to the normal equations (A'A + delta I)x = A'b - c, and the returned y is b - A x.", "quantifier": "all A, b, c, delta >= 0 and all full-rank sketches", "why_tests_cant": "equivalence for all x", "anchors": ["parla/drivers/saddlesys.py:SPS2.__call__"]}
{"id": "C41", "title": "SketchAndPrecondLog.wrap_up", "statement": "After wrap_up(iter_errors, init_error): len(times) = len(errors) = iter_errors.size + 1, errors = init_error followed by iter_errors, times[0] = time_setup, times is non-decreasing (non-negative timings) and its last entry is time_setup + time_presolve + time_iterate when at least two iterations ran.", "quantifier": "all logs and error vectors", "why_tests_cant": "holds for every number of iterations", "anchors": ["parla/comps/determiter/logging.py:SketchAndPrecondLog.wrap_up"]}
{"id": "C42", "title": "Least-squares drivers return for every right-hand side", "statement": "SPO, SPU1 and SPS2 return a solution and a log for every right-hand side, including b = 0 / c = 0 and right-hand sides for which the starting point is already optimal.", "quantifier": "all right-hand sides", "why_tests_cant": "the failing right-hand sides form a measure-zero set that random tests do not hit", "anchors": ["parla/drivers/least_squares.py:SPO.__call__", "parla/drivers/least_squares.py:SPU1.__call__", "parla/drivers/saddlesys.py:SPS2.__call__", "parla/comps/determiter/lsqr.py:lsqr", "parla/comps/determiter/logging.py:SketchAndPrecondLog.wrap_up"]}
{"id": "C43", "title": "sampling_operator selects rows and its adjoint scatters them", "statement": "For n_cols >= n_rows, S = sampling_operator(n_rows, n_cols, rng, indices) satisfies S x = x[indices], S M = M[indices,:], and for distinct indices S' is the true adjoint and S S' = I; without indices, the drawn ones are distinct, sorted and in range.", "quantifier": "all shapes, index vectors, draws and operands", "why_tests_cant": "adjointness for all operands and draws", "anchors": ["parla/utils/sketching.py:sampling_operator", "parla/comps/sketchers/oblivious.py:SkOpIN"]}
{"id": "C44", "title": "sampling_operator honours user-supplied indices in both orientations", "statement": "sampling_operator(n_rows, n_cols, rng, indices) uses exactly the given indices also for n_rows > n_cols, and never raises for valid indices.", "quantifier": "all shapes and index vectors", "why_tests_cant": "tests only use wide operators without explicit indices", "anchors": ["parla/utils/sketching.py:sampling_operator", "parla/comps/sketchers/oblivious.py:SkOpIN"]}
{"id": "C45", "title": "Every SkOp generator returns an operator", "statement": "Calling SkOpGA, SkOpON, SkOpSJ, SkOpSS, SkOpTC, SkOpIN objects with (n_rows, n_cols, rng) returns an operator of shape (n_rows, n_cols).", "quantifier": "all shapes and draws, all six generators", "why_tests_cant": "interface property over all implementations; one implementation is not covered by any test", "anchors": ["parla/comps/sketchers/oblivious.py"]}
{"id": "C46", "title": "sjlt_operator structure", "statement": "For n_cols >= n_rows >= vec_nnz every column of sjlt_operator(n_rows, n_cols, rng, vec_nnz) has exactly min(vec_nnz, n_cols) non-zeros, all equal to +-1/sqrt(vec_nnz), hence unit norm; for n_cols < n_rows the same holds for rows; a warning is issued exactly when the short side is smaller than vec_nnz.", "quantifier": "all shapes, all vec_nnz, all random draws", "why_tests_cant": "must hold for every draw", "anchors": ["parla/utils/sketching.py:sjlt_operator"]}
{"id": "C47", "title": "SRCT operator and its adjoint", "statement": "srct_operator's forward and adjoint maps are exact transposes of each other, and S S' = (big/small) I, for every draw and both orientations, for vectors and matrices alike.", "quantifier": "all shapes, draws and operands", "why_tests_cant": "adjointness for all operands and permutations", "anchors": ["parla/utils/sketching.py:apply_srct", "parla/utils/sketching.py:srct_operator", "parla/utils/sketching.py:generate_srct"]}
{"id": "C48", "title": "orthonormal_operator", "statement": "orthonormal_operator returns a matrix with orthonormal columns (n_rows >= n_cols) or orthonormal rows, for every Gaussian draw of full rank.", "quantifier": "all shapes and full-rank draws", "why_tests_cant": "for all draws", "anchors": ["parla/utils/sketching.py:orthonormal_operator"]}
{"id": "C49", "title": "sparse_sign_operator", "statement": "sparse_sign_operator either raises RuntimeError after exactly 11 empty draws or returns a matrix with at least one non-zero whose non-zero entries are exactly +-1/sqrt(min(shape)*density), at the drawn positions and nowhere else.", "quantifier": "all shapes, densities and draws", "why_tests_cant": "retry loop over arbitrary random streams", "anchors": ["parla/utils/sketching.py:sparse_sign_operator"]}
{"id": "C50", "title": "loglinear_fit / loglog_fit", "statement": "The returned coefficients are the least-squares fit of log(y) on the samples with y > 0 (others are dropped with one warning), and R^2 lies in [0, 1] when log(y) is not constant; loglog_fit raises ValueError if a remaining x is <= 0.", "quantifier": "all sample vectors", "why_tests_cant": "optimality and bounds for all data", "anchors": ["parla/utils/stats.py:loglinear_fit", "parla/utils/stats.py:loglog_fit"]}
{"id": "C51", "title": "Reproducibility and generator sharing", "statement": "Passing the same integer seed twice gives the same result, and passing a Generator consumes from that generator only: the result depends on A and on the generator's state and nothing else, and a failed argument check leaves the generator untouched.", "quantifier": "all drivers, seeds and call histories", "why_tests_cant": "history property over arbitrary sequences of calls", "anchors": ["parla/comps/rangefinders.py:rf1", "parla/comps/qb.py:qb", "parla/comps/sketchers/aware.py:RS1.__call__"]}
{"id": "C52", "title": "LU wrappers", "statement": "lupt(M) returns (L, U, P) with M = L U P', lup(M) returns (L, U, P) with M = L U P, for every M.", "quantifier": "all matrices", "why_tests_cant": "for all shapes", "anchors": ["parla/utils/linalg_wrappers.py:lupt", "parla/utils/linalg_wrappers.py:lup"]}
{"id": "C53", "title": "LSQR terminates finitely with a least-squares solution", "statement": "In exact arithmetic lsqr performs at most min(m, n) iterations whatever the tolerances; if it performs min(m, n) of them, or if atol = btol = conlim = 0 and iter_lim >= min(m, n) (in particular the default iter_lim = 2n), the returned x minimises ||b - A x||^2 + damp^2 ||x - x0||^2 and is the minimiser closest to x0 (the minimum-norm solution without x0); the same holds for conlim > 0 as long as conlim exceeds the conditioning of the damped operator.", "quantifier": "all matrices of any rank, right-hand sides, starting points and damping values", "why_tests_cant": "finite termination for all dimensions needs an invariant over an unbounded loop", "anchors": ["parla/comps/determiter/lsqr.py:lsqr"]}
{"id": "C54", "title": "LSQR with damping and a starting point (documented objective)", "statement": "lsqr(A, b, damp, x0=x0) minimises ||A x - b||^2 + damp^2 ||x||^2, and returns xnorm = norm(x), r2norm = sqrt(norm(r)^2 + damp^2 norm(x)^2), also when x0 is given.", "quantifier": "all damping values and starting points", "why_tests_cant": "the tests use x0 only without damping; the claim is about which optimisation problem is solved", "anchors": ["parla/comps/determiter/lsqr.py:lsqr"]}
{"id": "C55", "title": "SPU1 returns the minimum-norm solution", "statement": "For c != 0, SPU1 returns y in the range of A; if S embeds range(A) with distortion small against lsqr's default conlim and the sketch has no singular values under the rank cutoff, then with tol <= 0 and iter_lim >= n the result minimises ||A'y - c|| and is the shortest minimiser.", "quantifier": "all A, c, embeddings, generators", "why_tests_cant": "optimality and minimality over all competitors, for all sketches", "anchors": ["parla/drivers/least_squares.py:SPU1.__call__"]}
{"id": "C56", "title": "SPO is exact", "statement": "Whenever SPO returns and S embeds range(A) with distortion small against lsqr's conlim, then with tol <= 0 and iter_lim >= n the result minimises ||A x - b||^2 + delta ||x||^2 and is the shortest minimiser, in all three modes.", "quantifier": "all A, b, delta >= 0, embeddings, modes", "why_tests_cant": "optimality over all competitors, for all sketches", "anchors": ["parla/drivers/least_squares.py:SPO.__call__"]}
{"id": "C57", "title": "Saddle solvers leave their arguments unchanged", "statement": "PcSS1 and PcSS2 do not modify the preconditioner R they are given.", "quantifier": "all inputs", "why_tests_cant": "aliasing: the effect is visible only on the caller's array, on one branch", "anchors": ["parla/comps/determiter/saddle.py:PcSS1.__call__", "parla/comps/determiter/saddle.py:PcSS2.__call__"]}
{"id": "C58", "title": "When SPO fails", "statement": "With logging off SPO returns for every right-hand side, except that modes qr and chol raise LinAlgError exactly when delta = 0 and the sketch S A has dependent columns.", "quantifier": "all inputs, modes and generators", "why_tests_cant": "exact characterisation over all sketches", "anchors": ["parla/drivers/least_squares.py:SPO.__call__", "parla/comps/preconditioning.py:a_lift_precond"]}
{"id": "C59", "title": "SPO's error log", "statement": "The log of SPO holds the preconditioned gradient norm at zero followed by the one at each iterate: entry i+1 is ||M'(A'(b - A x_i) - delta x_i)|| with x_i the result of the same call limited to i iterations; there are at most min(n, iter_lim) + 1 entries, and M is a preconditioner making the sketch orthonormal.", "quantifier": "all inputs", "why_tests_cant": "relates a log to all the shorter runs of the same call", "anchors": ["parla/drivers/least_squares.py:SPO.__call__", "parla/comps/determiter/logging.py:SketchAndPrecondLog.wrap_up"]}
{"id": "C60", "title": "SPS2 is exact", "statement": "SPS2 always returns y = b - A x; if S embeds range(A) with distortion small against lsqr's conlim, then with tol <= 0 and iter_lim >= n the pair solves the saddle point system whenever delta > 0 or c is in the row space of A, and x is the shortest such solution.", "quantifier": "all A, b, c, delta >= 0, embeddings", "why_tests_cant": "for all sketches and right-hand sides", "anchors": ["parla/drivers/saddlesys.py:SPS2.__call__"]}
{"id": "C61", "title": "SPS1 with the LSQR-based solver", "statement": "SPS1 given PcSS2 as iterative solver raises ValueError for every call with b != 0 and c != 0.", "quantifier": "all inputs with a sketch of at least n rows", "why_tests_cant": "incompatibility of two documented components for all inputs", "anchors": ["parla/drivers/saddlesys.py:SPS1.__call__", "parla/comps/determiter/saddle.py:PcSS2.__call__"]}
{"id": "C62", "title": "evd1 meets the requested Frobenius tolerance", "statement": "evd1 with k = n, over = 0 and 0 < tol returns ||A - V diag(lamb) V'||_F <= tol*||A||_F (documented guarantee); in fact the inner QB is asked for tol/4.", "quantifier": "all symmetric matrices A, in particular all scalings", "why_tests_cant": "an absolute cut-off in the code is invisible for test matrices of norm about one", "anchors": ["parla/drivers/evd.py:evd1", "parla/drivers/evd.py:EVD1.__call__"]}
{"id": "C63", "title": "EVD2 never overestimates", "statement": "On a PSD matrix a returning EVD2 call yields orthonormal V and non-increasing lamb with y' diag(lamb) y <= (V y)' A (V y) for every y; for k > 1 every lamb_i > 0.", "quantifier": "all PSD matrices, sketches, k, over", "why_tests_cant": "operator inequality over all matrices and vectors", "anchors": ["parla/drivers/evd.py:EVD2.__call__"]}
{"id": "C64", "title": "SVD1's error is accounted for by the returned singular values", "statement": "If the QB decomposer returns orthonormal Q and B = Q'A then U' A Vh' = diag(s) and ||A - U diag(s) Vh||_F^2 = ||A||_F^2 - ||s||^2, whatever was truncated or dropped.", "quantifier": "all matrices, k, over, tolerances and QB decomposers", "why_tests_cant": "exact identity over all matrices", "anchors": ["parla/drivers/svd.py:SVD1.__call__"]}
{"id": "C65", "title": "cur1 makes the documented number of passes", "statement": "cur1(A, k, over, num_pass) touches A num_pass times; in particular num_pass = 1 is usable.", "quantifier": "all inputs, any scalar type", "why_tests_cant": "counting accesses to A for every argument", "anchors": ["parla/drivers/interpolative.py:cur1"]}
{"id": "C66", "title": "Pivoted-QR interpolation is well conditioned", "statement": "qrcp_osid's coefficients satisfy |X[i,j]| <= 2^(k-1-i); its coefficient matrix is optimal for the chosen columns and the residual of every column is at most the distance of each chosen column from the span of the previous ones; an OSID1 call without oversampling has error at most sqrt((n-k)(4^k+2)/3) times the error of the best approximation from the row space of the sketch.", "quantifier": "all matrices, k, sketches", "why_tests_cant": "bounds over all matrices", "anchors": ["parla/comps/interpolative.py:qrcp_osid", "parla/drivers/interpolative.py:OSID1.__call__"]}
{"id": "C67", "title": "rocs1, osid1 and osid2 agree", "statement": "Given the same generator state, ROCS1, OSID1 and OSID2 choose the same skeleton, and OSID2's Frobenius error is never larger than OSID1's.", "quantifier": "all inputs and generator states", "why_tests_cant": "relational property between three drivers over all executions", "anchors": ["parla/comps/interpolative.py:ROCS1", "parla/drivers/interpolative.py:OSID1", "parla/drivers/interpolative.py:OSID2"]}
{"id": "C68", "title": "Pseudo-inverse wrappers", "statement": "apply_pinv_on_left(B, A) = pinv(A) B and apply_pinv_on_right(B, A) = B pinv(A) with pinv the Moore-Penrose inverse, for A of any rank and shape.", "quantifier": "all matrices", "why_tests_cant": "equality with an inverse defined by equations, over all ranks", "anchors": ["parla/utils/linalg_wrappers.py:apply_pinv_on_left", "parla/utils/linalg_wrappers.py:apply_pinv_on_right"]}
{"id": "C69", "title": "Adjoint of a sampling operator with repeated indices", "statement": "S = sampling_operator(n_rows, n_cols, rng, indices) and its adjoint satisfy <S x, y> = <x, S' y> for every valid index vector, including vectors with repeated entries.", "quantifier": "all index vectors and operands", "why_tests_cant": "adjointness is a statement about all operands and all index vectors", "anchors": ["parla/utils/sketching.py:sampling_operator"]}
{"id": "C70", "title": "Documented row sparsity of square SJLT operators", "statement": "For n_rows >= n_cols (as documented, including n_rows = n_cols) every row of sjlt_operator(n_rows, n_cols, rng, vec_nnz) has exactly vec_nnz non-zeros.", "quantifier": "all shapes and draws", "why_tests_cant": "statement about every draw", "anchors": ["parla/utils/sketching.py:sjlt_operator"]}
{"id": "C71", "title": "Procedural least squares drivers", "statement": "sso1 returns, for every seed or Generator, the minimum-norm solution of the (ridge) least squares problem compressed by an SJLT matrix with vec_nnz non-zeros per column. spo1/spo3 never return a point with a larger ridge objective than zero, and return the exact minimum-norm minimiser when tol <= 0, iter_lim >= n and the drawn sketch embeds range(A). spu1 returns the minimum-norm solution of A'y = c under the same conditions. These drivers always log; as a consequence spo1 raises for b = 0 and spu1 raises for c orthogonal to the rows of A.", "quantifier": "all matrices, right-hand sides, seeds, sampling factors and vec_nnz <= n", "why_tests_cant": "the statement ranges over all matrices and all random draws; tests use well-conditioned random data and check a tolerance", "anchors": ["parla/drivers/least_squares.py:sso1", "parla/drivers/least_squares.py:spo1", "parla/drivers/least_squares.py:spo3", "parla/drivers/least_squares.py:spu1"]}
{"id": "C72", "title": "Procedural saddle point driver", "statement": "sps(method='pcg') returns for every right-hand side and iteration limit, with y = b - A x, and solves the saddle point system exactly when tol = 0 and iter_lim >= n, for sketches larger and smaller than n. sps(method='lsqr') raises ValueError whenever both b and c are non-zero; an unknown method raises ValueError without drawing.", "quantifier": "all matrices of full column rank (or delta > 0), all b, c, seeds", "why_tests_cant": "unbounded inputs and draws; the method 'lsqr' is not exercised by the tests with both b and c non-zero", "anchors": ["parla/drivers/saddlesys.py:sps", "parla/drivers/saddlesys.py:SPS1.__call__"]}
{"id": "C73", "title": "LSQR: variance, condition and norm estimates", "statement": "With H = A'A + damp^2 I invertible: with calc_var the returned var is non-negative and at most the diagonal of inv(H), and equals it after n iterations; without calc_var it is zero. acond <= anorm * sqrt(trace(inv(H))) with equality after n iterations. After n iterations anorm is the Frobenius norm of [A; damp I] if the system is inconsistent and strictly smaller if it is consistent.", "quantifier": "all linear operators A, all b, starting points, damping, tolerances and limits", "why_tests_cant": "the estimates are accumulated by recurrences over every iteration; tests do not look at them", "anchors": ["parla/comps/determiter/lsqr.py:lsqr"]}
{"id": "C74", "title": "LSQR: Krylov optimality", "statement": "The iterate returned after k iterations lies in x0 + span{(A'A)^i A'(b - A x0) : i < k} and minimises ||b - A x||^2 + damp^2 ||x - x0||^2 over that affine space.", "quantifier": "all linear operators A, all b, starting points, damping, tolerances and limits", "why_tests_cant": "minimality over a continuum of candidates along every execution", "anchors": ["parla/comps/determiter/lsqr.py:lsqr"]}
{"id": "C75", "title": "PCG: Krylov optimality", "statement": "The iterate returned by pcg after k iterations lies in x0 + span{(P H)^i P (b - H x0) : i < k} and minimises the H-norm of the error over that affine space.", "quantifier": "all symmetric positive definite H and P, all b, x0, tolerances >= 0 and limits", "why_tests_cant": "minimality over a continuum of candidates along every execution", "anchors": ["parla/comps/determiter/pcg.py:pcg"]}
{"id": "C76", "title": "Sketching operators are isotropic on average", "statement": "Averaged over the generator, E[S'S] = I for wide Gaussian (normalize=True), SJLT and SRCT operators and E[SS'] = I for tall Gaussian and SJLT ones (the comment in gaussian_operator claims this); for sampling operators E[S'S] = (n_rows/n_cols) I. Assumed about the generator: normal(0, s) entries uncorrelated with variance s^2, random signs uncorrelated given the row choices, choice without replacement takes every index with probability size/pop.", "quantifier": "all sizes, all generators and averages with those moments", "why_tests_cant": "a statement about the mean over all random draws; a test sees finitely many draws", "anchors": ["parla/utils/sketching.py:gaussian_operator", "parla/utils/sketching.py:sjlt_operator", "parla/utils/sketching.py:srct_operator", "parla/utils/sketching.py:generate_srct", "parla/utils/sketching.py:sampling_operator"]}
{"id": "C77", "title": "Error logs of SPU1, SPS1 and SPS2", "statement": "With logging, log.errors is one entry for the zero vector followed by one per recorded iterate: for SPU1 the norm ||A M M'(c - A'y)||, for SPS2 ||M'(A'b - c - (A'A + delta I)x)||, for SPS1 the plain normal equation residual ||A'b - c - (A'A + delta I)x||; entry i+1 belongs to the result of the same call limited to i iterations, there are at most min(n, iter_lim) + 1 entries, and M makes the (regularised) sketch orthonormal.", "quantifier": "all inputs, sketches, iteration limits", "why_tests_cant": "relates a log to all the shorter runs of the same call", "anchors": ["parla/drivers/least_squares.py:SPU1.__call__", "parla/drivers/saddlesys.py:SPS1.__call__", "parla/drivers/saddlesys.py:SPS2.__call__", "parla/comps/determiter/logging.py:SketchAndPrecondLog.wrap_up"]}
{"id": "C78", "title": "Starting points of SPS1 and SPS2", "statement": "SPS1 starts from the solution of the sketched normal equations if that lowers the preconditioned residual below the one at zero, and from zero otherwise; SPS2 without c starts from the minimum-norm solution of the sketched least squares problem if it beats zero, and from zero otherwise; for every iteration limit the result of SPS2 has ||b - A x||^2 + delta ||x||^2 + 2 c'x <= ||b||^2.", "quantifier": "all A, b, c, delta >= 0, sketches, iteration limits", "why_tests_cant": "for all sketches and right-hand sides; tests only look at the final accuracy", "anchors": ["parla/drivers/saddlesys.py:SPS1.__call__", "parla/drivers/saddlesys.py:SPS2.__call__", "parla/comps/determiter/saddle.py:PcSS1.__call__", "parla/comps/determiter/saddle.py:PcSS2.__call__"]}
{"id": "C79", "title": "PCG: convergence rate", "statement": "If the preconditioned matrix satisfies mu <H e, e> <= <P H e, H e> <= L <H e, e> for all e, then after the k iterations that pcg reports (len of its residual log), whatever tolerance or limit stopped it, the energy of the error is at most (2 rho^k / (1 + rho^(2k)))^2 times the initial energy, rho = (sqrt L - sqrt mu) / (sqrt L + sqrt mu).", "quantifier": "all sizes n, all positive definite H, P, right-hand sides, starting points, tolerances >= 0 and limits", "why_tests_cant": "Tests run a handful of well-conditioned matrices to convergence; an upper bound on the error after every number of iterations for every spectrum is not observable in finitely many runs.", "anchors": ["parla/comps/determiter/pcg.py:pcg"]}
{"id": "C80", "title": "LSQR: convergence rate", "statement": "If mu ||y||^2 <= ||A y||^2 + damp^2 ||y||^2 <= L ||y||^2 on the row space of A, then after the itn iterations lsqr reports, the excess of the objective over any competitor is at most (2 rho^itn / (1 + rho^(2 itn)))^2 times the initial excess, rho = (sqrt L - sqrt mu) / (sqrt L + sqrt mu).", "quantifier": "all matrices (any shape and rank), right-hand sides, starting points, damping, tolerances, limits", "why_tests_cant": "Needs the whole family of spectra and iteration counts; tests only see final residuals of particular random matrices.", "anchors": ["parla/comps/determiter/lsqr.py:lsqr"]}
{"id": "C81", "title": "SPO converges at a rate independent of the conditioning of A", "statement": "If the sketch drawn by the call satisfies lo ||A v||^2 <= ||S A v||^2 <= hi ||A v||^2 (lo <= 1 <= hi), then the excess of the (regularised) objective at the point SPO returns over any competitor is at most (2 rho^k / (1 + rho^(2k)))^2 times the excess at its starting point, rho = (sqrt hi - sqrt lo) / (sqrt hi + sqrt lo), with k the number of iterations recorded in the log; with tolerance 0 the same holds with k the iteration limit.", "quantifier": "all m >= n >= 1, all A, b, delta >= 0, all modes (qr, chol, svd), all sketching operators, generators, limits and tolerances", "why_tests_cant": "The point of sketch-and-precondition is a rate that does not degrade with cond(A); a test can only try some condition numbers and some sketches.", "anchors": ["parla/drivers/least_squares.py:SPO.__call__", "parla/comps/determiter/saddle.py:PcSS2.__call__", "parla/comps/determiter/lsqr.py:lsqr"]}
{"id": "C82", "title": "Quality of sketched least-squares solutions", "statement": "If the sketch drawn by the call distorts squared lengths on span[A b] by factors in [lo, hi], the objective at SSO1's answer is at most hi/lo times the minimum, and the objective at SPO's answer after k iterations is at most 1 + fac(k) (hi - lo)/lo times the minimum with fac(k) as in C81 (so SPO never does worse than the sketched solution, and converges to the minimum).", "quantifier": "all m >= n >= 1, all A, b, delta >= 0, sketching operators, generators, limits, tolerances, modes; SPO: A of full column rank or delta > 0", "why_tests_cant": "Approximation factors relative to the unknown optimum, for every sketch; tests check one loose tolerance on a few random problems.", "anchors": ["parla/drivers/least_squares.py:SSO1.__call__", "parla/drivers/least_squares.py:SPO.__call__"]}
{"id": "C83", "title": "What a QB factorisation loses through its sketch", "statement": "If the sketching step of QB1 (or of QB3 run to full rank) produced the matrix S, then for every orthonormal V for which V'S has a right inverse W the error satisfies ||A - QB||_F^2 <= ||E||_F^2 + ||E S W||_F^2, where E = A - A V V' is the error of the reference projection; and if the sketch keeps the rank of A, then A = QB exactly.", "quantifier": "all A, k, sketching operators, QR routines; all reference subspaces V; QB3: any block size", "why_tests_cant": "The quantity bounded is the one users choose k and oversampling for; it quantifies over every sketch and every reference subspace, tests look at one random draw.", "anchors": ["parla/comps/qb.py:QB1.__call__", "parla/comps/qb.py:QB3.__call__", "parla/comps/rangefinders.py:RF1.__call__"]}
{"id": "C84", "title": "Power iterations sharpen the range", "statement": "With an RS1 sketcher of num_passes passes in RF1/QB1, for any singular value decomposition of A and any r, the squared error is at most the sum of the squared singular values after position r plus (sigma/tau)^(4 floor(num_passes/2)) times what leaks through the initial sketch, where sigma bounds the singular values after position r and tau > 0 those before.", "quantifier": "all A, k, r, num_passes, passes_per_stab >= 1, all stabilisers that preserve ranges, all generators whose draw is not orthogonal to the leading subspace", "why_tests_cant": "num_passes is documented as the knob trading cost for accuracy; the trade-off is an inequality over all matrices and numbers of passes.", "anchors": ["parla/comps/sketchers/aware.py:RS1.__call__", "parla/comps/rangefinders.py:RF1.__call__", "parla/comps/qb.py:QB1.__call__"]}
{"id": "C85", "title": "SVD1 is as good as the best rank-k approximation up to the QB error", "statement": "If the QB step delivers Q with orthonormal columns and B = Q'A, then for every X of rank at most k: ||A - U S V||_F^2 <= ||A - QB||_F^2 + ||A - X||_F^2 + min(c,n) (10 eps)^2. Every returned singular value sigma_i satisfies sigma_i <= true_i and true_i^2 <= sigma_i^2 + ||A - QB||_F^2, and a true singular value that was not returned although requested is at most (10 eps)^2 + ||A - QB||_F^2 when squared.", "quantifier": "all A, k, tol, oversampling, QB methods, SVD routines; every X of rank <= k; every SVD of A", "why_tests_cant": "Optimality over all matrices of rank k, and a two-sided bound for every singular value, cannot be sampled.", "anchors": ["parla/drivers/svd.py:SVD1.__call__"]}
{"id": "C86", "title": "EVD1 is as good as the best rank-k approximation up to the QB error", "statement": "If the QB step delivers Q with orthonormal columns and B = Q'A for a symmetric A, then for every X of rank at most k: ||A - V L V'||_F^2 <= 2 ||A - QB||_F^2 + ||A - X||_F^2 + c (10 eps)^2. Returned eigenvalues never exceed the true ones of the same position (by magnitude) and are smaller by at most 2 ||A - QB||_F; a true eigenvalue that was not returned although requested has magnitude at most 10 eps + 2 ||A - QB||_F.", "quantifier": "all symmetric A, 0 < k <= n, tol, oversampling, QB methods, eigh and argsort routines; every X of rank <= k; every eigendecomposition of A", "why_tests_cant": "Optimality over all matrices of rank k, and a two-sided bound for every eigenvalue, cannot be sampled.", "anchors": ["parla/drivers/evd.py:EVD1.__call__"]}
{"id": "C87", "title": "Warnings are issued exactly in the documented situations", "statement": "Whether a call returns or raises, the warnings it issues are determined by its arguments: rs1, qb, qb_b_pe, evd2, rocs1, osid1, osid2, tsid1 and cur1 never warn; qb_b, svd1 and evd1 warn once, about the rank, exactly when the requested rank (plus oversampling) exceeds the smaller dimension; sso1, spo1, spo3 and spu1 (vec_nnz <= n) warn once, about the sketch size, exactly when the problem is tall and int(sampling_factor * n) exceeds the number of rows, and never about tolerance or iteration limit; sps is silent when the sketch has room for vec_nnz; of the sketching operators only SkOpSJ warns, exactly when the vectors are too short. rf1, which has no tolerance argument, should not warn about an ignored tolerance (it does on every admissible call).", "quantifier": "all matrices, ranks, tolerances, sampling factors, generators, seeds, LAPACK routines and scalar types", "why_tests_cant": "Absence of a warning on all inputs, including runs that raise midway, is a universally quantified statement; tests observe single calls.", "anchors": ["parla/comps/rangefinders.py:RF1.__call__", "parla/comps/rangefinders.py:rf1", "parla/comps/qb.py:QB2.__call__", "parla/drivers/least_squares.py:dim_checks", "parla/drivers/least_squares.py:SSO1.__call__", "parla/utils/sketching.py:sjlt_operator"]}
{"id": "C88", "title": "Interpolative decompositions against the best rank-k approximation", "statement": "Whenever qrcp_osid(Y, k, axis) returns, its squared Frobenius error is at most (n-k)(2*4^k+1)/3 times that of any matrix W of rank at most k (m-k for rows). Whenever OSID1 returns with a sketch S of any number p of columns (any oversampling), for any Z with ||Z v||^2 <= z ||v||^2 and any W of rank at most k: 3 ||A - A[:,J] X||_F^2 <= 2(n-k)((4^k+2) ||A - Z S'A||_F^2 + z (2*4^k+1) ||S'A - W||_F^2); likewise for rows.", "quantifier": "all matrices, ranks k, oversampling, sketching operators, pivoted QR routines satisfying the LAPACK contract; all competitors W, Z", "why_tests_cant": "A bound relative to every matrix of rank k, for every sketch, cannot be sampled; the pivoted QR constant is exponential in k, so worst cases do not occur in random tests.", "anchors": ["parla/comps/interpolative.py:qrcp_osid", "parla/drivers/interpolative.py:OSID1.__call__"]}
{"id": "C89", "title": "CUR loses at most a fixed factor over the interpolative decomposition it starts from", "statement": "Whenever cur1(A, k, over, p) returns (J, U, I), osid1 with one pass less on the same generator state returns the skeleton J (tall) or I (wide) with some coefficients X, and the squared Frobenius error of A[:,J] U A[I,:] is at most 2(1 + k + (m-k)(4^k-1)/3) times that of A[:,J] X (tall); for wide matrices the same with n in place of m and rows in place of columns.", "quantifier": "all A, k, oversampling, passes, seeds and generators", "why_tests_cant": "Compares two outputs on all inputs; a test sees single matrices, mostly exactly low rank where both errors vanish.", "anchors": ["parla/drivers/interpolative.py:CUR1.__call__", "parla/drivers/interpolative.py:cur1", "parla/drivers/interpolative.py:osid1"]}
{"id": "C90", "title": "SPU1, SPS1 and SPS2 converge at rates independent of the conditioning of A", "statement": "If the sketch drawn by the call satisfies lo ||A v||^2 <= ||S A v||^2 <= hi ||A v||^2, put fac(k) = (2 rho^k / (1 + rho^(2k)))^2 with rho = (sqrt hi - sqrt lo) / (sqrt hi + sqrt lo) and k the number of iterations recorded in the log. SPU1: the squared distance of the answer from the minimum-norm solution y* of A'y = c is at most (hi/lo) fac(k) ||y*||^2. SPS1 with the full sketch (PCG) and SPS2 (LSQR): for every solution x* of the saddle point system, ||A(x - x*)||^2 + delta ||x - x*||^2 is at most fac(k) times its value at the starting point. With tolerance 0 the same holds with k the iteration limit.", "quantifier": "all m >= n >= 1, all A, b, c, delta >= 0, all sketching operators, generators, limits and tolerances", "why_tests_cant": "Rates quantify over all matrices and sketches with the given distortion; tests run a few well-behaved problems to convergence and check the final residual only.", "anchors": ["parla/drivers/least_squares.py:SPU1.__call__", "parla/drivers/saddlesys.py:SPS1.__call__", "parla/drivers/saddlesys.py:SPS2.__call__", "parla/comps/determiter/saddle.py:PcSS1.__call__", "parla/comps/determiter/saddle.py:PcSS2.__call__"]}
{"id": "C91", "title": "Sketched matrix products are right on average, with error decaying like 1/d", "statement": "For the wide d x m operators S returned by gaussian_operator (normalised) and by sjlt_operator, E ||(S A)'(S B) - A'B||_F^2 <= (||A||_F^2 ||B||_F^2 + ||A'B||_F^2) / d for all A and B with m rows, where E averages over the generator state. For sjlt_operator the bound does not depend on vec_nnz.", "quantifier": "all d <= m, all A and B, all 1 <= vec_nnz <= d, all generators whose draws have the stated second and fourth moments (rng.normal) or fair independent signs and pairwise independent uniform row choices (SJLT)", "why_tests_cant": "The claim is about an average over all generator states and all matrices; tests draw a handful of sketches and cannot check a mean or its dependence on d.", "anchors": ["parla/utils/sketching.py:gaussian_operator", "parla/utils/sketching.py:sjlt_operator"]}
{"id": "C92", "title": "Gaussian and SJLT operators are subspace embeddings with quantified probability", "statement": "For every m x n matrix A and e > 0 there is an event whose failure probability is at most (n^2 + n) / (d e^2) and on which (1-e) ||A v||^2 <= ||S A v||^2 <= (1+e) ||A v||^2 for all v simultaneously, S being the d x m operator returned by gaussian_operator or sjlt_operator.", "quantifier": "all d <= m, all A, all e > 0, all generators as in C91", "why_tests_cant": "A probability over generator states and a bound uniform over all vectors v; a test checks one draw and a few vectors.", "anchors": ["parla/utils/sketching.py:gaussian_operator", "parla/utils/sketching.py:sjlt_operator", "parla/comps/sketchers/oblivious.py:SkOpSJ"]}
{"id": "C93", "title": "Least squares and saddle point drivers succeed with quantified probability over their own sketch", "statement": "With an SJLT sketch of d rows drawn by the driver itself, up to a failure probability of ((n+1)^2 + (n+1)) / (d e^2): sso1 returns x with (1-e) f(x) <= (1+e) min f where f(x) = ||A x - b||^2 + delta ||x||^2; spo1/spo3 return an x whose objective after k iterations is within the factor 1 + fac(k) 2e/(1-e) of the minimum. Up to (n^2 + n) / (d e^2): spu1 is within (1+e)/(1-e) fac(k) of the minimum norm solution relative to its squared norm; sps (pcg) returns, and reduces the energy norm error of its starting point by fac(k). Here fac(k) = (2 rho^k / (1 + rho^(2k)))^2 with rho = (sqrt(1+e) - sqrt(1-e)) / (sqrt(1+e) + sqrt(1-e)).", "quantifier": "all m >= n >= 1, all A whose squared condition number is below 2^104 (1-e) / (n^2 (1+e)) (after regularisation), all b, c, delta >= 0, 0 < e < 1, tolerances, limits and generators with the law of C91", "why_tests_cant": "Success probability over the generator and convergence rate for all inputs; tests fix a seed.", "anchors": ["parla/drivers/least_squares.py:sso1", "parla/drivers/least_squares.py:spo1", "parla/drivers/least_squares.py:spo3", "parla/drivers/least_squares.py:spu1", "parla/drivers/saddlesys.py:sps"]}
{"id": "C94", "title": "Low rank drivers come close to the best low rank error with quantified probability over their own sketch", "statement": "Let A = U diag(t) Vh be a singular value decomposition, the entries of t after the first rk at most sg and, if extra passes are made, the first rk at least tau > 0. With l columns of Gaussian sketch drawn by the driver itself and np passes over A beyond the minimum, up to a failure probability of (rk^2 + rk) / (l e^2) + rk / (l th): rf1 and qb return, with squared Frobenius error at most (1 + (sg/tau)^(2 np) th/(1-e)^2) times the sum of the squared trailing entries of t (the squared error of the best rank rk approximation when t is sorted); qb_b satisfies the same bound for every block size and tolerance, l being the width of its first block; qb_b_pe returns k columns meeting it, or fewer with an error of at most tol |A|_F, or raises LinAlgError because the sketched matrix A Y has rank below k; svd1 and evd1 with one block exceed it at most by the squared error of the best rank k approximation and a term of order eps^2 (evd1: with twice the sketching error).", "quantifier": "all m, n, A, rk, l <= min(m, n), np of either parity, 0 < e < 1, th > 0, ranks, oversamplings, tolerances, generators with uncorrelated entries and normal fourth moments", "why_tests_cant": "A probability over generator states and an optimality comparison for all matrices; tests fix seeds and matrices with rapidly decaying spectrum.", "anchors": ["parla/comps/rangefinders.py:rf1", "parla/comps/rangefinders.py:RF1.__call__", "parla/comps/qb.py:qb", "parla/comps/qb.py:qb_b", "parla/comps/qb.py:qb_b_pe", "parla/drivers/svd.py:svd1", "parla/drivers/evd.py:evd1", "parla/comps/sketchers/aware.py:RS1.__call__", "parla/utils/sketching.py:gaussian_operator"]}
{"id": "C95", "title": "The Nystrom eigendecomposition is close to the trailing eigenvalues with quantified probability over its own sketch", "statement": "Let A be positive semidefinite with decreasing eigenvalues t. For every sketch S and every matrix M, the Frobenius error of EVD2 is at most tr((I - S M)' (A + nu I) (I - S M)) plus the eigenvalues beyond the number of pairs returned plus 2 n nu, nu = sqrt(n) eps |A S|_F being the shift used by the code, and the sum of the returned eigenvalues falls short of tr(A) by at most as much; if fewer than k pairs come back, the tail may be replaced by the first missing eigenvalue. For the driver evd2 with its own Gaussian sketch of l = k + over columns and np power passes, the eigenvalues after the first rk at most sg and (for np > 0) the first rk at least tau > 0: up to a failure probability of (rk^2 + rk)/(l e^2) + 2 rk/(l th), the same holds with the first term at most (1 + (sg/tau)^(2 np) th/(1-e)^2) times the sum of the trailing eigenvalues (each increased by nu); with np >= 1 and over >= 0, evd2 then returns and nu is at most sqrt(n) eps |A|_F.", "quantifier": "all n, positive semidefinite A, 0 < k < n, oversamplings with l <= n, sketches, test matrices M, np of either parity, rk, 0 < e < 1, th > 0, generators with uncorrelated entries and normal fourth moments", "why_tests_cant": "A probability over generator states and a comparison with the spectrum of every matrix; the tests fix seeds and compare norms with a tolerance of their own.", "anchors": ["parla/drivers/evd.py:EVD2.__call__", "parla/drivers/evd.py:evd2", "parla/comps/sketchers/aware.py:RS1.__call__", "parla/utils/sketching.py:gaussian_operator"]}
{"id": "C96", "title": "Low rank and interpolative drivers return the documented shapes in any arithmetic", "statement": "Whatever the scalar arithmetic does (IEEE rounding, NaN and infinities included) and whatever values LAPACK and the Generator produce, as long as their results have the documented shapes: with admissible arguments rf1, qb, qb_b, svd1, evd1, rocs1 and osid2 return arrays of the documented shapes (rank k, or for the adaptive drivers at most k and, for qb_b, k or a multiple of the block size; skeleton indices distinct and in range) or propagate an exception raised by LAPACK; qb_b_pe, evd2, osid1, tsid1 and cur1 may in addition raise LinAlgError (zero pivot, failed Cholesky). No other exception, in particular no internal shape mismatch, index error or failed assertion, and no infinite loop.", "quantifier": "all scalar types and operations, LAPACK implementations with the documented shapes, exception sets, generators, m, n, A, ranks, oversamplings, pass counts, block sizes, tolerances, seeds and states", "why_tests_cant": "Quantifies over arithmetics, LAPACK outcomes (including NaN-filled factors) and shapes; tests run one arithmetic on a few benign matrices.", "anchors": ["parla/comps/rangefinders.py:rf1", "parla/comps/qb.py:qb", "parla/comps/qb.py:qb_b", "parla/comps/qb.py:qb_b_pe", "parla/drivers/svd.py:svd1", "parla/drivers/evd.py:evd1", "parla/drivers/evd.py:evd2", "parla/drivers/interpolative.py:rocs1", "parla/drivers/interpolative.py:osid1", "parla/drivers/interpolative.py:osid2", "parla/drivers/interpolative.py:tsid1", "parla/drivers/interpolative.py:cur1"]}
{"id": "C97", "title": "Least squares and saddle point solvers return vectors of the right length within the iteration limit in any arithmetic", "statement": "In any scalar arithmetic and for any LAPACK and Generator as in C96, with admissible arguments: sso1 returns x of length n or propagates a LAPACK exception; SPO (every mode, with and without logging), SPU1, sps (pcg and lsqr) and SPS2 (with either inner solver) return vectors of length n (primal) and m (dual) and, when logging, a log with as many times as errors and at most iter_lim + 1 entries. The only other outcomes are a division by zero inside LSQR/PCG, LinAlgError in the triangular modes, IndexError from an empty preconditioner (pcg), ValueError from logging an LSQR run that returned early (C71) and TypeError of SPU1 for a zero right-hand side. lsqr and pcg make at most iter_lim iterations.", "quantifier": "all scalar types and operations, LAPACK implementations with the documented shapes, generators, m, n, A, b, c, tolerances, limits >= 0, sampling factors, numbers of nonzeros, modes, seeds and states; delta for which delta > 0 and sqrt(delta) != 0 agree (every non-negative double)", "why_tests_cant": "Quantifies over arithmetics and over every data-dependent path of the iterative solvers.", "anchors": ["parla/drivers/least_squares.py:sso1", "parla/drivers/least_squares.py:SPO.__call__", "parla/drivers/least_squares.py:SPU1.__call__", "parla/drivers/saddlesys.py:sps", "parla/drivers/saddlesys.py:SPS2.__call__", "parla/comps/determiter/lsqr.py:lsqr", "parla/comps/determiter/pcg.py:pcg", "parla/comps/determiter/saddle.py:PcSS1.__call__", "parla/comps/determiter/saddle.py:PcSS2.__call__"]}
{"id": "C98", "title": "Interpolative decompositions come close to the best low rank error with quantified probability over their own sketch", "statement": "Let A = U diag(t) Vh be a singular value decomposition, rk <= k, the entries of t after the first rk at most sg and, if the row sketcher makes np > 1 passes, the first rk at least tau > 0; let tail be the sum of the squared trailing entries. With l = k + over columns of Gaussian sketch drawn by the driver itself, up to a failure probability of (rk^2 + rk) / (l e^2) + rk / (l th) (+ 1/u if np = 0), osid1 for either axis returns a decomposition whose squared Frobenius error is at most 2/3 (d - k) ((4^k + 2)(1 + (sg/tau)^(2 (np-1)) th/(1-e)^2) + (2 4^k + 1) c) tail, with d the number of rows (axis 0) or columns (axis 1), c = u/(1-e) for np = 0 and 1 otherwise, or it raises; it cannot raise if rk = k and the leading singular values are nonzero. osid2 satisfies the same bound in that case. tsid1 satisfies it with d = min(m, n), and cur1 exceeds it at most by a factor depending on k and max(m, n) - k.", "quantifier": "all m, n, A, k, rk <= k, l <= min(m, n), number of passes of either parity, 0 < e < 1, th, u > 0, generators with uncorrelated entries and normal fourth moments", "why_tests_cant": "A probability over generator states and a comparison with the singular values for all matrices; tests fix seeds and matrices of exactly known rank.", "anchors": ["parla/drivers/interpolative.py:osid1", "parla/drivers/interpolative.py:osid2", "parla/drivers/interpolative.py:tsid1", "parla/drivers/interpolative.py:cur1", "parla/comps/interpolative.py:qrcp_osid", "parla/comps/sketchers/aware.py:RS1.__call__", "parla/utils/sketching.py:gaussian_operator"]}
{"id": "C99", "title": "QB factorisations and sketch-and-solve degrade gracefully with inexact QR and least squares routines", "statement": "Suppose QR returns a Q with ||Q^T Q - I|| <= eta < 1 (spectral norm) and ||A - Q U||_F <= dl ||A||_F, and the least squares routine a residual within the factor 1 + tau of the least one. Then qb still returns Q of the requested width, orthonormal up to eta, with ||A - Q Q^T A||_F <= (1 + rho) ||A - Q C||_F + rho ||A||_F for every C, rho = eta sqrt((1+eta)/(1-eta)); with two passes and its own Gaussian sketch, up to failure probability (rk^2 + rk)/(l e^2) + rk/(l th) + 1/u, the error is at most (1 + rho)(sqrt((1 + th/(1-e)^2) tail) + dl sqrt(u/(1-e)) ||A||_F) + rho ||A||_F. qb_b and QB2 with any rangefinder return, ||A - Q B||_F^2 and the tracked ||A||_F^2 - ||B||_F^2 differ by at most eta/(1-eta) ||A||_F^2, and if they stop early the squared relative error is at most tol^2 + eta/(1-eta); an error of eta is attained, whatever the tolerance. sso1's objective is at most (1 + tau)^2 (1+e)/(1-e) times the least one with the failure probability of C93.", "quantifier": "all eta in [0, 1), dl, tau >= 0, all routines with those errors, all m, n, A, b, ranks, block sizes, tolerances, delta >= 0, generators with the stated moments, seeds and states", "why_tests_cant": "Quantifies over all error patterns of the linked LAPACK within a bound; tests see one LAPACK and tiny rounding errors.", "anchors": ["parla/comps/qb.py:qb", "parla/comps/qb.py:qb_b", "parla/comps/qb.py:QB1.__call__", "parla/comps/qb.py:QB2.__call__", "parla/comps/rangefinders.py:RF1.__call__", "parla/drivers/least_squares.py:SSO1.__call__", "parla/drivers/least_squares.py:sso1"]}
{"id": "C100", "title": "QB factorisations and sketch-and-solve in rounded arithmetic", "statement": "Suppose every addition, subtraction, product, quotient and square root the program performs has a relative error of at most u < 1 (the standard model of floating-point arithmetic), QR has a backward error (||Q^T Q - I|| <= eta < 1, ||A - Q U||_F <= dl ||A||_F) and lstsq a residual within 1 + tau of the least one; routines may instead raise exceptions of a given class. Then the computed factors of qb have the requested shapes, Q is orthonormal up to eta, and ||A - Q B||_F <= (1 + rho) ||A - Q C||_F + (rho + (1 + eta) sqrt(k) gam(m+1)) ||A||_F for every C, gam(j) = (1+u)^j - 1 <= j u/(1 - j u); with its own Gaussian sketch and two passes the error against the singular values is that of C94 plus terms proportional to the rounding errors, with the failure probability stated. qb_b and QB2 with any rangefinder of the right shape return c columns, c the target or a multiple of the block size below it; with overwriting, the array A ends up holding A - Q B up to fl_drift ||A||_F; if they stop early then a tolerance was given and ||A - Q B||_F <= (sqrt((1+u)^(m+n+6) tol^2 + fl_sq) + fl_drift) ||A||_F, where fl_sq and fl_drift vanish with the rounding errors. SSO1's solution has, for the sketched problem, an objective (square root) of at most (1 + tau)(that of any z plus err(z)) + err(x), with err explicit, and correspondingly for the original problem if the sketch embeds the range of (A, b).", "quantifier": "all arithmetics with relative error u in [0, 1), all QR and lstsq routines with the stated errors, all m, n, A, b, ranks, block sizes, pass counts, tolerances, delta, generators, seeds and states", "why_tests_cant": "Rounding errors of all inputs and all rounding patterns at once; tests compare a few runs with loose tolerances.", "anchors": ["parla/comps/qb.py:qb", "parla/comps/qb.py:qb_b", "parla/comps/qb.py:QB1.__call__", "parla/comps/qb.py:QB2.__call__", "parla/comps/rangefinders.py:RF1.__call__", "parla/drivers/least_squares.py:SSO1.__call__"]}
{"id": "C101", "title": "Conjugate gradients in rounded arithmetic: logged residuals and the stopping test refer to the true residual, however many iterations are made", "statement": "Suppose every scalar operation has a relative error of at most u < 1, products with the matrix H have a relative error a, and all iterates have norm at most xi. Then entry k of the residual log of pcg differs from the true residual norm ||b - H z|| of the iterate z that a run limited to k iterations returns by at most gam(n+3) (||b - H z|| + gap) + gap; and if pcg stops before its iteration limit, the returned x satisfies ||b - H x|| <= (1+u) tol (1+gam)/(1-gam) (||b - H x0|| + gap) + gap. The constant gap = (1+u)^9 (fresh + 9 rec) is proportional to the rounding errors, vanishes without them and does not depend on the number of iterations (the code recomputes the residual from its definition on every tenth iteration). For PcSS1 on the saddle point system the same holds for the residual of the normal equations (A^T A + delta I) x = A^T b - c, and the returned y is b - A x up to gam(n+2) (||b|| + ||A||_F ||x||). The driver sps (method 'pcg') meets this for every sketch and all LAPACK factors; entry 0 of its log is ||A^T b - c|| up to rounding.", "quantifier": "all arithmetics with relative error u in [0, 1), all m, n, A, b, c, delta, H, preconditioners, starting points, tolerances, iteration limits", "why_tests_cant": "The drift of a recursively updated residual shows only over many iterations and depends on the rounding pattern; in exact arithmetic the updated and the recomputed residual coincide.", "anchors": ["parla/comps/determiter/pcg.py:pcg", "parla/comps/determiter/saddle.py:PcSS1.__call__", "parla/drivers/saddlesys.py:SPS1.__call__"]}
{"id": "C102", "title": "The randomised SVD in rounded arithmetic", "statement": "Suppose scalar operations have a relative error of at most u < 1, QR a backward error (eta, dl) as in C100, and the LAPACK SVD returns sorted non-negative values and factors within mu of those of a matrix within mu, relatively, of its argument; routines may instead raise exceptions of a given class. Then SVD1 over any QB whose Q is orthonormal up to eta returns e triplets (e <= k if over > 0) of the right shapes, with values sorted and none below the cut-off 10 eps, U and V^T orthonormal up to explicit rounding terms, and for every Y of rank at most k: ||A - U diag(s) V||_F <= (1 + rt) ||A - Q B||_F + rt ||A - Y||_F + r sqrt(min(c, n)) 10 eps + fl_svd ||B||_F, with r = sqrt(1+eta), t = 1/sqrt(1-eta) and fl_svd vanishing with the rounding errors. svd1 with block_size >= k + over meets this with a QB error within rounding of the least possible for the range found; with a Gaussian sketch and two passes the QB error is bounded through the singular values of A with an explicit failure probability.", "quantifier": "all arithmetics with relative error u in [0, 1), all QR and SVD routines with the stated errors, all m, n, A, k, over, tol, block sizes >= k + over, generators, seeds and states", "why_tests_cant": "Rounding errors of all inputs and all rounding patterns at once, and an error bound against every matrix of rank k; tests compare a few runs with loose tolerances.", "anchors": ["parla/drivers/svd.py:svd1", "parla/drivers/svd.py:SVD1.__call__", "parla/comps/qb.py:QB2.__call__"]}
{"id": "C103", "title": "The generators of test matrices", "statement": "rand_low_rank(m, n, spectrum, rng, factors) returns U diag(t) V with U and V^T orthonormal and t the given non-negative spectrum divided by its maximum and sorted in decreasing order, so t[0] = 1; with factors=True also U, t, V of that very matrix; an empty spectrum raises IndexError. exponent_spectrum and s_shaped_spectrum return a matrix of the rank they are given. simple_mat multiplies column j of the Gaussian matrix it draws by 1/sqrt(1 + scale j), whatever QR factors are used.", "quantifier": "all sizes, non-negative spectra with a positive entry, scales, generators and states; both Gaussian draws of full column rank; every positive function in place of exp", "why_tests_cant": "The accuracy tests of the project compare against these spectra and ranks; that the generator has them is itself assumed by the tests. The claim on the rank of exponent_spectrum and s_shaped_spectrum is false: np.arange(1, rank) has rank - 1 entries.", "anchors": ["parla/tests/matmakers.py:rand_low_rank", "parla/tests/matmakers.py:simple_mat", "parla/tests/matmakers.py:exponent_spectrum", "parla/tests/matmakers.py:s_shaped_spectrum"]}
{"id": "C104", "title": "Least-squares demo problems carry their exact solution", "statement": "make_demo_helper(m, n, spectrum, prop_range, rng) returns A with exactly the given spectrum, and x_opt is the minimum-norm least-squares solution of A x = b: the residual is orthogonal to the range of A and x_opt lies in the row space. The part of b in the range of A has norm |prop_range| mean(spectrum) and the residual has norm |1 - prop_range| mean(spectrum). resample_b(prop_range, rng) keeps A and its factors and gives a new b and x_opt with the same guarantees.", "quantifier": "all sizes, spectra without zeros (negative entries allowed), proportions, generators and states for which the draws have full rank and b0 is neither orthogonal to nor inside the range", "why_tests_cant": "The notebooks measure solver errors against x_opt; no test verifies that x_opt is the solution.", "anchors": ["notebooks/least_squares/helpers.py:make_demo_helper", "notebooks/least_squares/helpers.py:LSDemoHelper.resample_b", "notebooks/least_squares/helpers.py:LSDemoHelper.solve"]}
{"id": "C105", "title": "The randomised eigenvalue decomposition in rounded arithmetic", "statement": "Suppose scalar operations have a relative error of at most u < 1, multiplication by -1 reverses the order, QR has a backward error (eta, dl) as in C100, and la.eigh returns a factor within mu of the orthonormal factor of a matrix within mu, relatively, of the mirrored lower triangle of its argument; routines may instead raise exceptions of a given class. Then EVD1 over any QB of a symmetric A whose Q is orthonormal up to eta and whose B is within beta ||A|| of Q^T A returns e <= min(k, c) pairs of the right shapes, with |lambda| above the cut-off 10 eps and decreasing, V orthonormal up to an explicit rounding term, and for every Y of rank at most k: ||A - V diag(lambda) V^T||_F <= (2 + eta) ||A - Q B||_F + (1 + eta)^2 ||A - Y||_F + (1 + eta) sqrt(c) 10 eps + fl_evd ||A||_F, with fl_evd vanishing with the rounding errors. evd1 with block_size >= k + over meets this with a QB error within rounding of the least possible for the range found; with a Gaussian sketch and two passes the QB error is bounded through the eigenvalues of A with an explicit failure probability.", "quantifier": "all arithmetics with relative error u in [0, 1), all QR, eigh and argsort routines with the stated properties, all n, symmetric A, k, over, tol, block sizes >= k + over, generators, seeds and states", "why_tests_cant": "Rounding errors of all inputs and all rounding patterns at once (the product B Q is not symmetric and only its lower triangle is used), and an error bound against every matrix of rank k.", "anchors": ["parla/drivers/evd.py:evd1", "parla/drivers/evd.py:EVD1.__call__", "parla/comps/qb.py:QB2.__call__"]}
{"id": "C106", "title": "With two passes the blocks of blocked QB act as one sketch", "statement": "Let S be the Gaussian columns that qb_b draws with num_passes = 2, block after block, put side by side. If A S has the largest possible rank at every block boundary (Gaussian columns have this property with probability 1), the product Q B returned is of the form A S W and no other A S W is closer to A, over all columns drawn; if A S has independent columns, Q is an orthonormal basis of the range of A S and B = Q^T A. Consequently the block size has no influence on the approximation: two calls whose columns differ by an invertible recombination return the same product. And the probability bound of C94 holds with the total number of columns instead of the width of the first block, for qb_b (or the tolerance is met), svd1 and evd1.", "quantifier": "all m, n, A, target ranks, block sizes > 0, tolerances, overwrite flags, generators, states; all generators whose columns drawn in blocks, divided by their standard deviations, are jointly uncorrelated with normal fourth moments", "why_tests_cant": "Equality of results between different numbers of blocks for all matrices in exact arithmetic, and a probability over generator states; the tests run single seeds and compare norms.", "anchors": ["parla/comps/qb.py:qb_b", "parla/comps/qb.py:QB2.__call__", "parla/drivers/svd.py:svd1", "parla/drivers/evd.py:evd1", "parla/comps/rangefinders.py:RF1.__call__", "parla/utils/sketching.py:gaussian_operator"]}
{"id": "C107", "title": "Interpolative decompositions keep their guarantees in rounded arithmetic", "statement": "Let every scalar operation have a relative error of at most u, let QR with column pivoting return factors with || Q^T Q - I || <= eta and || Y P - Q S ||_F <= dl || Y ||_F, and let lstsq be within 1 + tau of the least residual. (a) Solving a triangular system T Z = B by substitution, in any of the four lower/transposed variants, raises LinAlgError or returns Z with || B - T Z ||_F <= fl_tri(u, n) || T ||_F || Z ||_F, whatever the condition number of T. (b) qrcp_osid returns k distinct indices and an interpolation matrix whose selected columns (rows) are exactly the identity, and its error is at most sqrt((1+eta)/(1-eta)) times the error of any other interpolation matrix W on the same columns, plus rounding terms in u, dl and the norms of both matrices. (c) OSID1 with any sketching object, and osid1 with p = 1 with its Gaussian matrix: the same for the data matrix, with the error bounded through the sketched error of any W and the error of any reconstruction from the sketch. (d) OSID2 is within 1 + tau of the least error for the columns (rows) it selected. (e) TSID1 and CUR1 over any one-sided ID exceed its error by at most the rounded error of their second step. All rounding terms vanish in exact arithmetic.", "quantifier": "all arithmetics of unit roundoff 0 <= u < 1, all pivoted QR routines with 0 <= eta < 1 and 0 <= dl and least squares routines with any tau, all m, n, A, 0 < k, over >= 0 with k + over <= min(m, n), both axes, tall and wide, all sketching objects and one-sided IDs, all states", "why_tests_cant": "A statement about every rounded arithmetic and every matrix, including ill-conditioned leading triangles; the tests check double precision on a few random matrices with loose tolerances.", "anchors": ["parla/comps/interpolative.py:qrcp_osid", "parla/drivers/interpolative.py:OSID1.__call__", "parla/drivers/interpolative.py:OSID2.__call__", "parla/drivers/interpolative.py:TSID1.__call__", "parla/drivers/interpolative.py:CUR1.__call__", "parla/utils/linalg_wrappers.py:apply_pinv_on_left", "parla/utils/linalg_wrappers.py:apply_pinv_on_right"]}
{"id": "C108", "title": "The Nystrom eigendecomposition and the Cholesky factorisation keep their guarantees in rounded arithmetic", "statement": "Let every scalar operation have a relative error of at most u, let QR return factors with || Q^T Q - I || <= eta and backward error dl, and let the SVD be within mu of an exact one. (a) The Cholesky factorisation raises LinAlgError or returns a lower triangular L with positive diagonal and || M - L L^T ||_F <= fl_chol(u, n) || L ||_F^2, where M is the symmetric matrix read from one triangle. (b) EVD2 with any sketching object whose answer is a matrix S, and evd2 for every number of passes (S is then the result of num_passes - 1 rounded, stabilised steps of the power method from the Gaussian drawn): it raises LinAlgError or returns e <= k pairs, V orthonormal up to mu (2 + mu), all eigenvalues but the first positive. The shift nu it uses is sqrt(n) eps || A S ||_F up to rounding. Whenever K = S^T (A + nu I) S is positive definite by a margin exceeding the rounding errors, || N - V diag(lam) V^T ||_F <= || N - X ||_F + 2 err + nu sqrt(p) + rnd for every X of rank at most e, where N = (A + nu I) S K^-1 S^T (A + nu I) is the Nystrom approximation, p = k + over. (c) If it returns fewer than k pairs, N is within err + sqrt(p) nu / (1 - u) of a matrix of rank e + 1. The rounding terms err and rnd vanish in exact arithmetic.", "quantifier": "all arithmetics of unit roundoff 0 <= u < 1, all QR and SVD routines within eta, dl, mu, all symmetric n x n A, 0 < k < n, over >= 0, all sketching objects, all generators and states, all numbers of passes (k + over <= n when it exceeds one)", "why_tests_cant": "A statement about every rounded arithmetic and every symmetric matrix, definite or not, relating the answer to the exact Nystrom approximation; the tests check a few well-conditioned matrices in double precision.", "anchors": ["parla/drivers/evd.py:EVD2.__call__", "parla/drivers/evd.py:evd2", "parla/comps/sketchers/aware.py:RS1.__call__"]}
{"id": "C109", "title": "Cholesky factorisation and the drivers built on it do not fail on safely positive definite problems in rounded arithmetic", "statement": "Let every scalar operation have a relative error of at most u. (a) The Cholesky factorisation of an n x n matrix whose eigenvalues are at least kap returns a factor (with the residual of C108) as soon as 2 c tr M < (1 - c) kap, c = fl_chol(u, n). (b) EVD2 and evd2, errors of LAPACK's SVD and QR and of the sketching object apart, raise LinAlgError only if K = S^T (A + nu I) S, for the sketch S and the shift nu they computed, is not positive definite by a margin the rounding errors cannot consume; no other exception escapes. (c) The Cholesky mode of SPO's factorisation step never raises if sketch' sketch + delta I has its eigenvalues above such a margin, and then the preconditioner satisfies | || R w ||^2 - (|| sketch w ||^2 + delta || w ||^2) | <= err || w ||^2 for every w. With u = 0 the margins are positive definiteness and err is zero. (d) A whole call of SPO in Cholesky mode, whatever sketching operator it draws, raises (exceptions of the operator, of NaNs and of the log apart) only LinAlgError, and that only if for the sketch As it computed, with || As - S A || <= gam_{m+1} || S || || A ||, As^T As + delta I is not safely positive definite; otherwise it returns n numbers and a consistent log - no triangular solve ever raises. (e) The same for the QR mode with a QR factorisation of backward error qd and a triangular second factor: LinAlgError only if || As w ||^2 + delta || w ||^2 is, for some w, at most (qd (1 + gam_2) + gam_2)^2 (|| As ||_F^2 + n delta) || w ||^2 up to arbitrarily small slack; and for the driver spo3 in both modes, S being an operator that SkOpSJ returned.", "quantifier": "all arithmetics of unit roundoff 0 <= u < 1, all symmetric matrices, sketches, regularisations, sketching objects, generators and numbers of passes", "why_tests_cant": "Whether a factorisation breaks down for some matrix in some rounded arithmetic is a statement about all matrices near the boundary of definiteness; tests only factor a few well-conditioned ones.", "anchors": ["parla/drivers/evd.py:EVD2.__call__", "parla/drivers/evd.py:evd2", "parla/drivers/least_squares.py:SPO.__call__", "parla/drivers/least_squares.py:spo3"]}
{"id": "C110", "title": "The log of a sketch-and-precondition call is consistent in every arithmetic", "statement": "If SPO, SPU1, SPS1 or SPS2 (and spo1, spo3, spu1, sps, which always log) return, then with logging the five timing fields of the log are the clock differences observed, errors is the initial error followed by the iterative solver's, times has one entry per error, the first being time_sketch + time_factor + time_convert and, from two iterations on, the last time_setup + time_presolve + time_iterate; without logging all five fields are zero and times and errors are None.", "quantifier": "all arithmetics, LAPACK routines, sketching operators, generators, states, clocks and arguments, including calls whose input is invalid or whose solver breaks down", "why_tests_cant": "Timings differ on every run, so tests can only look at lengths; the statement is about every clock and every number of iterations.", "anchors": ["parla/utils/logging.py:SketchAndPrecondLog.wrap_up", "parla/drivers/least_squares.py:SPO.__call__", "parla/drivers/least_squares.py:SPU1.__call__", "parla/drivers/saddlesys.py:SPS1.__call__", "parla/drivers/saddlesys.py:SPS2.__call__"]}
{"id": "C111", "title": "The preconditioned operators are backward stable and adjoint to each other up to rounding", "statement": "Let every scalar operation have a relative error of at most u and let op = a_lift_precond(A, delta, P, upper_tri) with delta >= 0, Ab being A, or A above sqrt(delta) I if delta > 0. (a) Triangular P = U: whenever op.matvec(z) returns f, the preconditioner returned a y with || z - U y || <= fl_tri || U || || y || and || f - Ab y || <= gam_{n+3} || Ab || || y ||; whenever op.rmatvec(w) returns b, there is an a with || a - Ab' w || <= gam_{m+3} || Ab || || w || and || a - U' b || <= fl_tri || U || || b ||; then | <f, w> - <z, b> | <= (gam_{n+3} + gam_{m+3}) || Ab || || y || || w || + 2 fl_tri || U || || y || || b ||, with no condition number. Neither raises if no diagonal entry of U is zero. (b) P = N an explicit matrix: both always return, with the corresponding bounds. With u = 0 all constants are zero.", "quantifier": "all arithmetics of unit roundoff 0 <= u < 1, all A, P of matching shapes, all delta >= 0, all vectors", "why_tests_cant": "Adjointness up to rounding for every matrix and every arithmetic; a test can compare two inner products for a few vectors and has no bound to compare the difference with.", "anchors": ["parla/comps/preconditioning.py:a_lift_precond", "parla/comps/preconditioning.py:a_lift"]}
