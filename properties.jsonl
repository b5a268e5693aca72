{"id": "C01", "title": "Matrix construction and element access", "statement": "Matrix::new(m,n,data) succeeds exactly when data.len()=m*n and then get(i,j) returns data[j*m+i] for i<m, j<n; get and get_mut panic exactly when i>=m or j>=n; writing through get_mut(i,j) changes that one element and no other and keeps the dimensions.", "quantifier": "all element types, all dimensions, all data vectors, all indices", "why_tests_cant": "index arithmetic must be right for every shape and every index pair", "anchors": ["src/algebra/linear/matrix/matrix.rs: Matrix::new, get, get_mut, dim"]}
{"id": "C02", "title": "Constant matrices", "statement": "zero(m,n), one(n) and ones(m,n) have the requested dimensions and entries 0, Kronecker delta and 1 respectively at every index.", "quantifier": "all dimensions and indices", "why_tests_cant": "unbounded set of sizes", "anchors": ["src/algebra/linear/matrix/matrix.rs: zero, one, ones"]}
{"id": "C03", "title": "Rows and columns", "statement": "get_column/get_row return exactly the requested column (m x 1) or row (1 x n); set_column/set_row replace exactly that column or row and leave all other entries unchanged; out-of-range indices and wrong lengths panic.", "quantifier": "all matrices, all indices, all vectors", "why_tests_cant": "every shape and every index", "anchors": ["src/algebra/linear/matrix/matrix.rs: get_column, get_row, set_column, set_row"]}
{"id": "C04", "title": "Sub-matrix slices", "statement": "get_slice(rs,re,cs,ce) yields the (re-rs+1)x(ce-cs+1) matrix of the addressed entries; set_slice overwrites exactly the addressed block; reading back a slice just written returns it; out-of-range or reversed bounds panic.", "quantifier": "all matrices, all bounds", "why_tests_cant": "every combination of four bounds", "anchors": ["src/algebra/linear/matrix/matrix.rs: get_slice, set_slice"]}
{"id": "C05", "title": "Transpose is correct exactly on square matrices and vectors", "statement": "For m,n>=1 transpose() never reads uninitialised scratch memory, swaps the dimensions, permutes the elements and is undone by a second transpose(); result(j,i)=self(i,j) for every element holds for all contents exactly when m=n or m=1 or n=1. On every other shape the in-place algorithm produces a different permutation (new storage cell j*m+i holds old storage cell i*n+j), so the documented meaning fails; the 0x0 matrix panics.", "quantifier": "all element types, all m,n, all contents", "why_tests_cant": "the permutation depends on gcd(m,n) and must be right for every pair; the shipped test passes on a wrong result because matrix relative_eq only looks at one element", "anchors": ["src/algebra/linear/matrix/transpose/native.rs: transpose, gcd, gather, gather_sa, scatter_da"]}
{"id": "C06", "title": "Element-wise addition and subtraction", "statement": "A+B and A-B (owned and borrowed forms) have entries A(i,j)+B(i,j), A(i,j)-B(i,j) and panic exactly when the dimensions differ; the scalar forms add or subtract the scalar everywhere.", "quantifier": "all matrices over any element type", "why_tests_cant": "all shapes", "anchors": ["src/algebra/linear/matrix/add/native.rs", "src/algebra/linear/matrix/sub/native.rs"]}
{"id": "C07", "title": "Matrix multiplication", "statement": "A*B panics exactly when A.n != B.m; otherwise entry (i,j) is the left-to-right accumulated sum of A(i,k)*B(k,j); over a ring it is associative, distributes over addition, has one(n) as identity and reverses under transposition of square matrices.", "quantifier": "all compatible shapes and contents", "why_tests_cant": "algebraic laws over all shapes", "anchors": ["src/algebra/linear/matrix/mul/native.rs"]}
{"id": "C08", "title": "Matrix-vector, vector-matrix and scalar products", "statement": "A*v, A*c and A/c compute the expected entries; v*A computes the row-vector product; dimension mismatches panic.", "quantifier": "all shapes and contents", "why_tests_cant": "all shapes", "anchors": ["src/algebra/linear/matrix/mul/native.rs", "src/algebra/linear/matrix/div.rs", "src/algebra/linear/vector/mul/native.rs"]}
{"id": "C09", "title": "Trace", "statement": "trace(A) is the sum of the diagonal, panics exactly on non-square input, is linear and satisfies trace(A*B)=trace(B*A).", "quantifier": "all square matrices over a ring", "why_tests_cant": "all sizes", "anchors": ["src/algebra/linear/matrix/matrix.rs: trace"]}
{"id": "C10", "title": "Exact equality", "statement": "A==B is true exactly when dimensions and all entries are equal; it is reflexive, symmetric and transitive whenever element equality is.", "quantifier": "all pairs of matrices", "why_tests_cant": "all shapes and contents", "anchors": ["src/algebra/linear/matrix/matrix.rs: PartialEq::eq"]}
{"id": "C11", "title": "Approximate equality inspects only the first element", "statement": "abs_diff_eq/relative_eq of two non-empty matrices is exactly the scalar test on their first stored elements (and true when either is empty); hence two matrices with different dimensions or arbitrarily different later entries compare equal and the expected 'all entries close' reading is false.", "quantifier": "all pairs of matrices, all tolerances", "why_tests_cant": "the shipped tests are written with this very comparison", "anchors": ["src/algebra/linear/matrix/matrix.rs: abs_diff_eq, relative_eq"]}
{"id": "C12", "title": "Row and column iteration", "statement": "row_into_iter and column_into_iter yield exactly the rows/columns of the matrix in order and then None forever; iter visits all elements in column-major order.", "quantifier": "all matrices, any number of next() calls", "why_tests_cant": "all shapes and all iteration lengths", "anchors": ["src/algebra/linear/matrix/matrixrowintoiterator.rs", "src/algebra/linear/matrix/matrixcolumnintoiterator.rs", "src/algebra/linear/matrix/matrix.rs: iter"]}
{"id": "C13", "title": "LU decomposition shape", "statement": "For every square matrix dec_lu returns Ok with L unit lower triangular, U upper triangular and P a permutation matrix of the same size; non-square input panics.", "quantifier": "all element types and all square matrices, including NaN contents", "why_tests_cant": "all sizes and contents", "anchors": ["src/algebra/linear/matrix/lu/native.rs: dec_lu", "src/algebra/linear/matrix/lu/ludec.rs"]}
{"id": "C14", "title": "LU factorisation identity", "statement": "P*A = L*U over a field whenever every pivot met is non-zero or has only zeros below it; in particular whenever all diagonal entries of U are non-zero. It fails for some invertible matrices because the pivot is the signed maximum, not the largest magnitude.", "quantifier": "all square matrices over a field", "why_tests_cant": "all sizes and contents", "anchors": ["src/algebra/linear/matrix/lu/native.rs: dec_lu"]}
{"id": "C15", "title": "Triangular substitution", "statement": "substitute_forward/backward (vector and matrix right-hand sides) return the solution of the triangular system whenever the diagonal has no zero; only the relevant triangle is read.", "quantifier": "all sizes, all triangular systems over a field", "why_tests_cant": "all sizes", "anchors": ["src/algebra/linear/matrix/substitute/native.rs"]}
{"id": "C16", "title": "Linear solve", "statement": "If the LU factor U of A has no zero on its diagonal then A.solve(b) returns x with A*x=b, and this x is the only solution; the same for matrix right-hand sides. Solving or inverting with a stored LU decomposition gives the same outcome as with the matrix.", "quantifier": "all square matrices and right-hand sides over a field", "why_tests_cant": "all sizes and contents", "anchors": ["src/algebra/linear/matrix/solve/native.rs", "src/algebra/linear/matrix/lu/ludec.rs: solve"]}
{"id": "C17", "title": "Inverse", "statement": "If U has no zero on its diagonal then A.inv() returns B with A*B=one and B*A=one.", "quantifier": "all square matrices over a field", "why_tests_cant": "all sizes and contents", "anchors": ["src/algebra/linear/matrix/inverse/native.rs", "src/algebra/linear/matrix/lu/ludec.rs: inv"]}
{"id": "C18", "title": "Singular systems are not reported", "statement": "solve and inv never return Err: for singular or badly pivoted input they return Ok with a value that need not satisfy A*x=b.", "quantifier": "all square matrices", "why_tests_cant": "absence of an error path is a statement about all inputs", "anchors": ["src/algebra/linear/matrix/solve/native.rs", "src/algebra/linear/matrix/inverse/native.rs", "src/algebra/linear/matrix/lu/native.rs"]}
{"id": "C19", "title": "Determinant", "statement": "det equals the determinant (the unique normalised alternating multilinear function of the rows) for n<=2 and, when LU succeeds with non-zero pivots, for every n whose row permutation has at most one non-trivial cycle, in particular for n=3 and when no rows are swapped; it has the wrong sign for some invertible 4x4 matrices because the sign is derived from the number of displaced rows.", "quantifier": "all square matrices over a field", "why_tests_cant": "all sizes and permutations", "anchors": ["src/algebra/linear/matrix/matrix.rs: det"]}
{"id": "C20", "title": "Cholesky decomposition", "statement": "For a symmetric matrix on which no zero pivot arises, in particular every symmetric positive definite real matrix, dec_cholesky returns lower triangular L with positive diagonal and L*L^T=A; it reads only the lower triangle; it never returns Err.", "quantifier": "all sizes, all symmetric positive definite matrices", "why_tests_cant": "all sizes and contents", "anchors": ["src/algebra/linear/matrix/cholesky/native.rs"]}
{"id": "C21", "title": "QR decomposition", "statement": "For m>=n dec_qr returns Q orthogonal with Q*R=A always; R is upper triangular when no zero pivot blocks an elimination, but not for all matrices (the Givens rotation is skipped when the diagonal element is zero).", "quantifier": "all real matrices with m>=n", "why_tests_cant": "all sizes and contents", "anchors": ["src/algebra/linear/matrix/qr/native.rs", "src/algebra/linear/matrix/matrix.rs: givens"]}
{"id": "C22", "title": "Givens rotations", "statement": "givens(m,i,j,c,s) is the identity except for the 2x2 block, is orthogonal exactly when c^2+s^2=1 (i<>j); givens_cosine_sine_pair returns (c,s) with c^2+s^2=1 that annihilates the second component.", "quantifier": "all sizes, indices and real arguments", "why_tests_cant": "all sizes and contents", "anchors": ["src/algebra/linear/matrix/matrix.rs: givens, givens_cosine_sine_pair"]}
{"id": "C23", "title": "Householder reflections", "statement": "householder(v,k) is symmetric and orthogonal, leaves the first k components alone and maps v to a vector whose components after k vanish, whenever v[k..] is not zero; for v[k..]=0 (v longer than 1) it returns a 1x1 matrix instead of the identity of the right size. Vector::reflector divides only the first component of v + sign(v0)|v|e0 by its length, so (v0 and another component not zero) it generates a reflection of v onto the first axis exactly when that length is one.", "quantifier": "all real vectors and k", "why_tests_cant": "all sizes and contents", "anchors": ["src/algebra/linear/matrix/matrix.rs: householder"]}
{"id": "C24", "title": "Hessenberg decomposition", "statement": "If dec_hessenberg returns (Q,H) then Q is orthogonal, H has zeros below the first subdiagonal and Q*H*Q^T=A; it panics on some valid input (a zero column below the diagonal, e.g. the 2x2 identity).", "quantifier": "all real square matrices", "why_tests_cant": "all sizes and contents", "anchors": ["src/algebra/linear/matrix/hessenberg/native.rs"]}
{"id": "C25", "title": "Vector element access and slices", "statement": "Vector constructors, get/get_mut, get_slice/set_slice address exactly the requested components for column and row vectors and panic out of range.", "quantifier": "all vectors, all indices", "why_tests_cant": "all shapes", "anchors": ["src/algebra/linear/vector/vector.rs"]}
{"id": "C26", "title": "Dot and dyadic product", "statement": "dotp is the sum of the component products, symmetric, bilinear and positive; dyadp(x,y)(i,j)=x_i*y_j; both panic on unsupported shapes.", "quantifier": "all vectors over a ring", "why_tests_cant": "all sizes", "anchors": ["src/algebra/linear/vector/vector.rs: dotp, dyadp"]}
{"id": "C27", "title": "Vector norms", "statement": "p_norm with p=2 is the Euclidean norm (non-negative, zero only at zero, homogeneous, triangle inequality); for odd p it drops absolute values, so it is not a norm.", "quantifier": "all real vectors, all scalars", "why_tests_cant": "all sizes and contents", "anchors": ["src/algebra/linear/vector/vector.rs: p_norm, eucl_norm"]}
{"id": "C28", "title": "argmax and argmin", "statement": "argmax/argmin return the first index of a maximal/minimal component.", "quantifier": "all non-empty vectors over a total order", "why_tests_cant": "all sizes and contents", "anchors": ["src/algebra/linear/vector/vector.rs: argmax, argmin"]}
{"id": "C29", "title": "Polynomial evaluation and ring operations", "statement": "eval is Horner's scheme and equals sum c_i x^i; eval(p+q)=eval p+eval q, eval(p*q)=eval p*eval q, eval(-p)=-eval p for all polynomials; eval(p-q)=eval p-eval q exactly when q is not longer than p or its excess coefficients cancel: it is false in general.", "quantifier": "all polynomials over a ring, all points", "why_tests_cant": "all degrees", "anchors": ["src/algebra/abstr/polynomial.rs: eval, add, sub, mul, neg"]}
{"id": "C30", "title": "Polynomial from roots", "statement": "from_root(r) is monic of degree r.len() and evaluates to the product of (x-r_i).", "quantifier": "all root lists, all points", "why_tests_cant": "all degrees", "anchors": ["src/algebra/abstr/polynomial.rs: from_root"]}
{"id": "C31", "title": "Polynomial division", "statement": "div returns (q,r) with self = q*rhs + r and deg r < deg rhs when no coefficient is discarded by the epsilon reduction; the discarded part is bounded by epsilon per coefficient.", "quantifier": "all dividends and divisors with non-zero leading coefficient over an ordered field", "why_tests_cant": "all degrees", "anchors": ["src/algebra/abstr/polynomial.rs: div, reduce_coef"]}
{"id": "C32", "title": "Polynomial calculus", "statement": "differentiate computes the formal derivative (and the analytic derivative of eval), integrate an antiderivative with zero constant term, and differentiate after integrate is the identity, up to the epsilon reduction of trailing coefficients.", "quantifier": "all polynomials", "why_tests_cant": "all degrees", "anchors": ["src/algebra/abstr/polynomial.rs: differentiate, integrate"]}
{"id": "C33", "title": "Complex arithmetic is a field", "statement": "Over exact reals Complex addition and multiplication form a field: associative, commutative, distributive, inverses; division panics exactly for divisor zero and otherwise undoes multiplication. Comparison looks at the real parts only.", "quantifier": "all complex numbers", "why_tests_cant": "all values", "anchors": ["src/num/complex.rs: Add, Sub, Mul, Div, Neg"]}
{"id": "C34", "title": "Complex conjugate and modulus", "statement": "conj is an involutive field automorphism, z*conj z = |z|^2, the modulus is multiplicative and satisfies the triangle inequality; arg and modulus recover z.", "quantifier": "all complex numbers", "why_tests_cant": "all values", "anchors": ["src/num/complex.rs: conj, abs, arg"]}
{"id": "C35", "title": "Complex elementary functions", "statement": "exp turns sums into products, exp(i t)=cos t+i sin t, ln is a right inverse of exp off zero, sin^2+cos^2=1 and cosh^2-sinh^2=1 for complex arguments. tan, sec, csc, tanh, coth, sech panic exactly where their denominator is zero and are otherwise the quotients sin/cos, 1/cos, 1/sin, sinh/cosh, cosh/sinh, 1/cosh; cot is cos/sin but also panics where cos is zero. csch panics exactly where sinh is zero and is otherwise -1/sinh: its sign is wrong.", "quantifier": "all complex numbers", "why_tests_cant": "all values", "anchors": ["src/num/complex.rs: exp, ln, sin, cos, sinh, cosh"]}
{"id": "C36", "title": "Integer sign, absolute value and tolerance tests", "statement": "sign and abs of fixed-width integers agree with the mathematical ones except abs(MIN), which overflows; abs_diff_eq on unsigned integers is |a-b|<=eps for all arguments, on signed integers it can overflow.", "quantifier": "all values of every width", "why_tests_cant": "2^64 and more pairs", "anchors": ["src/algebra/abstr/sign.rs", "src/algebra/abstr/abs_diff_eq.rs"]}
{"id": "C37", "title": "Numeric conversions", "statement": "Integer to integer conversions wrap modulo 2^w and are the identity exactly when the value fits; float to integer conversions truncate and saturate.", "quantifier": "all values of every width", "why_tests_cant": "too many values", "anchors": ["src/algebra/abstr/cast.rs"]}
{"id": "C38", "title": "Scalar approximate equality", "statement": "abs_diff_eq(a,b,eps) is |a-b|<=eps and symmetric; relative_eq is reflexive for finite values and symmetric. The macros abs_diff_eq!, relative_eq! and their negations compare with the last epsilon and max_relative given, or the defaults, and the assert_ macros panic exactly if the comparison fails.", "quantifier": "all reals / all f64", "why_tests_cant": "all values", "anchors": ["src/algebra/abstr/abs_diff_eq.rs", "src/algebra/abstr/relative_eq.rs"]}
{"id": "C39", "title": "Runge-Kutta step is the Butcher formula", "statement": "For every tableau the step returns x + h*sum b_j k_j with k_j = f(t+c_j h, x + h*sum_{l<j} a_jl k_l); for constant f the step is exact iff the weights sum to one.", "quantifier": "all tableaux of any number of stages, all f, t, x, h", "why_tests_cant": "all functions", "anchors": ["src/analysis/differential_equation/ordinary/butcher.rs: do_step"]}
{"id": "C40", "title": "Order of the explicit Runge-Kutta methods", "statement": "Each shipped tableau satisfies all order conditions of its documented order and the row-sum condition, and the documented order is the exact one: a condition of the next order fails. This is false for Ralston4 (weights do not sum to one: one digit of the third weight is wrong, and with 3346 in place of 3356 the tableau has order four) and for Cash-Karp (order() names the orders of the two solutions in the wrong order).", "quantifier": "all right-hand sides: the step error vanishes to the stated order for every polynomial / linear problem and every step size", "why_tests_cant": "all right-hand sides", "anchors": ["src/analysis/differential_equation/ordinary/rungekutta4.rs", "src/analysis/differential_equation/ordinary/ralston4.rs", "src/analysis/differential_equation/ordinary/cashkarp45.rs", "src/analysis/differential_equation/ordinary/fehlberg45.rs", "src/analysis/differential_equation/ordinary/dormandprince.rs"]}
{"id": "C41", "title": "Fixed-step integration grid", "statement": "FixedStepper::solve returns two vectors of equal length ceil((t1-t0)/h)+1, the times start at t0, are min(t0+i*h,t1), strictly increase and end at t1; every state follows from its predecessor by one step of the method with the actual step width. It panics for t1 < t0, and new panics for h <= 0. With f64 rounding the last time can differ from t1 (h=0.1 on [0,1]).", "quantifier": "all methods, right-hand sides, spans and positive step sizes in exact arithmetic", "why_tests_cant": "all functions, spans, step sizes", "anchors": ["src/analysis/differential_equation/ordinary/fixed_stepper.rs: solve"]}
{"id": "C42", "title": "Right-hand side is evaluated only inside the time span", "statement": "The fixed-step and the adaptive solution depend on f only through its values at times in [t_start,t_stop]: two right-hand sides that agree there give the same result. All shipped tableaux have their nodes in [0,1].", "quantifier": "all right-hand sides, all tableaux with nodes in [0,1]", "why_tests_cant": "all functions", "anchors": ["src/analysis/differential_equation/ordinary/fixed_stepper.rs", "src/analysis/differential_equation/ordinary/butcher.rs"]}
{"id": "C43", "title": "Adaptive integration", "statement": "ProportionalControl::solve on Ok returns equally long vectors whose times start at t_start, strictly increase and end at t_stop with at most n_max accepted steps; each accepted step passed the error test. Err is returned only after n_max accepted steps that have not reached t_stop. The first step is at most h_0 wide, each further accepted step at most max(1,fac_max) times its predecessor, and the step-size factor lies in [fac_min,fac_max]. set_abs_tol and set_rel_tol panic exactly for negative values and change only that tolerance.", "quantifier": "all methods, right-hand sides and settings in exact arithmetic", "why_tests_cant": "all functions and step histories", "anchors": ["src/analysis/differential_equation/ordinary/adaptive_stepper.rs: solve"]}
{"id": "C44", "title": "Adaptive error control ignores all but the first component", "statement": "The error estimate of a column-vector state is computed from its first component alone, so a step is accepted whatever the error of the other components.", "quantifier": "all state vectors", "why_tests_cant": "tests use scalar problems", "anchors": ["src/analysis/differential_equation/ordinary/adaptive_stepper.rs: calc_error"]}
{"id": "C45", "title": "Adaptive integration may not terminate", "statement": "Rejected steps are not counted against n_max: for x' = 1/t (0 at t = 0) on [0,t_stop] with Fehlberg12 and the initial value -1021/512, solve with the default settings never returns.", "quantifier": "existence; no bound on the number of iterations", "why_tests_cant": "non-termination cannot be observed", "anchors": ["src/analysis/differential_equation/ordinary/adaptive_stepper.rs: solve"]}
{"id": "C46", "title": "Adams-Bashforth integration", "statement": "adamsbashforth of order k in 1..5 terminates and returns states where entry i follows from its predecessors by the min(i,k)-step Adams-Bashforth formula (weights exact for polynomials of degree below min(i,k)); the times are min(t_start+i*h,t_stop), end within 1e-10 of t_stop, and strictly increase whenever the k-1 start-up steps fit into the span; otherwise times repeat. The constructor accepts exactly the orders 1..5 (BDF: 1..6) with a positive step size.", "quantifier": "all right-hand sides and step sizes", "why_tests_cant": "all functions", "anchors": ["src/analysis/differential_equation/ordinary/adamsbashforth.rs"]}
{"id": "C47", "title": "BDF solver does not solve the BDF equation", "statement": "The solver named BDF computes explicit Adams-type updates; the implicit BDF relation it is documented to satisfy fails already for x'=x.", "quantifier": "all problems (formula), existence (failure)", "why_tests_cant": "tests only check loose tolerances", "anchors": ["src/analysis/differential_equation/ordinary/bdf.rs"]}
{"id": "C48", "title": "Newton-Raphson root finding", "statement": "find_root runs Newton's method: it returns Ok(x) for the first iterate x whose Newton correction is shorter than the tolerance, within the configured number of iterations, and Err if there is none; the residual at x is then at most the Jacobian norm times the tolerance. A start at a root with solvable Jacobian is returned unchanged, zero iterations give Err, affine equations need two iterations, and near a regular root convergence is quadratic and certain. (For Jacobians that `solve` handles.)", "quantifier": "all functions with Jacobian, all start points", "why_tests_cant": "all functions", "anchors": ["src/analysis/newton_raphson.rs"]}
{"id": "C49", "title": "Implicit Euler", "statement": "Every implicit Euler step that returns z satisfies z = x + h f(t+h,z) up to the root finder's tolerance; for linear systems whose matrix h*J - I the LU solver solves correctly the step always succeeds; for x' = lam x + c with lam <= 0 the whole solve returns on the grid t_start, t_start+h, .., t_stop and never grows when c = 0. A step whose equation has no solution panics (C90: so does solve on every system of two or more equations).", "quantifier": "all problems", "why_tests_cant": "all functions", "anchors": ["src/analysis/differential_equation/ordinary/implicit_euler.rs"]}
{"id": "C50", "title": "Gradient descent never increases the objective", "statement": "Gradient::new accepts exactly 0 < sigma <= 1 with at least one iteration. Gradient::minimize, if it returns, returns a point whose value is at most that of the start point, whatever the function and the reported gradient, each step being the first of 1, 1/2, 1/4, .. that passes the sufficient decrease test. With the true gradient and sigma < 1 it returns. If the gradient is L-Lipschitz, then with c = sigma*min(1, (1-sigma)/L): for an objective bounded below by low one of the iterates has |gradient|^2 <= (f(start) - low)/(c*iterations); for a convex objective whose points of value at most f(start) lie within distance R of a minimum point, the returned value exceeds the minimum by at most R^2/(c*iterations); and with the Polyak-Lojasiewicz inequality it converges linearly.", "quantifier": "all objective functions, all start points, all settings accepted by new", "why_tests_cant": "all functions", "anchors": ["src/optimization/gradient.rs"]}
{"id": "C51", "title": "Newton minimisation never increases the objective", "statement": "Newton::minimize with sigma >= 0 and rho >= 0, if it returns, returns a point whose value is at most that of the start point; strictly convex quadratics are solved by the first iteration; with true derivatives, sigma < 1, rho > 0 and Hessians that `solve` handles it returns. Started near enough to a minimum with a positive definite Hessian, every step is a full Newton step and the gradient vanishes quadratically: its norm after k iterations is at most (const * initial norm)^(2^k) / const.", "quantifier": "all objective functions with gradient and Hessian", "why_tests_cant": "all functions", "anchors": ["src/optimization/newton.rs"]}
{"id": "C52", "title": "Conjugate gradient on linear systems", "statement": "For f(x)=b-Ax with symmetric positive definite A the residual variable equals b-Ax_n in every iteration, residuals are mutually orthogonal and directions mutually A-conjugate as long as no residual vanishes, which is at most n steps; with epsilon > 0, at least n iterations and a start that is not a solution the result satisfies |b-Ax| < epsilon. Each iterate has the least error energy (x-s)^T A (x-s) among all points of the start plus the span of the directions used so far, and with m|v|^2 <= v^T A v <= M|v|^2 each iteration shrinks the error energy by at least the factor 1-m/M.", "quantifier": "all sizes, all SPD matrices, all right-hand sides", "why_tests_cant": "all sizes and contents", "anchors": ["src/optimization/conjugategradient.rs"]}
{"id": "C53", "title": "Levenberg-Marquardt and Gauss-Newton updates", "statement": "Where transposition and `solve` work (square, one-row or one-column Jacobians, solvable damped normal equations; one unknown without further condition), every accepted Levenberg-Marquardt step solves the damped normal equations and decreases the sum of squares by at least beta_0 times the predicted decrease. Gauss-Newton performs exactly the configured number of updates, which are Newton steps for square systems and least-squares steps for one unknown. Near a root of a square system with a Jacobian bounded below the distance to the root is squared by every Gauss-Newton iteration; near a stationary point of a problem in one unknown with small residuals it shrinks by a constant factor. If the sum of squares has a second-order Taylor bound and 0 < beta_0 < 1, every damping search of Levenberg-Marquardt ends (unless an iterate is exactly stationary), and with bounded Jacobians one of the first N iterates has a squared gradient of at most a constant divided by N.", "quantifier": "all residual functions", "why_tests_cant": "all functions", "anchors": ["src/optimization/levenbergmarquardt.rs", "src/optimization/gaussnewton.rs"]}
{"id": "C54", "title": "Factorial and binomial coefficient", "statement": "With overflow checks factorial(n) is n! for n<=20 and panics for every n>20; binom(n,k) is the binomial coefficient for k<=n<=20 and panics for k>n or n>20. Without overflow checks factorial(n) is n! modulo 2^64, and binom returns wrong coefficients for some n>20.", "quantifier": "all u32 arguments", "why_tests_cant": "too many arguments", "anchors": ["src/statistics/combins.rs"]}
{"id": "C55", "title": "Bernoulli distribution", "statement": "new accepts exactly 0<=p<=1; pmf is (1-p,p), panics beyond 1 and sums to one; mean and variance are those of the pmf; cdf is monotone with limits 0 and 1 and equals P(X<=x) for every x different from 0. At x=0 it is 0 instead of 1-p, and the floating point constructors accept NaN (both shown as refutations).", "quantifier": "all p and x", "why_tests_cant": "all reals", "anchors": ["src/statistics/distrib/bernoulli.rs"]}
{"id": "C56", "title": "Binomial distribution", "statement": "For n<=20 the pmf is the binomial law, sums to one, has the reported mean and variance, and cdf(x) is the sum of pmf up to floor x for 0<=x<2^32-1. Refuted outside: for negative x cdf returns pmf(0) instead of 0; n>20 and x>=2^32-1 panic; new accepts any p.", "quantifier": "all n<=20, all p, all x", "why_tests_cant": "all reals", "anchors": ["src/statistics/distrib/binomial.rs"]}
{"id": "C57", "title": "Uniform distribution", "statement": "new accepts exactly a<b; cdf is monotone from 0 to 1 and has derivative pdf away from a and b; quantile is defined exactly on [0,1] and is the inverse of cdf on [a,b]; total mass, mean, variance, skewness, entropy and median are those of the pdf.", "quantifier": "all a<b, all x", "why_tests_cant": "all reals", "anchors": ["src/statistics/distrib/uniform.rs"]}
{"id": "C58", "title": "Exponential distribution", "statement": "new accepts exactly lambda>0; cdf is monotone from 0 to 1 with derivative pdf away from 0, quantile inverts cdf on [0,1), the law is memoryless, the median is the 1/2-quantile, random() is at most x exactly when the uniform sample is at most cdf(x); total mass and moments are those of the pdf; from_data fits the mean. In f64 from_data of the empty vector returns parameter NaN.", "quantifier": "all lambda>0, all x, all samples", "why_tests_cant": "all reals", "anchors": ["src/statistics/distrib/exponential.rs"]}
{"id": "C59", "title": "Raised cosine distribution", "statement": "new accepts exactly s>=0; for s>0 pdf is non-negative, cdf is monotone from 0 to 1 with derivative pdf everywhere, both are symmetric about mu, and mass, mean, variance and skewness are those of the pdf. For s=0 the accepted distribution has density zero everywhere.", "quantifier": "all mu, s>0, x", "why_tests_cant": "all reals", "anchors": ["src/statistics/distrib/raisedcosine.rs"]}
{"id": "C60", "title": "Normal distribution", "statement": "new accepts exactly v>0. Normal::pdf equals the Gaussian density with the given mean and variance exactly when v=1 or x=mean. Mean, variance and skewness are the Gaussian moments, the entropy is never the Gaussian entropy. Over an exact error function cdf is the Gaussian distribution function; with the crate's own one cdf terminates everywhere, is 1/2 at the mean and symmetric. Quantiles are m+sqrt(v) z(p) for one z odd about 1/2, random() mirrors and satisfies the polar identity; the pair (1/2,1/2) gives NaN. With the crate's own error function cdf is within 2.5e-12 of the Gaussian distribution function, and beyond sqrt 2 standard deviations within 5e-12 of the tail probability. The distribution function at the quantile of p is p up to 3e-10 for every p in (0,1).", "quantifier": "all means, variances, arguments, random streams", "why_tests_cant": "tests only use variance 1", "anchors": ["src/statistics/distrib/normal.rs: pdf"]}
{"id": "C61", "title": "Sample mean and variance", "statement": "Normal::from_data returns the arithmetic mean and the unbiased sample variance (equal to the pairwise formula) and panics exactly for fewer than two or constant data; the result does not depend on the order and transforms correctly under affine maps of the data.", "quantifier": "all data vectors", "why_tests_cant": "all lengths and contents", "anchors": ["src/statistics/distrib/normal.rs: from_data"]}
{"id": "C62", "title": "Chi-square, beta and gamma boundary behaviour", "statement": "Boundary behaviour: ChiSquare::cdf takes negative values for negative x (degrees of freedom 2 mod 4, in particular ChiSquare(2).cdf(-2)<0 with the crate's gamma function), Beta::pdf is 1 at every x>1, gamma_lr_inv(1,q) is not the inverse of the regularised lower incomplete gamma function for any 0<q<1, and ln_gamma(x) returns gamma(x).", "quantifier": "all inputs of the named kinds", "why_tests_cant": "tests avoid these inputs", "anchors": ["src/statistics/distrib/chisquare.rs", "src/statistics/distrib/beta.rs", "src/special/gamma.rs"]}
{"id": "C63", "title": "Hypothesis tests", "statement": "The chi-square test value is Pearson's statistic of the 2 x m table with m-1 degrees of freedom: non-negative, symmetric, zero exactly for proportional samples; the G statistic likewise; over exact special functions the p value is 1-F(value), strictly between 0 and 1; unequal lengths panic. The one-sample, equal-variance and Welch t statistics are the textbook ones, Welch's p value is invariant under swapping. The p value of the one-sample and equal-variance t tests and the degrees of freedom of every t test are always 0, and a 2 x 1 table has no p value (panic).", "quantifier": "all samples", "why_tests_cant": "all lengths and contents", "anchors": ["src/statistics/test/chisquare.rs", "src/statistics/test/g.rs", "src/statistics/test/t.rs"]}
{"id": "C64", "title": "Error functions", "statement": "erf terminates without panic for every x, is odd, 0 at 0 and at most 1 for x>1; erf agrees with the error function up to 5e-12 for all x, and for |x|>1 up to 5e-12 of its distance to +-1 (plus 4e-308); erfc = 1 - erf with the same absolute accuracy; erfinv is odd on (-1,1), infinite at +-1 and panics beyond; for |x|<1 erf(erfinv(x)) is x up to relative error 1e-9; erfcinv(x)=erfinv(1-x) on [0,2] and panics outside. The f32 erfinv has the same domain, symmetry and end values but is not an inverse of erf for |x|<=15/16 (refuted at 1/2 and 9/10); for 15/16<|x|<=1-e^-25 it agrees with the f64 erfinv to 2e-7 and inverts erf to 2.3e-7.", "quantifier": "all reals", "why_tests_cant": "all reals", "anchors": ["src/special/error.rs"]}
{"id": "C65", "title": "Digamma: recurrence and accuracy", "statement": "digamma terminates for every x and digamma(x+1)=digamma(x)+1/x for all x<8.5 in exact arithmetic; wherever Gauss's limit psi(x)=lim (ln n - sum_{k<=n} 1/(x+k)) is defined, i.e. away from 0,-1,-2,..., the result lies between psi(x)-6e-16 and psi(x).", "quantifier": "all x", "why_tests_cant": "all reals", "anchors": ["src/special/gamma.rs: digamma"]}
{"id": "C66", "title": "Complex inverse functions and powers", "statement": "The complex arcsin, arccos, arcsec, arccsc, arctan, arccot, arsinh, arcosh, artanh, arcoth, arsech are right inverses of the direct functions away from their branch points, csch(arcsch z) is -z because of the sign of csch, arctan panics exactly at i and -i and arccot exactly at 0, i, -i; pow of a non-zero base is exp(w ln z), turns sums of exponents into products and pow(z,1/2) squares to z.", "quantifier": "all complex numbers", "why_tests_cant": "all values", "anchors": ["src/num/complex.rs: arcsin, arccos, arctan, arccot, arcsec, arccsc, arsinh, arcosh, artanh, arcoth, arsech, arcsch, pow"]}
{"id": "C67", "title": "Real elementary functions: domains and inverses", "statement": "On f32/f64 read as exact reals, arcsin, arccos, artanh, arcoth, arsech, coth, csch panic exactly outside their documented domain and every inverse function is a right inverse of the direct one on its domain, except arccot(0), which returns 0 instead of pi/2.", "quantifier": "all reals", "why_tests_cant": "all values", "anchors": ["src/num/primitives/mod.rs: arcsin, arccos, arccot, arcsec, arccsc, coth, csch, arsinh, arcosh, artanh, arcoth, arsech, arcsch"]}
{"id": "C68", "title": "Pseudo inverse", "statement": "pinv of a square matrix whose QR decomposition has no zero on the diagonal of R is the two-sided inverse; pinv of a column a with nonzero first entry is the row a^T/|a|^2. (For other shapes the result need not be a left inverse.)", "quantifier": "all sizes, all real entries", "why_tests_cant": "all sizes and contents", "anchors": ["src/algebra/linear/matrix/matrix.rs: pinv"]}
{"id": "C69", "title": "Poisson distribution", "statement": "new accepts exactly gamma>0; pmf is the Poisson law for k<=20 and panics beyond; mass one, mean and variance are those of the law; over an exact upper regularised gamma function cdf(n) is the sum of the law up to n; cdf overflows from n=2^32-1. With the crate's own incomplete gamma function cdf(n) differs from the sum of the law by at most 1.3e-13*cdf + 1.1e-15*max(1,min(n+1,gamma)) + 4e-308.", "quantifier": "all gamma, k, n", "why_tests_cant": "all reals", "anchors": ["src/statistics/distrib/poisson.rs"]}
{"id": "C70", "title": "Log-normal distribution", "statement": "new accepts exactly v>0; pdf is the density of exp(X) with X Gaussian; mass, mean, variance, skewness and entropy (in bits) are those of the pdf; over an exact error function cdf(x)=Phi(ln x); the median is the 1/2-quantile and has cdf 1/2 with the crate's own erf; at x=0 the f64 density is NaN. With the crate's own error function cdf is within 2.5e-12 of the log-normal distribution function. The distribution function at the quantile of p is p up to 3e-10.", "quantifier": "all parameters and x", "why_tests_cant": "all reals", "anchors": ["src/statistics/distrib/log_normal.rs"]}
{"id": "C71", "title": "Gamma distribution", "statement": "new accepts exactly a,b>0; over an exact gamma function the density is positive with mass one and the reported mean, variance and skewness, and over an exact incomplete gamma function the distribution function is 0 at 0, increases strictly to 1 and has the density as derivative; pdf panics for x<=0; with the crate's own special functions the density has relative error 6e-12 and the distribution function the accuracy of the incomplete gamma function.", "quantifier": "all a,b,x", "why_tests_cant": "all reals", "anchors": ["src/statistics/distrib/gamma.rs"]}
{"id": "C72", "title": "Chi-square distribution", "statement": "new accepts exactly n>=1; for every n below 2^32 and over exact gamma and error functions cdf is 0 at 0, increases strictly to 1, has derivative pdf, and mass, mean, variance and skewness are those of the pdf; with the crate's own functions the density has relative error 6e-12 and cdf absolute error 1.1e-11 (for x>2 relative to the upper tail 6e-12); the density is that of Gamma(n/2,1/2); the quantile for n=2 inverts the cdf. The median is only approximate and the entropy is the one of Gamma(2/n,1/2) (refuted).", "quantifier": "all n, x", "why_tests_cant": "all reals and all degrees of freedom", "anchors": ["src/statistics/distrib/chisquare.rs"]}
{"id": "C73", "title": "Beta distribution", "statement": "new accepts exactly p>=0,q>0; for p>0 and over an exact beta function the density is positive on (0,1) with mass one and the reported mean, variance and skewness; pdf panics for x<0. With the crate's own functions pdf is within a relative error of 1.7e-11 of the beta density, and (p+q<2^30) cdf terminates on (0,1) and is the integral of the crate's own pdf from 0 to x up to relative error 1e-15*max(x/(1-x),q-1) for x up to the mean; beyond the mean 1-cdf is the integral from x to 1 up to relative error 1e-15*max((1-x)/x,p-1); with 1.7e-11 added, the same bounds hold against the true distribution function. cdf(0)=0, cdf(1)=1, and cdf panics outside [0,1].", "quantifier": "all p,q,x", "why_tests_cant": "all reals", "anchors": ["src/statistics/distrib/beta.rs"]}
{"id": "C74", "title": "Student t distribution", "statement": "new accepts exactly n>=0; pdf is even, cdf(-x)=1-cdf(x), cdf(median)=1/2; over exact special functions, for every n>0, the density is positive with mass one and with the reported mean, variance and skewness, the derivative of cdf is pdf, and cdf increases strictly from 0 to 1; mean, variance and skewness panic (variance: or is infinite) exactly where the integral does not exist. With the crate's own functions pdf has relative error at most 1.2e-11, and cdf terminates within 3e-11 of the true distribution function, for x^2>n unless n is an even integer and for x^2<=n if (n-2)x^2 < 6(n+x^2), which holds whenever x^2<=6 or n<14. T(0).pdf panics everywhere and T(2).cdf panics for every x^2>2, and the reported entropy of T(1) is not the entropy of its density (refuted).", "quantifier": "all n, x", "why_tests_cant": "all reals", "anchors": ["src/statistics/distrib/t.rs"]}
{"id": "C75", "title": "Gamma and incomplete gamma functions", "statement": "gamma panics exactly at 0 and equals Gamma(z) up to relative error 5e-12 for every real z other than 0,-1,-2,...; it is positive for z>0 and satisfies the reflection formula; ln_gamma is ln Gamma(x) up to absolute error 4e-17 for all x>0; the incomplete gamma functions terminate for all a,x>0 and panic for x<=0, lower+upper=gamma and regularised lower+upper=1, regularised lower<=1 in the continued fraction branch; the regularised lower function differs from P(a,x) by at most 1.1e-15*max(1,x) relatively for x<=1 or x<=a and by at most 1.3e-13 relative to 1-P(a,x) otherwise, plus (1+3/max(a,x))*1e-308. gamma_ur_inv(1,q) is -ln q; for other a it makes at most 20 corrections, each exactly Newton's or Schroeder's step for the regularised function.", "quantifier": "all a, x, z", "why_tests_cant": "all reals, unbounded loops", "anchors": ["src/special/gamma.rs"]}
{"id": "C76", "title": "Beta functions", "statement": "The beta integral converges for a,b>0 and equals Gamma(a)Gamma(b)/Gamma(a+b); beta is symmetric, positive and within a relative error of 1.7e-11 of it; I_x(a,b)=1-I_{1-x}(b,a) for the computed values; the regularised incomplete beta function panics exactly outside its domain and is 0 and 1 at the ends; for a,b>0, a+b<2^30, 0<x<1 it terminates, and its value times beta(a,b) is the integral of t^(a-1)(1-t)^(b-1) from 0 to x up to relative error 1e-15*max(x/(1-x),b-1) when x<=a/(a+b), symmetrically for the complement otherwise; adding 1.7e-11 the same holds against the true regularised function. The unregularised function is the integral with the same relative error.", "quantifier": "all x,a,b", "why_tests_cant": "all reals", "anchors": ["src/special/beta.rs"]}
{"id": "C77", "title": "Hypergeometric function", "statement": "For a,b,c>0 and 0<=z<=1/2 f21 terminates, is symmetric in a and b, at least 1, and is a partial sum of Gauss's series; for a<=1, b<=c its relative truncation error is at most 2e-16. F(1/2,k;3/2;z) with -1<=z<0, k>1/2 and (2k-3)|z| < 6(1-z), computed through Pfaff's transformation, terminates within a relative error of 3e-16 of Euler's integral. At z=1 with a+b<c the series converges and the value returned is within 2.1e-11 (relative) of its sum (Gauss). In general the loop can stop long before the large terms, and at z=1 with a+b>c a finite value is returned for a divergent series (refuted). Non-positive parameters and z>1 panic.", "quantifier": "all a,b,c,z", "why_tests_cant": "all reals, unbounded loops", "anchors": ["src/special/hypergeometric.rs"]}
{"id": "C78", "title": "Bidiagonalisation", "statement": "For every square real matrix on which householder_bidiag returns (U,B,V), U and V are orthogonal, B is upper bidiagonal and U*B*V^T = A; it returns for every matrix with at least as many rows as columns (and at least one) whose columns are linearly independent. It panics on matrices with fewer rows than columns, without columns, or with two or more columns the first of which is zero, and for a single column U*B*V^T is not A unless the column is zero below its first entry (refuted).", "quantifier": "all real matrices of all sizes", "why_tests_cant": "all sizes and real entries", "anchors": ["src/algebra/linear/matrix/matrix.rs:householder_bidiag"]}
{"id": "C79", "title": "Singular value decomposition", "statement": "For every square real matrix on which dec_sv returns (U,S,V), U and V are orthogonal, S is diagonal and non-negative, its entries are the diagonal of U^T*A*V, and ||A||^2 = sum of s_l^2 + ||A - U*S*V^T||^2 in the Frobenius norm, so that A = U*S*V^T exactly when the squares add up to ||A||^2; it returns exactly when the bidiagonalisation does. For 2x2 matrices the error is bounded by an explicit 4000th power and is never zero unless the columns are orthogonal or dependent. For diagonal matrices the singular values are the absolute values in the order of the diagonal, so they are not sorted (refuted); every matrix that is not square panics (refuted).", "quantifier": "all real matrices of all sizes", "why_tests_cant": "all sizes and real entries", "anchors": ["src/algebra/linear/matrix/matrix.rs:dec_sv,msweep,rot"]}
{"id": "C80", "title": "Eigenvalues", "statement": "The eigenvalue iteration of dec_eigen ends after at most n passes for every input: each pass drops one, two or three rows according to which of the two lowest entries below the diagonal is negligible; the n returned values add up to the trace. For 1x1 matrices the value is right. For 2x2 matrices the diagonal of A is returned if the entry below the diagonal is nonzero (the values are then eigenvalues exactly if A is lower triangular) and the call panics otherwise. Wrong values are returned for the symmetric matrix ((0,1),(1,0)) and the 3x3 cyclic permutation; rectangular and empty matrices and every matrix of size at least 2 whose first column is zero below the diagonal panic (refuted).", "quantifier": "all real matrices of all sizes, every epsilon", "why_tests_cant": "all sizes and real entries; termination", "anchors": ["src/algebra/linear/matrix/eigen/native.rs:dec_eigen"]}
{"id": "C81", "title": "Eigenvectors", "statement": "dec_eigen returns an eigenvector matrix whenever it gets the eigenvalues. A column is an eigenvector of its value whenever the LU decomposition of A - lambda*I has exactly one zero pivot and satisfies P*(A - lambda*I) = L*U; for 2x2 lower triangular matrices all pairs are right if the entry below the diagonal is positive, and the first is wrong if it is negative. Whenever U has no zero on its diagonal the column is the zero vector, e.g. for ((0,1),(1,0)) (refuted).", "quantifier": "all real matrices of all sizes", "why_tests_cant": "all sizes and real entries", "anchors": ["src/algebra/linear/matrix/eigen/native.rs:dec_eigen", "src/algebra/linear/matrix/solve/native.rs"]}
{"id": "C82", "title": "Rounding errors of sums, products, polynomial evaluation and means", "statement": "In f64 arithmetic the trace, the dot product, the matrix-vector and the matrix-matrix product, polynomial evaluation and the arithmetic mean of a sample differ from the exact real value by at most gamma_n times the same expression in absolute values, plus a multiple of the smallest positive float for products that underflow, where gamma_n = (1+2^-53)^n - 1 <= n u/(1 - n u) and n is the length of the sum (2n for polynomial evaluation); this holds whenever the result is finite, and a finite result implies finite inputs for trace, dot product, polynomial evaluation and mean.", "quantifier": "all f64 matrices, vectors, polynomials and samples of all sizes (the mean: at most 2^53 values) with a finite result", "why_tests_cant": "all sizes and all f64 values, including subnormal numbers and cancellation", "anchors": ["src/algebra/linear/matrix/matrix.rs:trace", "src/algebra/linear/vector/vector.rs:dotp", "src/algebra/linear/matrix/mul/native.rs", "src/algebra/abstr/polynomial.rs:eval", "src/statistics/distrib/exponential.rs:calc_mean"]}
{"id": "C83", "title": "Backward error of linear systems in f64", "statement": "In f64 arithmetic the LU decomposition reproduces the row-permuted matrix up to gamma_n |L||U| entrywise, forward and backward substitution solve their triangular system up to gamma_n |T||x|, and solve returns an x whose residual is at most gamma_3n |L||U||x| with the L and U that dec_lu returns; for a matrix right-hand side (which multiplies by reciprocals of the pivots) and for inv the factor is gamma_(3n+18), columnwise (inv: residual of A X = I); the Cholesky factor satisfies |A - L L^T| <= gamma_(n+k+1) |L||L^T| if the square root (powf(1/2)) has relative accuracy gamma_k in its square. Each bound has an explicit underflow term and holds whenever the computed result is finite and the pivots are finite and nonzero; all factors are then finite.", "quantifier": "all f64 matrices and right-hand sides of all sizes whose solution is finite and whose pivots are finite and nonzero", "why_tests_cant": "all sizes and all f64 values; the bound holds for ill-conditioned systems as well", "anchors": ["src/algebra/linear/matrix/lu/native.rs:dec_lu", "src/algebra/linear/matrix/substitute/native.rs", "src/algebra/linear/matrix/solve/native.rs:solve", "src/algebra/linear/matrix/inverse/native.rs:inv", "src/algebra/linear/matrix/cholesky/native.rs:dec_cholesky"]}
{"id": "C84", "title": "Example problems of the ODE solvers", "statement": "The explicit and implicit forms of the Euler rigid-body problem are the same function; its right-hand side is the documented one with the force sin(x)^2/4 on [3 pi, 4 pi] and 0 elsewhere, continuous in x; the Jacobians of both shipped problems (Euler, Van der Pol) are the partial derivatives of their right-hand sides; along every solution of the Euler equations kinetic energy and squared angular momentum change only through the force and are conserved outside its interval; along every Van der Pol solution (x1^2+x2^2)' = 2 epsilon (1-x1^2) x2^2; the defaults are as documented; too short vectors panic. The Van der Pol right-hand side agrees with the documentation only for x1 = 0 or epsilon = 1, so not for the shipped default (refuted).", "quantifier": "all states, times, parameters and all differentiable solutions over the reals; the equality of both forms and the panics for every element type", "why_tests_cant": "all states and all solutions; a derivative is a limit", "anchors": ["src/analysis/differential_equation/ordinary/problem.rs:Euler", "src/analysis/differential_equation/ordinary/problem.rs:VanDerPolOsc"]}
{"id": "C85", "title": "Convergence of the fixed-step solvers", "statement": "For every system x' = F(t,x) of any dimension with a solution y having p+1 bounded derivatives, F Lipschitz in the state near y (and, for p>=3, with a Jacobian along y that has a quadratic remainder and p-2 bounded derivatives), the fixed-step solver with ExplicitEuler, Midpoint, Heun2, Ralston2, Heun3, Kutta3, Ralston3, Ssprk3, RungeKutta4 or Kutta38 returns, for all small step sizes h and initial errors delta, states within C*(delta+h^p) of y at every grid point, p the order the method reports and C independent of h and delta. Any explicit tableau meeting the order conditions up to p <= 5, with nodes in [0,1], has the same property (for p = 5 the right-hand side must also have a second derivative in the state along y, with a cubic remainder). Ralston4 does not converge, even for x'=1.", "quantifier": "all systems, dimensions, intervals, step sizes below a bound and initial values near the solution (exact real arithmetic)", "why_tests_cant": "a test sees one problem and finitely many step sizes; the order is a statement about all of them", "anchors": ["src/analysis/differential_equation/ordinary/fixed_stepper.rs", "src/analysis/differential_equation/ordinary/rungekutta4.rs: do_step, default, order (and the other methods)", "src/analysis/differential_equation/ordinary/butcher.rs"]}
{"id": "C86", "title": "Convergence of the multistep solvers", "statement": "For every system x' = F(t,x) of any dimension with a solution y on [t0,t1], t0<t1, that has min(k,2)+1 bounded derivatives, and F Lipschitz in the state near y, AdamsBashforth of order k (1..5) and BDF of order k (1..5) return, for all small step sizes h and initial errors delta, states within C*(delta+h^min(k,2)) of y at every returned time, the last one within 1e-10 of t1, C independent of h and delta. The order offered by the constructor is not reached for k=3,4,5: the first step is Euler's, so for x'=2t the error is exactly h^2 at every later inner grid point and no order above two holds.", "quantifier": "all orders 1..5, systems, dimensions, intervals, step sizes below a bound and initial values near the solution (exact real arithmetic)", "why_tests_cant": "a test sees one problem and finitely many step sizes; the order is a statement about all of them", "anchors": ["src/analysis/differential_equation/ordinary/adamsbashforth.rs: AdamsBashforth::solve, step_s1..step_s5", "src/analysis/differential_equation/ordinary/bdf.rs: BDF::solve"]}
{"id": "C87", "title": "Printed form of polynomials, matrices and complex numbers", "statement": "Displaying a polynomial writes exactly its terms whose coefficients are farther than the default epsilon from zero, lowest exponent first, joined by ' + '; the text determines those terms, and is empty exactly if there are none (so the zero polynomial prints as nothing). Displaying a matrix or vector writes its rows line by line; the text determines shape and entries if there is at least one row. Displaying a complex number writes 're + imi' and determines it.", "quantifier": "all polynomials, matrices, vectors and complex numbers, and every element type whose own printed form is injective and free of blanks, line feeds and x", "why_tests_cant": "Tests print a few values; that the text is never ambiguous is a statement about all pairs of values.", "anchors": ["src/algebra/abstr/polynomial.rs: Display::fmt", "src/algebra/linear/matrix/matrix.rs: Display::fmt", "src/algebra/linear/vector/vector.rs: Display::fmt", "src/num/complex.rs: Display::fmt"]}
{"id": "C88", "title": "Random matrices and samples", "statement": "Matrix::new_random, Vector::new_row_random and Vector::new_column_random return the requested shape and draw exactly one number: all entries are equal, whatever the generator. Distribution::random_sequence(n) returns n consecutive draws.", "quantifier": "all generators (any function from a state to a value and a new state), all shapes and sample sizes", "why_tests_cant": "Tests cannot check randomness; the property holds for every generator.", "anchors": ["src/algebra/linear/matrix/matrix.rs: new_random", "src/algebra/linear/vector/vector.rs: new_row_random, new_column_random", "src/statistics/distrib/distrib.rs: random_sequence"]}
{"id": "C89", "title": "Element iteration and elementwise comparison", "statement": "into_iter and iter yield every element once in column order and then None forever; a loop over iter_mut visits the same order and leaves what it assigned; converting a vector to a matrix keeps shape and entries; sign and abs work entry by entry; compare_neighbourhood on column vectors holds exactly if all entries differ by at most epsilon and is false for different shapes (on row vectors only the first entries are compared); max returns the larger number.", "quantifier": "all matrices and vectors of all sizes, all loop bodies, all tolerances", "why_tests_cant": "All sizes, all loop bodies and all entries.", "anchors": ["src/algebra/linear/matrix/matrixintoiterator.rs", "src/algebra/linear/matrix/matrixiteratormut.rs", "src/algebra/linear/vector/vectoriterator.rs", "src/algebra/linear/vector/vectoriteratormut.rs", "src/algebra/linear/vector/vector.rs: compare_neighbourhood, sign, abs", "src/algebra/linear/matrix/matrix.rs: From<Vector>"]}
{"id": "C90", "title": "Accuracy of the implicit Euler solver", "statement": "For every scalar equation x' = F(t,x) with a twice differentiable solution y, F Lipschitz and the supplied Jacobian bounded near y, ImplicitEuler::solve returns, for all small step sizes h, initial errors delta and root-finder tolerances tol with tol/h small, states within C*(delta + h + tol/h) of y at every grid point, C independent of h, delta and tol. As the crate fixes tol = 1e-8 the solver does not converge as h tends to 0: a step with h*|f| < 1e-8 returns the old state, and x' = -x with h < 1e-8 stays at its initial value. For systems of two or more equations, in exact arithmetic, solve always panics: its loop ends with a step of size 0 whose matrix is -I, on which the LU solver's signed pivot search fails; every step on a system such as x' = -x, y' = -y fails the same way.", "quantifier": "all scalar equations, intervals, small step sizes, tolerances and initial values near the solution; all systems, right-hand sides, Jacobians and step sizes for the panic (exact real arithmetic)", "why_tests_cant": "a test sees one problem and finitely many step sizes; in floating point whether the last step is exactly 0 depends on rounding", "anchors": ["src/analysis/differential_equation/ordinary/implicit_euler.rs", "src/analysis/differential_equation/ordinary/fixed_stepper.rs: ImplicitFixedStepper::solve", "src/analysis/newton_raphson.rs: find_root", "src/algebra/linear/matrix/lu/native.rs"]}
{"id": "C91", "title": "The time grid of the fixed-step solvers in binary64", "statement": "For f64, solve of the fixed-step solvers with any method, step size h > 0 and time span [t0, t1] (|t0|, |t1| <= M <= 2^1000, at most 2^47 steps) returns N+1 times and states where N differs from (t1-t0)/h by at most one plus a rounding error; the first time is exactly t0, the i-th time differs from min(t0+i*h, t1) by at most 4*i*2^-53*M, the last one from t1 by at most (4(N+1)+2)*2^-53*M + 2^-1075*h, times never decrease while they are below t1, and each state is the method applied to the previous time and state with step min(h, t1-t_i). The exact claims are false in f64: the last time can exceed t1 and [0.5, 0.8] with h = 0.1 gives five points instead of four.", "quantifier": "all finite f64 step sizes and time spans with at most 2^47 steps, all methods and initial values", "why_tests_cant": "rounding of the accumulated time depends on every bit of t0, t1 and h; a test sees a few spans and short runs", "anchors": ["src/analysis/differential_equation/ordinary/fixed_stepper.rs: FixedStepper::solve, ImplicitFixedStepper::solve"]}
{"id": "C92", "title": "The adaptive solvers terminate", "statement": "ProportionalControl::solve ends after finitely many passes for every embedded method and every set of states closed under accepted steps on which the error measure of a step of width w is at most K*w, with 0 < fac < 1, 0 < fac_min < 1 <= fac_max; it returns Ok whenever n_max is at least (t1-t0)/min(h_0, fac_min*fac^(q+1)/K). In particular it ends for every shipped method, dimension and initial value if the first component of the right-hand side is bounded and abs_tol > 0; nothing else is assumed of the right-hand side. Without such a bound the loop can run forever (C45).", "quantifier": "all methods, right-hand sides, dimensions, initial values, intervals and controllers with the stated bounds (exact real arithmetic)", "why_tests_cant": "rejected steps are not counted by n_max, so no number of tests excludes an endless loop", "anchors": ["src/analysis/differential_equation/ordinary/adaptive_stepper.rs: solve, calc_error"]}
{"id": "C93", "title": "Accuracy of the adaptive solvers", "statement": "For every smooth problem (solution with p+1 bounded derivatives, right-hand side Lipschitz near it, for order >= 3 also a smooth Jacobian) and every shipped embedded method, a successful adaptive run whose steps are at most h wide returns states within C*(delta + h^k) of the solution at every returned time, k = min(order,4), delta the initial error, C independent of the controller and its tolerances. With fac_max = 1 the solver terminates and, for n_max above an explicit bound, returns Ok with error at most C*(delta + h_0^k), so it converges as h_0 tends to 0. For Fehlberg45 and DormandPrince, which report order five, both bounds hold with k = 5 when the right-hand side also has a second derivative in the state along the solution, with a cubic remainder.", "quantifier": "all systems, dimensions, intervals, controllers, tolerances and initial values near the solution (exact real arithmetic)", "why_tests_cant": "the step history depends on the problem and the tolerances; a test sees one run", "anchors": ["src/analysis/differential_equation/ordinary/adaptive_stepper.rs: solve", "src/analysis/differential_equation/ordinary/butcher.rs: ButcherAdaptiveStepSize::do_step", "src/analysis/differential_equation/ordinary/dormandprince.rs"]}
{"id": "C94", "title": "Line searches end in binary64", "statement": "In f64 Gradient::minimize and Newton::minimize come back after at most 1076 trial points per iteration, for every objective that gives equal values at equal points (-0.0 == 0.0), provided at the points visited the objective value is not NaN (Gradient only), the coordinates are not NaN and the search direction is finite; trial points may give NaN or infinite values. If the objective is NaN at the start, Gradient::minimize never comes back.", "quantifier": "all objectives, Jacobians, Hessians, dimensions, starting points, sigma, rho and iteration counts (binary64)", "why_tests_cant": "the line searches are loops without a bound; a test sees one objective and cannot observe non-termination", "anchors": ["src/optimization/gradient.rs:Gradient::minimize", "src/optimization/newton.rs:Newton::minimize"]}
{"id": "C95", "title": "Time loops of the ODE solvers in binary64", "statement": "In f64 AdamsBashforth and BDF come back, for every equation, if the step size is at least 2^-49 of the larger end point of the interval, after a number of rounds independent of the equation. If the step size is at most 2^-55 of the start time they never return a result: adding the step leaves the time unchanged. The adaptive solver never comes back if the first component of the right-hand side is NaN at the start.", "quantifier": "all equations, orders, intervals, step sizes and initial values with the stated bounds (binary64)", "why_tests_cant": "termination depends on rounding in the accumulated time; non-termination is not observable by a test", "anchors": ["src/analysis/differential_equation/ordinary/adamsbashforth.rs:solve", "src/analysis/differential_equation/ordinary/bdf.rs:solve", "src/analysis/differential_equation/ordinary/adaptive_stepper.rs:solve"]}
{"id": "C96", "title": "Loops of the special functions in binary64", "statement": "In f64 digamma comes back for every argument of at least -2^52, for infinity and for NaN, and never for arguments of at most -2^55 and -infinity. gamma_lr never comes back if an argument is NaN or x is infinite, so the distribution function of a Gamma distribution has no value at infinity; beta_inc_reg never comes back for NaN arguments.", "quantifier": "all binary64 arguments of the stated kinds, all implementations of the elementary functions (ln(inf) = inf for the gamma case)", "why_tests_cant": "non-termination is not observable by a test; the domain is all f64 values", "anchors": ["src/special/gamma.rs:digamma", "src/special/gamma.rs:gamma_lr", "src/special/beta.rs:beta_inc_reg", "src/statistics/distrib/gamma.rs:cdf"]}
{"id": "C97", "title": "Total error of the explicit Euler solver in f64", "statement": "ExplicitEuler::solve with f64 arithmetic returns (no panic, no infinity, no NaN), and the i-th returned state differs from the exact solution at the i-th returned time by at most exp(i L w) (delta + i d) in every component. Here delta is the error of the initial value, L the Lipschitz constant of the equation near the solution, w the step size plus the rounding of the time grid, and d = M2/2 w^2 + w eps + 2^-53 (2 M K + X + 3 K w) + 2^-1074, where M2, K, X bound x'', x' and x, M bounds the times and eps is the error of the user's f64 right-hand side. So the error is of first order in the step size down to a floor of order 2^-53 / h.", "quantifier": "all finite f64 step sizes h > 0, intervals with at most 2^47 - 2 steps, dimensions, twice differentiable solutions, right-hand sides that are Lipschitz near the solution, user code that evaluates them up to eps, and initial values", "why_tests_cant": "A test sees one equation and one step size; the interplay of truncation and rounding error over millions of steps, and the absence of overflow, depend on the equation, the interval and the step size.", "anchors": ["src/analysis/differential_equation/ordinary/explicit_euler.rs: ExplicitEuler::solve", "src/analysis/differential_equation/ordinary/fixed_stepper.rs: FixedStepper::solve", "src/analysis/differential_equation/ordinary/butcher.rs: ButcherFixedStepSize::do_step"]}
{"id": "C98", "title": "The Runge-Kutta solvers in f64 follow the exact run of the same method", "statement": "Each shipped fixed-step tableau (ExplicitEuler, Midpoint, Heun2, Ralston2, Heun3, Kutta3, Ralston3, SSPRK3, RungeKutta4, Kutta38) is the documented real tableau rounded to f64. One step in f64 differs from one step in exact arithmetic by at most xi + 2 w A (eps + Lt theta + L xi), with explicit xi and theta of the size of the unit roundoff times the data. A whole f64 solve returns finite states, and its i-th state differs from the i-th state of the exact-arithmetic run of the same method on the returned times by at most exp(2 i L A w) i r, with the explicit per-step rounding error r.", "quantifier": "every finite f64 step size h > 0, interval and initial state below explicit overflow bounds, every dimension m, every f64 right-hand side that evaluates a bounded Lipschitz F up to eps on a box which the exact run does not leave, any number of steps up to 2^47", "why_tests_cant": "tests compare a few runs with a reference to a tolerance that hides rounding; the bound must hold for every right-hand side, step size and number of steps, and must separate rounding from the truncation error", "anchors": ["src/analysis/differential_equation/ordinary/fixed_stepper.rs: FixedStepper::solve", "src/analysis/differential_equation/ordinary/butcher.rs: ButcherFixedStepSize::do_step", "src/analysis/differential_equation/ordinary/rungekutta4.rs: RungeKutta4"]}
{"id": "C99", "title": "Total error of the fixed-step Runge-Kutta solvers in f64", "statement": "A fixed-step Runge-Kutta solve with f64 arithmetic returns (no panic, no infinity, no NaN), and its i-th state differs from the exact solution at the i-th returned time by at most exp(2 i L A w) (delta + i (r + d)) in every component: delta is the error of the initial value, d the local truncation error of one exact step of size up to w, r the explicit rounding error of one step (of the size of 2^-53 times the data), L the Lipschitz constant, A the size of the tableau. For a shipped method of documented order p and a smooth equation d is at most C w^(p+1), for steps of either sign, so the error is of order p in the step size down to a floor of order 2^-53 / h.", "quantifier": "every finite f64 step size h > 0, interval and initial state below explicit overflow bounds, every dimension, every f64 right-hand side that evaluates a bounded Lipschitz F up to eps near the solution, any number of steps up to 2^47; the order statement for every shipped fixed-step method except Ralston4", "why_tests_cant": "a test checks one equation with one step size against a tolerance; the split into truncation and rounding and the absence of overflow have to hold for every equation, step size and number of steps", "anchors": ["src/analysis/differential_equation/ordinary/fixed_stepper.rs: FixedStepper::solve", "src/analysis/differential_equation/ordinary/butcher.rs: ButcherFixedStepSize::do_step", "src/analysis/differential_equation/ordinary/rungekutta4.rs: RungeKutta4"]}
{"id": "C100", "title": "QR decomposition in f64", "statement": "For a finite f64 matrix A with m >= n rows whose column norms are at most 2^500, dec_qr returns finite Q and R, Q Q^T differs from the identity by at most gamma = (1 + 2^-53)^((k+16) m n) - 1 in every entry, and Q R differs from A by at most gamma times the norm of the column, provided no pair (a_jj, a_ij) it rotates is smaller than 2^-500; k measures the error of powf(1/2). Under the same conditions Q^T Q differs from the identity by at most m gamma in every entry, and R from Q^T A by at most m gamma times the sum of the moduli of the column of R plus 1.1 m gamma times the norm of the column of A. If moreover no zero a_jj meets a non-zero a_ij, the entries of column y of R below the diagonal have a sum of squares of at most 2 m (4 * 2^-53 * norm)^2. Both size conditions are needed: with entries 2^600 the answer is Q = R = 0, and with entries 3 * 2^-539 the rows of Q have squared length 0.56; neither is reported.", "quantifier": "every m >= n, every finite f64 matrix of that shape within the size bounds, every square root function of the stated accuracy", "why_tests_cant": "tests use one or two small matrices and a tolerance; the accumulated bound must hold for every matrix, and the overflow and underflow cases are not among the tested inputs", "anchors": ["src/algebra/linear/matrix/qr/native.rs: Matrix::dec_qr", "src/algebra/linear/matrix/matrix.rs: Matrix::givens"]}
{"id": "C101", "title": "Complex arithmetic in f64: errors in modulus", "statement": "On f64 components, negation and conjugation of complex numbers are exact; a finite sum or difference has an error whose modulus is at most u times the modulus of the exact result (u = 2^-53); a finite product has an error of modulus at most 3u|z||w| plus an underflow term, although its components can lose all accuracy by cancellation. For components of z up to 2^500 and of w between 2^-500 (the larger one) and 2^510, z / w neither panics nor overflows and its error has modulus at most 8u|z|/|w| plus underflow terms; outside these ranges it can be wrong altogether (1/2^600 = 0, 2^600/2^600 = NaN). In the same range abs is accurate to the accuracy of the square root plus 4u, while abs(2^600) is infinite. exp is accurate relative to |e^z| whenever the real exp, sin and cos are.", "quantifier": "all complex numbers with finite f64 components (within the stated ranges for division, modulus and exponential), all square roots, exponentials, sines and cosines of bounded error", "why_tests_cant": "The bounds range over all pairs of pairs of doubles; tests compare a few small integers, where no rounding happens.", "anchors": ["src/num/complex.rs: neg, conj, add, sub, mul, div, abs, exp"]}
{"id": "C102", "title": "Digamma in f64", "statement": "For a finite f64 x with 2^-1000 <= x <= 2^1000 and a natural logarithm accurate to a units roundoff u = 2^-53, digamma(x) leaves its loop after at most nine iterations and returns a finite number that differs from the digamma function (Gauss's limit) by at most u (24/x + (a+4) ln(x+10) + 110); the bound covers the rounding of every operation, the drift of the shifted argument and the truncation of the series. At the pole 0 the result is minus infinity.", "quantifier": "all f64 arguments in the range, all logarithms of bounded relative error, every bound of at least nine on the number of loop iterations", "why_tests_cant": "The tests compare a few arguments with tabulated values; the bound is over all positive doubles of the range and needs the exact value of the limit.", "anchors": ["src/special/gamma.rs: digamma"]}
{"id": "C103", "title": "Rounding error of the sample mean and variance in f64", "statement": "Fitting a normal distribution to a sample of at most 2^53 finite f64 values: if the computed variance is finite, the mean is within gamma_n times the mean absolute value of the exact mean, and the variance is within a relative gamma_{n+k+2} of the exact unbiased variance, plus twice the square of the error of the mean (k: accuracy of powf(x, 2)). It is not exact on constant samples: 0.1, 0.1, 0.1 has positive variance and is not rejected.", "quantifier": "every sample length up to 2^53, every finite f64 data, every accurate powf", "why_tests_cant": "the bound must hold for every sample, length and rounding pattern", "anchors": ["src/statistics/distrib/normal.rs:from_data", "src/statistics/distrib/normal.rs:calc_variance", "src/statistics/distrib/normal.rs:calc_mean"]}
{"id": "C104", "title": "Uniform and exponential distribution in f64", "statement": "Uniform: in f64 the cdf always lies in [0,1], is monotone, is exactly 0 and 1 at the end points and has a relative error of about 3 units roundoff; pdf and quantile are accurate; the quantile may leave the support (a=-3.2, b=8.4, q=1) and the cdf is NaN when b-a overflows. Exponential: pdf has a small relative error, cdf a small absolute one, and the quantile is accurate up to an absolute error of a few units roundoff over the rate; near zero the cdf and the quantile have no correct digit.", "quantifier": "every finite parameter and argument in the stated ranges, every exp and ln of the stated accuracy", "why_tests_cant": "range, monotonicity and accuracy must hold for every pair of floats", "anchors": ["src/statistics/distrib/uniform.rs:cdf", "src/statistics/distrib/uniform.rs:quantile", "src/statistics/distrib/exponential.rs:pdf", "src/statistics/distrib/exponential.rs:cdf", "src/statistics/distrib/exponential.rs:quantile"]}
{"id": "C105", "title": "Forward error of linear solves and error of the determinant in f64", "statement": "For every square f64 matrix A with real inverse A^-1 whose computed pivots are finite and nonzero: every component of the finite result of solve (one or several right-hand sides) and every entry of inv differs from the exact solution by at most the corresponding row of |A^-1| applied to the residual bound (about 3n units of roundoff times |L||U||x|, plus underflow terms). det of a 1x1 matrix is exact; of a 2x2 matrix it is within about two roundoffs of |a11 a22| + |a12 a21| (but not relatively accurate: a nonsingular matrix can give 0); of a larger matrix it is, up to its sign and within a relative error of about n roundoffs plus underflow, the exact determinant of a matrix that differs from A by at most the backward error of the LU decomposition.", "quantifier": "all matrix sizes, all f64 matrices and right-hand sides with finite results, all exact inverses and solutions", "why_tests_cant": "accuracy tests compare a handful of well-conditioned systems to a tolerance; the bound must hold for every matrix, including ill-conditioned ones", "anchors": ["src/algebra/linear/matrix/solve/native.rs: solve", "src/algebra/linear/matrix/inverse/native.rs: inv", "src/algebra/linear/matrix/matrix.rs: det", "src/algebra/linear/matrix/lu/native.rs: dec_lu"]}
{"id": "C106", "title": "Adams-Bashforth in f64 follows the exact method", "statement": "Let the right-hand side, evaluated in f64, be within eps of a function F that is bounded by K and Lipschitz with constant L on a box. Then in f64 the Adams-Bashforth solver with 1 to 5 steps returns after at most n steps when n covers (t1 - t0)/h and the rounding of the time points stays below half of its stopping tolerance; its times are t, t + min(h, t1 - t), ...; and after i steps every component of the state is finite and within exp(i q) i r of the exact Adams-Bashforth recurrence on the same time points, where q = 13 L w, w is the step size plus the time rounding, and r is a few units of rounding of the state and of the step plus 13 w eps. The solver named BDF gives the same results for up to 5 steps.", "quantifier": "all finite f64 step sizes, start and end times, all orders 1 to 5, all right-hand sides with the stated accuracy and regularity on a box, all dimensions and initial states, all step counts up to 2^47", "why_tests_cant": "The bound ranges over all right-hand sides, histories and f64 inputs; a test compares one run with one reference solution and cannot separate rounding from the truncation error.", "anchors": ["src/analysis/differential_equation/ordinary/adamsbashforth.rs: AdamsBashforth::solve, step_s1..step_s5", "src/analysis/differential_equation/ordinary/bdf.rs: BDF::solve"]}
{"id": "C107", "title": "The adaptive solver in f64", "statement": "In f64, ProportionalControl::solve with finite positive h_0, fac_min, fac_max answers Ok only with equally long vectors of at most n_max + 1 finite, nondecreasing times that start at t_start, reach t_end and pass it by at most 4 u max(|t_start|, |t_end|) (u = 2^-53); every step starts before t_end, adds some step size >= 0 to the time, is the method's result for this size, and has an error estimate of at most 1 - whatever the method, the right-hand side (NaN included) and powf return. It answers Err only after n_max accepted steps that have not reached t_end. The shipped embedded pairs are the documented coefficients rounded to f64, and their states follow the exact-arithmetic run of the returned method on the same time points within exp(i q) i r, with q and r as for the fixed-step methods (C98), when no step is longer than w. Unlike in exact arithmetic, accepted steps need not advance the time: with h_0 = 2^-60 at t = 1 the solver uses up n_max steps without moving.", "quantifier": "all step controls, methods, right-hand sides, start and end times, initial states and power functions with f64 values; for the accuracy all right-hand sides with the stated accuracy and regularity on a box", "why_tests_cant": "Step sizes depend on error estimates, so every problem takes its own sequence of accepted and rejected steps, in which NaN, infinity and underflow can occur; tests see a few sequences.", "anchors": ["src/analysis/differential_equation/ordinary/adaptive_stepper.rs: ProportionalControl::solve, calc_error", "src/analysis/differential_equation/ordinary/{fehlberg12,bogackishampine23,fehlberg45,cashkarp45,dormandprince}.rs: do_step"]}
{"id": "C108", "title": "The total error of the adaptive solver in f64", "statement": "If an adaptive solve in f64 answers Ok, and one exact step of the returned method from a point of the true solution y, of length s up to w, misses y by at most D s, then after i accepted steps every state component is finite and within exp(2 L A (T + i v)) (delta + i a + (b + D)(T + i v)) of y at the returned time t_i, where T = t_i - t_start, L is the Lipschitz constant, A bounds the coefficient sums of the method, delta is the error of the initial state, and v, a, b are the explicit rounding errors of the time, the state and the stages, all of the order of u = 2^-53. For the shipped pairs and a smooth solution D is C w^min(p,4), with p the order of the returned method. For Fehlberg45 and DormandPrince it is C w^5 when the right-hand side also has a second derivative in the state along the solution.", "quantifier": "all step controls, power functions, right-hand sides with the stated accuracy and regularity on a box, solutions, start and end times, initial states and numbers of steps", "why_tests_cant": "The accuracy depends on the step sequence the solver picks for each problem and on every rounding along it; tests compare a few runs with known solutions.", "anchors": ["src/analysis/differential_equation/ordinary/adaptive_stepper.rs: ProportionalControl::solve", "src/analysis/differential_equation/ordinary/{fehlberg12,bogackishampine23,fehlberg45,cashkarp45,dormandprince}.rs: do_step"]}
{"id": "C109", "title": "Laws of the algebraic traits", "statement": "Integers with overflow checks: Magma::operate returns the mathematical sum or product when it fits and panics otherwise; id() is neutral; Semigroup::is_associative never returns false, is true when no intermediate result overflows and panics otherwise; every signed value but the smallest has an additive inverse. Without overflow checks the wrapping operations form a commutative ring. f64: + and * commute, 0 and 1 are neutral (up to the sign of zero, not for NaN), finite values have additive inverses and x/x = 1 for finite nonzero x; is_associative is true when the exact results are representable, and in general the two bracketings differ by at most 2((1+u)^2-1) of the sum of the moduli (products: plus an underflow term), but associativity, distributivity and x*(1/x) = 1 fail (refuted). Polynomials and complex numbers over an exact ring satisfy associativity, and polynomials commutativity, with id() neutral.", "quantifier": "every integer width and signedness, all values; all f64 values; all non-empty polynomials and all complex numbers over any ring", "why_tests_cant": "the traits promise algebraic laws for all triples of values; the repository tests one triple (8, 2, 1), for which the law happens to hold", "anchors": ["src/algebra/abstr/semigroup.rs: Semigroup::is_associative", "src/algebra/abstr/magma.rs: Magma::operate", "src/algebra/abstr/identity.rs: Identity::id", "src/algebra/abstr/monoid.rs: Zero, One", "src/algebra/abstr/polynomial.rs: Magma, Identity", "src/num/complex.rs: Magma, Identity"]}
{"id": "C110", "title": "Rounding errors in single precision", "statement": "Instantiated at f32 (IEEE-754 binary32, unit roundoff 2^-24, underflow threshold 2^-150), the matrix, vector, polynomial and statistics routines satisfy the same rounding-error bounds as at f64: whenever the result is finite, the inputs were finite, and trace, dot product, matrix-vector and matrix-matrix product, polynomial evaluation and arithmetic mean (up to 2^24 samples) differ from the exact real result by at most gam(n) times the sum of absolute values plus an explicit underflow term; forward and backward substitution, LU, linear solve, matrix solve, inverse and Cholesky have small residuals; the solution and the inverse differ from the true ones by the absolute inverse times that residual bound; and the 1x1 and 2x2 determinants and, up to sign, the larger ones, are close to exact determinants. The 2x2 determinant is not relatively accurate: a matrix with determinant 2^-26 returns 0.", "quantifier": "All sizes, all f32 inputs (including subnormals; infinities and NaN are covered by the finiteness conclusion), every power function with an accurate square root for Cholesky.", "why_tests_cant": "Bounds must hold for every input and every size; sampled inputs cannot reach the worst rounding pattern and the crate's tests mostly use f64.", "anchors": ["src/algebra/linear/matrix/matrix.rs: trace, det", "src/algebra/linear/vector/vector.rs: dotp", "src/algebra/linear/matrix/mul/native.rs", "src/algebra/linear/matrix/lu/native.rs: dec_lu", "src/algebra/linear/matrix/solve/native.rs: solve", "src/algebra/linear/matrix/inverse/native.rs: inv", "src/algebra/linear/matrix/cholesky/native.rs: dec_cholesky", "src/algebra/abstr/polynomial.rs: eval", "src/statistics/distrib/normal.rs: calc_mean"]}
{"id": "C111", "title": "Newton-Raphson root finding in f64", "statement": "For one equation in f64: if near a root r the user's code evaluates the function and its derivative with errors ef and ej, the derivative is at least m and the curvature term at most K, then find_root started within rho of r never panics, the error of its iterates obeys e -> al e^2 + be e + c with c about ef/m plus one roundoff of r, a returned value is within 6 times the tolerance plus 2c of r, and a value is returned whenever the tolerance is above the level the iterates reach within the allowed iterations. A smaller tolerance is never met: for x^2 = 2 from 1.5 with tolerance 2^-53 the answer is Err for every number of iterations, because two neighbouring floats are visited in turn.", "quantifier": "all functions, derivatives, roots, starts near them, tolerances and iteration limits", "why_tests_cant": "all functions and all starting points; a limit for every number of iterations", "anchors": ["src/analysis/newton_raphson.rs find_root", "src/algebra/linear/matrix/solve/native.rs solve", "src/algebra/linear/vector/vector.rs p_norm"]}
{"id": "C112", "title": "In f64 the minimisers never return a point with a larger computed objective", "statement": "If Gradient::minimize on f64 comes back, the value the user's own f64 function returns at the result is <= the value it returns at the starting point, exactly and without allowance for rounding, for every non-negative sigma, every number of iterations and whatever the supplied Jacobian function returns (including infinities, NaN and wrong derivatives). Newton::minimize has the same property, with any Hessian function, if the objective is not NaN at a visited point and the computed slope along the direction taken is finite. Without the NaN condition it does not: for x*x/x started at 1 one Newton iteration returns 0, where the objective is NaN, while Gradient::minimize rejects that point.", "quantifier": "all objectives, Jacobians and Hessians that do not panic, all dimensions, starting points, sigma >= 0, rho >= 0, iteration counts and f64 rounding patterns", "why_tests_cant": "the objective is an arbitrary user function and every rounding pattern, overflow and NaN of the line search has to be covered", "anchors": ["src/optimization/gradient.rs: Gradient::minimize", "src/optimization/newton.rs: Newton::minimize"]}
{"id": "C113", "title": "Total error of the implicit Euler solver in f64", "statement": "ImplicitEuler::solve with f64 arithmetic, on one equation x' = F(t,x), returns (no panic, no NaN), and the i-th returned state differs from the exact solution at the i-th returned time by at most exp(2 i L w)(delta + i d). Here delta is the error of the initial value, L bounds the derivative of F in the state, w is the step size plus the rounding of the time grid, and d = M2 w^2 + 4*2^-53 M B + 6(tol + theta) + 2c with c = 5 w eps + 60*2^-53 X, where M2, B, X bound x'', F and x, M bounds the times, eps is the error of the user's f64 right-hand side, theta that of the computed norm and tol the tolerance of the inner Newton iteration. Required: w L <= 1/2, a Jacobian right up to 1/(25 w), a tolerance above the rounding level, and steps small enough that the bound stays in the region where F is known to be regular.", "quantifier": "all finite f64 step sizes h > 0, intervals with at most 2^47 - 2 steps, twice differentiable solutions, right-hand sides and Jacobians evaluated with errors eps and epsj near the solution, tolerances and iteration limits that meet the stated inequalities", "why_tests_cant": "all equations, step sizes and intervals, with every rounding error of the nested Newton iteration accounted for", "anchors": ["src/analysis/differential_equation/ordinary/implicit_euler.rs", "src/analysis/differential_equation/ordinary/fixed_stepper.rs", "src/analysis/newton_raphson.rs"]}
{"id": "C114", "title": "The Euclidean norm in f64", "statement": "Vector::eucl_norm on f64 never panics; a finite result differs from the exact norm N of the vector by at most gam(n-1+k+j) N plus a term from the underflow of the squares (of order sqrt(n) 2^-537), where gam(m) = (1+2^-53)^m - 1 and gam(k), gam(j) are the relative errors of powf(x,2) and powf(x,1/2); a vector with an infinite or NaN component never has a finite norm. The result is finite if there are at most 2^20 components, each at most 2^500 in modulus. The squares are not scaled, so beyond that range the result is not usable: the norm of (2^512) is infinite and that of (2^-538) is 0.", "quantifier": "all vectors (rows and columns) of f64 values including infinities and NaN, all dimensions, all implementations of powf with the stated accuracy", "why_tests_cant": "all vectors, all dimensions, all rounding errors, overflow and underflow", "anchors": ["src/algebra/linear/vector/vector.rs:eucl_norm", "src/algebra/linear/vector/vector.rs:p_norm"]}
{"id": "C115", "title": "Gamma and beta functions in f64", "statement": "Let the platform's pow, exp and sin be accurate to a <= 1000 units roundoff u = 2^-53 and pi to 4u. For a finite f64 z with 2^-600 <= z <= 141, gamma(z) is a finite f64 within relative error 3.5e-12 + (6a + 5000) u of Gamma(z), counting both the Lanczos approximation and all rounding errors. beta(p,q) is within relative error 1.05e-11 + (16a + 15000) u of B(p,q) for p,q >= 2^-600 with p+q <= 141, provided Gamma(p)Gamma(q) and B(p,q) lie between 2^-999 and 2^1022. gamma panics at +0 and -0. The upper limit cannot be dropped: gamma(150) is infinity although Gamma(150) = 149! < 2^900, because the power inside the Lanczos formula overflows first.", "quantifier": "all finite f64 arguments in the stated range, all accurate elementary functions", "why_tests_cant": "the range contains about 2^62 arguments and the bound must hold for every accurate libm", "anchors": ["src/special/gamma.rs: Gamma::gamma", "src/special/beta.rs: Beta::beta"]}
{"id": "C116", "title": "Densities of the gamma, chi-square, beta and t distributions in f64", "statement": "Let the platform's pow, exp and sin be accurate to a <= 1000 units roundoff u = 2^-53. If the exact values of the intermediate factors lie between 2^-990 and 2^1019, pdf returns (no panic, no NaN, no infinity) a value whose relative error is bounded: Gamma(shape al <= 141, rate be), x > 0, be x <= 699: 3.6e-12 + (9a + 5010 + 2|al-1||ln x| + 2 be x) u. ChiSquare(k <= 282), 0 < x <= 1398: 3.6e-12 + (9a + 5020 + k + 2k|ln x| + x) u. Beta(p,q), p+q <= 141, 0 < x < 1: 1.05e-11 + (18a + 15010 + 2|p-1||ln x| + 2|q-1|(|ln(1-x)|+1)) u. T(n), 2^-10 <= n <= 280, any x with x^2 <= 2^1000: 7e-12 + (13a + 10010 + 2(n+1)(ln(1+x^2/n)+1)) u. The limit on the shape is needed: for shape 150 and rate 1 the computed density at 100 is 0 although the exact one is above 2^-40.", "quantifier": "all finite f64 parameters and arguments in the stated ranges, all accurate elementary functions", "why_tests_cant": "continuum of parameters and arguments; the bound must hold for every accurate libm", "anchors": ["src/statistics/distrib/gamma.rs: Gamma::pdf", "src/statistics/distrib/chisquare.rs: ChiSquare::pdf", "src/statistics/distrib/beta.rs: Beta::pdf", "src/statistics/distrib/t.rs: T::pdf"]}
{"id": "C117", "title": "Binomial and Poisson probabilities in f64", "statement": "Let the platform's pow, exp and sin be accurate to a <= 1000 units roundoff u = 2^-53. Binomial(n <= 20, p) with 2^-40 <= p <= 1 - 2^-40: for every k <= n, pmf(k) returns (no panic, NaN or infinity) the exact binomial probability with relative error at most (3a+30) u; for every 0 <= x < 2^32 - 1, cdf(x) returns P(X <= x) with relative error at most (3a+50) u. Poisson(g) with 2^-40 <= g <= 400: for every k <= 20, pmf(k) is the exact Poisson probability with relative error at most (3a+10) u.", "quantifier": "all finite f64 parameters in the stated ranges, all n and k up to 20, all x, all accurate elementary functions", "why_tests_cant": "continuum of parameters; the bound must hold for every accurate libm", "anchors": ["src/statistics/distrib/binomial.rs: Binomial::pmf, Binomial::cdf", "src/statistics/distrib/poisson.rs: Poisson::pmf"]}
{"id": "C118", "title": "Densities of the normal, log-normal and raised cosine distributions in f64", "statement": "Let the platform's functions be accurate to a <= 1000 units roundoff u = 2^-53. Normal(mu, 1), |x - mu| <= 36: pdf(x) is the Gaussian density with relative error at most (3a + 5 + (2a+6)(x-mu)^2/2) u. For other variances v the same bound holds, with D = (x-mu)/v, |D| <= 37 in place of x-mu, against exp(-D^2/2)/sqrt(2 pi v), which is what the code evaluates: it is not the density, and with variance 4 the value at two standard deviations is more than three times the density. LogNormal(mu, s2), 2^-10 <= s2 <= 2^500, 2^-400 <= x <= 2^400, Q = (ln x - mu)^2/(2 s2) <= 690, density not near underflow: relative error at most (3a + 8 + (2a+5)Q + 2a|ln x||ln x - mu|/s2) u. RaisedCosine(mu, s): absolute error at most (a+25) u/(2s) for |x-mu| <= s - 2u(|mu|+s), and exactly 0 for |x-mu| >= s + 2u(|mu|+s).", "quantifier": "all finite f64 parameters and arguments in the stated ranges, all accurate elementary functions", "why_tests_cant": "continuum of parameters and arguments; the bound must hold for every accurate libm", "anchors": ["src/statistics/distrib/normal.rs: Normal::pdf", "src/statistics/distrib/log_normal.rs: LogNormal::pdf", "src/statistics/distrib/raisedcosine.rs: RaisedCosine::pdf"]}
{"id": "C119", "title": "Polynomial arithmetic in f64", "statement": "For all f64 polynomials: every finite coefficient of p+q, p-q (on common positions), differentiate and integrate is one rounding away from the exact coefficient; every finite coefficient of p*q is within gam(c+1) times the sum of the moduli of its terms (c = length of the shorter factor) plus the underflow term; from_root returns a monic polynomial whose coefficients, if none overflows, are within gam(2n) times the coefficients of prod (x+|r_i|) plus an underflow term of those of prod (x-r_i); p/q returns quotient a and remainder b such that, with r the remainder before trimming negligible leading coefficients, |p_k - (a q + r)_k| is at most gam(min(#a,#q)) times the moduli of the terms in every finite position, and the positions that should cancel hold at most 3 unit roundoffs of their own product.", "quantifier": "every list of f64 coefficients or roots of every length, every finite result coefficient, every tolerance of the trimming", "why_tests_cant": "the error of a coefficient depends on the values and on the degree; the bounds must hold for every degree and every pattern of cancellation", "anchors": ["src/algebra/abstr/polynomial.rs: Add, Sub, Mul, Div, from_root, differentiate, integrate"]}
{"id": "C120", "title": "Complex elementary functions in f64", "statement": "With exp accurate to a units roundoff and the real sin and cos to b, the complex sin and cos of every finite z with |Im z| <= 340 return, without panic, a finite value within 2(a+b+6) units roundoff of cosh(Im z) of the exact value; sinh and cosh likewise for |Re z| <= 340; the quotients tan, sec, csc, tanh, coth and sech (exact value t, denominator d) are accurate to 4(a+b+k)u(1+|t|)C/|d|, where C is cosh(Im z) for the circular functions and cosh(Re z) for the hyperbolic ones and k <= 11, wherever |d| exceeds the error of the computed denominator; cot, computed as 1/tan, is accurate to 4(K+3)u(1+|cot z|)^2 with K = 2(a+b+9)cosh(Im z)/|cos z|; csch returns, to the same accuracy as csc, the value -1/sinh z, of the wrong sign; ln z is accurate to a few units roundoff plus the relative error of ln in the real part, and to the error of atan2 in the imaginary part, for every z off the negative real axis with components in range.", "quantifier": "every complex number with finite f64 components in the stated ranges, every library meeting the accuracy hypotheses", "why_tests_cant": "the two exponentials of sin and cos may differ by hundreds of orders of magnitude or cancel; the bounds must hold in every such case", "anchors": ["src/num/complex.rs: exp, ln, sin, cos, tan, sinh, cosh"]}
{"id": "C121", "title": "The ln_gamma method in f64 is accurate near 0 and for large arguments", "statement": "In f64, for every x with 2^-600 <= x <= 10^6, and for platform functions (ln, sin, pow) accurate to a units in the last place and constants pi and e accurate to 4 units roundoff, x.ln_gamma() is a finite number. Its distance from ln Gamma(x) is at most 4e-17 plus (97000 + 40 a + (12 + 2 a) (x ln(x + 11) + |ln x|)) units roundoff (2^-53 each). This covers both the reflection branch (x < 1/2) and the direct branch, including the cancellation inside the alternating sum of eleven coefficients. In particular (n + 1).ln_gamma() approximates ln(n!) for every n < 10^6, well past the point where gamma itself overflows.", "quantifier": "every f64 argument between 2^-600 and 10^6, every choice of elementary functions within the accuracy bounds", "why_tests_cant": "The alternating sum loses up to a factor of thousands in relative accuracy at some arguments and much less at others. A test samples a few arguments; the bound has to hold at the worst one and for every platform libm.", "anchors": ["src/special/gamma.rs: Gamma::ln_gamma (f64)"]}
{"id": "C122", "title": "The t statistics in f64", "statement": "With a powf that squares accurately and takes square roots with relative error g = gam j <= 1/1000, and a sample whose computed variance has relative error at most r (explicit in the data, C103), a finite one-sample t statistic is within 3 sqrt(n) D/s + (2r + 10(u+g))|t| of the exact sqrt(n)(mean - mu)/s, up to underflow, where D is the error bound of the mean (r <= 1/10). For two samples with variances between 2^-900 and 2^900 and r <= 1/200, Welch's statistic is within 3(D_x + D_y)/w + (3r + 10(u+g))|t| of the exact one, w its denominator, and the equal-variance statistic within the same with 20 in place of 10. Nothing is assumed about the functions that give the p value. Without the condition on the variance this fails: three times 0.1, tested against the mean 0.1, gives a statistic above 1 where the exact test panics.", "quantifier": "all finite samples of f64 with at most 2^53 elements, all hypothesised means, power functions with the stated accuracy", "why_tests_cant": "The error depends on every rounding in means, variances and quotients, for all data; tests compare a few data sets with tabulated values.", "anchors": ["src/statistics/test/t.rs: T::one_sample, T::test_independence_equal_variance, T::test_independence_unequal_variance", "src/statistics/distrib/normal.rs: Normal::from_data"]}
