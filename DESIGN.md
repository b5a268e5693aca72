# Formal model of mathru in Rocq (Coq 8.16.1)

## Trusted base

* Coq's kernel (8.16.1). No axioms of our own, no `Admitted`, no functors or module types, no
  plugins, no kernel checks switched off.
* Standard-library axioms, only through `Reals`/Coquelicot where a theorem speaks about real
  numbers (`ClassicalDedekindReals.sig_forall_dec`, `sig_not_dec`,
  `FunctionalExtensionality.functional_extensionality_dep`, and `Classical_Prop.classic` where
  Coquelicot uses it). Every property theorem is followed by `Print Assumptions` in its file. The
  section "Assumptions per theorem" at the end lists the result.
* The hand-written Gallina model. It was read off the Rust text; every definition cites the file
  and lines it models. The correspondence model <-> Rust is by inspection only (the sandbox can
  not build the crate).

## Modelling conventions

* **Scalars.** The crate is generic over `T`. The model is generic over a record of operations
  (`Ops T`) *without laws*: zero, one, +, -, *, /, unary minus, ==, <, ... . Structural theorems
  (shapes, indices, panics, which elements move where, which operations are performed in which
  order) are proved for every such record and so hold for `f32`/`f64` with rounding, NaN and so
  on. Algebraic theorems take the laws they need as an explicit hypothesis (`RingLaws`,
  `FieldLaws`, ...). The laws leave `x/0` unspecified, so a proof can not exploit a
  totalised division. Theorems that need order, square roots or analysis are stated for the
  exact-real instance `R_ops`.
* **Instances.** `Qc_ops` (exact rationals, computable), `R_ops` (Coq's reals) and `F64_ops`
  (IEEE-754 binary64 as `SpecFloat.spec_float`, prec 53, emax 1024: pure computable stdlib
  functions, no axioms). Refutations are run by `vm_compute` on `F64_ops` and/or `Qc_ops`.
* **Exact arithmetic.** A theorem over `R`/field laws is about the algorithm executed in exact
  arithmetic. Rounding errors of `f64` are not bounded by these theorems, but by separate ones
  about `F64_ops` itself: C82 and C83 (sums, products, triangular solves, LU, Cholesky), C91 (time
  grid), C94-C96 (which loops end), C97 (explicit Euler), C98 (Runge-Kutta runs), C99 (their total error), C100 (QR),
  C101 (complex arithmetic), C102 (digamma), C103 (sample variance), C104 (uniform and exponential distribution), C105 (forward error of linear solves; determinant), C106 (Adams-Bashforth runs), C107 and C108 (adaptive solver), C109 (laws of the traits), C111 (Newton-Raphson), C112 (minimisers), C113 (implicit Euler), C114 (Euclidean norm), C115 (gamma and beta), C116 and C118 (densities), C117 (binomial and Poisson probabilities), C119 (polynomial arithmetic), C120 (complex trigonometric and hyperbolic functions and logarithm), C121 (ln_gamma), C122 (t statistics).
  For `f32` (`F32_model.v`, precision 24) the corresponding bounds of C82, C83 and C105 are C110.
* **Panics.** Every function that can panic returns `outcome A := Ret a | Panic`. `assert!`,
  index-out-of-bounds, `usize` subtraction underflow and `usize` division by zero are `Panic`
  (build with overflow checks; a release build wraps on underflow instead). Overflow of
  `usize` additions and multiplications is not modelled (`usize` is `nat`): it would need more
  memory than exists.
* **Mutation.** `&mut self` becomes "return the new value". `for` loops are `for_loop lo hi`
  (structural recursion on `hi - lo`), `while`/`loop` use fuel with an explicit
  `OutOfFuel`-style outcome, and theorems either show the fuel suffices or speak only about runs
  that end.
* **Not modelled:** the BLAS/LAPACK backends (`lapack.rs`, feature-gated), `serde`, the `Display` of the
  built-in number types and failing formatters (a parameter `show` stands for the former), the `rand`
  generator itself (a parameter), modules commented out in `mod.rs`
  (`num/real.rs`, `num/integer.rs`, `tsitouras.rs`, `nonlinearcg.rs`, `multinomial.rs`, row/column
  reference iterators), the marker traits of `algebra/abstr` (their laws are the subject of C109), and
  `f32` outside C110 (elsewhere only the constants that differ for it are treated). The accuracy of the special-function approximations is proved
  in exact real arithmetic; the rounding errors of their evaluation in `f64` are bounded for
  digamma (C102), gamma and beta (C115), ln_gamma (C121), seven densities (C116, C118) and the binomial and Poisson
  probabilities (C117).
  Public functions whose whole body is `unimplemented!()` always panic and are not modelled: the remaining
  conversions, classification and bound functions of `Complex` (complex.rs:142-403, 967, 1087-1092, 1199-1206,
  1278-1283), `Matrix::id`, `Vector::is_positive`, `Vector::is_negative`, the `abs_diff_eq` of polynomials, `combins` (combins.rs:29, 34), the `random`, `quantile` or `entropy` of
  some distributions, and the default methods of `Optim` and `ImplicitODE`.
  Library functions (`exp`, `ln`, `powf`, ...) of `f64` are parameters; on the reals they are
  the exact functions.
* **Libraries.** Flocq supplies the correctness of IEEE operations, Coquelicot limits, derivatives
  and integrals, and mathcomp is used only through it. None of their own axioms is used (they have none
  beyond the standard library's).

## Layout of rocq/theories

* `Outcome.v` panic monad, loops and their Hoare-style rules.
* `Scalar.v` operation records, law records, instances.
* `*_model.v` the model of one source area; definitions only, each citing `/repo`.
* `*_spec.v` small independent specifications (finite sums, permutation, triangularity, real value
  of a float, special functions as limits and integrals, ...).
* `*_proofs.v` lemmas.
* `P_*.v` property theorems only: statement, `Proof. exact lemma. Qed.`, `Print Assumptions`,
  and an `Example` showing that the hypotheses are met by a concrete non-trivial case.

## Plan per property

| id | property | model and proof |
|---|---|---|
| C01 | Matrix construction and element access | generic model of new/get/get_mut on list storage; direct proof |
| C02 | Constant matrices | generic; list indexing lemmas |
| C03 | Rows and columns | generic; loop invariants |
| C04 | Sub-matrix slices | generic; nested loop invariant |
| C05 | Transpose is correct exactly on square matrices and vectors | generic model of the three passes over storage with explicit scratch of option cells; number-theoretic proof that each pass is a permutation (gcd argument); refutation by exhibiting for every bad shape two indices |
| C06 | Element-wise addition and subtraction | generic |
| C07 | Matrix multiplication | entry formula generic; laws under RingLaws by finite-sum exchange |
| C08 | Matrix-vector, vector-matrix and scalar products | as C07 |
| C09 | Trace | generic trace loop; linearity and tr(AB) = tr(BA) under RingLaws by exchange of finite sums; panic iff not square |
| C10 | Exact equality | generic with hypothesis that element equality reflects Leibniz equality |
| C11 | Approximate equality inspects only the first element | generic characterisation, plus f64 counterexample |
| C12 | Row and column iteration | generic; iterator state machine |
| C13 | LU decomposition shape | generic, loop invariants (no laws needed for L,U; P needs 0,1 only) |
| C14 | LU factorisation identity | FieldLaws; invariant P*A = L_k*A_k of the elimination; counterexample at f64 and Qc |
| C15 | Triangular substitution | FieldLaws; invariants |
| C16 | Linear solve | from C14, C15 |
| C17 | Inverse | from C16; B*A=one through uniqueness |
| C18 | Singular systems are not reported | generic (never Err) + counterexamples |
| C19 | Determinant | determinant specified axiomatically as normalised alternating multilinear form; existence by Laplace expansion; LU row operations |
| C20 | Cholesky decomposition | R; induction over rows, completion of squares for positive definiteness |
| C21 | QR decomposition | R; invariant Q^T R = A |
| C22 | Givens rotations | field laws / R |
| C23 | Householder reflections | reals; the reflector is I - 2vv^T/|v|^2, so symmetric, orthogonal and mapping x to -sign(x0)|x| e1; an all-zero tail is a separate case (wrong size, refuted) |
| C24 | Hessenberg decomposition | R; invariant |
| C25 | Vector element access and slices | generic |
| C26 | Dot and dyadic product | generic folds; symmetry and linearity under RingLaws, positivity over the reals |
| C27 | Vector norms | R; Cauchy-Schwarz |
| C28 | argmax and argmin | total order on R and generic |
| C29 | Polynomial evaluation and ring operations | generic coefficient lists; evaluation is a ring homomorphism under RingLaws, by induction on the lists |
| C30 | Polynomial from roots | generic; induction over the roots: product of (x - r_i), under RingLaws |
| C31 | Polynomial division | R; induction on the division loop |
| C32 | Polynomial calculus | R; Coquelicot is_derive |
| C33 | Complex arithmetic is a field | FieldLaws + sum of squares, R instance |
| C34 | Complex conjugate and modulus | reals; components of conj, abs, arg computed; polar form from the quadrant cases of atan2; uniqueness from periodicity of sin and cos |
| C35 | Complex elementary functions | reals; each function is its component formula; addition theorems from those of the real functions; exp and ln inverse exactly on the strip -pi < Im <= pi |
| C36 | Integer sign, absolute value and tolerance tests | Z with ranges |
| C37 | Numeric conversions | Z modulo 2^w |
| C38 | Scalar approximate equality | R and f64 |
| C39 | Runge-Kutta step is the Butcher formula | module laws over generic scalar |
| C40 | Order of the explicit Runge-Kutta methods | exact rationals / R; order conditions by computation and the resulting for-all statements on linear and polynomial problems |
| C41 | Fixed-step integration grid | reals; the driver is a for_loop, invariant: the i-th time is min(t0 + i h, t1); number of steps from the ceiling; f64 counterexample computed |
| C42 | Right-hand side is evaluated only inside the time span | reals; extensional statement: two right-hand sides that agree on the time span give the same run; needs all nodes in [0, 1], checked for every shipped tableau |
| C43 | Adaptive integration | reals, fuel; invariant of the accept/reject loop; step factor clamped between fac_min and fac_max |
| C44 | Adaptive error control ignores all but the first component | generic |
| C45 | Adaptive integration may not terminate | reals; an error measure that stays above 1 rejects every step, for every fuel |
| C46 | Adams-Bashforth integration | reals, fuel; invariant: start-up states by the one-step method, then the linear recurrence with the Adams weights |
| C47 | BDF solver does not solve the BDF equation | reals; the code of the BDF solver is shown equal to Adams-Bashforth, and the BDF equation fails on an example |
| C48 | Newton-Raphson root finding | reals; one iteration through the LU solve of C16; local quadratic convergence from a Lipschitz Jacobian by induction; affine systems in one step |
| C49 | Implicit Euler | reals; Newton iteration of C48 on the residual of one step; for linear equations the step is the resolvent, hence stability |
| C50 | Gradient descent never increases the objective | reals, fuel; Armijo test gives the decrease; with a Lipschitz gradient the accepted step has a lower bound, which gives termination of the search and the 1/k rate for convex functions |
| C51 | Newton minimisation never increases the objective | reals, fuel; descent direction from a positive definite Hessian; quadratics in one step; near a minimum the full step passes both tests and the Taylor remainders square the gradient (NewtonMin_proofs.v); refutations for sigma < 0 and indefinite Hessians |
| C52 | Conjugate gradient on linear systems | reals; induction over the iterations: residuals orthogonal, directions A-conjugate, so the solution is reached in at most n steps; least error energy over the affine span (from conjugacy) and one steepest-descent step as competitor give the rate; f64 counterexamples computed |
| C53 | Levenberg-Marquardt and Gauss-Newton updates | reals; one iteration is characterised by its normal equations through the LU solve and the QR/pseudo inverse; one-unknown problems in closed form; local convergence of Gauss-Newton by induction on the distance to the solution; termination of the damping search and the gradient rate of Levenberg-Marquardt from the predicted decrease; refutations for other shapes |
| C54 | Factorial and binomial coefficient | N with u64 overflow |
| C55 | Bernoulli distribution | R; refutation at 0 |
| C56 | Binomial distribution | R; binomial theorem; sums by induction |
| C57 | Uniform distribution | reals; density, distribution function and quantile by cases; integrals by Coquelicot |
| C58 | Exponential distribution | R; improper integrals |
| C59 | Raised cosine distribution | R; integrals by antiderivatives |
| C60 | Normal distribution | R; Gaussian integral proved in Gauss_proofs.v; f64 refutation for NaN |
| C61 | Sample mean and variance | R; sums over lists by induction |
| C62 | Chi-square, beta and gamma boundary behaviour | R; parity argument for the truncated exponential |
| C63 | Hypothesis tests | R; list sums, Gibbs' inequality for the G statistic |
| C64 | Error functions | R; termination of the loops behind erf |
| C65 | Digamma: recurrence and accuracy | R; loop invariant; de Moivre's expansion encloses Gauss's limit: sign of T(x+1)-T(x)-1/x from its rational derivative, telescoping |
| C66 | Complex inverse functions and powers | R; over libm facts for the f64 refutation of pow(0, w) |
| C67 | Real elementary functions: domains and inverses | reals; each function is unfolded to the standard ones and composed with its inverse on the exact domain |
| C68 | Pseudo inverse | reals; the pseudo inverse is computed from the QR decomposition, whose properties are C21; non-square case refuted over the rationals |
| C69 | Poisson distribution | R; infinite series by Coquelicot |
| C70 | Log-normal distribution | R; improper integrals by antiderivatives with limits |
| C71 | Gamma distribution | R; Euler integrals specified by antiderivatives; recurrence of Gamma by parts |
| C72 | Chi-square distribution | R; induction over the degrees of freedom, even and odd |
| C73 | Beta distribution | R; recurrence of the beta integral by parts; distribution function from C76's reduction; accuracy from C76 |
| C74 | Student t distribution | R; substitution in Euler's integral for Gauss's function gives the derivative of the distribution function; mass and moments by substitution into the beta integral; accuracy of Pfaff's branch by uniqueness for a first-order differential equation, of the 1/z branch by two power series and Gamma(1/2) |
| C75 | Gamma and incomplete gamma functions | R; loop invariants for series and continued fraction, ODE for the power series |
| C76 | Beta functions | R; Soper's reduction: loop invariant, integration by parts identity for the remainder, geometric bound on the term ratios; the beta-gamma identity by Bohr-Mollerup, accuracy from C75 |
| C77 | Hypergeometric function | R; loop invariant: partial sums; geometric tail bound; Pfaff's branch: the series solves a first-order differential equation whose solution is Euler's integral; z=1: partial sums through a telescoping identity for the beta integrals (Gauss's summation theorem) |
| C78 | Bidiagonalisation | R; invariant of the column loop (U, V orthogonal, U*a*V^T = A, the processed rows and columns bidiagonal) from the Householder theorem; returns via a kernel argument |
| C79 | Singular value decomposition | R; a sweep multiplies by rotations, so orthogonality and the Frobenius norm are invariant; the discarded part is the off-diagonal of the last iterate; 2x2 rate by an invariant of the sweep |
| C80 | Eigenvalues | generic termination measure p; R: trace invariant of every similarity on a diagonal block; small sizes by computation |
| C81 | Eigenvectors | field laws; each column is the LU solution of (A - lambda I)x = 0, back substitution puts 1 at a zero pivot |
| C82 | Rounding errors of sums, products, polynomial evaluation and means | IEEE-754 standard model (with underflow term) derived from Flocq's correctness theorems for the operations; induction over the loops |
| C83 | Backward error of linear systems in f64 | standard model of C82; invariant of the elimination: every entry still equals the exact value of its partial sum up to the accumulated bound |
| C84 | Example problems of the ODE solvers | R; symbolic differentiation with Coquelicot; continuity through a clamp function; mean value theorem |
| C85 | Convergence of the fixed-step solvers | The model of C39-C41 over R. Stage errors are expanded by Taylor's formula in a calculus of remainders O(h^n) that is uniform over all steps (BigO_proofs.v); the order conditions for the rooted trees with up to five nodes cancel the terms below h^(p+1) (OdeLocal_proofs.v); the stages are Lipschitz in a tube around the solution (OdeConv_proofs.v); a discrete Gronwall induction over the grid gives the global bound (OdeGlobal_proofs.v). |
| C86 | Convergence of the multistep solvers | R; from the recurrence of C46: consistency of the Adams weights by Taylor expansion, stability by a Gronwall argument on the largest error so far, one first-order start-up step and one shortened last step; the refutation is an exact run on x'=2t |
| C87 | Printed form of polynomials, matrices and complex numbers | Misc_model.v: text as lists of characters, the formatting loops with their only_zero_terms flag. Induction over the loop gives the closed form; injectivity by splitting at blanks. The zero polynomial and matrices without rows are the counterexamples. |
| C88 | Random matrices and samples | Misc_model.v: the generator as a state transformer. Direct computation and induction over the sample; independence of the entries is refuted with a generator whose draws are all different. |
| C89 | Element iteration and elementwise comparison | Misc_model.v: iterators as state machines over the remaining storage; induction over the storage and over the comparison loop; a 1x2 counterexample for row vectors. |
| C90 | Accuracy of the implicit Euler solver | over R: Newton's corrections contract by 1/2 for small h whatever bounded Jacobian is supplied, so the accepted iterate solves z = x + h f(z) up to 2 tol; local error plus discrete Gronwall (OdeImplConv_proofs.v); the panic by the invariant that the first pivot stays 0 |
| C91 | The time grid of the fixed-step solvers in binary64 | fixed_solve at F64_ops; the exact step t -> min(t+h,t1) is 1-Lipschitz, each rounded step adds at most 4uM, induction over the loop; ceil and to_u64 exact below 2^52 |
| C92 | The adaptive solvers terminate | adapt_loop with fuel; invariant: the step never falls below hm; rejected steps shrink geometrically and accepted ones advance by hm, lexicographic induction |
| C93 | Accuracy of the adaptive solvers | one-step error recursion of C85 generalised to arbitrary increasing grids; the accepted steps of adapt_loop form such a grid; with fac_max = 1 combine with C92, the error measure being bounded in the tube around the solution |
| C94 | Line searches end in binary64 | binary64 instance of the generic model; after 1075 halvings of 1 the step is exactly 0 (computed), where the Armijo test holds because x + 0*d == x; NaN comparison facts for the refutation |
| C95 | Time loops of the ODE solvers in binary64 | the times are iterates of t -> t + min(h, t_stop - t); far from the end they grow by h/2, near it the distance contracts by 2^-52 until Sterbenz' lemma makes the last step exact; absorption x + d = x for |d| <= 2^-55 |x| |
| C96 | Loops of the special functions in binary64 | binary64 instance of the generic model; invariants of the loop states (NaN, non-finite numerators and denominators, absorbed increments), for every fuel |
| C97 | Total error of the explicit Euler solver in f64 | F64Euler_proofs.v: the f64 driver loop is an error recursion e' <= a e + d for any one-step method (uses the grid lemmas of C91); the Euler step in f64 satisfies it with a = 1 + L w (Taylor's formula for steps of either sign, rounding of one multiplication and one addition per component). Theorem for all data; Example x' = -x with h = 2^-10 has error at most 1/200. |
| C98 | The Runge-Kutta solvers in f64 follow the exact run of the same method | Run the same generic model at f64 and at R; per-stage induction: the argument of each stage, the node and the slope differ by kappa, which absorbs itself because L w A <= 1/2; one step gives e' = (1 + 2 L A w) e + r; whole runs by induction over the f64 time grid of C80/C97. Tableaux: each literal is evaluated and compared with the rational. |
| C99 | Total error of the fixed-step Runge-Kutta solvers in f64 | The error recursion of the f64 driver (C97) with the step comparison of C98 (f64 step from x_i against an exact step from y(t_i)): e' <= (1 + 2 L A w) e + r + d. Local order for either sign: the bigO calculus of C85 for forward steps, and for backward steps the same for the time-reversed equation. Example: RungeKutta4 on x' = -x over [0, 1], h = 2^-10, error at most 1e-8. |
| C100 | QR decomposition in f64 | A rotation changes the inner product of any two columns of (Q^T | R) by at most gamma(k+16) times their norms (cosine and sine have c^2 + s^2 = 1 up to (k+7) 2^-53, the products and the sum round twice); induction over the positions in the order of the loops, on the inner products of all pairs of columns. The part below the diagonal: the eliminated entry is a rounding error, and later rotations preserve the norm. Columns of Q: the Frobenius norms of Q Q^T - I and Q^T Q - I are equal (F64QRCol_proofs). Refutations by computation. |
| C101 | Complex arithmetic in f64: errors in modulus | Model Complex_model instantiated with F64_ops; componentwise forward errors from the standard model of rounding, combined with Cauchy-Schwarz (F64Cplx_proofs). |
| C102 | Digamma in f64 | Loop invariant on the shifted argument (relative error gamma_k) and the partial sum; Horner-like error recursion for the expansion with r <= 2/17; the digamma function is Lipschitz with constant 1/(m-1) above m, so the drift of the argument costs a few u; the truncation error is C65 (F64Digamma_proofs). |
| C103 | Rounding error of the sample mean and variance in f64 | F64Var_proofs.v: error of one squared deviation, of a rounded sum of non-negative terms with relative and absolute errors, shift identity for the sum of squares. |
| C104 | Uniform and exponential distribution in f64 | F64Dist_proofs.v (monotonicity of rounding, relative error of a quotient of differences), F64ExpDist_proofs.v (propagation through exp and ln; floats near one lie on a grid of spacing 2^-53). |
| C105 | Forward error of linear solves and error of the determinant in f64 | F64Det_spec.v, F64Det_proofs.v, P_F64Solve.v: A^-1 applied to the residual bound of C83; rounding errors of the product of the pivots combined with the determinant of P^-1 L U (Det_proofs.v). |
| C106 | Adams-Bashforth in f64 follows the exact method | F64AB_spec: the exact recurrence with weights given by their defining equations; structural invariant of the loop in f64, strong induction over the states with the dot-product and step error lemmas of C98; return by the grid error; example x' = -x |
| C107 | The adaptive solver in f64 | F64Adapt_spec.v, F64Adapt_proofs.v (invariant of the attempt loop; signs of the step size are kept by SFmul; steps by the C98 step lemma), P_F64Adapt.v |
| C108 | The total error of the adaptive solver in f64 | Induction over the accepted steps of the C107 run: each step is compared with an exact step of length t_(i+1) - t_i from the solution point; discrete Gronwall over the elapsed time instead of the step count. Files F64AdaptTotal_proofs.v, P_F64AdaptTotal.v. |
| C109 | Laws of the algebraic traits | Alg_model.v models operate, id and is_associative for integers (checked and wrapping), floats, complex numbers and polynomials. Integer theorems by case analysis on the range check and modular arithmetic, f64 theorems by Flocq, polynomial theorems from coefficientwise addition, refutations by computation. |
| C110 | Rounding errors in single precision | F32_model.v instantiates the operations at SpecFloat with precision 24 and exponent bound 128; the error analysis of C82, C83 and C105 is carried out again over that instance (F32Err/Lin/Mat/Chol/Sum/Det_proofs.v), theorems in P_F32.v and P_F32Solve.v. |
| C111 | Newton-Raphson root finding in f64 | f64; one step is the exact Newton step with perturbed function and derivative plus two roundings; induction over the iterations; the 2-cycle computed in the kernel and iterated by induction |
| C112 | In f64 the minimisers never return a point with a larger computed objective | signs of rounded sums and products, monotonicity of rounded addition, induction over the trials and the iterations (F64Descent_proofs.v, P_F64Descent.v) |
| C113 | Total error of the implicit Euler solver in f64 | the fixed stepper in f64 (C97) with a step that is only controlled near the solution; the exact equation of one step has a root by the intermediate value theorem; C111 bounds the computed root; errors summed by induction (F64Impl_proofs) |
| C114 | The Euclidean norm in f64 | the standard model of rounding for the running sum (C82, C103) and the Lipschitz-like estimate |sqrt c - sqrt s| <= a sqrt s + sqrt b from |c - s| <= a s + b; finiteness by induction on the partial sums (F64Norm_proofs) |
| C115 | Gamma and beta functions in f64 | F64Gamma_spec states how accurate pow, exp and sin are. F64Gamma_proofs bounds the rounding errors of the Lanczos sum with a multiplicative error calculus (exp(-c) y <= x <= exp(c) y); F64GammaFun_proofs carries it through the power, the exponential and the reflection formula and adds the approximation error of the Lanczos sum (from C75's machinery, extended to 0.49); F64GammaEx_proofs has the overflow at 150 and correctly rounded functions that meet the hypotheses; theorems in P_F64Gamma. |
| C116 | Densities of the gamma, chi-square, beta and t distributions in f64 | multiplicative error calculus of C115, with lemmas for a power whose base and exponent carry errors and for an exponential (F64Density_proofs); the overflow of gamma at 150 makes the gamma density 0 (F64DensityEx_proofs); theorems in P_F64Density. |
| C117 | Binomial and Poisson probabilities in f64 | multiplicative error calculus of C115 with integer powers; the sum of nonnegative terms of the distribution function keeps the relative error (F64Discrete_proofs) |
| C118 | Densities of the normal, log-normal and raised cosine distributions in f64 | error of the exponent, absolute, through subtraction, square and division; then the multiplicative calculus of C115 (F64Normal_proofs); cosine is Lipschitz for the raised cosine |
| C119 | Polynomial arithmetic in f64 | law-free description of each loop, then the f64 error calculus of F64Err_proofs per coefficient (F64Poly_proofs); the divisor loop keeps p_k = sum + rem_k up to the accumulated error; root_coef certified against the product |
| C120 | Complex elementary functions in f64 | modulus as a norm; errors of the two exponentials (C101), of the sum and of the division by 2 or 2i added in modulus; tan, sec, csc, cot, tanh, coth, sech and csch by the error of a quotient (F64CplxQuot_proofs); ln by the modulus (C101) and ln(1+t) <= 2t (F64CplxFun_proofs); the closed forms are checked against the exponential in C120_spec |
| C121 | The ln_gamma method in f64 is accurate near 0 and for large arguments | Model sln_gamma at the f64 instance. Show that the sum of the absolute values of the terms is at most 5000 times the sum for x >= 1/2 (a polynomial with positive coefficients), push the rounding errors through the fold, the logarithms and the last product, and combine with the exact-arithmetic accuracy of C75. Theorems C121_* in P_F64LnGamma.v. |
| C122 | The t statistics in f64 | mean and variance by C103; a calculus of relative errors for the denominators; error of a rounded quotient with a perturbed numerator (F64TTest_proofs); 1,2,3 and 4,5,6 meet the hypotheses |

## Assumptions per theorem

Output of `Print Assumptions`, grouped (written by tools/assumptions.py).

**Closed under the global context**

C01_get_range, C01_macro, C01_new, C01_set, C02_constants, C03_get_column, C03_get_row, C03_set_column, C03_set_row, C04_get_slice, C04_set_get_slice, C04_set_slice, C05_transpose_empty, C05_transpose_involutive, C05_transpose_meaning_iff, C05_transpose_meaning_refuted, C05_transpose_permutes, C05_transpose_storage, C06_add, C06_add_panics, C06_laws, C06_scalar, C07_assoc, C07_distr, C07_mul, C07_mul_panics, C07_one, C07_transpose, C08_assoc, C08_div_mul, C08_matrix_vector, C08_panics, C08_row_vector_accepted_refuted, C08_scalar, C08_vector_matrix, C09_cyclic, C09_linear, C09_trace, C09_trace_panics, C100_overflow_refuted, C104_uniform_overflow_refuted, C104_uniform_quantile_refuted, C105_det1, C106_bdf, C107_time_advances_refuted, C109_complex, C109_f64_laws_refuted, C109_int_associative, C109_int_associative_refuted, C109_int_inverse, C109_int_operate, C109_int_wrapping, C109_poly, C10_eq, C10_equivalence, C10_identity, C110_det1, C111_tolerance_refuted, C112_newton_nan_refuted, C115_zero, C11_all_entries_close_refuted, C11_approx, C11_approx_empty, C11_approx_vector, C12_columns, C12_elements, C12_rows, C13_never_err, C13_nonsquare_panics, C13_shape, C14_identity_iff, C14_identity_nonzero_pivots, C14_identity_refuted, C14_identity_with_error, C15_backward_matrix, C15_backward_vector, C15_forward_matrix, C15_forward_vector, C15_only_triangle_read, C15_zero_diagonal_refuted, C16_solve_matrix, C16_solve_vector, C16_stored_decomposition, C17_inverse, C17_inverse_is_solve, C18_always_ok, C18_inverse_refuted, C18_invertible_refuted, C18_positive_definite_refuted, C18_singular_refuted, C19_determinant_exists_unique, C19_no_row_exchange, C19_pivot_refuted, C19_sign_refuted, C19_single_cycle, C19_small, C19_three, C19_up_to_sign, C20_never_err, C20_nonsquare_panics, C20_not_reported_refuted, C20_reads_lower_triangle, C21_upper_triangular, C21_wide_panics, C22_givens_entries, C22_givens_orthogonal_iff, C22_givens_panics, C22_givens_rotates, C22_givens_same_index_refuted, C23_panics, C25_constants, C25_get, C25_get_slice, C25_macro, C25_new, C25_scalar, C25_set, C25_set_slice, C25_transpose, C26_dotp, C26_dotp_bilinear, C26_dotp_panics, C26_dyadp, C26_dyadp_row, C27_small_p_panics, C28_argmax, C28_argmin, C29_add, C29_eval, C29_eval_horner, C29_from_coef, C29_mul, C29_neg, C29_sub, C29_sub_iff, C29_sub_refuted, C30_empty, C30_from_root, C30_roots, C31_div, C31_div_exact, C31_reduce, C31_short, C32_differentiate, C32_differentiate_exact, C32_differentiate_integrate, C32_differentiate_integrate_close, C32_integrate, C33_div_panics_iff_f64_refuted, C33_imaginary_unit, C33_operate, C33_ring, C34_conj, C36_abs, C36_abs_diff_signed, C36_abs_diff_signed_total_refuted, C36_abs_diff_unsigned, C36_float_abs_f64, C36_float_nan_refuted, C36_ranges, C36_sign, C37_default_methods, C37_float_to_int_special, C37_int_to_int, C37_roundtrip_refuted, C38_abs_diff_reflexive_refuted, C38_assertions, C38_infinity_f64, C38_reflexive_f64, C38_symmetric_f64, C39_constant, C39_embedded_step, C39_needs_tableau, C39_step, C41_end_f64_refuted, C44_first_component, C47_bdf_is_adams_bashforth, C48_no_iterations, C51_negative_sigma_refuted, C52_start_at_solution_f64_refuted, C52_zero_eps_f64_refuted, C53_lm_non_square_refuted, C54_binom, C54_binom_panics, C54_binom_unchecked_refuted, C54_choose, C54_factorial, C54_factorial_overflow, C54_factorial_unchecked, C55_nan_refuted, C58_from_data_empty_refuted, C60_random_nan_refuted, C66_pow_zero_f64_refuted, C68_non_square_refuted, C70_pdf_zero_nan_refuted, C80_terminates, C84_euler_same, C84_short_panics, C87_complex, C87_matrix, C87_matrix_inj, C87_matrix_inj_refuted, C87_polynomial, C87_polynomial_empty, C87_polynomial_inj, C87_zero_polynomial_refuted, C88_independent_refuted, C88_random_matrix, C88_random_sequence, C88_random_vectors, C89_from_vector, C89_into_iter, C89_iter_mut, C90_systems_f64_refuted, C91_count_refuted, C91_returns, C91_within_refuted, C94_gradient, C94_gradient_nan_refuted, C94_newton, C95_adaptive_nan_refuted, C96_gamma_cdf_refuted, C96_gamma_refuted.

**`ClassicalDedekindReals.sig_forall_dec`, `FunctionalExtensionality.functional_extensionality_dep`**

C100_underflow_refuted, C101_div_overflow_refuted, C101_mul_componentwise_refuted, C101_neg_conj, C103_constant_refuted, C105_det2_refuted, C107_tableaux, C110_det2_refuted, C110_gam, C111_bound, C114_range_refuted, C119_root_coef, C14_diagonally_dominant, C14_pivot_choice, C16_solve_diagonally_dominant, C17_inverse_diagonally_dominant, C26_dotp_positive, C31_div_real, C32_antiderivative, C32_antiderivative_close, C32_derivative, C32_derivative_close, C33_div, C33_div_panics_iff, C33_eq, C33_order, C33_order_antisymmetric_refuted, C34_conj_div, C36_float, C36_float_signs, C37_float_to_int, C38_abs_diff_eq, C38_abs_diff_macro, C38_relative_eq, C38_relative_macro, C40_cash_karp_refuted, C40_embedded_exact, C40_embedded_order, C40_exact, C40_linear, C40_order, C40_ralston4_refuted, C41_fixed_grid, C41_panics, C42_fixed, C42_shipped_nodes, C43_tolerances, C46_adams_bashforth, C46_increasing_refuted, C46_new, C47_bdf_relation_refuted, C48_dominant, C48_regular, C50_new, C52_optimal, C52_orthogonal, C55_cdf, C55_cdf_zero_refuted, C55_moments, C55_new, C55_pmf, C56_cdf_law, C56_moments, C57_new, C57_quantile, C58_from_data, C58_new, C59_new, C60_new, C61_pairwise, C63_pearson, C69_cdf_overflow, C69_new, C70_new, C71_new, C72_new, C73_new, C74_moments_domain, C74_new, C82_gam, C84_defaults, C84_vdp_documented_iff, C84_vdp_documented_refuted, C85_ralston4_refuted, C86_order_refuted, C86_start_error, C89_compare, C89_compare_row, C89_compare_row_refuted, C89_compare_shape, C89_max, C89_sign_abs, C98_tableaux.

**`ClassicalDedekindReals.sig_forall_dec`, `ClassicalDedekindReals.sig_not_dec`, `FunctionalExtensionality.functional_extensionality_dep`**

C101_abs_overflow_refuted, C40_ralston4_digit, C40_ralston4_order_refuted, C48_quadratic, C69_moments.

**`ClassicalDedekindReals.sig_forall_dec`, `ClassicalDedekindReals.sig_not_dec`, `Classical_Prop.classic`, `FunctionalExtensionality.functional_extensionality_dep`**

C100_columns, C100_qr, C101_abs, C101_add, C101_div, C101_exp, C101_mul, C101_sub, C102_digamma, C102_pole, C103_about, C103_from_data, C104_exponential_cdf, C104_exponential_cdf_refuted, C104_exponential_pdf, C104_exponential_quantile, C104_exponential_quantile_refuted, C104_uniform_cdf, C104_uniform_cdf_monotone, C104_uniform_pdf, C104_uniform_quantile, C105_det, C105_det2, C105_inverse, C105_solve, C105_solve_matrix, C106_returns, C106_run, C106_total, C107_answers, C107_example, C107_gives_up, C107_run, C107_shipped, C108_example, C108_local_rate, C108_local_rate_5, C108_shipped, C108_total, C109_f64_associative_error, C109_f64_associative_exact, C109_f64_laws, C110_backward, C110_cholesky, C110_det, C110_det2, C110_dot, C110_eval, C110_forward, C110_inverse, C110_inverse_forward, C110_lu, C110_mean, C110_mul, C110_mul_vec, C110_solve, C110_solve_forward, C110_solve_forward_matrix, C110_solve_matrix, C110_trace, C111_length, C111_newton, C112_gradient, C112_newton, C113_implicit_euler, C114_finite, C114_ieee, C114_norm, C115_beta, C115_gamma, C115_overflow_refuted, C116_beta_pdf, C116_chi_pdf, C116_gamma_pdf, C116_gamma_pdf_refuted, C116_t_pdf, C117_binomial_cdf, C117_binomial_pmf, C117_poisson_pmf, C118_log_normal_pdf, C118_normal_pdf, C118_normal_pdf_refuted, C118_raised_out, C118_raised_pdf, C118_standard_pdf, C119_add, C119_differentiate, C119_div, C119_from_roots, C119_integrate, C119_mul, C119_sub, C120_cos, C120_cosh, C120_cot, C120_coth, C120_csc, C120_csch, C120_ln, C120_sec, C120_sech, C120_sin, C120_sinh, C120_spec, C120_tan, C120_tanh, C121_ln_gamma, C121_log_factorial, C121_scale, C122_constant_refuted, C122_one_sample, C122_pooled, C122_welch, C20_cholesky_spd, C20_positive_diagonal, C20_positive_iff, C20_unique, C21_first_column, C21_not_upper_refuted, C21_qr, C21_upper, C22_pair, C23_householder, C23_reflector, C23_reflector_iff, C23_reflector_refuted, C23_single, C23_zero_tail_refuted, C24_hessenberg, C24_panics_refuted, C24_returns, C27_euclidean, C27_even_p, C27_odd_p_refuted, C27_triangle, C34_abs, C34_abs_conj, C34_abs_norm, C34_arctan2, C34_polar, C34_polar_unique, C35_addition, C35_csch_refuted, C35_exp, C35_exp_ln, C35_hyperbolic, C35_ln_exp_iff, C35_sec_csc_cot, C35_sin_cos, C35_sinh_cosh, C35_tan, C37_int_to_float, C37_int_to_float_exact, C37_roundtrip, C40_quadrature, C42_adaptive, C43_adaptive, C43_err, C43_step_factor, C43_step_growth, C44_unbounded_error, C45_nonterminating, C48_affine, C48_at_root, C48_local, C48_residual, C48_run, C49_linear, C49_nonlinear_refuted, C49_solve, C49_stable, C49_step, C50_convex, C50_descent, C50_rate, C50_run, C50_sigma_one_refuted, C50_stationary, C50_terminates, C51_descent, C51_local, C51_quadratic, C51_run, C51_stuck_refuted, C51_terminates, C52_rate, C52_run, C52_solves, C53_gn_linear, C53_gn_local, C53_gn_one_unknown, C53_gn_run, C53_gn_square, C53_lm_one_unknown, C53_lm_run, C53_lm_stationary, C53_lm_terminates, C56_cdf, C56_cdf_negative_refuted, C56_cdf_overflow, C56_large_n, C56_new_refuted, C56_pmf, C57_cdf, C57_moments, C58_cdf, C58_memoryless, C58_moments, C58_quantile, C58_random, C59_cdf, C59_moments, C59_skewness, C59_symmetry, C59_zero_width_refuted, C60_cdf, C60_cdf_accuracy, C60_cdf_implementation, C60_entropy_refuted, C60_median, C60_moments, C60_pdf, C60_pdf_symmetry, C60_quantile, C60_quantile_accuracy, C60_random, C60_random_polar, C61_affine, C61_from_data, C61_permutation, C62_beta_pdf_refuted, C62_chi_cdf_negative_refuted, C62_chi_cdf_refuted, C62_gamma_lr_inv_refuted, C62_ln_gamma_refuted, C63_chi_test, C63_g_p_value, C63_g_stat, C63_g_test, C63_one_column_refuted, C63_p_value, C63_t_df_refuted, C63_t_equal_variance, C63_t_one_sample, C63_t_p_value_refuted, C63_welch, C64_erf_accuracy, C64_erf_odd, C64_erf_total, C64_erf_values, C64_erfc, C64_erfc_accuracy, C64_erfcinv, C64_erfcinv_accuracy, C64_erfinv, C64_erfinv_accuracy, C64_erfinv_f32, C64_erfinv_f32_refuted, C64_erfinv_f32_tail, C65_accuracy, C65_digamma_exists, C65_recurrence, C65_total, C66_arccot, C66_arcosh, C66_arcsec_arccsc, C66_arcsin_arccos, C66_arctan, C66_arsech_arcsch, C66_arsinh, C66_artanh_arcoth, C66_pow, C67_arccos, C67_arccot, C67_arccot_zero_refuted, C67_arcosh, C67_arcoth, C67_arcsch, C67_arcsec_arccsc, C67_arcsin, C67_arctan, C67_arsech, C67_arsinh, C67_artanh, C67_coth_csch, C68_column, C68_square, C68_upper_triangular, C69_cdf, C69_cdf_accuracy, C69_pmf, C70_cdf, C70_cdf_accuracy, C70_entropy, C70_median, C70_moments, C70_pdf, C70_quantile_accuracy, C71_cdf, C71_cdf_accuracy, C71_moments, C71_pdf_accuracy, C71_pdf_panics, C72_cdf_accuracy, C72_entropy_refuted, C72_is_gamma, C72_law, C72_median_refuted, C72_pdf_accuracy, C72_quantile_two, C73_cdf_accuracy, C73_cdf_ends, C73_cdf_high, C73_cdf_low, C73_moments, C73_pdf_accuracy, C73_support, C74_cauchy, C74_cdf, C74_cdf_accuracy, C74_cdf_two_refuted, C74_entropy_refuted, C74_is_cdf, C74_moments, C74_no_moments, C74_pdf_accuracy, C74_symmetry, C74_zero_refuted, C75_complement, C75_gamma_accuracy, C75_gamma_domain, C75_gamma_exists, C75_incomplete_accuracy, C75_incomplete_total, C75_inverse, C75_inverse_steps, C75_ln_gamma_accuracy, C75_lower_accuracy, C75_power_series, C75_reflection, C75_upper_accuracy, C75_upper_bound, C76_beta, C76_beta_accuracy, C76_beta_identity, C76_domain, C76_incomplete_high, C76_incomplete_low, C76_integral_exists, C76_reflection, C76_regularised_accuracy, C76_unregularised_high, C76_unregularised_low, C77_accuracy, C77_at_one, C77_divergent_refuted, C77_early_stop_refuted, C77_negative_accuracy, C77_partial_sum, C77_symmetric, C77_total, C77_values, C78_bidiagonal, C78_panics_refuted, C78_returns, C78_tall_refuted, C79_diagonal, C79_exact_iff, C79_order_refuted, C79_panics_refuted, C79_returns, C79_singular_values, C79_two_by_two, C80_one, C80_panics_refuted, C80_pass, C80_symmetric_refuted, C80_three_refuted, C80_trace, C80_two, C81_eigenvector, C81_returns, C81_symmetric_refuted, C81_two_lower, C81_zero_refuted, C82_dot, C82_eval, C82_mean, C82_mul, C82_mul_vec, C82_trace, C83_backward, C83_cholesky, C83_forward, C83_inverse, C83_lu, C83_solve, C83_solve_matrix, C84_euler_balance, C84_euler_conserved, C84_euler_continuous, C84_euler_jacobian, C84_euler_rhs, C84_vdp_balance, C84_vdp_jacobian, C85_order_2, C85_order_4, C85_order_5, C85_shipped, C86_adams_bashforth, C86_bdf, C90_accuracy, C90_converges_refuted, C90_stall, C90_step_panics, C90_systems_refuted, C91_grid, C91_last, C92_bounded, C92_terminates, C93_accuracy, C93_converges, C93_order_5, C95_absorbed_step_refuted, C95_multistep_returns, C96_beta_refuted, C96_digamma_refuted, C96_digamma_returns, C97_euler, C98_run, C98_shipped, C98_step, C99_local_order, C99_total.
