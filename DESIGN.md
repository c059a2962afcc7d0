# Formal model of LinearResponseVariationalBayes.py in Rocq (Coq 8.16.1)

Line numbers cited in the model refer to `/repo/LinearResponseVariationalBayes/*.py`.
151 properties (`properties.jsonl`), 551 theorems (`MANIFEST.json`).

## 1. How the code is modelled

* **Numbers.**  `Num.v` defines `num := Fin r | PInf | NInf | NaN`: the IEEE special values with *exact*
  real arithmetic on finite values (no rounding, no overflow, one unsigned zero).  All values stored in
  parameter objects and all exponential-family code use `num`, so infinite bounds, log 0, inf - inf and comparisons with
  NaN are visible.  Code whose interest is purely algebraic (sensitivity, preconditioning, masked solves, regression)
  is modelled over `R` directly.
* **Arrays.**  `Nd.v`: an array is a shape and a row-major list of entries.  `reshape`, `flatten`, slices,
  `hstack`, `ravel_multi_index`, `itertools.product` are functions on it; `ModelNumpy.v` adds broadcasting, axis sums and
  `einsum`, for any rank.
* **Exceptions** are values: `res A := Ok a | Raise e`.  Mutating methods return the new object state *and* the
  outcome, so a partial update before an exception is visible.
* **Objects** are immutable values, methods return the updated one; a parameter dictionary is a tree.
  `ModelHeap.v` models what the trees leave out: array buffers, views, and parameter objects held by several
  dictionaries; its refinement theorem says when the tree model is what the heap does.
* **External routines** (autograd, Cholesky, eigh, solve, cg, optimisers, digamma, gammaln, slogdet, inv, hermgauss, ...) are
  either the exact mathematical operation (`Derive` for autograd, the Cholesky recursion) or universally quantified
  arguments with their contract as an explicit hypothesis of the theorem.  No axiom describes them.

## 2. Files

`Num Res RSum Nd` (base) / `Model*.v` (model only, no proofs) / `Spec*.v` (independent specifications) /
`Lemmas*.v` (proofs) / `Props*.v` (property theorems: statement, `exact lemma`, concrete examples that meet the hypotheses,
`Print Assumptions`).  Theorems named `_refuted` show that a natural expectation is false of the code, next to the theorem
saying what the code does instead.

## 3. Properties

| id | property | how it is modelled and proved | file |
|----|----|----|----|
| C01 | Constrained value survives the trip through the free parameterisation | constrain/unconstrain entry maps on `num`, then arrays; case analysis on the four kinds of bounds, exp/ln over R | PropsParameters.v |
| C02 | Free value survives the trip through the constrained parameterisation | as C01, other direction | PropsParameters.v |
| C03 | set_free always lands strictly inside the bounds | as C01; strict inequalities for exp | PropsParameters.v |
| C04 | get_free rejects exactly the out-of-bounds values | unconstrain_array/scalar guards; iff by case analysis | PropsParameters.v |
| C05 | What happens on the boundary of the constraint set | num arithmetic at the bound: log 0, inf, NaN | PropsParameters.v |
| C06 | Default value of a bounded parameter | get_inbounds_value; includes the refutation for lb > 0 two-sided | PropsParameters.v |
| C07 | The constraining map is strictly increasing | monotonicity of exp and of x/(1+x) | PropsParameters.v |
| C08 | Jacobian and Hessian of bounded parameters are the true derivatives | autograd = `Derive`; closed-form `is_derive` computations, diagonal coo matrices | PropsParameters.v |
| C09 | Size validation of vector and array parameters; its absence for scalars | set/set_free/set_vector with exceptions as values | PropsParameters.v |
| C10 | Only legal bounds are ever accepted, and they never change | invariant by induction over arbitrary operation lists | PropsParameters.v |
| C11 | Dictionary sizes are the totals of its members | ModelParamsDict tree, `reachable` invariant by induction over construction histories | PropsDict.v |
| C12 | Pushing a second parameter under an existing name corrupts the sizes | push_param on an existing key of the OrderedDict | PropsDict.v |
| C13 | Dictionary free round trip: get_free after set_free | induction on the nested tree | PropsDict.v |
| C14 | Dictionary free round trip: set_free after get_free | induction on the tree; leaves in the interior of their domain | PropsDict.v |
| C15 | Dictionary vector round trip | induction on the tree | PropsDict.v |
| C16 | Index ranges locate each member in the flat vectors | tiling invariant of the index ranges | PropsDict.v |
| C17 | A wrong-size vector is rejected without touching the dictionary | guard of set_free/set_vector | PropsDict.v |
| C18 | Members are independent | members updated by their slices only | PropsDict.v |
| C19 | Growing a nested dictionary after it was pushed makes the outer sizes stale | in-place change of a nested member vs cached sizes | PropsDict.v |
| C20 | SymIndex enumerates the lower triangle | arithmetic of triangular numbers | PropsMatrix.v |
| C21 | Lower-triangular packing is lossless and rejects impossible sizes | sqrt size formula, list induction | PropsMatrix.v |
| C22 | Symmetric packing is lossless | as C21 with symmetrisation | PropsMatrix.v |
| C23 | Hand-written derivative rules of the packing primitive are right | linear maps: derivative and second derivative of the packing primitive | PropsMatrix.v |
| C24 | Positive definite parameter: free value round trip | Cholesky recursion; existence and uniqueness by induction on the size | PropsMatrix.v |
| C25 | Positive definite parameter: matrix round trip | as C24 | PropsMatrix.v |
| C26 | set_free always yields a valid positive definite matrix | L L^T + diag_lb is positive definite (quadratic forms) | PropsMatrix.v |
| C27 | get_free of a positive definite parameter fails exactly off the cone | Cholesky succeeds iff positive definite | PropsMatrix.v |
| C28 | Vectors and arrays of positive definite matrices are laid out consistently | ravel/product arithmetic | PropsMatrix.v |
| C29 | Shape check of positive definite vectors/arrays is too weak | the `.all()` shape comparison | PropsMatrix.v |
| C30 | Derivatives of positive definite parameters | derivatives of the packed L L^T by `is_derive` | PropsMatrix.v |
| C31 | set_free of a simplex parameter yields probability vectors | log-sum-exp over num/R, row by row | PropsSimplex.v |
| C32 | Simplex round trips | as C31 | PropsSimplex.v |
| C33 | Hand-derived simplex Jacobian is the true Jacobian | in-place loops as function updates; `is_derive` | PropsSimplex.v |
| C34 | Hand-derived simplex Hessian is the true Hessian | as C33, second derivatives | PropsSimplex.v |
| C35 | Subspace parameter stays in its subspace and round trips | eigh/solve as arguments with their contract as hypotheses; linear algebra | PropsProjection.v |
| C36 | offset_sparse_matrix and block layout of dictionary derivatives | coo entry sums | PropsDict.v |
| C37 | Dictionary Jacobian and Hessian are the true derivatives | tree induction over C08/C30/C33/C34 | PropsDict.v |
| C38 | convert_vector_to_free_hessian is the Hessian in free coordinates | second-order chain rule from Frechet differentiability | PropsDict.v |
| C39 | get_sparse_sub_matrix scatters the dense block | coo sums | PropsSparse.v |
| C40 | CSR pack/unpack is lossless | CSR lists | PropsSparse.v |
| C41 | Index parameters report vector positions | C15 specialised to arange, location of every member at any depth | PropsDict.v |
| C42 | Objective values depend only on their argument | Objective as a state machine, any history of calls | PropsObjective.v |
| C43 | Derivative calls leave numeric parameter values behind | traced parameters: leaves marked as tracing objects | PropsObjective.v |
| C44 | Preconditioned objective and derivatives agree with the change of variables | linear change of variables, chain rule | PropsObjective.v |
| C45 | ParameterConverter restores both parameters | converter state machine | PropsObjective.v |
| C46 | TwoParameterObjective sets the right parameter in the right form | TwoParameterObjective state machine | PropsObjective.v |
| C47 | Logger records the full history | Logger invariant over histories | PropsObjective.v |
| C48 | Derivative array holds the mixed derivatives | evaluation of derivative arrays = iterated directional derivatives | PropsSensitivity.v |
| C49 | Differentiating terms is sound | product rule for terms over any smooth tower | PropsSensitivity.v |
| C50 | consolidate_terms preserves the sum | sum invariant of the in-place consolidation loop | PropsSensitivity.v |
| C51 | consolidate_terms does not fully consolidate | refutation witness; completeness in expansions from the order of the terms (see C111) | PropsSensitivity.v, PropsSensitivity3.v |
| C52 | The sanity assertions of DerivativeTerm never fire | assertion invariant under differentiation/consolidation | PropsSensitivity.v |
| C53 | evaluate_dkinput_dhyperk returns the true derivatives of the optimum | Faa-di-Bruno style induction on the order | PropsSensitivity.v, PropsSensitivity3.v |
| C54 | evaluate_taylor_series is the Taylor polynomial | Taylor polynomial from C53 | PropsSensitivity.v, PropsSensitivity3.v |
| C55 | hyper_par_objective_functor is only safe at first order | order-1 correctness and order-2 refutation | PropsSensitivity.v |
| C56 | User-supplied Hessian and non-free flags are ignored | non-interference and refutation | PropsSensitivity.v |
| C57 | Linear sensitivity is the implicit derivative | implicit differentiation | PropsSensitivity.v |
| C58 | Matrix inverse square root | spectral theorem facts from the eigh contract | PropsOptimize.v |
| C59 | Preconditioning with the inverse square root whitens the Hessian | congruence by the inverse square root | PropsOptimize.v |
| C60 | minimize_objective wrappers return values in free coordinates | wrapper around an optimiser argument | PropsOptimize.v |
| C61 | repeatedly_optimize control flow | loop invariant over rounds | PropsOptimize.v |
| C62 | split_vector partitions the true entries | list induction on masks | PropsConjugate.v |
| C63 | recursive_split partitions into small masks and terminates | well-founded recursion on the number of true entries; divergence for terminate_len <= 0 | PropsConjugate.v |
| C64 | get_masks partitions the index range | as C63 | PropsConjugate.v |
| C65 | Masked solves add up to the full solve | sum over a partition, CG contract | PropsConjugate.v |
| C66 | Prior expectations are expectations of log densities | finite/quadrature-free identities of log densities given the moments | PropsExpFam.v |
| C67 | Natural-parameter conversions complete the square | completing the square | PropsExpFam.v |
| C68 | Entropy formulas agree across families | algebra with arbitrary special functions | PropsExpFam.v |
| C69 | Lognormal moments are consistent | algebra of exp | PropsExpFam.v, PropsFamilies.v, PropsFamilies2.v |
| C70 | Moment and natural parameterisations of normals agree | algebra of moments | PropsFamilies.v |
| C71 | Dirichlet means form a simplex | sums along an axis | PropsExpFam.v, PropsFamilies2.v |
| C72 | Gauss-Hermite expectations are exact on low-degree polynomials | quadrature rule as list with exactness hypothesis; linearity | PropsExpFam.v |
| C73 | WishartParam ignores its size | constructor sizes; refutation | PropsFamilies.v |
| C74 | Batched matrix products follow the textbook formula | einsum index bookkeeping, any rank | PropsRegression.v |
| C75 | Posterior regression coefficients solve the normal equations | linear algebra of normal equations | PropsRegression.v |
| C76 | Standard draws are symmetric quantiles | symmetry of the quantile function as hypothesis | PropsModeling.v |
| C77 | univariate_normal_log_prob is not a normal log density | refutation with the exact discrepancy | PropsModeling.v |
| C78 | Progress messages of masked solves appear at divisors of print_every | modulo arithmetic | PropsConjugate.v |
| C79 | Where the optimisation wrappers leave the parameter | last call of the recorded run | PropsOptimize.v |
| C80 | Entropies are minus the expected log density | moment hypotheses, algebra | PropsExpFam.v, PropsFamilies.v, PropsFamilies2.v |
| C81 | Categorical entropy is bounded by the uniform one | Gibbs inequality | PropsExpFam.v |
| C82 | The LKJ prior is an expected log density of the correlations | scaling of determinants; as an expected log density: the determinant of a correlation matrix is det Y over the product of its diagonal, and det X det Y = 1 by multiplicativity of the cofactor determinant | PropsExpFam.v, PropsFamilies2.v |
| C83 | Prior plus entropy is an evidence bound for normals | KL >= 0 for scalar normals; in several dimensions the determinant is shown to be the unique alternating multilinear form, hence multiplicative; with the Cholesky factor K of the covariance, ln det(K^T L K) <= tr(K^T L K) - n with equality only at the identity | PropsFamilies.v, PropsFamilies2.v |
| C84 | Second moments of the multivariate normal classes | transpose algebra | PropsFamilies.v |
| C85 | WishartParam.e_inv is not the mean of the inverse | value of e_inv in every dimension compared with the textbook formula for the mean of the inverse; that formula is quoted, not derived | PropsFamilies.v |
| C86 | Sampled logistic terms are expected log likelihoods | lists of draws | PropsModeling.v |
| C87 | Gauss-Hermite logistic terms | C72 applied to softplus; convexity bounds | PropsModeling.v |
| C88 | ParameterConverter's four functions compute the converter in the requested representations | converter evaluated in the four representations | PropsObjective.v |
| C89 | Parameter calls on shared arrays do what the per-value description says and touch nothing else | heap of buffers, arrays as views; simulation of the value model by induction on the tree | PropsHeap.v |
| C90 | set_free keeps no reference to the caller's array, get_free gives none away | every object ends with a buffer allocated during the call; frame for writes | PropsHeap.v |
| C91 | set_vector keeps the caller's array | induction on the tree, overlay of new and old contents by class | PropsHeap.v |
| C92 | get, and get_vector of scalar, vector and subspace parameters, return the stored array | update through an injective view | PropsHeap.v |
| C93 | A parameter object held at several places | the tree call flattened to a sequence of leaf calls; last write wins | PropsHeap.v |
| C94 | Deep copies and make_index_param leave the original alone | renaming of buffers and objects, then C89 | PropsHeap.v |
| C95 | names() labels the entries from left to right | names as in Python, str(k) by the decimal numerals of the standard library; induction on the tree, digits read back by an independent reader | PropsReport.v |
| C96 | dictval() reports every value under its name | nested lists and dictionaries; lookups by od_set; injectivity by induction on shape and path | PropsReport.v |
| C97 | Reading and writing through the view returned by get() | induction on the path | PropsReport.v |
| C98 | safe_matmul is the matrix product for dense and sparse arguments | sums over stored entries; induction on the entry list | PropsReport.v |
| C99 | Timer records the time since the last tic | induction on the history from its end | PropsReport.v |
| C100 | A lower-bounded vector parameter survives set_free in double precision | binary64 operators from Flocq (ModelFloat), exp and log as arguments with the contracts of SpecFloat; monotonicity of rounding, cases on overflow | PropsFloat.v |
| C101 | An upper-bounded vector parameter survives set_free in double precision | as C100 | PropsFloat.v |
| C102 | Two finite bounds in double precision: how far values can leave the interval | rounded chain of -, *, +, /, + bounded step by step; relative error of rounding; exactness of scaling by a power of two | PropsFloat.v |
| C103 | Two finite bounds in double precision: free values after which get_free raises | infinity arithmetic; 1 + e = e for e >= 2^54; the two bounds computed by the kernel | PropsFloat.v |
| C104 | In double precision get_free returns exactly on numbers between the bounds | case analysis on doubles | PropsFloat.v |
| C105 | Distribution parameters are constructed exactly for admissible lower bounds and start inside them | constructors of ModelFamilies evaluated for a symbolic bound, case analysis on the bound | PropsFamInit.v |
| C106 | Construction and default value of a vector parameter in double precision | case analysis on the doubles; rounding of lb + 1 by the ulp bounds and nearest-point lemmas of Flocq; two bounds: halving is exact and rounding monotone | PropsFloat2.v |
| C107 | Predicted output parameters of the deprecated ParametricSensitivity | the joint histories of the three parameter trees through the constructor, then the first-order results of C57 and the chain rule for the converter | PropsSensitivity2.v |
| C108 | The module-level derivative terms give the derivatives of an implicitly defined curve, at every order | induction on the order: the sum of the terms is the derivative of the gradient along the curve, so the top-order term solves the Hessian system | PropsSensitivity2.v |
| C109 | Stacks of positive definite matrices start valid; what their constructors accept | the default block is the unpacked zero vector, so the round trip of C22 gives its free value; case analysis on the shapes for given values | PropsMatrix2.v |
| C110 | Simplex parameters start uniform; rows keep their place in the vector | the uniform rows have equal logarithms; row-major positions are row * m + column, unique by Euclidean division | PropsSimplex2.v |
| C111 | print_terms shows the terms of the derivatives | output as the list of formatted values; induction on the order: the total prefactor of a derivative obeys the recursion of the coefficients of Faa di Bruno (one parent per way of raising the order); once: the parent that undoes the highest change comes first in the list, so the last child of every term is new and separates equal children while the loop deletes | PropsSensitivity3.v |
| C112 | set_free of a simplex parameter in double precision | SimplexParam over Flocq binary64 (ModelFloatSimplex), np.sum as any bracketing of any permutation; the maximum term makes the sum at least 1, so log_norm is at least the maximum and no exponent is positive; accuracy: relative error of addition at each step, exp and ln estimates, error of a sum tree by induction on the tree | PropsFloat3.v |
| C113 | get_free of a simplex parameter in double precision | cases on zero probabilities; an exponent of -750 underflows; composition of the error bounds of C112 with the logarithm | PropsFloat3.v |
| C114 | Univariate normal formulas are integrals against the normal density | improper Riemann integrals (Coquelicot); the Gaussian integral by differentiating under the integral sign, moments by integration by parts, the exponential by completing the square, all others by affine change of variables and linearity; quadrature exact on powers is exact on shifted polynomials by the binomial formula; error bounds: second order Taylor bounds integrated against the density and summed by the rule, convergence by domination | PropsIntegral.v |
| C115 | Gamma formulas are integrals against the gamma density | convergence of the gamma integral by domination, its recursion by integration by parts, its derivative under the integral sign with a second order remainder bound; rate by change of variables; uniqueness of derivatives turns the digamma contract into the integral of log x | PropsIntegral.v |
| C116 | Multivariate normal formulas are integrals against the multivariate normal density | iterated improper Riemann integrals; Cholesky factor of the information matrix, triangular change of variables by induction on the dimension (one affine change of variables per coordinate), products of one-dimensional integrals for the standard normal, linearity for quadratic functions; other orders of integration by relabelling the coordinates of the mean and the matrix (determinant of a permuted matrix by multiplicativity) | PropsMvnIntegral.v |
| C117 | Dirichlet and beta formulas are integrals against the Dirichlet and beta densities | beta integral by dominated convergence of an improper Riemann integral, recursion by integration by parts and the theorem of Bohr and Mollerup (log-convexity, functional equation and value at 1 determine the function) to identify it with the quotient of gamma functions; derivative under the integral sign for the logarithms; Dirichlet integrals by induction on the number of categories (one scaled beta integral per coordinate); other orders by relabelling the coordinates | PropsDirIntegral.v |
| C118 | Wishart formulas are integrals against the Wishart density | induction on the size: the last row of a Wishart matrix given the others is a normal column times a gamma variable (Schur complement of the diagonal entry), so that the integral over one row is a gamma integral followed by a normal one and leaves a linear function of the smaller matrix, its log determinant or its inverse; determinants and inverses of bordered matrices by L D L^T; other orders by relabelling rows and columns | PropsWishIntegral.v |
| C119 | Accuracy of the values set_free stores, in double precision | ScalarParam and ArrayParam over Flocq binary64 (ModelFloatParams); relative errors of exp, product, sum, quotient and the final addition composed entry by entry, one case per kind of bounds (LemmasFloatAcc, LemmasFloatAcc2) | PropsFloat4.v |
| C120 | Accuracy of get_free after set_free, in double precision | the stored value is the exact one with a relative perturbation of its distance to each bound (C119); ln of a perturbed number moves by at most twice the perturbation; the condition keeps the perturbation below 1/100 | PropsFloat4.v |
| C121 | Accuracy of setting a parameter to its own free value, in double precision | the relative error of exp(log d + error) is the error of the logarithm, which is relative to |log d|; then the final addition | PropsFloat4.v |
| C122 | Scalar and array parameters behave as vectors in double precision | simulation: the states correspond entry by entry, each call preserves this and answers alike; induction on the history | PropsFloat4.v |
| C123 | What set_free of a positive definite matrix parameter stores, in double precision | PosDefMatrixParam over Flocq binary64 (ModelFloatMatrix), exp and the entries of A A^T as arguments with contracts; invariant over the reachable states; relative errors composed entry by entry; absorption: d + (exp d - d) rounds to 0 for d <= -40 (LemmasFloatMatrix, 2, 3) | PropsFloat5.v |
| C124 | Which free values of a positive definite matrix parameter come back, in double precision | contract of the Cholesky factorisation (first pivot, failure on a pivot <= 0); relative error of the first pivot, ln of a perturbed number; absorption: c - c + log c rounds to 0 for c >= 2^64 (LemmasFloatMatrix3, 4); the textbook loops meet the contracts (LemmasFloatMatrix6) | PropsFloat5.v |
| C125 | The vector interface of positive definite matrix parameters in double precision | case analysis on the doubles: 2 d - d is exact unless 2 d overflows, x + 0 - 0 keeps x (LemmasFloatMatrix5) | PropsFloat5.v |
| C126 | All free values of a positive definite matrix parameter come back, in double precision | backward error of the factorisation as a contract (SpecFloatCholesky); exact perturbation theory of the Cholesky factor: with M = L^-1 C, |M M^T - I| <= g forces |M - I| <= 2 g by triangular induction (LemmasFloatCholesky, 2); success: y^T A y stays above the threshold of the contract because |y|^T E |y| <= n g |L^T y|^2 (LemmasFloatCholesky5); the textbook loop meets both contracts: induction over the columns for the backward error, over rows and columns with a null vector of the bordered factor for success (LemmasFloatCholesky3, 4) | PropsFloat6.v |
| C127 | Vectors and arrays of positive definite matrices in double precision: free values | the list comprehension over range(length) or itertools.product is a monadic map whose i-th result is the single-matrix function on the i-th part; stacking and reshaping keep the parts apart (row-major index arithmetic by induction on the shape); then C123 and C126 per part (LemmasFloatStack, LemmasFloatStack2) | PropsFloat7.v |
| C128 | Vectors and arrays of positive definite matrices in double precision: the vector interface | the same with the entries of C125, now for every double: case analysis on finite or not (LemmasFloatStack2) | PropsFloat7.v |
| C129 | Dictionaries of parameters in double precision: order, sizes and failed calls | induction over trees (a nested induction principle): the loop with offsets over the entries equals a loop over the flat list of parameters that takes parts from the front; sizes are an invariant of every way to build or change a tree (LemmasFloatDict) | PropsFloat8.v |
| C130 | Dictionaries of parameters in double precision: vectors come back | the leaf classes one by one (C125, C128 for matrices), then C129 by induction over the flat list (LemmasFloatDict2) | PropsFloat8.v |
| C131 | Dictionaries of parameters in double precision: free values come back | C113, C120, C126 and C127 for the leaves, whose setters depend only on sizes and bounds, then C129 (LemmasFloatDict3) | PropsFloat8.v |
| C132 | Positive definite matrix parameters in double precision: setting a parameter to its own free value | the backward error of the factorisation (cholesky_close) bounds L L^T - M; the error of exp of log of the diagonal and of the product are added; for the second part the margin keeps the pivots away from 0 (LemmasFloatRefresh, LemmasFloatRefresh2) | PropsFloat9.v |
| C133 | Vectors and arrays of positive definite matrices in double precision: setting them to their own free value | C132 for each matrix and the block structure of C127 (LemmasFloatRefresh3) | PropsFloat9.v |
| C134 | Simplex parameters in double precision: setting a parameter to its own free value | log(v_k) - log(v_0), exp and the sum have small errors; quotients of exponentials are quotients of entries (LemmasFloatRefresh4) | PropsFloat10.v |
| C135 | Dictionaries of parameters in double precision: setting a dictionary to its own free value | induction on the order of the parameters in the tree, with the refresh lemma of each class for the leaves (LemmasFloatDict4) | PropsFloat10.v |
| C136 | Distribution parameters in double precision: construction | the constructors are computed for every bound; the rounding of bound + 1 (LemmasFloat5) keeps fresh values well inside, and a diagonal matrix is well inside by Cauchy-Schwarz; then C135 (LemmasFloatFam2, LemmasFloatFam3) | PropsFloat11.v |
| C137 | Moments of normal distribution parameters in double precision | one correctly rounded division, one square and one addition per entry; broadcasting lemmas of LemmasNumpy (LemmasFloatFam, LemmasFloatFam4) | PropsFloat11.v |
| C138 | Moment parameters of normal distributions in double precision: what var() is worth | invariant of the object over histories; rounding is monotone, so fl(fl(a) + b) - fl(a) >= 0 for b >= 0, and it is 0 if b is below half a unit of a (LemmasFloatFam, LemmasFloatFam5) | PropsFloat11.v |
| C139 | Means of Gamma, Dirichlet and Wishart parameters and second moments of MVNArray in double precision | one rounded division or product per entry; the sum along the first axis has the error of the contract `sums` for any order, and a share of positive numbers rounds to at most 1 by monotonicity (LemmasFloatFam6) | PropsFloat12.v |
| C140 | Moments of exp of a normal variable in double precision | exp turns the absolute error of its argument into a relative one; errors are then carried through square, difference, product and sum in multiples of the error of exp (LemmasFloatFam7) | PropsFloat13.v |
| C141 | MVNParam.e_outer() is exactly symmetric in double precision | floating point addition commutes, also with NaN and infinities; doubling and halving are exact (LemmasFloatFam7) | PropsFloat13.v |
| C142 | The entropy of multinoulli probabilities in double precision | each term is bounded by cases on the probability (0, below 2^-40, larger); 1 + min_prob rounds to 1; sums of numbers that are not positive are not positive in any order (LemmasFloatEntropy) | PropsFloat14.v |
| C143 | Logit-normal expectations in double precision | case split at -100; 1-Lipschitz bound for log(expit); rounding errors of the points, of 1 / sqrt(pi) (pi from a Machin formula of the standard library) and of the terms, then the sum in any order as in C142 (LemmasFloatLogit, LemmasFloatQuad) | PropsFloat15.v |
| C144 | Entropies of univariate normal variables in double precision | error bound for sums of numbers of either sign in any order, by induction on the summation tree; the rounding errors of one term for every positive double; infinite terms absorb finite sums (LemmasFloatEntropy2) | PropsFloat16.v |
| C145 | Natural parameters and scalar priors in double precision | one broadcasting lemma for arrays and scalars; then rounding error analysis of each formula with relative and underflow errors; multiplication by -2 and -0.5 is exact (LemmasFloatPrior) | PropsFloat17.v |
| C146 | Quadrature of any integrand, logit-normal means and the Dirichlet process prior in double precision | the rounding analysis of the quadrature sum of C143 for an abstract 1-Lipschitz integrand; the logistic function and log expit are shown to be instances (LemmasFloatQuad2) | PropsFloat18.v |
| C147 | Priors of normal and Dirichlet vectors in double precision | one lemma for an inner product whose terms are known up to errors, used for each row, for the quadratic form and for the trace; the errors are added up (LemmasFloatPrior2) | PropsFloat19.v |
| C148 | Log expectation and entropy of gamma variables in double precision | rounding error analysis of one term with the errors of the library functions; then the sum of numbers of either sign in any order (LemmasFloatGamma) | PropsFloat20.v |
| C149 | Log expectation of Dirichlet variables in double precision | the array expression reduced to one column; then the error of the sum carried through psi by its contract, with the rounding errors of digamma and of the subtraction (LemmasFloatDirichlet) | PropsFloat21.v |
| C150 | Multivariate digamma and expected log determinant of Wishart matrices in double precision | the entries of linspace and their halves are exact; then the rounding error of x - i/2 carried through psi by its contract, and the sum in any order (LemmasFloatWishart) | PropsFloat22.v |
| C151 | Diagonal of the inverse of Wishart matrices and expected LKJ prior in double precision | two roundings of df - n + 1 carried through psi by its contract, the sum in any order and the products (LemmasFloatWishart2); the loss at small df by evaluating 2^-55 - 1 and monotony of rounding | PropsFloat23.v |

## 4. Trusted base

Coq's kernel (and `coqc`, `coq_makefile`); the reading of the Python code into `Model*.v` (each definition cites its source
lines); the reading of numpy, scipy, autograd and the Python builtins into the library part of the model (`Nd.v`, `ModelNumpy.v`,
`ModelAutograd.v`, `ModelSparse.v`).  No axiom is added, no kernel check is switched off.

What `Print Assumptions` lists for each theorem, abbreviated:
f = `ClassicalDedekindReals.sig_forall_dec`, n = `ClassicalDedekindReals.sig_not_dec`,
e = `FunctionalExtensionality.functional_extensionality_dep`, c = `Classical_Prop.classic`, - = closed under the global context.
All four come from Coq's standard library (the first three with `Reals`).

* C01: `C01_scalar` [fnec], `C01_vector` [fnec], `C01_array` [fnec]
* C02: `C02_C03_scalar` [fnec], `C02_C03_vector` [fnec], `C02_C03_array` [fnec]
* C03: `C02_C03_scalar` [fnec], `C02_C03_vector` [fnec], `C02_C03_array` [fnec]
* C04: `C04_scalar` [fnec], `C04_vector` [fnec], `C04_array` [fnec]
* C05: `C05_vector` [fnec], `C05_scalar` [fnec], `C05_array` [fnec]
* C06: `C06_scalar` [fnec], `C06_vector` [fnec], `C06_array` [fnec], `C06_default_in_bounds_refuted` [fnec]
* C07: `C07_vector_increasing` [fnec], `C07_vector_onto` [fnec], `C07_array_increasing` [fnec], `C07_array_onto` [fnec], `C07_scalar_increasing` [fnec], `C07_scalar_onto` [fnec]
* C08: `C08_vector` [fnec], `C08_array` [fnec], `C08_scalar` [fnec], `C08_map_is_set_get` [fne]
* C09: `C09_vector` [fne], `C09_array` [fne], `C09_scalar_no_check` [fnec]
* C10: `C10_vector` [fne], `C10_array` [fne], `C10_scalar` [fne], `C10_accepts` [fe]
* C11: `C11_sizes` [fnec]
* C12: `C12_duplicate_push` [fnec]
* C13: `C13_free_roundtrip` [fnec]
* C14: `C14_value_roundtrip` [fnec]
* C15: `C15_vector_roundtrip` [fnec], `C15_value_roundtrip` [fnec]
* C16: `C16_index_ranges` [fnec]
* C17: `C17_wrong_size` [fnec]
* C18: `C18_members_independent` [fnec], `C18_member_update` [fnec], `C18_assignment` [fe]
* C19: `C19_nested_growth` [fnec]
* C20: `C20_symmetric` [-], `C20_enumerates` [-], `C20_bijection` [-]
* C21: `C21_rejects_iff` [f], `C21_unvectorize` [f], `C21_vectorize_roundtrip` [f], `C21_vectorize_rejects` [-], `C21_size_formula` [fne]
* C22: `C22_unvectorize_symmetric` [fe], `C22_roundtrip` [fe], `C22_rejects` [f]
* C23: `C23_vjp_is_adjoint` [fe], `C23_jvp_is_derivative` [fnec]
* C24: `C24_pack_unpack` [fnec], `C24_unpack_formula` [fne]
* C25: `C25_unpack_pack` [fnec]
* C26: `C26_set_free_valid` [fnec], `C26_wrong_length` [fne], `C26_set` [fe], `C26_vector_roundtrip` [fe], `C26_default` [fe], `C26_negative_bound` [fe], `C26_given_value` [fe]
* C27: `C27_get_free_iff_posdef` [fnec]
* C28: `C28_vector_free` [fnec], `C28_vector_vector` [fe], `C28_vector_value_free` [fnec], `C28_vector_value_vector` [fe], `C28_vector_wrong_length` [fne], `C28_vector_empty` [fnec], `C28_array_free` [fnec], `C28_array_vector` [fe], `C28_array_value_free` [fnec], `C28_array_value_vector` [fe], `C28_array_wrong_length` [fne], `C28_blocks_cover` [-]
* C29: `C29_vector_set` [-], `C29_array_set` [-], `C29_wrong_length_accepted_refuted` [f]
* C30: `C30_matrix` [fnec], `C30_vector` [fnec], `C30_array` [fnec]
* C31: `C31_C32_set_free` [fnec], `C31_wrong_length` [fnec]
* C32: `C31_C32_set_free` [fnec], `C32_unconstrain_constrain` [fnec], `C32_constrain_unconstrain` [fnec], `C32_value_roundtrip` [fnec], `C32_set_vector` [-], `C32_get_vector` [-]
* C33: `C33_C34_from_moment` [fnec], `C33_jacobian` [fnec]
* C34: `C33_C34_from_moment` [fnec], `C34_hessian` [fnec]
* C35: `C35_basis` [fe], `C35_init_rejects` [fe], `C35_init_accepts` [fe], `C35_set_free` [fe], `C35_projection` [fe], `C35_derivatives` [fne], `C35_wrong_size` [fe], `C35_set_vector` [-], `C35_default` [fe]
* C36: `C36_offset` [fe], `C36_layout` [fnec]
* C37: `C37_derivatives` [fnec]
* C38: `C38_convert_hessian` [fnec]
* C39: `C39_sub_matrix` [fe], `C39_injective` [fe], `C39_rejects` [fe], `C39_sub_hessian` [fe]
* C40: `C40_csr` [-], `C40_coo` [fe], `C40_json` [f], `C40_json_rejects` [f]
* C41: `C41_index_param` [fnec]
* C42: `C42_values` [fnec]
* C43: `C43_derivative_calls` [fnec], `C43_raise_leaves_tracing` [fnec]
* C44: `C44_no_preconditioner` [fnec], `C44_value` [fnec], `C44_derivatives` [fnec]
* C45: `C45_converter` [fnec]
* C46: `C46_values` [fnec], `C46_forms` [fnec], `C46_derivative_calls` [fnec], `C46_derivative_values` [fnec], `C46_transpose` [fnec]
* C47: `C47_history` [-], `C47_raises` [-], `C47_print_every_zero` [-], `C47_verbose` [fnec]
* C48: `C48_derivative_array` [fnec]
* C49: `C49_differentiate_terms` [fnec], `C49_base_terms` [fnec]
* C50: `C50_consolidate_value` [fe]
* C51: `C51_consolidate_pairs` [fe], `C51_three_leave_two_refuted` [fe], `C51_expansions_consolidated` [fne]
* C52: `C52_order_ok` [fne], `C52_order_zero` [fne], `C52_order_negative` [fne], `C52_constructor` [fnec]
* C53: `C53_derivatives_of_optimum` [fnec], `C53_range` [fnec], `C53_functions` [fne], `C53_C54_set_order` [fnec]
* C54: `C54_taylor_polynomial` [fnec], `C54_range` [fnec], `C54_remainder` [fnec], `C54_linear_agrees` [fnec], `C53_C54_set_order` [fnec]
* C55: `C55_first_order` [fnec], `C55_second_order_refuted` [fnec]
* C56: `C56_hess0_ignored` [fnec], `C56_input_not_free_refuted` [fnec], `C56_linear_free_hyper_refuted` [fnec]
* C57: `C57_linear` [fnec], `C57_linear_constructor` [fnec], `C57_linear_quadratic_exact` [fnec], `C57_output_chain_rule` [fnec], `C57_old_quadratic_exact` [fnec]
* C58: `C58_inverse_square_root` [fne], `C58_not_clipped` [fe], `C58_rejects` [fne]
* C59: `C59_whitens` [fnec], `C59_given_hessian` [fnec], `C59_failure` [fnec], `C59_needs_point_or_hessian` [-]
* C60: `C60_C79_minimize` [fnec], `C60_needs_preconditioner` [fnec]
* C61: `C61_control_flow` [fnec], `C61_C79_parameter` [fnec], `C61_returns` [fnec], `C61_exceptions` [fnec], `C61_no_iterations` [fnec], `C61_unbound` [fnec]
* C62: `C62_split` [-], `C62_sizes` [-], `C62_partition` [-]
* C63: `C63_partition` [-], `C63_keeps_results` [-], `C63_nonterminating` [-]
* C64: `C64_masks` [-], `C64_partition` [-], `C64_rejects` [-]
* C65: `C65_records` [f], `C65_residual` [fe], `C65_exact` [fe], `C65_masks_of_get_masks` [-], `C65_masks_of_recursive_split` [-], `C65_bad_mask` [f], `C65_bad_vector` [f], `C65_initialize` [-], `C65_new_solver` [fe]
* C66: `C66_normal` [fnec], `C66_multivariate_normal` [fnec], `C66_gamma` [fnec], `C66_exponential` [fnec], `C66_dirichlet` [fnec], `C66_dirichlet_shapes` [fe]
* C67: `C67_square` [fe], `C67_inverse` [fe]
* C68: `C68_beta_is_dirichlet` [fe], `C68_wishart_is_gamma` [fnec], `C68_diagonal_normal` [fnec], `C68_recursion` [fnec], `C68_not_positive` [fnec], `C68_wishart_not_positive` [fnec]
* C69: `C69_moments` [fnec], `C69_classes` [fnec], `C69_moment_array_refuted` [fne], `C69_moment_array_e2_refuted` [fne]
* C70: `C70_from_normals` [fnec], `C70_shapes` [fe], `C70_constant_shapes` [fe], `C70_from_constant` [fnec], `C70_constructed` [fe]
* C71: `C71_simplex` [fe], `C71_rescaling` [fe], `C71_class` [fe]
* C72: `C72_polynomials` [fne], `C72_quadrature` [fne], `C72_shapes` [fne], `C72_log_logitnormal` [fnec], `C72_logitnormal` [fne], `C72_dp_prior` [fnec]
* C73: `C73_size` [fe], `C73_default` [fe]
* C74: `C74_mat_entry` [f], `C74_vec_entry` [f], `C74_mat_every` [f], `C74_vec_every` [f], `C74_mat_mul` [fe], `C74_mat_vec` [fe], `C74_mat_mul_ranks` [f], `C74_mat_mul_low` [f], `C74_mat_mul_inner` [f], `C74_mat_mul_batch` [f], `C74_mat_vec_inner` [f], `C74_mat_vec_rank` [f]
* C75: `C75_posterior_normal_equations` [fe], `C75_regression_normal_equations` [fe], `C75_posterior_minimises` [fe], `C75_regression_minimises` [fe]
* C76: `C76_draws` [fe], `C76_antisymmetric` [fe], `C76_increasing` [fe]
* C77: `C77_value` [fnec], `C77_log_prob_refuted` [fnec]
* C78: `C78_progress_messages` [f]
* C79: `C60_C79_minimize` [fnec], `C61_C79_parameter` [fnec]
* C80: `C80_normal` [fnec], `C80_gamma` [fnec], `C80_dirichlet` [fnec], `C80_multivariate_normal` [fnec], `C80_wishart` [fnec], `C80_normal_classes` [fnec], `C80_gamma_class` [fnec], `C80_dirichlet_class` [fnec], `C80_wishart_class` [fnec], `C80_multivariate_normal_class` [fnec]
* C81: `C81_bounds` [fnec], `C81_uniform` [fnec]
* C82: `C82_one_dimension` [fnec], `C82_rescaling` [fnec], `C82_expected_log_density` [fnec], `C82_class` [fnec]
* C83: `C83_bound` [fnec], `C83_multivariate_bound` [fnec]
* C84: `C84_multivariate_normal` [fe], `C84_normal_rows` [fe]
* C85: `C85_inverse_moment_refuted` [fec]
* C86: `C86_value` [fnec], `C86_expected_log_likelihood` [fnec], `C86_distribution` [fe], `C86_mean` [fe], `C86_standard_draws` [fnec], `C86_bounds` [fnec], `C86_nonpositive` [fnec], `C86_ranks` [fnec]
* C87: `C87_entries` [fnec], `C87_total` [fnec], `C87_bounds` [fnec], `C87_shapes` [fnec]
* C88: `C88_converter_functions` [fnec]
* C89: `C89_set_free_refines` [fnec], `C89_set_vector_refines` [fe], `C89_get_free_refines` [fnec], `C89_get_vector_refines` [f], `C89_push_param_refines` [f]
* C90: `C90_set_free_keeps_nothing` [fnec], `C90_set_free_isolated` [fnec], `C90_get_free_isolated` [fnec], `C90_get_vector_isolated` [f]
* C91: `C91_set_vector_follows` [fnec]
* C92: `C92_get_aliases` [f], `C92_get_vector_aliases` [f]
* C93: `C93_shared_objects` [fnec]
* C94: `C94_deepcopy` [f], `C94_make_index_param` [fe]
* C95: `C95_names` [-], `C95_names_match_vector` [fnec], `C95_names_distinct` [-], `C95_names_ambiguous_refuted` [fnec], `C95_names_length_refuted` [fnec]
* C96: `C96_dictval_lookup` [-], `C96_dictval_leaf` [-], `C96_dictval_faithful` [fnec], `C96_renamed_refuted` [fnec]
* C97: `C97_view_read` [-], `C97_view_write` [fe], `C97_view_errors` [fe], `C97_view_read_errors` [-]
* C98: `C98_safe_matmul_vector` [fe], `C98_safe_matmul` [fe], `C98_compress` [f], `C98_compress_array` [-]
* C99: `C99_timer` [f], `C99_timer_raises` [f]
* C100: `C100_lower_bound` [fnec], `C100_monotone` [fnec], `C100_zero_bound` [fnec], `C100_absorbed` [fnec]
* C101: `C101_upper_bound` [fnec], `C101_monotone` [fnec]
* C102: `C102_values` [fnec], `C102_power_of_two_width` [fnec]
* C103: `C103_overflow_nan` [fnec], `C103_upper_bound_passed` [fnec]
* C104: `C104_get_free_domain` [fnec], `C104_unbounded` [fnec]
* C105: `C105_normal` [fe], `C105_normal_vector` [fe], `C105_normal_array` [fe], `C105_moment_array` [fe], `C105_multivariate_array` [fe], `C105_multivariate_normal` [fe], `C105_gamma` [fe], `C105_dirichlet` [fe], `C105_wishart` [fe], `C105_wishart_matrix_bound` [fe]
* C106: `C106_construction` [fnec], `C106_default_lower` [fnec], `C106_default_upper` [fnec], `C106_default_both` [fnec]
* C107: `C107_linear_prediction` [fnec], `C107_converted_prediction` [fnec], `C107_remembered_output` [fnec], `C107_linear_prediction_refuted` [fnec]
* C108: `C108_implicit_derivatives` [fnec]
* C109: `C109_vector_default` [fnec], `C109_array_default` [fnec], `C109_vector_value` [fe], `C109_array_value` [fe], `C109_invalid_value_refuted` [fe], `C109_bad_arguments` [fe]
* C110: `C110_default` [fnec], `C110_no_columns` [-], `C110_value` [fe], `C110_invalid_value_refuted` [fe], `C110_row_positions` [-]
* C111: `C111_which_orders` [fne], `C111_faa_di_bruno` [fne]
* C112: `C112_range` [fnec], `C112_accuracy` [fnec], `C112_infinite` [fnec], `C112_length` [fnec]
* C113: `C113_get_free` [fnec], `C113_round_trip` [fnec], `C113_lost` [fnec], `C113_default` [fnec]
* C114: `C114_density` [fnec], `C114_C115_unique` [fne], `C114_classes` [fnec], `C114_class_entropy` [fnec], `C114_moment_array` [fnec], `C114_rows` [fnec], `C114_lognormal` [fnec], `C114_entropy` [fnec], `C114_prior` [fnec], `C114_quadrature` [fne], `C114_polynomials` [fnec], `C114_exact2` [fnec], `C114_logistic_error` [fnec], `C114_logitnormal_error` [fnec], `C114_log_logitnormal_error` [fnec]
* C115: `C114_C115_unique` [fne], `C115_density` [fnec], `C115_class` [fnec], `C115_functions` [fnec], `C115_gamma_prior` [fnec], `C115_exponential_prior` [fnec]
* C116: `C116_density` [fnec], `C116_unique` [fne], `C116_class` [fnec], `C116_entropy` [fnec], `C116_prior` [fnec]
* C117: `C117_density` [fnec], `C117_unique` [fne], `C117_class` [fnec], `C117_functions` [fnec], `C117_beta_entropy` [fnec], `C117_prior` [fnec]
* C118: `C118_density` [fnec], `C118_unique` [fne], `C118_class` [fnec], `C118_functions` [fnec], `C118_lkj` [fnec], `C118_e_inv` [fnec]
* C119: `C119_vector` [fnec], `C119_array` [fnec], `C119_scalar` [fnec]
* C120: `C120_vector` [fnec], `C120_array` [fnec], `C120_scalar` [fnec]
* C121: `C121_vector` [fnec], `C121_array` [fnec], `C121_scalar` [fnec]
* C122: `C122_scalar` [fnec], `C122_array` [fnec], `C122_array_shapes` [fnec], `C122_scalar_shapes` [fnec]
* C123: `C123_accuracy` [fnec], `C123_never_nan` [fnec], `C123_raises` [fnec], `C123_row_lost` [fnec]
* C124: `C124_entries` [fnec], `C124_raises` [fnec], `C124_first_back` [fnec], `C124_one` [fnec], `C124_low_lost` [fnec], `C124_high_lost` [fnec], `C124_default_lost` [fnec]
* C125: `C125_vector` [fnec], `C125_raises` [fnec], `C125_again` [fnec]
* C126: `C126_round_trip` [fnec], `C126_all_back` [fnec]
* C127: `C127_vector_set_free` [fnec], `C127_array_set_free` [fnec], `C127_vector_accurate` [fnec], `C127_array_accurate` [fnec], `C127_vector_unchecked` [fnec], `C127_array_unchecked` [fnec], `C127_vector_get_free` [fnec], `C127_array_get_free` [fnec], `C127_vector_round_trip` [fnec], `C127_array_round_trip` [fnec], `C127_vector_default` [fnec], `C127_array_default` [fnec], `C127_wrong_length` [fnec]
* C128: `C128_vector` [fnec], `C128_array` [fnec], `C128_set` [-], `C128_vector_init` [fnec], `C128_array_init` [fnec]
* C129: `C129_sizes` [fnec], `C129_set_free` [fnec], `C129_set_vector` [fnec], `C129_wrong_length` [fnec], `C129_get` [fnec], `C129_get_empty` [fnec], `C129_free_to_vector` [fnec]
* C130: `C130_exact` [fnec], `C130_parts` [fnec], `C130_same` [fnec]
* C131: `C131_round_trip` [fnec]
* C132: `C132_refresh` [fnec], `C132_inside` [fnec]
* C133: `C133_vector` [fnec], `C133_array` [fnec]
* C134: `C134_refresh` [fnec], `C134_close` [fe]
* C135: `C135_refresh` [fnec]
* C136: `C136_normal` [fnec], `C136_normal_vector` [fnec], `C136_normal_array` [fnec], `C136_moment_array` [fnec], `C136_multivariate_array` [fnec], `C136_gamma` [fnec], `C136_dirichlet` [fnec], `C136_multivariate_normal` [fnec], `C136_wishart` [fnec], `C136_wishart_matrix_bound` [fnec], `C136_fresh` [fnec]
* C137: `C137_moments` [fnec], `C137_normal_vector` [fnec], `C137_normal_array` [fnec], `C137_normal` [fnec]
* C138: `C138_from_normal` [fnec], `C138_from_constant` [fnec], `C138_shape` [fnec]
* C139: `C139_gamma` [fnec], `C139_gamma_free` [fnec], `C139_dirichlet` [fnec], `C139_dirichlet_free` [fnec], `C139_multivariate_array` [fnec], `C139_wishart` [fnec]
* C140: `C140_lognormal` [fnec], `C140_variance_sign` [fnec], `C140_variance_lost` [fnec]
* C141: `C141_second_moment` [fnec], `C141_singular` [fnec]
* C142: `C142_entropy` [fnec], `C142_certain` [fnec], `C142_simplex` [fnec], `C142_default` [fnec]
* C143: `C143_log_expit` [fnec], `C143_ends` [fnec], `C143_expectations` [fnec], `C143_zero_information` [fnec], `C143_shapes` [fnec]
* C144: `C144_entropy` [fnec], `C144_empty` [fnec], `C144_no_information` [fnec], `C144_entropy_of` [fnec], `C144_normal_vector` [fnec], `C144_normal_array` [fnec], `C144_normal` [fnec]
* C145: `C145_natural_parameters` [fnec], `C145_round_trip` [fnec], `C145_normal_prior` [fnec], `C145_gamma_prior` [fnec], `C145_exponential_prior` [fnec]
* C146: `C146_any_integrand` [fnec], `C146_logitnormal` [fnec], `C146_shapes` [fnec], `C146_dp_prior` [fnec]
* C147: `C147_multivariate_normal` [fnec], `C147_multivariate_normal_shapes` [fnec], `C147_dirichlet` [fnec], `C147_dirichlet_shapes` [fnec]
* C148: `C148_e_log` [fnec], `C148_entropy` [fnec]
* C149: `C149_e_log` [fnec]
* C150: `C150_multivariate_digamma` [fnec], `C150_e_log_det` [fnec], `C150_refused` [fnec]
* C151: `C151_e_log_inv_diag` [fnec], `C151_small_df` [fnec], `C151_lkj_prior` [fnec]

## 5. What is modelled

`Parameters.py`, `ParameterDictionary.py`, `MatrixParameters.py`, `SimplexParams.py`, `ProjectionParams.py`, `NormalParams.py`,
`GammaParams.py`, `DirichletParams.py`, `WishartParams.py`, `ExponentialFamilies.py`, `Modeling.py`, `regression_utils.py`,
`ConjugateGradient.py`, `OptimizationUtils.py`, `ModelSensitivity.py` and `SparseObjectives.py`: every function and class that
computes or changes something.  Simplifications stated in the model files:

* `ModelAutograd.v`: autograd.jacobian / autograd.hessian, modelled as exact partial derivatives (Coquelicot [Derive]). TRUSTED: that autograd computes these derivatives when they exist.
* `ModelConjugate.v`: ConjugateGradient.py:19-30; int(num_true / 2) is the integer quotient. SIMPLIFICATION: the float division is exact below 2^53
* `ModelDict.v`: Model of LinearResponseVariationalBayes/ParameterDictionary.py and of the offset helpers of Parameters.py:324-427. A parameter object is a tree: a leaf of one of the eight classes or a ModelParamsDict of parameters. SIMPLIFICATIONS: objects are trees (no parameter object is held by two dictionaries at once); a change made to a member through another reference is the operation [d_replace] on the tree.
* `ModelDict.v`: free_to_vector_jac / free_to_vector_hess on a finite 1-d free value. SIMPLIFICATION: the value autograd may leave in the object while it differentiates is not recorded here.
* `ModelExpFam.v`: np.dot of two arrays. SIMPLIFICATION: only ranks 0, 1 and 2 and a matrix with a vector; anything else is not modelled (ValueError).
* `ModelExpFam.v`: ExponentialFamilies.py:5-7. SIMPLIFICATION: size is a whole number (it is a matrix dimension at every call).
* `ModelExpFam.v`: ExponentialFamilies.py:10-13. SIMPLIFICATION: as above
* `ModelFamilies.v`: self[k].get(). SIMPLIFICATION: no member of these classes is itself a dictionary (get() of one is a view, ModelReport.v)
* `ModelFamilies.v`: WishartParams.py:7-15; [not min_df] holds of None and of 0. The matrix v is created without its size, so it gets the default size 2 of PosDefMatrixParam (MatrixParameters.py:138). SIMPLIFICATION: size is a non-negative whole number.
* `ModelFloat.v`: The constrain / unconstrain maps and VectorParam over IEEE-754 binary64 numbers, as numpy computes them. The rest of the development computes over exact reals; this file models the same lines of Parameters.py with Flocq's binary64 arithmetic (round to nearest, ties to even), so that rounding, overflow and NaN are visible. SIMPLIFICATION: numpy's exp and log are not correctly rounded and not specified by IEEE-754, so they are the arguments [fexp] and [flog]; the theorems quantify over every pair meeting a stated contract. SIMPLIFICATION: one-dimensional arrays are lists of doubles.
* `ModelFloatDict.v`: ModelParamsDict over IEEE-754 binary64 numbers: ParameterDictionary.py with the parameter classes of ModelFloat*.v as members. SIMPLIFICATION: as in ModelDict.v objects are trees (no parameter object is held by two dictionaries), and a change made to a member through another reference is [fd_replace] on the tree. SubVectorParam (ProjectionParams.py) is not among the members, and free_indices_dict and vector_indices_dict are left out (ModelDict.v has them). Vectors are lists of doubles (1-d arrays).
* `ModelFloatDirichlet.v`: get_e_log_dirichlet of ExponentialFamilies.py and DirichletParamArray.e_log over IEEE-754 binary64 numbers. ModelExpFam.v and ModelFamilies.v have the same lines over exact reals. SIMPLIFICATION: scipy.special.digamma and the order of summation are the arguments [fpsi] and [fsum].
* `ModelFloatEntropy.v`: multinoulli_entropy of ExponentialFamilies.py over IEEE-754 binary64 numbers. ModelExpFam.v has the same line over exact reals. SIMPLIFICATION: log is the argument [flog] and the order of summation the argument [fsum].
* `ModelFloatEntropy2.v`: univariate_normal_entropy of ExponentialFamilies.py and the entropies of the univariate normal parameters over IEEE-754 binary64 numbers. ModelExpFam.v and ModelFamilies.v have the same lines over exact reals. SIMPLIFICATION: log is the argument [flog] and the order of summation the argument [fsum].
* `ModelFloatFamilies.v`: NormalParams.py, GammaParams.py, DirichletParams.py and WishartParams.py over IEEE-754 binary64 numbers: the constructors and the moments that need neither special functions nor a matrix inverse. ModelFamilies.v has the same lines over exact reals. SIMPLIFICATION: x ** 2 is the argument [fsq] (numpy computes x * x or calls pow, depending on the type), and the order of summation is the argument [fsum]; the theorems quantify over all that meet a stated contract. SIMPLIFICATION: as in ModelFamilies.v the private __shape is kept beside the dictionary where a method reads it.
* `ModelFloatFamilies.v`: self[k].get(). SIMPLIFICATION: no member of these classes is itself a dictionary (get() of one is a view, ModelReport.v)
* `ModelFloatFamilies.v`: WishartParams.py:7-15; [not min_df] holds of None and of 0. The matrix v gets the default size 2 (MatrixParameters.py:138). SIMPLIFICATION: size is a non-negative whole number, and size - 1 is converted to a double at once.
* `ModelFloatFamilies2.v`: NormalParams.py over IEEE-754 binary64 numbers, continued: the moments of exp of a normal variable, and the second moments of MVNParam. ModelFamilies.v has the same lines over exact reals. SIMPLIFICATION: exp, x ** 2 and numpy.linalg.inv are the arguments [fexp], [fsq] and [finv].
* `ModelFloatGamma.v`: get_e_log_gamma and gamma_entropy of ExponentialFamilies.py and the methods of GammaParam that use them, over IEEE-754 binary64 numbers. ModelExpFam.v and ModelFamilies.v have the same lines over exact reals. SIMPLIFICATION: log, scipy.special.digamma, scipy.special.gammaln and the order of summation are the arguments [flog], [fpsi], [flgam] and [fsum].
* `ModelFloatLogit.v`: The numeric integration functions of ExponentialFamilies.py over IEEE-754 binary64 numbers. ModelExpFam.v has the same lines over exact reals with infinities and NaN. SIMPLIFICATION: exp and log are the arguments [fexp] and [flog], the order of summation is the argument [fsum]. sqrt is correctly rounded, as IEEE-754 demands.
* `ModelFloatMatrix.v`: PosDefMatrixParam over IEEE-754 binary64 numbers, as numpy computes it; ModelMatrix.v has the same lines over exact reals. SIMPLIFICATION: exp, log, the entries of a matrix times its own transpose and the Cholesky factorisation are the arguments [fexp], [flog], [fdot] (position, row, row) and [fchol]; the theorems quantify over all that meet a stated contract. SIMPLIFICATION: free vectors and vectors are lists of doubles (1-d arrays); matrices are arrays with a shape.
* `ModelFloatParams.v`: ScalarParam and ArrayParam over IEEE-754 binary64 numbers. The transforms of the entries are those of ModelFloat.v. SIMPLIFICATION: as in ModelFloat.v, numpy's exp and log are the arguments [fexp] and [flog]. SIMPLIFICATION: a Python float and a 0-d numpy array are both an array of shape [].
* `ModelFloatPrior.v`: get_uvn_from_natural_parameters and the priors of ExponentialFamilies.py that only use arithmetic, over IEEE-754 binary64 numbers. ModelExpFam.v has the same lines over exact reals. SIMPLIFICATION: `x ** 2` is the argument [fsq].
* `ModelFloatPrior2.v`: mvn_prior and dirichlet_prior of ExponentialFamilies.py over IEEE-754 binary64 numbers. ModelExpFam.v has the same lines over exact reals. SIMPLIFICATION: the inner product of two rows inside np.dot and np.matmul is the argument [fdot], the order of the summation in np.trace is the argument [fsum]; both are any functions that meet a stated contract. Arrays with more than two dimensions are left out.
* `ModelFloatQuad.v`: get_e_logitnormal and get_e_dp_prior_logitnorm_approx of ExponentialFamilies.py over IEEE-754 binary64 numbers. ModelExpFam.v has the same lines over exact reals. SIMPLIFICATION: scipy.special.expit is the argument [fexpit], exp, log and the order of summation are arguments as in ModelFloatLogit.v.
* `ModelFloatSimplex.v`: SimplexParam over IEEE-754 binary64 numbers, as numpy and scipy compute it. SIMPLIFICATION: numpy's exp, log and sum are the arguments [fexp], [flog] and [fsum]; the theorems quantify over all that meet a stated contract. SIMPLIFICATION: a two-dimensional array is the list of its rows; there is at least one column.
* `ModelFloatSimplex.v`: SimplexParams.py:70-77; 1. / shape[1] raises for Python's integer zero. SIMPLIFICATION: a number of columns beyond the largest double would raise OverflowError.
* `ModelFloatStack.v`: PosDefMatrixParamVector and PosDefMatrixParamArray over IEEE-754 binary64 numbers; ModelMatrix.v has the same lines over exact reals, and ModelFloatMatrix.v the functions on one matrix. exp, log, the entries of a matrix times its own transpose and the Cholesky factorisation are arguments as there. SIMPLIFICATION: free vectors and vectors are lists of doubles (1-d arrays). An assignment is the last step of each method, so a call that raises leaves the object as it was: a method returns the new object, or what it raises.
* `ModelFloatWishart.v`: multivariate_digamma and e_log_det_wishart of ExponentialFamilies.py and WishartParam.e_log_det over IEEE-754 binary64 numbers. ModelExpFam.v and ModelFamilies.v have the same lines over exact reals. SIMPLIFICATION: log, scipy.special.digamma, the order of summation and np.linalg.slogdet are the arguments [flog], [fpsi], [fsum] and [fslogdet].
* `ModelFloatWishart.v`: ExponentialFamilies.py:5-7. SIMPLIFICATION: size is a whole number, as at every call
* `ModelFloatWishart2.v`: e_log_inv_wishart_diag and expected_ljk_prior of ExponentialFamilies.py and WishartParam.e_log_lkj_inv_prior over IEEE-754 binary64 numbers. ModelExpFam.v and ModelFamilies.v have the same lines over exact reals. SIMPLIFICATION: log, scipy.special.digamma, the order of summation, np.linalg.slogdet and np.linalg.inv are the arguments [flog], [fpsi], [fsum], [fslogdet] and [finv].
* `ModelHeap.v`: Arrays as views of shared buffers, parameter objects that several dictionaries may hold. ModelDict.v treats parameters as values. Here self.__val is a reference: [set] keeps the caller's array, [get] hands out the stored one, a slice of a vector is a view of it, and writing to an array is seen through every view of its buffer. Which numpy operations copy follows numpy's documentation. SIMPLIFICATIONS: reshape always gives a view (numpy copies when the strides of a non-contiguous array do not allow one); a nested dictionary is part of its parent (two parents holding the same dictionary hold equal trees over the same parameter objects).
* `ModelHeap.v`: copy.deepcopy: new buffers, new objects, the same sharing among them. SIMPLIFICATIONS: copies everything, not only what the tree reaches (the rest of the copy is garbage); overlapping views of one buffer stay overlapping views (numpy copies each array separately).
* `ModelMatrix.v`: np.linalg.cholesky: reads the lower triangle only; LinAlgError if a pivot is not positive. SIMPLIFICATION: exact arithmetic, and LinAlgError on any non-finite entry of the lower triangle.
* `ModelMatrix.v`: MatrixParameters.py:101-105. SIMPLIFICATION: a matrix that is not square raises ValueError (numpy would broadcast an (n, 1) array).
* `ModelMatrix.v`: np.array([...]) of arrays of the same shape. SIMPLIFICATION: ragged lists raise ValueError (never reached by the code modelled here).
* `ModelMatrix.v`: MatrixParameters.py:324-340. Line 329 iterates over array_shape: TypeError for an integer. For the empty tuple line 331 makes the shape an array of doubles, which np.broadcast_to rejects with a TypeError. SIMPLIFICATION: with the empty tuple and a value the object is constructed, but the later reshapes to the shape of doubles are not modelled; the theorems are meant for array_shape <> ().
* `ModelModeling.v`: Modeling.py:16-32. SIMPLIFICATION: std_draws.size is the number of entries of the array.
* `ModelNumpy.v`: The numpy array operations the exponential-family, regression and modelling code is written with: elementwise operations with broadcasting, sums along an axis, axis insertion and removal, tile, and einsum with explicit index lists. These are library functions, not code of /repo: the definitions follow numpy's documented behaviour. SIMPLIFICATION: entries are taken in the order of their multi-index; strides, views and dtypes are not modelled.
* `ModelNumpy.v`: np.tile(m, reps) where reps has at least as many entries as m has axes: m is promoted to that many axes and repeated. SIMPLIFICATION: the callers never pass fewer.
* `ModelNumpy.v`: SIMPLIFICATION: an index repeated within one operand (a diagonal) is not modelled: ValueError.
* `ModelObjective.v`: Model of LinearResponseVariationalBayes/SparseObjectives.py, lines 48-449: Logger, Objective, ParameterConverter, TwoParameterObjective. During differentiation autograd calls the Python functions with tracing objects (ArrayBox) in place of numbers; the parameters then hold tracing objects. A traced parameter is a parameter tree whose leaves carry a mark telling whether the stored value is a tracing object. SIMPLIFICATIONS: the user's function reads the parameter and its other arguments and nothing else; extra arguments are one value of an arbitrary type; keyword arguments are not passed on to the logger during differentiation.
* `ModelOptimize.v`: Model of LinearResponseVariationalBayes/OptimizationUtils.py. SIMPLIFICATION: numbers are reals; for a non-positive eigenvalue numpy's 1/sqrt gives inf or nan, here it is an unspecified real (the theorems about the inverse square root assume positive clipped eigenvalues).
* `ModelOptimize.v`: new_x - x raises ValueError for different lengths (SIMPLIFICATION: length-one vectors would be broadcast)
* `ModelParameters.v`: ---- ScalarParam, Parameters.py:82-150 ---- SIMPLIFICATION: a Python float and a 0-d numpy array are both an array of shape [].
* `ModelParameters.v`: Parameters.py:200-206 (and 283-293): the diagonal coo_matrix of scalar derivatives. SIMPLIFICATION: the free value is a finite 1-d array.
* `ModelPrint.v`: print_terms of ParametricSensitivityTaylorExpansion. Definitions only. SIMPLIFICATION: what is written to standard output is a list of the values that are formatted, one per print call; the decimal digits of the numbers and the punctuation of the format strings are not modelled.
* `ModelProjection.v`: Model of LinearResponseVariationalBayes/ProjectionParams.py. SIMPLIFICATIONS: constraint matrices hold finite numbers and are represented by their dimensions and a function of the indices; np.linalg.solve and np.linalg.eigh are arguments (their behaviour is constrained only by the hypotheses of the theorems).
* `ModelProjection.v`: np.matmul(B, f) with B given by its columns and f 1-d. SIMPLIFICATION: arguments that are not 1-d raise ValueError (numpy would also accept matrices).
* `ModelRegression.v`: regression_utils.py: batched matrix products and normal-linear regression. SIMPLIFICATION: entries are real numbers. The functions only add and multiply (so no infinities or NaNs appear unless put in), except for np.linalg.inv, which is the argument [inv].
* `ModelReport.v`: What a parameter reports about itself: names(), dictval() and the view get() of a dictionary; and the small helpers of SparseObjectives.py: safe_matmul, compress, Timer and the deprecated get_sym_matrix_inv_sqrt. SIMPLIFICATIONS: names are strings without trailing NUL characters (numpy drops those); the printed forms __str__ are not modelled.
* `ModelReport.v`: ParameterDictionary.py:120-121, on a view; an array indexed by a string raises IndexError (SIMPLIFICATION: so does the value of a ScalarParam; if that is a Python number, Python raises TypeError)
* `ModelReport.v`: sparse * sparse, again sparse: a product entry for every pair of stored entries that meet. SIMPLIFICATION: scipy returns a csr_matrix with the duplicates already added up
* `ModelReport.v`: ---- Timer, SparseObjectives.py:35-45; tic_time does not exist before the first tic(). SIMPLIFICATION: the printed line of toc(verbose=True) is not modelled.
* `ModelSensitivity.v`: Model of LinearResponseVariationalBayes/ModelSensitivity.py, and of the deprecated ParametricSensitivity class, SparseObjectives.py:487-577. TRUSTED: autograd.make_jvp is the exact directional derivative; np.linalg.solve, scipy's cho_factor and cho_solve are parameters (their contracts are hypotheses of the theorems). SIMPLIFICATION: one-dimensional arrays are lists of finite numbers. The closures of the Python code refer to the parameter objects; here they are rebuilt from the objects' current state whenever they are called.
* `ModelSensitivity.v`: objective_fun and hyper_par_objective_fun (the former when none is given) read the input and the hyperparameter; the converter reads and writes the input and the output. SIMPLIFICATION: the objectives do not read the output parameter, and the converter does not touch the hyperparameter.
* `ModelSensitivity.v`: the numbers of a one-dimensional array. SIMPLIFICATION: infinite and undefined entries become 0
* `ModelSensitivity.v`: SparseObjectives.py:298-300. TRUSTED: autograd.jacobian is the exact Jacobian
* `ModelSimplex.v`: In-place array updates. SIMPLIFICATION: the arrays hold finite numbers and are represented by functions of their indices; only indices inside the array are ever written.
* `ModelSimplex.v`: ---- SimplexParam, SimplexParams.py:69-175 ---- SIMPLIFICATION: the shape is a pair of naturals and has at least one column (with no column the constructor fails on 1. / shape[1] and free_shape would be negative).
* `ModelSimplex.v`: SimplexParams.py:163-166; ravel_multi_index rejects an index out of range. SIMPLIFICATION: at least one column (numpy rejects an empty index list); the row is not negative.
* `ModelSimplex.v`: SimplexParams.py:106-126. SIMPLIFICATION: at least two columns (numpy rejects the empty index list that a one-column simplex would produce).
* `ModelSparseUtils.v`: Model of LinearResponseVariationalBayes/SparseObjectives.py, lines 587-657: sparse sub-matrices and packing of CSR matrices. SIMPLIFICATION: matrix entries are finite numbers.

Floating point: `ModelFloat.v` models the free transforms and `VectorParam` a second time over IEEE-754 binary64 numbers, with the
operators of Flocq (a library of definitions and theorems, no axioms beyond the standard library's) and with exp and log as
arguments meeting the contracts of `SpecFloat.v` (C100-C104, C106). `ModelFloatSimplex.v` does the same for `SimplexParam`, with the
order of summation as a further argument (C112, C113), `ModelFloatParams.v` for `ScalarParam` and `ArrayParam` (C119-C122),
and `ModelFloatMatrix.v` for `PosDefMatrixParam`, with the matrix product and the Cholesky factorisation as further arguments (C123-C126); `ModelFloatStack.v` for `PosDefMatrixParamVector` and `PosDefMatrixParamArray` (C127, C128);
`ModelFloatDict.v` for `ModelParamsDict` over the seven float classes (C129-C131). C132-C135 are about these same models. `ModelFloatFamilies.v` has the constructors and the
elementary moments of the distribution parameters over doubles (C136-C139), and `ModelFloatFamilies2.v` the moments of exp of a normal variable and
the second moments of MVNParam (C140, C141); `ModelFloatEntropy.v` is multinoulli_entropy over doubles (C142), `ModelFloatLogit.v` get_e_log_logitnormal (C143), `ModelFloatEntropy2.v` univariate_normal_entropy (C144), `ModelFloatPrior.v` the natural parameters and the priors that only use arithmetic (C145), `ModelFloatQuad.v` get_e_logitnormal and get_e_dp_prior_logitnorm_approx (C146), `ModelFloatPrior2.v` mvn_prior and dirichlet_prior (C147), `ModelFloatGamma.v` get_e_log_gamma and gamma_entropy (C148), `ModelFloatDirichlet.v` get_e_log_dirichlet (C149), `ModelFloatWishart.v` multivariate_digamma and e_log_det_wishart (C150), `ModelFloatWishart2.v` e_log_inv_wishart_diag and expected_ljk_prior (C151); the other entropies, log densities, digamma functions and matrix inverses are modelled
over exact reals only.

Not modelled: floating-point rounding and overflow everywhere else; autograd's internals; the texts of messages and of
`__str__`; notebooks; the test suite.

## 6. Findings (behaviour of the code that contradicts its documentation or a natural expectation)

* Two-sided bounds: the value at the upper bound has an infinite free value and does not come back (NaN) (C05).
* In double precision two-sided bounds can be left: with the bounds -0.7 and 0.3 every free value between 40 and 300 gives a value
  above 0.3, and every free value from 711 on gives NaN; `get_free` then raises ValueError (C103).
* In double precision a simplex parameter with a free value of 750 or more returns only +inf and NaN from `get_free` (C113); +inf is
  stored as NaN (C112).
* In double precision `PosDefMatrixParam` loses free diagonal values of -40 or less (`exp_matrix_diagonal` adds exp d - d to d, which
  rounds to zero): the stored matrix is singular and `get_free` raises LinAlgError; values of 45 or more come back as 0
  (`log_matrix_diagonal` has the same form) (C123, C124). With diag_lb at 2^54 or more the default value itself has no free value
  (C124). `set_vector` turns a diagonal entry of 2^1023 or more into an infinity without complaint (C125). Vectors and arrays of matrices do not
  check what `set_free` and `set_vector` compute: NaN is stored silently where `PosDefMatrixParam` raises `ValueError` (C127, C128). In a dictionary a failed `set_free` or `set_vector` leaves the
  parameters before the failing one changed (C129).
* `get_inbounds_value` uses 0.5 * (ub - lb), which is outside the bounds for e.g. lb = 2, ub = 3 (C06).
* `ScalarParam.set` checks no size; `VectorParam.set` checks the number of entries only (C09).
* `push_param` under an existing name corrupts the cached sizes (C12); growing a nested dictionary makes them stale (C19).
* `set_vector` keeps the caller's array: a later write to it changes the parameter (C91); `get` hands out the stored array, so a
  write through it bypasses every check (C92); a parameter object pushed into two dictionaries breaks the round trip (C93).
* `PosDefMatrixParamVector/Array.set` accept almost any shape (C29); `PosDefMatrixParamArray.length()` and its default
  `array_shape=(1)` always raise; length-0 vectors raise.
* `WishartParam` ignores its size (C73), its `e_inv` is not the mean of the inverse (C85, C118).
* `UVNMomentParamArray.var_exp` returns the mean (C69). `univariate_normal_log_prob` is not a log density (C77).
* `consolidate_terms` skips elements (C51). `hyper_par_objective_functor` gives wrong results from order 2 on (C55).
* `hess0`, `input_is_free=False` and `hyper_is_free` are ignored in places (C56).
* `repeatedly_optimize` with `max_iter <= 0` raises UnboundLocalError (C61). `recursive_split` diverges for `terminate_len <= 0` (C63).
* The progress message test of the masked solver has its operands swapped (C78).
* `get_sym_matrix_inv_sqrt` of SparseObjectives always raises.
* `names()` can repeat a label and gives arrays and matrices one name for all entries (C95); `dictval()` loses a member when a
  nested dictionary is renamed in place to another member's name (C96).

## 7. Seeded faults: what the log does and does not show

`/verif/seeded/LOG.jsonl` has one line for every edited program that was tried, including the ones
that turned out not to be tests. How to read it:

* An edit counts as caught when, after it, the proof script of some lemma no longer compiles and a
  theorem mentions that lemma directly or through other lemmas. `theorems_failed` is that list of
  theorems, computed from the text of the files. A script can also break although its statement is
  still true of the edited program, so a caught edit is evidence, not proof, that the theorem
  excludes the fault. Caught edits were not followed up by proving the theorem false of the edited
  program.
* `claim` is the property named before the run. Where the run showed that another property is the
  one that speaks about the edited code, `claim_reassigned_after_run` names it. `first_result` is
  judged against the original claim and `final_result` against the reassigned one, so only
  `first_result` is a prediction that could have failed.
* Versions of this log up to commit 81e0672 showed the reassigned claim as if it had been the
  prediction, and left out the attempts that were not tests.
* `theorems_tightened` lists theorems added or strengthened because the edit was not caught at first.
* Lines with `only_compiled` built just the modules that the claim needs.
* Lines marked `not a test` did not type check, or were runs in which the tool itself failed.
* A file that exceeded the time limit also counted as a failing script. Runs from `PA01` on record this in
  `timeouts`; earlier runs (limit 400 s per file) did not record it.
