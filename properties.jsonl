{"id": "C01", "title": "Constrained value survives the trip through the free parameterisation", "statement": "For a scalar, vector or array parameter with any legal lower and upper bound (finite or infinite), if every stored entry lies strictly between the bounds then get_free() succeeds and set_free(get_free()) leaves exactly the same values stored.", "quantifier": "all legal bounds, all sizes/shapes, all values strictly inside the bounds", "why_tests_cant": "a continuum of bounds and values; tests sample a handful of (lb, ub, value) triples", "anchors": ["LinearResponseVariationalBayes/Parameters.py:unconstrain", "LinearResponseVariationalBayes/Parameters.py:constrain", "LinearResponseVariationalBayes/Parameters.py:VectorParam.get_free", "LinearResponseVariationalBayes/Parameters.py:VectorParam.set_free", "LinearResponseVariationalBayes/Parameters.py:ScalarParam", "LinearResponseVariationalBayes/Parameters.py:ArrayParam"]}
{"id": "C02", "title": "Free value survives the trip through the constrained parameterisation", "statement": "For a scalar, vector or array parameter with any legal bounds, set_free(x) followed by get_free() returns exactly x for every finite x of the right size.", "quantifier": "all legal bounds, all sizes/shapes, all finite free vectors", "why_tests_cant": "the free space is all of R^n; finitely many samples cannot show the map has a left inverse everywhere", "anchors": ["LinearResponseVariationalBayes/Parameters.py:constrain", "LinearResponseVariationalBayes/Parameters.py:unconstrain_array", "LinearResponseVariationalBayes/Parameters.py:unconstrain_scalar"]}
{"id": "C03", "title": "set_free always lands strictly inside the bounds", "statement": "After set_free with any finite free value, every stored entry is finite and strictly between the parameter's lower and upper bounds.", "quantifier": "all legal bounds, all finite free vectors", "why_tests_cant": "holds for a continuum of inputs; optimisers visit arbitrary points", "anchors": ["LinearResponseVariationalBayes/Parameters.py:constrain", "LinearResponseVariationalBayes/Parameters.py:VectorParam.set_free"]}
{"id": "C04", "title": "get_free rejects exactly the out-of-bounds values", "statement": "get_free raises ValueError if and only if some stored entry is NaN, greater than the upper bound or smaller than the lower bound; values on the closed bounds are accepted.", "quantifier": "all legal bounds, all stored arrays including infinities and NaN", "why_tests_cant": "an if-and-only-if over all stored values", "anchors": ["LinearResponseVariationalBayes/Parameters.py:unconstrain_array", "LinearResponseVariationalBayes/Parameters.py:unconstrain_scalar"]}
{"id": "C05", "title": "What happens on the boundary of the constraint set", "statement": "A stored entry equal to the lower bound, or equal to the upper bound of a parameter without a lower bound, maps to an infinite free value and set_free maps it back. For a parameter with two finite bounds a value equal to the upper bound does not survive: get_free returns +inf and set_free of that gives NaN.", "quantifier": "all legal bounds; entries exactly on a bound", "why_tests_cant": "measure-zero corner of a continuum of bounds; the failing case is not in any test", "anchors": ["LinearResponseVariationalBayes/Parameters.py:unconstrain", "LinearResponseVariationalBayes/Parameters.py:constrain"]}
{"id": "C06", "title": "Default value of a bounded parameter", "statement": "A parameter constructed without a value starts inside its bounds whenever at most one bound is finite. With two finite bounds it starts inside exactly when 3*lb <= ub and lb + ub >= 0, so the in-bounds promise of the default is false in general (e.g. lb=1, ub=2) and get_free on the fresh parameter then raises.", "quantifier": "all legal bounds", "why_tests_cant": "depends on a continuum of bound pairs", "anchors": ["LinearResponseVariationalBayes/Parameters.py:get_inbounds_value", "LinearResponseVariationalBayes/Parameters.py:ScalarParam.__init__", "LinearResponseVariationalBayes/Parameters.py:VectorParam.__init__", "LinearResponseVariationalBayes/Parameters.py:ArrayParam.__init__"]}
{"id": "C07", "title": "The constraining map is strictly increasing", "statement": "For every legal pair of bounds the map from free value to constrained value is strictly increasing entry by entry, hence injective, and it reaches every value strictly inside the bounds.", "quantifier": "all legal bounds, all pairs of finite free values", "why_tests_cant": "monotonicity and surjectivity quantify over all reals", "anchors": ["LinearResponseVariationalBayes/Parameters.py:constrain"]}
{"id": "C08", "title": "Jacobian and Hessian of bounded parameters are the true derivatives", "statement": "For scalar, vector and array parameters, the sparse matrix returned by free_to_vector_jac is, entry by entry, the partial derivative of the constrained vector with respect to the free vector, and each matrix of free_to_vector_hess holds the second partial derivatives of the corresponding entry; the diagonal of the Jacobian is strictly positive.", "quantifier": "all legal bounds, all sizes, all finite free vectors, all index pairs", "why_tests_cant": "derivatives are limits; finite differences or autograd comparisons at sample points cannot establish them everywhere", "anchors": ["LinearResponseVariationalBayes/Parameters.py:VectorParam.free_to_vector_jac", "LinearResponseVariationalBayes/Parameters.py:VectorParam.free_to_vector_hess", "LinearResponseVariationalBayes/Parameters.py:ArrayParam.free_to_vector_jac", "LinearResponseVariationalBayes/Parameters.py:ScalarParam.free_to_vector_jac"]}
{"id": "C09", "title": "Size validation of vector and array parameters; its absence for scalars", "statement": "set, set_free and set_vector of vector and array parameters raise ValueError on a value of the wrong size (array: wrong shape) and then leave the stored value unchanged. ScalarParam performs no such check: set_free/set_vector accept arrays of any size, after which get_vector fails.", "quantifier": "all parameter sizes and all argument shapes", "why_tests_cant": "unbounded sizes and shapes; the missing check is only visible on inputs tests do not try", "anchors": ["LinearResponseVariationalBayes/Parameters.py:VectorParam.set", "LinearResponseVariationalBayes/Parameters.py:ArrayParam.set", "LinearResponseVariationalBayes/Parameters.py:ScalarParam.set"]}
{"id": "C10", "title": "Only legal bounds are ever accepted, and they never change", "statement": "Constructing a scalar, vector or array parameter succeeds only when lb < ub with neither NaN (given a value of the right size); after any sequence of set/set_free/set_vector calls, failing or not, the bounds, the size/shape and the free and vector sizes are those of construction, and a vector or array parameter still stores an array of the declared size (C09 says what a scalar parameter stores).", "quantifier": "all constructor arguments, all call histories", "why_tests_cant": "unbounded call histories", "anchors": ["LinearResponseVariationalBayes/Parameters.py:ScalarParam.__init__", "LinearResponseVariationalBayes/Parameters.py:VectorParam.__init__", "LinearResponseVariationalBayes/Parameters.py:ArrayParam.__init__"]}
{"id": "C11", "title": "Dictionary sizes are the totals of its members", "statement": "For a ModelParamsDict built by any sequence of push_param calls with distinct names (members may themselves be such dictionaries), free_size() and vector_size() equal the sums over members, and get_free()/get_vector() return vectors of exactly those lengths whenever they succeed, after any sequence of set_free/set_vector/item assignments.", "quantifier": "all push histories with distinct names, all later call histories, any nesting depth", "why_tests_cant": "unbounded histories and nesting", "anchors": ["LinearResponseVariationalBayes/ParameterDictionary.py:ModelParamsDict.push_param", "LinearResponseVariationalBayes/ParameterDictionary.py:ModelParamsDict.free_size", "LinearResponseVariationalBayes/ParameterDictionary.py:ModelParamsDict.get_free"]}
{"id": "C12", "title": "Pushing a second parameter under an existing name corrupts the sizes", "statement": "push_param with a name already present replaces the member but still adds its sizes to the totals, so free_size() no longer equals the length of get_free() as soon as the replaced member had positive size, and set_free(get_free()) raises ValueError.", "quantifier": "all dictionaries and all pushed parameters with a clashing name", "why_tests_cant": "a claim about every dictionary and every clashing push", "anchors": ["LinearResponseVariationalBayes/ParameterDictionary.py:ModelParamsDict.push_param"]}
{"id": "C13", "title": "Dictionary free round trip: get_free after set_free", "statement": "For any dictionary (arbitrarily nested, any mix of scalar, vector, array, positive definite, simplex and subspace members) set_free(x) succeeds and get_free() then returns exactly x, for every finite x of length free_size().", "quantifier": "all well-formed dictionaries, all finite vectors of the right length", "why_tests_cant": "arbitrary nesting and composition; continuum of vectors", "anchors": ["LinearResponseVariationalBayes/ParameterDictionary.py:ModelParamsDict.set_free", "LinearResponseVariationalBayes/ParameterDictionary.py:ModelParamsDict.get_free", "LinearResponseVariationalBayes/Parameters.py:set_free_offset"]}
{"id": "C14", "title": "Dictionary free round trip: set_free after get_free", "statement": "If every member's value is in the interior of its constraint set then get_free() succeeds and set_free(get_free()) leaves every member's constrained vector unchanged.", "quantifier": "all well-formed dictionaries, all interior values", "why_tests_cant": "arbitrary nesting and composition; continuum of values", "anchors": ["LinearResponseVariationalBayes/ParameterDictionary.py:ModelParamsDict.set_free", "LinearResponseVariationalBayes/ParameterDictionary.py:ModelParamsDict.get_free"]}
{"id": "C15", "title": "Dictionary vector round trip", "statement": "For any dictionary, set_vector(v) of the right length succeeds and get_vector() then returns exactly v; conversely set_vector(get_vector()) leaves every member's value unchanged.", "quantifier": "all well-formed dictionaries, all vectors of the right length", "why_tests_cant": "arbitrary nesting and composition", "anchors": ["LinearResponseVariationalBayes/ParameterDictionary.py:ModelParamsDict.set_vector", "LinearResponseVariationalBayes/ParameterDictionary.py:ModelParamsDict.get_vector", "LinearResponseVariationalBayes/Parameters.py:set_vector_offset"]}
{"id": "C16", "title": "Index ranges locate each member in the flat vectors", "statement": "For every member name, free_indices_dict[name] and vector_indices_dict[name] are the index ranges at which get_free()/get_vector() of the dictionary hold that member's own get_free()/get_vector(); the ranges of different members are disjoint and together cover 0..size-1 in push order.", "quantifier": "all dictionaries built with distinct names, all members", "why_tests_cant": "unbounded number and sizes of members", "anchors": ["LinearResponseVariationalBayes/ParameterDictionary.py:ModelParamsDict.push_param"]}
{"id": "C17", "title": "A wrong-size vector is rejected without touching the dictionary", "statement": "set_free/set_vector on a dictionary with an array whose size differs from the declared size raises ValueError and leaves every member unchanged.", "quantifier": "all dictionaries, all arrays of the wrong size", "why_tests_cant": "all sizes; frame condition on all members", "anchors": ["LinearResponseVariationalBayes/ParameterDictionary.py:ModelParamsDict.set_free", "LinearResponseVariationalBayes/ParameterDictionary.py:ModelParamsDict.set_vector"]}
{"id": "C18", "title": "Members are independent", "statement": "After set_free(x) the value of each member depends only on the slice of x at that member's index range; assigning dict values[name] = v changes no other member.", "quantifier": "all dictionaries, all pairs of vectors agreeing on a slice, all names", "why_tests_cant": "frame condition over all members and values", "anchors": ["LinearResponseVariationalBayes/ParameterDictionary.py:ModelParamsDict.set_free", "LinearResponseVariationalBayes/ParameterDictionary.py:ModelParamsDictValues.__setitem__"]}
{"id": "C19", "title": "Growing a nested dictionary after it was pushed makes the outer sizes stale", "statement": "If a dictionary is pushed into another and then gains a parameter of positive size, the outer dictionary's free_size() no longer equals the length of its get_free().", "quantifier": "all outer/inner dictionaries and all later pushes", "why_tests_cant": "a claim about all such histories", "anchors": ["LinearResponseVariationalBayes/ParameterDictionary.py:ModelParamsDict.push_param"]}
{"id": "C20", "title": "SymIndex enumerates the lower triangle", "statement": "SymIndex is symmetric in its arguments and restricted to k2 <= k1 < n it is a bijection onto 0..n(n+1)/2-1 that follows the row-major order of the lower triangle.", "quantifier": "all natural numbers k1, k2, n", "why_tests_cant": "unbounded indices", "anchors": ["LinearResponseVariationalBayes/MatrixParameters.py:SymIndex"]}
{"id": "C21", "title": "Lower-triangular packing is lossless and rejects impossible sizes", "statement": "unvectorize_ld_matrix raises ValueError exactly when the vector length is not of the form n(n+1)/2; otherwise it returns the n by n lower-triangular matrix whose vectorize_ld_matrix is the vector again, and unvectorize(vectorize(M)) = M for lower-triangular M. vectorize_ld_matrix rejects non-square matrices.", "quantifier": "all vector lengths, all matrix sizes", "why_tests_cant": "unbounded sizes", "anchors": ["LinearResponseVariationalBayes/MatrixParameters.py:vectorize_ld_matrix", "LinearResponseVariationalBayes/MatrixParameters.py:unvectorize_ld_matrix"]}
{"id": "C22", "title": "Symmetric packing is lossless", "statement": "unvectorize_symmetric_matrix returns a symmetric matrix whose lower triangle is the vector, and applied to vectorize_ld_matrix(M) of a symmetric finite M gives M back.", "quantifier": "all sizes, all finite entries", "why_tests_cant": "unbounded sizes", "anchors": ["LinearResponseVariationalBayes/MatrixParameters.py:unvectorize_symmetric_matrix"]}
{"id": "C23", "title": "Hand-written derivative rules of the packing primitive are right", "statement": "The registered vector-Jacobian product of unvectorize_ld_matrix is the adjoint of the map (inner products agree) and the registered Jacobian-vector product is its directional derivative, for every point, cotangent and tangent.", "quantifier": "all sizes, all vectors, all cotangent matrices", "why_tests_cant": "adjointness quantifies over all vectors and matrices", "anchors": ["LinearResponseVariationalBayes/MatrixParameters.py:unvectorize_ld_matrix_vjp", "LinearResponseVariationalBayes/MatrixParameters.py:unvectorize_ld_matrix_jvp"]}
{"id": "C24", "title": "Positive definite parameter: free value round trip", "statement": "pack_posdef_matrix(unpack_posdef_matrix(x, lb), lb) = x for every finite x of length n(n+1)/2 and every diagonal bound lb.", "quantifier": "all matrix sizes, all finite free vectors, all diagonal bounds", "why_tests_cant": "continuum of vectors, unbounded size", "anchors": ["LinearResponseVariationalBayes/MatrixParameters.py:pack_posdef_matrix", "LinearResponseVariationalBayes/MatrixParameters.py:unpack_posdef_matrix"]}
{"id": "C25", "title": "Positive definite parameter: matrix round trip", "statement": "For every symmetric M with M - lb*I positive definite, pack_posdef_matrix succeeds and unpack_posdef_matrix(pack_posdef_matrix(M, lb), lb) = M.", "quantifier": "all sizes, all matrices whose shifted version is positive definite", "why_tests_cant": "requires existence of Cholesky factors for all SPD matrices", "anchors": ["LinearResponseVariationalBayes/MatrixParameters.py:pack_posdef_matrix", "LinearResponseVariationalBayes/MatrixParameters.py:unpack_posdef_matrix"]}
{"id": "C26", "title": "set_free always yields a valid positive definite matrix", "statement": "After PosDefMatrixParam.set_free(x) with finite x of the right length the stored matrix M is symmetric and M - diag_lb*I is positive definite (so its diagonal exceeds diag_lb); a wrong length raises ValueError and changes nothing. A value given to the constructor is accepted or rejected with ValueError exactly as by set.", "quantifier": "all sizes, all finite free vectors, all diag_lb", "why_tests_cant": "continuum of inputs, unbounded sizes", "anchors": ["LinearResponseVariationalBayes/MatrixParameters.py:PosDefMatrixParam.set_free"]}
{"id": "C27", "title": "get_free of a positive definite parameter fails exactly off the cone", "statement": "For a symmetric finite stored matrix, PosDefMatrixParam.get_free succeeds if and only if M - diag_lb*I is positive definite.", "quantifier": "all sizes, all symmetric matrices", "why_tests_cant": "if-and-only-if over all symmetric matrices", "anchors": ["LinearResponseVariationalBayes/MatrixParameters.py:PosDefMatrixParam.get_free"]}
{"id": "C28", "title": "Vectors and arrays of positive definite matrices are laid out consistently", "statement": "In PosDefMatrixParamVector and PosDefMatrixParamArray, matrix number o in row-major order owns exactly the o-th block of the free and vector representations, the blocks are disjoint and cover it, both round trips hold, and a wrong length raises ValueError.", "quantifier": "all lengths, all array shapes, all matrix sizes, all finite vectors", "why_tests_cant": "unbounded shapes", "anchors": ["LinearResponseVariationalBayes/MatrixParameters.py:PosDefMatrixParamVector", "LinearResponseVariationalBayes/MatrixParameters.py:PosDefMatrixParamArray", "LinearResponseVariationalBayes/MatrixParameters.py:PosDefMatrixParamArray.stacked_obs_slice"]}
{"id": "C29", "title": "Shape check of positive definite vectors/arrays is too weak", "statement": "PosDefMatrixParamVector.set and PosDefMatrixParamArray.set raise ValueError only if every dimension of the value differs from the declared shape (same number of dimensions); a value with the wrong length but the right matrix size is accepted.", "quantifier": "all declared shapes and all value shapes with equal number of dimensions", "why_tests_cant": "an exact characterisation over all shapes", "anchors": ["LinearResponseVariationalBayes/MatrixParameters.py:PosDefMatrixParamVector.set", "LinearResponseVariationalBayes/MatrixParameters.py:PosDefMatrixParamArray.set"]}
{"id": "C30", "title": "Derivatives of positive definite parameters", "statement": "free_to_vector_jac / free_to_vector_hess of PosDefMatrixParam, PosDefMatrixParamVector and PosDefMatrixParamArray are the first and second partial derivatives of get_vector after set_free, even though the vector/array versions compute them with diag_lb = 0.", "quantifier": "all sizes, diag_lb, finite free vectors, all index triples", "why_tests_cant": "derivatives everywhere, unbounded sizes", "anchors": ["LinearResponseVariationalBayes/MatrixParameters.py:PosDefMatrixParamVector.free_to_vector_jac", "LinearResponseVariationalBayes/MatrixParameters.py:PosDefMatrixParamArray.free_to_vector_hess", "LinearResponseVariationalBayes/MatrixParameters.py:pos_def_matrix_free_to_vector"]}
{"id": "C31", "title": "set_free of a simplex parameter yields probability vectors", "statement": "For every finite free value of the right length, every row of the stored matrix has strictly positive entries below or equal to one summing to one.", "quantifier": "all shapes, all finite free vectors", "why_tests_cant": "continuum of inputs, unbounded sizes", "anchors": ["LinearResponseVariationalBayes/SimplexParams.py:constrain_simplex_matrix", "LinearResponseVariationalBayes/SimplexParams.py:SimplexParam.set_free"]}
{"id": "C32", "title": "Simplex round trips", "statement": "unconstrain(constrain(x)) = x for every finite free matrix, and constrain(unconstrain(z)) = z for every matrix whose rows are strictly positive and sum to one; for positive rows that do not sum to one it returns the normalised row.", "quantifier": "all shapes, all finite free values, all interior simplex values", "why_tests_cant": "continuum of inputs", "anchors": ["LinearResponseVariationalBayes/SimplexParams.py:constrain_simplex_matrix", "LinearResponseVariationalBayes/SimplexParams.py:unconstrain_simplex_matrix"]}
{"id": "C33", "title": "Hand-derived simplex Jacobian is the true Jacobian", "statement": "constrain_grad_from_moment(constrain_simplex_vector(x)) holds the partial derivatives of constrain_simplex_vector at x, and SimplexParam.free_to_vector_jac places them at the rows/columns of the right observation with zeros elsewhere.", "quantifier": "all numbers of rows/columns, all finite x, all index pairs", "why_tests_cant": "hand-derived formula must hold at every point and size", "anchors": ["LinearResponseVariationalBayes/SimplexParams.py:constrain_grad_from_moment", "LinearResponseVariationalBayes/SimplexParams.py:SimplexParam.free_to_vector_jac"]}
{"id": "C34", "title": "Hand-derived simplex Hessian is the true Hessian", "statement": "constrain_hess_from_moment(constrain_simplex_vector(x)) holds all second partial derivatives of constrain_simplex_vector at x, and SimplexParam.free_to_vector_hess returns one correctly placed matrix per vector entry in vector order.", "quantifier": "all numbers of rows/columns, all finite x, all index triples", "why_tests_cant": "hand-derived formula with in-place updates must hold at every point and size", "anchors": ["LinearResponseVariationalBayes/SimplexParams.py:constrain_hess_from_moment", "LinearResponseVariationalBayes/SimplexParams.py:SimplexParam.free_to_vector_hess"]}
{"id": "C35", "title": "Subspace parameter stays in its subspace and round trips", "statement": "With an exact symmetric eigensolver and linear solver, get_perpendicular_subspace of a full-rank x returns an orthonormal basis of the space perpendicular to the rows of x; SubspaceVectorParam.set_free(f) is perpendicular to every constraint row, get_free after set_free returns f, and set_free(get_free()) is the orthogonal projection of the stored value (the value itself if it satisfies the constraints). Without a constraint matrix the constraint is that the entries add up to zero, and a dimension below two is rejected with ValueError.", "quantifier": "all dimensions, all full-rank constraint matrices, all free values, all exact eigensolvers", "why_tests_cant": "all matrices and all eigen-bases the library may pick", "anchors": ["LinearResponseVariationalBayes/ProjectionParams.py:get_perpendicular_subspace", "LinearResponseVariationalBayes/ProjectionParams.py:SubspaceVectorParam"]}
{"id": "C36", "title": "offset_sparse_matrix and block layout of dictionary derivatives", "statement": "offset_sparse_matrix moves every entry by the offset and nothing else; the dictionary's free_to_vector_jac is block diagonal with each member's Jacobian at (vector offset, free offset), and free_to_vector_hess lists, for each vector index in order, the member Hessian placed at the member's free offset with zeros elsewhere.", "quantifier": "all sparse matrices and offsets, all dictionaries", "why_tests_cant": "unbounded sizes and numbers of members", "anchors": ["LinearResponseVariationalBayes/Parameters.py:offset_sparse_matrix", "LinearResponseVariationalBayes/Parameters.py:free_to_vector_jac_offset", "LinearResponseVariationalBayes/Parameters.py:free_to_vector_hess_offset", "LinearResponseVariationalBayes/ParameterDictionary.py:ModelParamsDict.free_to_vector_jac"]}
{"id": "C37", "title": "Dictionary Jacobian and Hessian are the true derivatives", "statement": "For any well-formed dictionary, free_to_vector_jac and free_to_vector_hess at a finite free vector are the first and second partial derivatives of free_to_vector.", "quantifier": "all well-formed dictionaries (any nesting), all finite free vectors, all index triples", "why_tests_cant": "unbounded composition; derivatives everywhere", "anchors": ["LinearResponseVariationalBayes/ParameterDictionary.py:ModelParamsDict.free_to_vector_jac", "LinearResponseVariationalBayes/ParameterDictionary.py:ModelParamsDict.free_to_vector_hess"]}
{"id": "C38", "title": "convert_vector_to_free_hessian is the Hessian in free coordinates", "statement": "For any twice differentiable function of the constrained vector, convert_vector_to_free_hessian applied to its gradient and Hessian at the constrained point returns the matrix of second partial derivatives of the function composed with free_to_vector, and it is symmetric when the given Hessian is.", "quantifier": "all parameters, all twice differentiable objectives, all finite free values, all index pairs", "why_tests_cant": "a second-order multivariate chain rule for all functions", "anchors": ["LinearResponseVariationalBayes/Parameters.py:convert_vector_to_free_hessian"]}
{"id": "C39", "title": "get_sparse_sub_matrix scatters the dense block", "statement": "The sparse matrix has, at (r, c), the sum of the dense entries whose row index maps to r and column index to c; with injective index vectors it is exactly the dense entry, and zero off the listed rows and columns. get_sparse_sub_hessian is the symmetric special case.", "quantifier": "all dense blocks, all index vectors in range", "why_tests_cant": "unbounded sizes and index patterns", "anchors": ["LinearResponseVariationalBayes/SparseObjectives.py:get_sparse_sub_matrix", "LinearResponseVariationalBayes/SparseObjectives.py:get_sparse_sub_hessian"]}
{"id": "C40", "title": "CSR pack/unpack is lossless", "statement": "unpack_csr_matrix(pack_csr_matrix(m)) and json_unpack_csr_matrix(json_pack_csr_matrix(m)) represent the same matrix as m with the same shape, assuming json encoding of arrays is lossless; the json version rejects non-CSR input and dictionaries of another type.", "quantifier": "all sparse matrices", "why_tests_cant": "unbounded sizes and sparsity patterns", "anchors": ["LinearResponseVariationalBayes/SparseObjectives.py:pack_csr_matrix", "LinearResponseVariationalBayes/SparseObjectives.py:unpack_csr_matrix", "LinearResponseVariationalBayes/SparseObjectives.py:json_pack_csr_matrix", "LinearResponseVariationalBayes/SparseObjectives.py:json_unpack_csr_matrix"]}
{"id": "C41", "title": "Index parameters report vector positions", "statement": "make_index_param(p) leaves p unchanged and returns a copy in which each member holds exactly the positions its entries occupy in get_vector(); gathering any get_vector() at those positions gives the member's own vector (for members whose vector form is stored verbatim).", "quantifier": "all well-formed parameters", "why_tests_cant": "unbounded composition", "anchors": ["LinearResponseVariationalBayes/SparseObjectives.py:make_index_param"]}
{"id": "C42", "title": "Objective values depend only on their argument", "statement": "fun_free(x) and fun_vector(v) of an Objective return the same value whatever was evaluated or set before, and leave the parameter holding the value set by the argument.", "quantifier": "all call histories, all parameters whose set_free/set_vector overwrite the value, all objective functions", "why_tests_cant": "all histories of interleaved calls", "anchors": ["LinearResponseVariationalBayes/SparseObjectives.py:Objective.fun_free", "LinearResponseVariationalBayes/SparseObjectives.py:Objective.fun_vector"]}
{"id": "C43", "title": "Derivative calls leave numeric parameter values behind", "statement": "After any sequence of successful calls to fun_free_grad/hessian/jacobian/hvp and their vector versions, the parameter holds the plain numeric value set by the last call's first argument, no matter what tracing objects autograd stored meanwhile. If the traced evaluation raises, the tracing value may be left behind.", "quantifier": "all call histories, all behaviours of the differentiation library", "why_tests_cant": "adversarial library behaviour and all histories, including exceptions", "anchors": ["LinearResponseVariationalBayes/SparseObjectives.py:Objective.cache_free_and_eval", "LinearResponseVariationalBayes/SparseObjectives.py:Objective.cache_vector_and_eval", "LinearResponseVariationalBayes/SparseObjectives.py:Objective.fun_free_hvp"]}
{"id": "C44", "title": "Preconditioned objective and derivatives agree with the change of variables", "statement": "With preconditioner A, fun_free_cond(x) = f(Ax), fun_free_grad_cond, fun_free_hessian_cond and fun_free_hvp_cond are the gradient, Hessian and Hessian-vector product of x -> f(Ax), and uncondition_x maps the conditioned argument to the free value at which the objective was evaluated. Without a preconditioner they raise AssertionError.", "quantifier": "all twice differentiable objectives, all square preconditioners, all points", "why_tests_cant": "chain rule for all functions and matrices", "anchors": ["LinearResponseVariationalBayes/SparseObjectives.py:Objective.fun_free_cond", "LinearResponseVariationalBayes/SparseObjectives.py:Objective.fun_free_grad_cond", "LinearResponseVariationalBayes/SparseObjectives.py:Objective.fun_free_hessian_cond", "LinearResponseVariationalBayes/SparseObjectives.py:Objective.fun_free_hvp_cond", "LinearResponseVariationalBayes/SparseObjectives.py:Objective.uncondition_x"]}
{"id": "C45", "title": "ParameterConverter restores both parameters", "statement": "Each Jacobian method of ParameterConverter leaves the input parameter at the numeric argument and the output parameter at the vector it held before the call, whatever the differentiation library did, provided nothing raised.", "quantifier": "all parameters, all library behaviours, all call histories", "why_tests_cant": "adversarial library behaviour and all histories", "anchors": ["LinearResponseVariationalBayes/SparseObjectives.py:ParameterConverter.cache_free_and_eval", "LinearResponseVariationalBayes/SparseObjectives.py:ParameterConverter.cache_vector_and_eval"]}
{"id": "C46", "title": "TwoParameterObjective sets the right parameter in the right form", "statement": "For each of the evaluation and derivative methods, parameter 1 and parameter 2 are set from the first and second argument in the free or vector form named by the method; the value depends only on the arguments and both parameters hold numeric values afterwards. The 21 cross Hessian is the transpose of the 12 one for twice continuously differentiable functions.", "quantifier": "all parameters, all histories, all objectives", "why_tests_cant": "all histories and combinations of forms", "anchors": ["LinearResponseVariationalBayes/SparseObjectives.py:TwoParameterObjective"]}
{"id": "C47", "title": "Logger records the full history", "statement": "After initialize() and any sequence of log(value, x) calls, iter is the number of calls, val_array and x_array hold all values and points in order, value/x/last_* are those of the last call, and the print/callback fires exactly on calls number 0, k, 2k, ... for print_every = k. fun_free(x, verbose=True) leaves the parameter as fun_free(x) does and returns its value; an exception of the objective leaves the logger unchanged; otherwise the value and x are recorded, even if the logger then raises (ZeroDivisionError for print_every = 0, ValueError if x cannot be subtracted from the previous point), and that exception reaches the caller.", "quantifier": "all sequences of log calls, all positive print_every; all objectives, arguments and logger states", "why_tests_cant": "all histories", "anchors": ["LinearResponseVariationalBayes/SparseObjectives.py:Logger.log", "LinearResponseVariationalBayes/SparseObjectives.py:Logger.initialize"]}
{"id": "C48", "title": "Derivative array holds the mixed derivatives", "statement": "generate_two_term_derivative_array(g, order)[i][j] called with (x1, x2, v1..vi, w1..wj) is the i-fold x1, j-fold x2 directional derivative of g along v1..vi, w1..wj, for all i < order and j <= order; the array has exactly those entries.", "quantifier": "all orders, all smooth functions, all directions", "why_tests_cant": "unbounded order; all functions", "anchors": ["LinearResponseVariationalBayes/ModelSensitivity.py:append_jvp", "LinearResponseVariationalBayes/ModelSensitivity.py:generate_two_term_derivative_array"]}
{"id": "C49", "title": "Differentiating terms is sound", "statement": "If a list of derivative terms evaluates, along any smooth curve eta(t) with eps moving linearly, to d^k/dt^k g(eta(t), eps(t)), then the list produced by differentiate_terms evaluates to d^(k+1)/dt^(k+1).", "quantifier": "all term lists, all smooth g, all smooth curves, all orders", "why_tests_cant": "symbolic differentiation must be right for all orders", "anchors": ["LinearResponseVariationalBayes/ModelSensitivity.py:DerivativeTerm.differentiate", "LinearResponseVariationalBayes/ModelSensitivity.py:differentiate_terms"]}
{"id": "C50", "title": "consolidate_terms preserves the sum", "statement": "evaluate_terms of the consolidated list equals evaluate_terms of the original list, with and without the highest eta order, although the loop deletes from the list it iterates over.", "quantifier": "all lists of same-order derivative terms", "why_tests_cant": "all lists of all lengths; mutation during iteration", "anchors": ["LinearResponseVariationalBayes/ModelSensitivity.py:consolidate_terms", "LinearResponseVariationalBayes/ModelSensitivity.py:evaluate_terms", "LinearResponseVariationalBayes/ModelSensitivity.py:DerivativeTerm.combine_with"]}
{"id": "C51", "title": "consolidate_terms does not fully consolidate", "statement": "The promise that terms with the same derivative signature are combined is false: because elements are removed while iterating, three equal terms leave two; a list in which each signature occurs at most twice and equal terms are not adjacent behind a match is fully consolidated. In the expansions that set_order builds, of any order, the lists of terms are nevertheless fully consolidated.", "quantifier": "all lists of terms", "why_tests_cant": "the failing pattern needs three like terms in particular positions", "anchors": ["LinearResponseVariationalBayes/ModelSensitivity.py:consolidate_terms"]}
{"id": "C52", "title": "The sanity assertions of DerivativeTerm never fire", "statement": "For every order >= 1, building the Taylor expansion (base terms, repeated differentiation, consolidation) never violates an assertion or index bound of DerivativeTerm, and order 0 is rejected with an AssertionError.", "quantifier": "all orders", "why_tests_cant": "unbounded order", "anchors": ["LinearResponseVariationalBayes/ModelSensitivity.py:DerivativeTerm.__init__", "LinearResponseVariationalBayes/ModelSensitivity.py:ParametricSensitivityTaylorExpansion.set_order"]}
{"id": "C53", "title": "evaluate_dkinput_dhyperk returns the true derivatives of the optimum", "statement": "If eta(t) is a smooth curve of stationary points g(eta(t), eps0 + t*deps) = 0 with invertible Hessian at 0, evaluate_dkinput_dhyperk(deps, k) equals the k-th derivative of eta at 0 for every 1 <= k <= order, and raises ValueError for other k. The functions stored for the derivatives (dkinput_dhyperk_list) return the derivative at the base point when called at any point within the tolerance of it, and raise AssertionError outside the tolerance.", "quantifier": "all orders k, all smooth objectives, all directions, all points and tolerances", "why_tests_cant": "Faa di Bruno recursion for all orders", "anchors": ["LinearResponseVariationalBayes/ModelSensitivity.py:evaluate_dketa_depsk", "LinearResponseVariationalBayes/ModelSensitivity.py:ParametricSensitivityTaylorExpansion.evaluate_dkinput_dhyperk"]}
{"id": "C54", "title": "evaluate_taylor_series is the Taylor polynomial", "statement": "evaluate_taylor_series(deps, max_order=m) equals the sum over k=1..m of eta^(k)(0)/k!, plus input_val0 when add_offset, for every 1 <= m <= order, and raises ValueError for other m; with m = 1 it agrees with the linear approximation class. Calling set_order(k) on an existing approximation with k >= 1 gives the approximation the constructor gives for order k; with k <= 0 it raises, and every evaluation after that raises ValueError.", "quantifier": "all orders, all smooth objectives, all directions", "why_tests_cant": "unbounded order", "anchors": ["LinearResponseVariationalBayes/ModelSensitivity.py:ParametricSensitivityTaylorExpansion.evaluate_taylor_series", "LinearResponseVariationalBayes/ModelSensitivity.py:ParametricSensitivityLinearApproximation.predict_input_par_from_hyperparameters"]}
{"id": "C55", "title": "hyper_par_objective_functor is only safe at first order", "statement": "Supplying only the hyperparameter-dependent part of the objective gives the same first derivative, but from order 2 on evaluate_dkinput_dhyperk can differ from the true derivative.", "quantifier": "all objectives split as f(eta) + h(eta, eps); an explicit counterexample at order 2", "why_tests_cant": "needs an objective with non-zero third derivative; the tests only check first order", "anchors": ["LinearResponseVariationalBayes/ModelSensitivity.py:ParametricSensitivityTaylorExpansion.__init__"]}
{"id": "C56", "title": "User-supplied Hessian and non-free flags are ignored", "statement": "The hess0 constructor argument of ParametricSensitivityTaylorExpansion and ParametricSensitivityLinearApproximation never influences the result; and with input_is_free=False the base Hessian is still taken in free coordinates, so for a curved constraint the first-order result is not the derivative of the optimum.", "quantifier": "all hess0 arguments; explicit counterexample for input_is_free=False", "why_tests_cant": "non-interference statement over all arguments", "anchors": ["LinearResponseVariationalBayes/ModelSensitivity.py:ParametricSensitivityTaylorExpansion.__init__", "LinearResponseVariationalBayes/ModelSensitivity.py:ParametricSensitivityTaylorExpansion.set_base_values", "LinearResponseVariationalBayes/ModelSensitivity.py:ParametricSensitivityLinearApproximation.__init__"]}
{"id": "C57", "title": "Linear sensitivity is the implicit derivative", "statement": "At an optimum with invertible Hessian, get_dinput_dhyper equals the Jacobian of the optimum with respect to the hyperparameter, predict_input_par_from_hyperparameters is its first-order expansion, and for objectives quadratic in the free input and linear in the hyperparameter the prediction is exact; get_doutput_dhyper obeys the chain rule.", "quantifier": "all smooth objectives, all hyperparameter values", "why_tests_cant": "implicit function theorem statement over all objectives", "anchors": ["LinearResponseVariationalBayes/ModelSensitivity.py:ParametricSensitivityLinearApproximation", "LinearResponseVariationalBayes/SparseObjectives.py:ParametricSensitivity"]}
{"id": "C58", "title": "Matrix inverse square root", "statement": "With an exact eigensolver, get_sym_matrix_inv_sqrt(H, ev_min, ev_max) returns a symmetric S and symmetric Hc whose quadratic form lies between ev_min and ev_max times the squared norm when ev_min <= ev_max, S*Hc*S = I when the clipped eigenvalues are positive, and Hc is the symmetric part of H when no eigenvalue is clipped.", "quantifier": "all sizes, all matrices, all thresholds, all exact eigensolvers", "why_tests_cant": "all matrices and all eigen-decompositions", "anchors": ["LinearResponseVariationalBayes/OptimizationUtils.py:get_sym_matrix_inv_sqrt", "LinearResponseVariationalBayes/OptimizationUtils.py:set_objective_preconditioner"]}
{"id": "C59", "title": "Preconditioning with the inverse square root whitens the Hessian", "statement": "After set_objective_preconditioner at a point with positive definite Hessian and no clipping, the conditioned Hessian at the corresponding conditioned point is the identity; calling it with neither a point nor a Hessian raises ValueError.", "quantifier": "all objectives with positive definite Hessian", "why_tests_cant": "all objectives", "anchors": ["LinearResponseVariationalBayes/OptimizationUtils.py:set_objective_preconditioner", "LinearResponseVariationalBayes/SparseObjectives.py:Objective.fun_free_hessian_cond"]}
{"id": "C60", "title": "minimize_objective wrappers return values in free coordinates", "statement": "minimize_objective_bfgs/trust_ncg hand the optimiser a starting point whose unconditioned value is init_x, report opt_x as the free value corresponding to the optimiser's solution, so that the optimiser's function value at its solution is the objective at opt_x, with or without preconditioning; the logger is reset exactly when init_logger.", "quantifier": "all objectives, optimisers (as black boxes), invertible preconditioners, flags", "why_tests_cant": "black-box optimisers and all matrices", "anchors": ["LinearResponseVariationalBayes/OptimizationUtils.py:minimize_objective_bfgs", "LinearResponseVariationalBayes/OptimizationUtils.py:minimize_objective_trust_ncg"]}
{"id": "C61", "title": "repeatedly_optimize control flow", "statement": "repeatedly_optimize calls the optimiser at most max_iter times, each time from the previous result, stops as soon as one of the three criteria holds, returns the last point, reports converged exactly when one of the three returned flags is true, and keeps the results of all runs (including the initial one) in order exactly when asked. With max_iter <= 0 it fails with an unbound-variable error.", "quantifier": "all optimisers, objectives, tolerances, iteration limits", "why_tests_cant": "all behaviours of a black-box optimiser, unbounded iteration limits", "anchors": ["LinearResponseVariationalBayes/OptimizationUtils.py:repeatedly_optimize"]}
{"id": "C62", "title": "split_vector partitions the true entries", "statement": "split_vector returns two masks of the same length that are disjoint, whose union is the input mask, the first holding floor(n/2) of the n true positions and all of them before those of the second.", "quantifier": "all boolean vectors", "why_tests_cant": "unbounded lengths", "anchors": ["LinearResponseVariationalBayes/ConjugateGradient.py:split_vector"]}
{"id": "C63", "title": "recursive_split partitions into small masks and terminates", "statement": "For terminate_len >= 1 recursive_split terminates and appends to results pairwise disjoint masks whose union is the input, each with at most terminate_len true values, keeping what results held before; for terminate_len <= 0 it never terminates on a mask with a true entry.", "quantifier": "all masks, all terminate_len, all previous results", "why_tests_cant": "termination and unbounded recursion", "anchors": ["LinearResponseVariationalBayes/ConjugateGradient.py:recursive_split"]}
{"id": "C64", "title": "get_masks partitions the index range", "statement": "For 0 < min_mask_len < full_len get_masks returns ceil(full_len/min_mask_len) masks of length full_len such that every index is true in exactly one; all but the last have min_mask_len true entries. Other arguments raise AssertionError.", "quantifier": "all lengths", "why_tests_cant": "unbounded lengths", "anchors": ["LinearResponseVariationalBayes/ConjugateGradient.py:get_masks"]}
{"id": "C65", "title": "Masked solves add up to the full solve", "statement": "With an exact symmetric solver, running get_hinv_vec_subsets over masks that partition the indices (as from get_masks) stores vectors that sum to vec and solutions that sum to H^{-1} vec; one entry is appended per mask to each of the five record lists, after those already there. A new solver solves with the Hessian at the x0 it was given, whatever the Hessian is elsewhere, with tolerance 1e-8 and no preconditioner, and has no records.", "quantifier": "all vectors, all partitions, all invertible operators, all call histories", "why_tests_cant": "unbounded number of masks; all operators", "anchors": ["LinearResponseVariationalBayes/ConjugateGradient.py:ConjugateGradientSolver.get_hinv_vec_subsets"]}
{"id": "C66", "title": "Prior expectations are expectations of log densities", "statement": "uvn_prior, mvn_prior, gamma_prior, exponential_prior and dirichlet_prior evaluated at the moments of any (finitely supported) distribution equal the expectation of the corresponding log density up to its normalising constant.", "quantifier": "all priors, all finitely supported distributions", "why_tests_cant": "all distributions and parameters", "anchors": ["LinearResponseVariationalBayes/ExponentialFamilies.py:uvn_prior", "LinearResponseVariationalBayes/ExponentialFamilies.py:mvn_prior", "LinearResponseVariationalBayes/ExponentialFamilies.py:gamma_prior", "LinearResponseVariationalBayes/ExponentialFamilies.py:exponential_prior", "LinearResponseVariationalBayes/ExponentialFamilies.py:dirichlet_prior"]}
{"id": "C67", "title": "Natural-parameter conversions complete the square", "statement": "get_uvn_from_natural_parameters(e, e2) returns mean and info with e*x + e2*x^2 = -info/2*(x-mean)^2 + const for all x (e2 != 0), and inverts mean,info -> (mean*info, -info/2).", "quantifier": "all natural parameters with e2 != 0", "why_tests_cant": "all reals", "anchors": ["LinearResponseVariationalBayes/ExponentialFamilies.py:get_uvn_from_natural_parameters"]}
{"id": "C68", "title": "Entropy formulas agree across families", "statement": "For any functions used as log-gamma and digamma: dirichlet_entropy of two components is beta_entropy, wishart_entropy and e_log_det_wishart of a 1x1 scale are the gamma entropy and expected log with shape df/2 and rate 1/(2v), multivariate_normal_entropy of a diagonal precision is the sum of univariate entropies, and multivariate_gammaln/digamma obey the standard recursion in the dimension.", "quantifier": "all parameters, all dimensions, all special-function implementations", "why_tests_cant": "identities over all reals and dimensions", "anchors": ["LinearResponseVariationalBayes/ExponentialFamilies.py:dirichlet_entropy", "LinearResponseVariationalBayes/ExponentialFamilies.py:beta_entropy", "LinearResponseVariationalBayes/ExponentialFamilies.py:wishart_entropy", "LinearResponseVariationalBayes/ExponentialFamilies.py:gamma_entropy", "LinearResponseVariationalBayes/ExponentialFamilies.py:multivariate_normal_entropy", "LinearResponseVariationalBayes/ExponentialFamilies.py:multivariate_gammaln"]}
{"id": "C69", "title": "Lognormal moments are consistent", "statement": "get_e_lognormal and get_var_lognormal satisfy var >= 0, E[Y]^2 + Var[Y] = E[Y^2] where E[Y^2] is the lognormal mean with doubled exponent, so e2_exp of the normal parameter classes is the second moment; UVNMomentParamArray.var_exp instead returns the mean and is wrong, and so is its e2_exp, which adds the mean to the squared mean.", "quantifier": "all means and variances", "why_tests_cant": "all reals; one class silently wrong", "anchors": ["LinearResponseVariationalBayes/ExponentialFamilies.py:get_e_lognormal", "LinearResponseVariationalBayes/ExponentialFamilies.py:get_var_lognormal", "LinearResponseVariationalBayes/NormalParams.py:UVNParam", "LinearResponseVariationalBayes/NormalParams.py:UVNMomentParamArray.var_exp"]}
{"id": "C70", "title": "Moment and natural parameterisations of normals agree", "statement": "After UVNMomentParamArray.set_from_uvn_param_array(q) its e, e_outer, var, e_exp and entropy equal those of q whenever all infos are positive; set_from_constant gives zero variance; a source of another shape raises AssertionError and changes nothing.", "quantifier": "all shapes, means, positive infos", "why_tests_cant": "all shapes and reals", "anchors": ["LinearResponseVariationalBayes/NormalParams.py:UVNMomentParamArray.set_from_uvn_param_array", "LinearResponseVariationalBayes/NormalParams.py:UVNMomentParamArray.set_from_constant"]}
{"id": "C71", "title": "Dirichlet means form a simplex", "statement": "get_e_dirichlet of positive alpha, and DirichletParamArray.e(), has positive entries summing to one along axis 0 for every column, in proportion to alpha, and is invariant to rescaling alpha.", "quantifier": "all shapes, positive alphas", "why_tests_cant": "all shapes and reals", "anchors": ["LinearResponseVariationalBayes/ExponentialFamilies.py:get_e_dirichlet"]}
{"id": "C72", "title": "Gauss-Hermite expectations are exact on low-degree polynomials", "statement": "For any nodes and weights that integrate the constants, linear and quadratic polynomials exactly, get_e_fun_normal returns E[1]=1, E[X]=mean, E[X^2]=mean^2+1/info, and get_e_log_logitnormal's two outputs differ by the mean and are within e^-100 (times total weight) of the quadrature of log expit and log(1-expit).", "quantifier": "all exact quadrature rules of any size, all means and positive infos", "why_tests_cant": "all rules and reals; numerical guard branch at x = -100", "anchors": ["LinearResponseVariationalBayes/ExponentialFamilies.py:get_e_fun_normal", "LinearResponseVariationalBayes/ExponentialFamilies.py:get_e_log_logitnormal"]}
{"id": "C73", "title": "WishartParam ignores its size", "statement": "WishartParam(size=n) always stores a 2x2 scale matrix, so its vector size is 4 for every n although the lower bound of df is n-1.", "quantifier": "all sizes", "why_tests_cant": "silent for the default size used in tests", "anchors": ["LinearResponseVariationalBayes/WishartParams.py:WishartParam.__init__"]}
{"id": "C74", "title": "Batched matrix products follow the textbook formula", "statement": "mat_mul_last2dims(x1, x2)[b, r, t] = sum_s x1[b,s,r]*x2[b,s,t] and matvec_mul_last2dims(x, y)[b, r] = sum over extra dims e and s of x[b,s,r]*y[b,e,s], for any number of batch dimensions; different ranks or inner dimensions raise AssertionError, rank below two IndexError, and batch dimensions that differ and are not 1 ValueError.", "quantifier": "all ranks, all shapes, all entries", "why_tests_cant": "einsum index bookkeeping for every rank", "anchors": ["LinearResponseVariationalBayes/regression_utils.py:mat_mul_last2dims", "LinearResponseVariationalBayes/regression_utils.py:matvec_mul_last2dims"]}
{"id": "C75", "title": "Posterior regression coefficients solve the normal equations", "statement": "Whenever the returned precision can be inverted, get_posterior_regression_coefficients returns a mean solving (n X'LX + P) mean = X'L(sum y) + P m, and get_regression_coefficients one solving the generalised least squares normal equations. For symmetric nonnegative L and P the returned precision is n X'LX + P and the mean is the unique minimiser of the (penalised) weighted squared error.", "quantifier": "all designs, responses, scalar or matrix weights, priors, batch shapes, and inverse routines that invert the matrix", "why_tests_cant": "all matrices", "anchors": ["LinearResponseVariationalBayes/regression_utils.py:get_nat_params_from_likelihood", "LinearResponseVariationalBayes/regression_utils.py:get_nat_params_from_prior", "LinearResponseVariationalBayes/regression_utils.py:get_mvn_from_nat_params", "LinearResponseVariationalBayes/regression_utils.py:get_posterior_regression_coefficients"]}
{"id": "C76", "title": "Standard draws are symmetric quantiles", "statement": "get_standard_draws(n) evaluates the normal quantile function at i/(n+1), i=1..n; for an odd quantile function the draws are antisymmetric and sum to zero.", "quantifier": "all n, all quantile functions odd about 1/2", "why_tests_cant": "unbounded n", "anchors": ["LinearResponseVariationalBayes/Modeling.py:get_standard_draws"]}
{"id": "C77", "title": "univariate_normal_log_prob is not a normal log density", "statement": "univariate_normal_log_prob(u, mean, info) differs from the normal log density by (info - log(info))/2, which is at least 1/2 for every info > 0, so it is wrong for every precision.", "quantifier": "all u, mean, positive info", "why_tests_cant": "statement about every positive precision", "anchors": ["LinearResponseVariationalBayes/Modeling.py:univariate_normal_log_prob"]}
{"id": "C78", "title": "Progress messages of masked solves appear at divisors of print_every", "statement": "With verbose=True, get_hinv_vec_subsets prints 'i of n' exactly for the positions i between 1 and the number of masks n that divide print_every (not for the multiples of print_every), each once and in no other case; with verbose=False it prints nothing.", "quantifier": "all vectors, mask lists, print_every values and earlier states", "why_tests_cant": "A test shows the output for a few lengths; the claim is about every mask count and every print_every, including values larger than the number of masks.", "anchors": ["LinearResponseVariationalBayes/ConjugateGradient.py: ConjugateGradientSolver.get_hinv_vec_subsets"]}
{"id": "C79", "title": "Where the optimisation wrappers leave the parameter", "statement": "After minimize_objective_bfgs or minimize_objective_trust_ncg returns, the objective's parameter holds plain numbers equal to the free point corresponding to the last value, gradient or Hessian-vector product the optimiser asked for, which need not be the returned opt_x; if the optimiser asked for nothing the parameter is unchanged. repeatedly_optimize leaves the parameter at the returned point.", "quantifier": "all objectives, optimisers as black boxes, sequences of queries, preconditioners and flags", "why_tests_cant": "The final state depends on the whole, unbounded sequence of queries of the optimiser.", "anchors": ["LinearResponseVariationalBayes/OptimizationUtils.py: minimize_objective_trust_ncg, minimize_objective_bfgs, repeatedly_optimize"]}
{"id": "C80", "title": "Entropies are minus the expected log density", "statement": "univariate_normal_entropy, gamma_entropy, dirichlet_entropy, multivariate_normal_entropy and wishart_entropy equal minus the expectation of the textbook log density (with its normalising constant) under every distribution whose moments are the ones the library itself reports for that parameter (mean and variance; mean and expected log; expected logs; mean and covariance; mean and expected log determinant). The entropy methods of the normal, multivariate normal (MVNParam), gamma, Dirichlet and Wishart parameter classes are these functions of the values they hold.", "quantifier": "all parameters in the domain, all dimensions and array shapes, all finitely supported distributions with the reported moments, all special-function implementations finite on the positive reals", "why_tests_cant": "The identity ties an entropy formula to a moment formula over every parameter value and dimension; tests check a handful of parameter values against Monte Carlo noise.", "anchors": ["LinearResponseVariationalBayes/ExponentialFamilies.py: univariate_normal_entropy, gamma_entropy, dirichlet_entropy, multivariate_normal_entropy, wishart_entropy, get_e_log_gamma, get_e_log_dirichlet, e_log_det_wishart"]}
{"id": "C81", "title": "Categorical entropy is bounded by the uniform one", "statement": "multinoulli_entropy of a probability vector with K entries lies between minus the stabilising min_prob contribution and log K (plus it), and the uniform vector attains log K when min_prob is zero.", "quantifier": "all K, all probability vectors (zeros included when min_prob > 0), all min_prob", "why_tests_cant": "The bound is Gibbs' inequality over all probability vectors of all lengths.", "anchors": ["LinearResponseVariationalBayes/ExponentialFamilies.py: multinoulli_entropy"]}
{"id": "C82", "title": "The LKJ prior is an expected log density of the correlations", "statement": "expected_ljk_prior, and WishartParam.e_log_lkj_inv_prior, is the expected log LKJ density (without its constant) det(R)^(lkj_param - 1) of the correlations R of the inverse of the matrix, under every distribution of invertible matrices with the expected log determinant and expected log inverse diagonal the library itself reports. It is zero for a 1x1 Wishart and unchanged when the scale matrix V is replaced by D V D for any invertible diagonal D, so it depends only on the correlations.", "quantifier": "all dimensions, all positive-determinant scale matrices whose inverse has a positive diagonal, all rescalings, all degrees of freedom, all digamma functions, all finitely supported distributions of matrices with the reported moments", "why_tests_cant": "Invariance holds for a continuum of rescalings and all dimensions.", "anchors": ["LinearResponseVariationalBayes/ExponentialFamilies.py: expected_ljk_prior, e_log_inv_wishart_diag, e_log_det_wishart"]}
{"id": "C83", "title": "Prior plus entropy is an evidence bound for normals", "statement": "For normal variational factors with means e and precisions I and normal priors with means m and precisions L, the expected log prior (uvn_prior plus the log normaliser it omits) plus univariate_normal_entropy is at most zero, and is zero exactly when every factor equals its prior: it is minus a Kullback-Leibler divergence. The same holds for a multivariate normal factor held by an MVNParam and a multivariate normal prior: mvn_prior at e() and cov(), plus the log normaliser, plus entropy().", "quantifier": "all array shapes, means, positive prior and variational precisions; all dimensions and all symmetric positive definite precision matrices", "why_tests_cant": "the bound and the equality case range over all real parameters and shapes", "anchors": ["ExponentialFamilies.py: multivariate_normal_entropy", "ExponentialFamilies.py: mvn_prior", "LinearResponseVariationalBayes/ExponentialFamilies.py:univariate_normal_entropy", "LinearResponseVariationalBayes/ExponentialFamilies.py:uvn_prior", "NormalParams.py: MVNParam"]}
{"id": "C84", "title": "Second moments of the multivariate normal classes", "statement": "MVNParam.cov() is the inverse of the information matrix and e_outer() is E[x x'] for every random vector with mean e() and covariance cov(), both symmetric; MVNArray.e2() is the entrywise second moment of rows with the given means and the row's shared precision.", "quantifier": "all dimensions, means, symmetric invertible information matrices, all finitely supported distributions with those moments", "why_tests_cant": "equality with an expectation over every distribution with given first two moments, every dimension", "anchors": ["LinearResponseVariationalBayes/NormalParams.py:MVNParam", "LinearResponseVariationalBayes/NormalParams.py:MVNArray"]}
{"id": "C85", "title": "WishartParam.e_inv is not the mean of the inverse", "statement": "WishartParam.e_inv() returns df * V^-1; the textbook formula for the mean of the inverse of a Wishart matrix is V^-1 / (df - n - 1), and the two agree only when df * (df - n - 1) = 1.", "quantifier": "all dimensions, degrees of freedom above n + 1, invertible scale matrices", "why_tests_cant": "the set of parameters on which the formula is right is characterised exactly", "anchors": ["LinearResponseVariationalBayes/WishartParams.py:WishartParam.e_inv"]}
{"id": "C86", "title": "Sampled logistic terms are expected log likelihoods", "statement": "get_e_logistic_term(y, mean, sd, draws) is the expected Bernoulli log likelihood when z is spread uniformly over sd*draws + mean, provided the draws sum to zero (as those of get_standard_draws do); it never exceeds the log likelihood at the mean, falls short of it by at most mean(draws^2) * sum(sd^2) / 8, is nonpositive for outcomes in [0, 1], and arrays of different rank raise AssertionError.", "quantifier": "all shapes, outcomes, means, standard deviations and mean-zero draws", "why_tests_cant": "A test checks a few values against Monte Carlo; the identity and both inequalities must hold for every input.", "anchors": ["LinearResponseVariationalBayes/Modeling.py:get_e_logistic_term", "LinearResponseVariationalBayes/Modeling.py:get_standard_draws"]}
{"id": "C87", "title": "Gauss-Hermite logistic terms", "statement": "get_e_logistic_term_guass_hermite returns, per entry, the Gauss-Hermite value of E log(1 + e^z); aggregated it returns their sum over all entries. With nonnegative weights exact to degree two each entry lies between log(1 + e^mean) and log(1 + e^mean) + sd^2/8. Different shapes raise AssertionError.", "quantifier": "all shapes, means, standard deviations, nodes and weights", "why_tests_cant": "Quadrature correctness for every mean and scale, and agreement of the aggregated and unaggregated modes for all shapes, cannot be enumerated.", "anchors": ["LinearResponseVariationalBayes/Modeling.py:get_e_logistic_term_guass_hermite"]}
{"id": "C88", "title": "ParameterConverter's four functions compute the converter in the requested representations", "statement": "When the converter computes F from the input's free (or vector) form to the output's free (or vector) form, the corresponding ParameterConverter function called at x returns F(x), and leaves the input parameter at x and the output parameter at F(x), holding plain numbers.", "quantifier": "all parameters, all converter functions, all four combinations of free and vector", "why_tests_cant": "A mix-up of the free and vector forms is invisible for parameters whose two forms coincide, as in most tests.", "anchors": ["LinearResponseVariationalBayes/SparseObjectives.py:ParameterConverter"]}
{"id": "C89", "title": "Parameter calls on shared arrays do what the per-value description says and touch nothing else", "statement": "For an object graph of parameters in which no parameter object occurs twice, set_free, set_vector, get_free and get_vector have the result and raise the errors that the description by values gives, also when the arrays they get and hold are views of common buffers. No array that existed before the call changes its contents, and no parameter outside the graph changes. The getters also do so when objects occur several times. push_param shows the same dictionary as the value model and holds no further objects.", "quantifier": "all object graphs of all eight classes and nested dictionaries, all layouts of arrays in buffers, all arguments", "why_tests_cant": "Aliasing depends on which arrays share memory; a test fixes one layout.", "anchors": ["Parameters.py: set, get, set_free, get_free, set_vector, get_vector", "MatrixParameters.py", "SimplexParams.py", "ProjectionParams.py", "ParameterDictionary.py: set_free, set_vector, get_free, get_vector"]}
{"id": "C90", "title": "set_free keeps no reference to the caller's array, get_free gives none away", "statement": "After a successful set_free, whatever a caller writes to any array that existed before the call, the parameter's value stays what set_free made it, and get_free still returns the vector that was passed. Writing to the array get_free returned, or a dictionary's get_vector returned, changes no parameter.", "quantifier": "all object graphs, all arrays, all sequences of later writes", "why_tests_cant": "Any later sequence of writes by any holder of the array has to be covered; optimisers reuse their work arrays.", "anchors": ["Parameters.py: constrain, unconstrain_array, VectorParam.set_free, ScalarParam.set_free", "ParameterDictionary.py: set_free, get_free, get_vector"]}
{"id": "C91", "title": "set_vector keeps the caller's array", "statement": "After a successful set_vector, writes to the array that was passed show up in the parameter: get_vector returns the current contents of that array at the positions of scalar, vector, array, simplex and subspace parameters, and the contents at the time of the call at the positions of positive definite matrices, at every depth.", "quantifier": "all object graphs without repeated objects, all vectors, all sequences of later writes", "why_tests_cant": "The effect appears only when a caller changes the array after the call; which positions follow depends on the tree.", "anchors": ["Parameters.py: set_vector", "SimplexParams.py: set_vector", "ProjectionParams.py: set_vector", "MatrixParameters.py: set_vector", "ParameterDictionary.py: set_vector"]}
{"id": "C92", "title": "get, and get_vector of scalar, vector and subspace parameters, return the stored array", "statement": "Writing entry k of the array that get returned changes entry k of the parameter's value, with no bounds or symmetry check. The same holds for the array get_vector returned for scalar, vector and subspace parameters, while for the other classes writing to it changes nothing.", "quantifier": "all classes, all stored arrays, all positions and written values", "why_tests_cant": "A test would have to write to each returned array for each class and layout.", "anchors": ["Parameters.py: get, get_vector", "MatrixParameters.py: get, get_vector", "SimplexParams.py: get, get_vector", "ProjectionParams.py: get, get_vector"]}
{"id": "C93", "title": "A parameter object held at several places", "statement": "If the same parameter object occurs at several places of a nested dictionary, set_free succeeds, every object ends with the slice of the vector that belongs to its last place, and get_free returns the vector that was set if and only if all places of the same object got equal slices.", "quantifier": "all nested dictionaries, all patterns of sharing, all free vectors", "why_tests_cant": "The number of patterns of sharing is unbounded; existing tests never share an object.", "anchors": ["ParameterDictionary.py: push_param, set_free, get_free"]}
{"id": "C94", "title": "Deep copies and make_index_param leave the original alone", "statement": "A deep copy of a parameter shows the same value, shares no object with anything that existed before and changes no array. make_index_param returns a parameter whose vector is 0, 1, ..., built on a copy: the original and everything else that existed keep their values.", "quantifier": "all object graphs, all array layouts", "why_tests_cant": "Independence of a copy is a statement about all later calls and writes.", "anchors": ["SparseObjectives.py: make_index_param"]}
{"id": "C95", "title": "names() labels the entries from left to right", "statement": "For a parameter or nested dictionary without an empty dictionary inside, names() lists, from left to right, name_0, name_1, ... (decimal numbers without leading zeros) for vector and subspace parameters and the bare name for every other parameter; with an empty dictionary inside it raises ValueError. If the tree has only scalar, vector and subspace parameters, there are exactly as many names as entries of get_vector() and name i belongs to entry i. If the parameters' names are distinct and have no underscore, all labels are distinct. Without these conditions labels can repeat, and one name can stand for many entries.", "quantifier": "all nested dictionaries of all eight classes, all names, all sizes", "why_tests_cant": "Names and sizes are unbounded; the collision of a scalar named a_0 with entry 0 of a vector named a needs a particular combination of names.", "anchors": ["Parameters.py: names", "MatrixParameters.py: names", "SimplexParams.py: names", "ProjectionParams.py: names", "ParameterDictionary.py: names"]}
{"id": "C96", "title": "dictval() reports every value under its name", "statement": "dictval() of a dictionary has distinct keys and maps the current name of a member to the report of the last member of that name. A single parameter is reported as nested lists whose entry at every index tuple is the entry of its array. If no member was renamed after it was pushed, two parameters with equal reports and no empty arrays hold equal arrays at every path. After a renaming in place a member can be missing from the report.", "quantifier": "all nested dictionaries, all shapes and values, all paths", "why_tests_cant": "Injectivity of a report over all trees and shapes is not testable; the renaming collision needs a particular history.", "anchors": ["Parameters.py: dictval", "MatrixParameters.py: dictval", "SimplexParams.py: dictval", "ProjectionParams.py: dictval", "ParameterDictionary.py: dictval, set_name"]}
{"id": "C97", "title": "Reading and writing through the view returned by get()", "statement": "d.get()[k1]...[kn] returns a value exactly when d[k1]...[kn] exists, and it is what get() of that member returns. d.get()[k1]...[kn][k] = a succeeds exactly when set(a) of the member at that path succeeds, then that member has the state set(a) leaves; members at all diverging paths are unchanged, and if the assignment raises nothing changed. The exception is KeyError if a key on the path does not exist, IndexError if the path goes on below an array, AttributeError if it ends at a dictionary, and otherwise what set(a) raises. Reading raises KeyError for a key that does not exist and IndexError for a key asked of an array.", "quantifier": "all nested dictionaries, all paths, all assigned arrays", "why_tests_cant": "Every depth and every other path has to be covered.", "anchors": ["ParameterDictionary.py: get, ModelParamsDictValues"]}
{"id": "C98", "title": "safe_matmul is the matrix product for dense and sparse arguments", "statement": "For a dense or sparse matrix and a vector, and for any combination of dense and sparse matrices, safe_matmul raises ValueError exactly when the inner dimensions differ, and otherwise its result has the outer dimensions and the entries of the matrix product, also when a sparse matrix stores several entries at one position. compress of a matrix keeps the entries row by row and drops the axes of length 1.", "quantifier": "all sizes, all dense and sparse matrices, all vectors", "why_tests_cant": "Tests cover a few small matrices; stored duplicates are not tested.", "anchors": ["SparseObjectives.py: safe_matmul, compress"]}
{"id": "C99", "title": "Timer records the time since the last tic", "statement": "After any history of tic() and toc(name) calls, time_dict[name] is the clock at the last toc(name) minus the clock at the last tic() before it, and toc raises AttributeError exactly when there was no tic() before.", "quantifier": "all histories of calls, all names, all clocks", "why_tests_cant": "The statement is about all call histories.", "anchors": ["SparseObjectives.py: Timer"]}
{"id": "C100", "title": "A lower-bounded vector parameter survives set_free in double precision", "statement": "For a vector parameter with a finite lower bound and no upper bound, computed in IEEE-754 double precision with any exp that maps numbers to non-negative numbers and any log that maps non-negative numbers to numbers: set_free of any free vector without NaN (infinities included) succeeds, every entry of get() is a number not below the lower bound, and get_free() returns as many numbers, none of them NaN. If exp is non-decreasing, larger free entries give values that are not smaller. If the bound is 0, get() is exp of the free vector and get_free() is log of exp of it, with no further rounding. If the bound is 1, every free entry of -40 or less gives exactly 1, and -inf comes back.", "quantifier": "all finite lower bounds, all sizes, all free vectors of doubles, every exp and log meeting the contract", "why_tests_cant": "There are 2^64 doubles per entry; rounding, overflow and underflow cases cannot be enumerated.", "anchors": ["Parameters.py: constrain, unconstrain, unconstrain_array, VectorParam.set_free, VectorParam.get_free"]}
{"id": "C101", "title": "An upper-bounded vector parameter survives set_free in double precision", "statement": "The same with a finite upper bound and no lower bound: set_free of any free vector without NaN succeeds, every entry of get() is a number not above the upper bound, get_free() returns numbers, and values are monotone in the free entries if exp is.", "quantifier": "all finite upper bounds, all sizes, all free vectors of doubles, every exp and log meeting the contract", "why_tests_cant": "There are 2^64 doubles per entry; rounding, overflow and underflow cases cannot be enumerated.", "anchors": ["Parameters.py: constrain, unconstrain, unconstrain_array, VectorParam.set_free, VectorParam.get_free"]}
{"id": "C102", "title": "Two finite bounds in double precision: how far values can leave the interval", "statement": "For two finite bounds of size at most 2^500 whose difference is at least 2^-1022, and free entries that are at most 300 (or -inf): after set_free every entry of get() is finite, at least the lower bound, and at most the double nearest to ub + 2^-51 (ub - lb). If ub - lb is exactly a power of two, every entry is between the bounds, get_free() succeeds, and it returns numbers.", "quantifier": "all such bounds, all sizes, all such free vectors of doubles, every exp within a factor of two of the true one", "why_tests_cant": "The claim quantifies over all doubles and all implementations of exp.", "anchors": ["Parameters.py: constrain, unconstrain, unconstrain_array, VectorParam.set_free, VectorParam.get_free"]}
{"id": "C103", "title": "Two finite bounds in double precision: free values after which get_free raises", "statement": "For any two finite bounds, set_free of a vector with an entry of 711 or more stores NaN there, and get_free() then raises ValueError. With the bounds -0.7 and 0.3, any free entry between 40 and 300 gives a value strictly above 0.3, and get_free() then raises ValueError.", "quantifier": "all finite bounds, all sizes and positions, all free entries in the range, every exp within the contract", "why_tests_cant": "Unit tests use free values near zero, where neither happens; the claim covers whole ranges of inputs and all implementations of exp.", "anchors": ["Parameters.py: constrain, unconstrain_array, VectorParam.set_free, VectorParam.get_free"]}
{"id": "C104", "title": "In double precision get_free returns exactly on numbers between the bounds", "statement": "After set(v), get_free() of a vector parameter returns exactly when every entry of v is a number (not NaN) between the bounds, and raises ValueError otherwise. Without bounds, set_free(x) stores x and get_free() returns x bit for bit, unless x contains a NaN, in which case it raises ValueError.", "quantifier": "all bounds, all sizes, all vectors of doubles including NaN, infinities and signed zeros", "why_tests_cant": "The claim covers all doubles.", "anchors": ["Parameters.py: unconstrain_array, VectorParam.set, VectorParam.set_free, VectorParam.get_free"]}
{"id": "C105", "title": "Distribution parameters are constructed exactly for admissible lower bounds and start inside them", "statement": "UVNParam, UVNParamVector, UVNParamArray, UVNMomentParamArray, MVNArray and GammaParam are constructed for every finite or -inf lower bound; means start at 0 and bounded members at lower bound + 1 (0 without a bound), with the requested shapes; +inf raises ValueError, NaN raises AssertionError, MVNArray with the empty shape raises IndexError. MVNParam and DirichletParamArray need a lower bound that is at least 0, otherwise AssertionError; DirichletParamArray stores a given value of the right shape unchanged and raises ValueError for any other shape. WishartParam(size=n) takes n-1 as lower bound of df if min_df is not given or 0, raises AssertionError if min_df is below n-1 and ValueError if it is +inf; df starts at lower bound + 1 and v at (diag_lb + 1) times the 2x2 identity; a negative or NaN diag_lb raises AssertionError.", "quantifier": "all names, sizes, shapes, lower bounds (finite, infinite, NaN) and initial values", "why_tests_cant": "Arguments range over all reals, special values and shapes.", "anchors": ["NormalParams.py: MVNParam, UVNParam, UVNParamVector, UVNParamArray, UVNMomentParamArray, MVNArray", "GammaParams.py: GammaParam", "DirichletParams.py: DirichletParamArray", "WishartParams.py: WishartParam"]}
{"id": "C106", "title": "Construction and default value of a vector parameter in double precision", "statement": "VectorParam(size, lb, ub, val) raises AssertionError exactly if a bound is NaN, ValueError exactly if both are numbers and ub <= lb or val has another length, and otherwise is constructed and get() returns val. Without val and with one finite bound, every entry starts at the double nearest to lb + 1 (ub - 1), which is never outside the bound, and get_free() returns numbers. They are finite if lb is in [-2^53, 2^53) (ub in (-2^53, 2^53]); for lb >= 2^54 the parameter starts exactly on its bound and get_free() is -inf everywhere (for ub <= -2^54, +inf). With two finite bounds every entry starts at half the rounded difference ub - lb (not the midpoint): get_free() returns numbers if lb <= (ub - lb)/2 <= ub, and raises ValueError exactly if the rounded half difference is outside the bounds; with lb = -ub the parameter starts exactly on its upper bound and get_free() is +inf everywhere.", "quantifier": "all sizes, all pairs of doubles as bounds, all values, every log meeting the contract; two finite bounds: at most 2^500 in absolute value and at least 2^-1000 apart", "why_tests_cant": "Ranges over all doubles as bounds, including NaN, infinities and magnitudes at which adding 1 is absorbed by rounding.", "anchors": ["Parameters.py: VectorParam.__init__", "Parameters.py: get_inbounds_value", "Parameters.py: unconstrain_array"]}
{"id": "C107", "title": "Predicted output parameters of the deprecated ParametricSensitivity", "statement": "At a regular optimum, ParametricSensitivity.predict_output_par_from_hyperparameters(new, linear=False) predicts the input parameter to first order and returns what the converter makes of it (or raises what the converter raises). With linear=True it returns remembered output + (Jacobian of the converted optimum) * (new - base). Refuted part: the remembered output is not the converted optimum, but the value the output parameter happened to have when the object was constructed, so at the base hyperparameter itself the two modes may disagree.", "quantifier": "all smooth objectives, hyperparameter objectives and converters, all parameter trees, all base points with a positive definite Hessian, all new hyperparameters and all later states", "why_tests_cant": "Ranges over all objectives, converters and earlier histories of the parameter objects.", "anchors": ["SparseObjectives.py: ParametricSensitivity.__init__", "SparseObjectives.py: ParametricSensitivity.set_optimal_input_par", "SparseObjectives.py: ParametricSensitivity.predict_output_par_from_hyperparameters"]}
{"id": "C108", "title": "The module-level derivative terms give the derivatives of an implicitly defined curve, at every order", "statement": "Let eta(eps) be a smooth curve with g(eta(eps), eps) = 0. Take get_taylor_base_terms, differentiate the terms k times with differentiate_terms, evaluating each order with evaluate_dketa_depsk and the derivatives computed so far. If the Hessian is invertible at the base point and the supplied directional derivatives are those of g, then the vectors computed are the derivatives of eta along the given direction of every order 1..k+1.", "quantifier": "all orders k, dimensions, smooth gradients g, curves, base points with invertible Hessian, directions and exact solvers", "why_tests_cant": "Ranges over all orders of expansion and all smooth functions.", "anchors": ["ModelSensitivity.py: get_taylor_base_terms", "ModelSensitivity.py: differentiate_terms", "ModelSensitivity.py: evaluate_terms", "ModelSensitivity.py: evaluate_dketa_depsk"]}
{"id": "C109", "title": "Stacks of positive definite matrices start valid; what their constructors accept", "statement": "PosDefMatrixParamVector(length, matrix_size, diag_lb) and PosDefMatrixParamArray(array_shape, matrix_size, diag_lb) with diag_lb >= 0 and no value hold (diag_lb + 1) I at every position, with the shape asked for, and get_free() is the zero vector. With a value of the right number of dimensions they keep it unchanged if at least one of its dimensions is right, and raise ValueError only if all are wrong. A negative or NaN diag_lb raises AssertionError. An integer array_shape, including the default, and an empty array_shape without a value raise TypeError. Refuted part: unlike PosDefMatrixParam the constructors accept asymmetric matrices.", "quantifier": "all names, lengths, array shapes, matrix sizes, bounds and values", "why_tests_cant": "Ranges over all shapes, sizes and bounds, including special values.", "anchors": ["MatrixParameters.py: PosDefMatrixParamVector.__init__", "MatrixParameters.py: PosDefMatrixParamArray.__init__"]}
{"id": "C110", "title": "Simplex parameters start uniform; rows keep their place in the vector", "statement": "SimplexParam(name, (n, m)) without a value holds n uniform rows, which are interior points of the simplex, and get_free() is the zero vector; with m = 0 it raises ZeroDivisionError. A value is kept unchanged if its shape is (n, m) and rejected with ValueError otherwise. get_vector()[get_vector_indices(row)] is that row of get(), the index lists of the rows are disjoint and cover the vector, and a row out of range raises ValueError. Refuted part: the constructor does not check that the rows lie on the simplex.", "quantifier": "all names, numbers of rows and columns, values and rows", "why_tests_cant": "Ranges over all shapes and all values.", "anchors": ["SimplexParams.py: SimplexParam.__init__", "SimplexParams.py: SimplexParam.get_vector_indices", "SimplexParams.py: SimplexParam.get_vector"]}
{"id": "C111", "title": "print_terms shows the terms of the derivatives", "statement": "For an expansion of any order n >= 1, print_terms() prints for each order 1..n a heading and the terms of that order, print_terms(k) with 1 <= k <= n only those of order k, k > n raises ValueError without printing, and k <= 0 prints nothing. Every term printed under order k has order k and k eta orders m_1..m_k with eps_order + sum i * m_i = k. Every such derivative is printed exactly once, with the prefactor k! / (eps_order! prod (i!)^(m_i) m_i!) (the coefficient in Faa di Bruno's formula).", "quantifier": "all orders, all k, all derivatives of that order, all gradients", "why_tests_cant": "Ranges over all orders; a test compares a few small orders.", "anchors": ["ModelSensitivity.py: ParametricSensitivityTaylorExpansion.print_terms", "ModelSensitivity.py: DerivativeTerm.__str__", "ModelSensitivity.py: ParametricSensitivityTaylorExpansion.set_order"]}
{"id": "C112", "title": "set_free of a simplex parameter in double precision", "statement": "Computed in IEEE-754 double precision, with any exp and log of relative accuracy 2^-50 and any order of summation: set_free of a simplex parameter with free entries that are finite or -inf stores finite numbers between 0 and 1, of the right shape, however large the entries are. If the entries are at most M in size (M and the number of columns at most 2^20), every stored number differs from the exact probability by at most (M + columns + 32) 2^-48 times that probability plus 2^-1070, and every row adds up to 1 within (M + columns + 32) 2^-47. A free entry +inf is stored as NaN and the other entries of its row as 0. A vector of the wrong length raises ValueError.", "quantifier": "all shapes, all free vectors of doubles, every exp, log and sum meeting the contract", "why_tests_cant": "Rounding errors depend on all 2^64 values per entry, on the summation order and on the library; tests sample a few moderate values.", "anchors": ["SimplexParams.py: constrain_simplex_matrix", "SimplexParams.py: SimplexParam.set_free", "SimplexParams.py: SimplexParam.get"]}
{"id": "C113", "title": "get_free of a simplex parameter in double precision", "statement": "Computed in double precision as in C112: for stored numbers between 0 and 1, the entry of get_free() for category k is finite exactly if neither the entry of k nor the reference entry is 0, -inf exactly if only the first is 0, +inf exactly if only the reference is 0, and NaN exactly if both are 0. Free entries of size at most 300 come back from set_free then get_free within (columns + 512) 2^-46. If one free entry of a row is 750 or more, every entry of that row comes back as +inf or NaN, and as NaN wherever it is 750 or more below that entry. Without a value, all entries are the double nearest to 1 / columns, they add up to 1 within 2^-53, and get_free() is exactly 0 everywhere.", "quantifier": "all shapes, all free vectors and stored values of doubles in the stated ranges, every exp, log and sum meeting the contract", "why_tests_cant": "Exact arithmetic hides underflow; a test would have to try every magnitude and every library.", "anchors": ["SimplexParams.py: unconstrain_simplex_matrix", "SimplexParams.py: SimplexParam.get_free", "SimplexParams.py: SimplexParam.__init__"]}
{"id": "C114", "title": "Univariate normal formulas are integrals against the normal density", "statement": "For entries with mean m and positive information L, every univariate normal formula is the integral of the stated function against the normal density over the whole line: e(), var(), e_outer(), e_exp(), var_exp() and e2_exp() of the normal parameter classes; e(), e_outer(), var() and e_exp() of the moment array whenever E X^2 exceeds (E X)^2; the means and second moments of the rows of a normal array; get_e_lognormal and get_var_lognormal; every entropy as the sum of the integrals of -log density; uvn_prior plus the log normaliser of the prior as the expected log prior density. The density itself integrates to one and the integrals are unique. get_e_fun_normal returns the integral whenever the quadrature rule is exact for the function after the change of variables, in particular for polynomials of degree d at every mean and information if the rule is exact for the powers up to d. For the logistic functions the integrals exist, and with nonnegative weights exact to degree two the quadratures are within sd^2 / 8 (logistic term), 1 / (4 info) (get_e_logitnormal) and 1 / (8 info) + e^-100 (get_e_log_logitnormal) of them.", "quantifier": "all array shapes, means and positive informations, all quadrature rules and polynomial coefficients", "why_tests_cant": "A numeric integral in a test has its own error and covers single parameter values; equality with the integral for all parameters needs a proof.", "anchors": ["ExponentialFamilies.py: get_e_lognormal", "ExponentialFamilies.py: get_var_lognormal", "ExponentialFamilies.py: univariate_normal_entropy", "ExponentialFamilies.py: uvn_prior", "ExponentialFamilies.py: get_e_fun_normal", "ExponentialFamilies.py: get_e_logitnormal", "ExponentialFamilies.py: get_e_log_logitnormal", "Modeling.py: get_e_logistic_term_guass_hermite", "NormalParams.py: UVNParam", "NormalParams.py: UVNParamVector", "NormalParams.py: UVNParamArray", "NormalParams.py: UVNMomentParamArray", "NormalParams.py: MVNArray"]}
{"id": "C115", "title": "Gamma formulas are integrals against the gamma density", "statement": "If gammaln is the logarithm of the gamma integral and digamma its derivative, then for positive shape and rate e() and e_log() of a gamma parameter and get_e_log_gamma are the integrals of x and log x against the gamma density over the positive reals, entropy() and gamma_entropy are the sum of the integrals of -log density, gamma_prior evaluated at these moments is the expected log density of the prior up to its normaliser, and exponential_prior likewise. The density integrates to one, the integrals are unique, and functions with the two assumed properties exist.", "quantifier": "all array shapes, positive shapes and rates, all implementations of gammaln and digamma meeting the contract", "why_tests_cant": "A numeric integral in a test has its own error and covers single parameter values.", "anchors": ["ExponentialFamilies.py: get_e_log_gamma", "ExponentialFamilies.py: gamma_entropy", "ExponentialFamilies.py: gamma_prior", "ExponentialFamilies.py: exponential_prior", "GammaParams.py: GammaParam"]}
{"id": "C116", "title": "Multivariate normal formulas are integrals against the multivariate normal density", "statement": "For a symmetric positive definite information matrix L in any dimension, the multivariate normal density integrates to one over R^n, e(), cov() and e_outer() of a multivariate normal parameter are the integrals of the coordinates, of the products of deviations and of the products of coordinates against it, entropy() and multivariate_normal_entropy are the integral of -log density for every mean, and mvn_prior at the mean and covariance is the integral of the log prior density up to the normaliser of the prior. The integrals are iterated over the coordinates, exist in every order of integration with the same value, and are unique.", "quantifier": "all dimensions, means, symmetric positive definite information matrices and symmetric prior information matrices, all orders of integration, all implementations of inv and slogdet meeting the contract", "why_tests_cant": "Multidimensional numeric integrals are only approximate and cover single parameter values and low dimensions.", "anchors": ["ExponentialFamilies.py: multivariate_normal_entropy", "ExponentialFamilies.py: mvn_prior", "NormalParams.py: MVNParam"]}
{"id": "C117", "title": "Dirichlet and beta formulas are integrals against the Dirichlet and beta densities", "statement": "For positive parameters, the Dirichlet density of any number of categories integrates to one over the probability vectors and the beta density over (0, 1). For every column of a parameter array, e() and get_e_dirichlet, e_log() and get_e_log_dirichlet, and entropy() and dirichlet_entropy are the integrals of the coordinates, of their logarithms and of -log density against the Dirichlet density with the parameters of that column. beta_entropy is the sum over the rows of the integrals of -log density against the beta density of the row. dirichlet_prior at the expected logarithms is the integral of the log prior density up to the normaliser of the prior. The integrals over the probability vectors exist with the same value whichever coordinate is left out and in every order of integration of the others, and are unique.", "quantifier": "all numbers of categories, all array shapes, all positive parameters, all orders of integration, all gammaln and digamma that are the log of the gamma integral and its derivative", "why_tests_cant": "Numeric integrals over the simplex are only approximate, with singular integrands for parameters below one, and cover single parameter values and few categories.", "anchors": ["ExponentialFamilies.py: dirichlet_entropy", "ExponentialFamilies.py: beta_entropy", "ExponentialFamilies.py: get_e_dirichlet", "ExponentialFamilies.py: get_e_log_dirichlet", "ExponentialFamilies.py: dirichlet_prior", "DirichletParams.py: DirichletParamArray"]}
{"id": "C118", "title": "Wishart formulas are integrals against the Wishart density", "statement": "For every size n, every symmetric positive definite scale matrix and more than n - 1 degrees of freedom, the Wishart density integrates to one over the symmetric positive definite n by n matrices. e(), e_log_det() and entropy() of WishartParam, and e_log_det_wishart and wishart_entropy, are the integrals of the entries, of the log determinant and of -log density against it, with the same value whatever the order in which the rows are integrated, and unique. e_log_inv_wishart_diag is the integral of the logarithms of the diagonal of the inverse, each with its row integrated first, and the LKJ prior is the combination of these and of the expected log determinant that the log LKJ density of the correlations of the inverse is. e_inv() is not the integral of the inverse: it is df (df - n - 1) times that integral.", "quantifier": "all sizes, all symmetric positive definite scale matrices, all degrees of freedom above n - 1 (n + 1 for the inverse), all orders of the rows, all gammaln and digamma that are the log of the gamma integral and its derivative, all LKJ parameters", "why_tests_cant": "An integral over n(n+1)/2 entries restricted to positive definite matrices can only be sampled, with Monte Carlo error, for single matrices.", "anchors": ["ExponentialFamilies.py: wishart_entropy", "ExponentialFamilies.py: e_log_det_wishart", "ExponentialFamilies.py: e_log_inv_wishart_diag", "ExponentialFamilies.py: expected_ljk_prior", "WishartParams.py: WishartParam"]}
{"id": "C119", "title": "Accuracy of the values set_free stores, in double precision", "statement": "If each bound of a ScalarParam, VectorParam or ArrayParam is infinite or at most 2^500 in absolute value, two finite bounds being at least 2^-500 apart, then set_free() of free values between -300 and 300 succeeds and every stored value is finite and equal to the exact value of the transform up to: nothing without bounds; 10 units of 2^-53 of its distance to the bound plus one unit of its own size with one finite bound; 28 units of its distance to the lower bound plus one unit of its own size with two. An array parameter keeps its shape and a scalar the shape of the argument.", "quantifier": "all sizes and shapes, all such bounds, all such free values, every exp with the error of a few units in the last place", "why_tests_cant": "The error bound must hold for every combination of bounds and free values; a test sees the rounding of the values it tries.", "anchors": ["Parameters.py: constrain", "Parameters.py: ScalarParam.set_free", "Parameters.py: VectorParam.set_free", "Parameters.py: ArrayParam.set_free"]}
{"id": "C120", "title": "Accuracy of get_free after set_free, in double precision", "statement": "For bounds and free values as in C119, if the size of the bounds is at most 2^40 times the distance of the value from the nearer of them, get_free() after set_free(x) succeeds and returns finite free values that differ from x by at most: nothing without bounds; 64 units of 2^-53 times 1 + |x| + that ratio with one finite bound; 320 units times the ratio + |log(ub - lb)| + |x| with two. In particular the stored values never leave the bounds under this condition, although they can without it (C102).", "quantifier": "all sizes and shapes, all such bounds, all such free values, every exp and log with the error of a few units in the last place", "why_tests_cant": "How much of a free value is lost depends on the bounds and the value; the worst case cannot be found by sampling.", "anchors": ["Parameters.py: constrain", "Parameters.py: unconstrain", "Parameters.py: unconstrain_array", "Parameters.py: unconstrain_scalar"]}
{"id": "C121", "title": "Accuracy of setting a parameter to its own free value, in double precision", "statement": "For bounds as in C119 and stored values whose distances from the finite bounds are between 2^-400 and 2^400 (2^-200 and 2^200 with two finite bounds), set_free(get_free()) succeeds and moves each value by at most: nothing without bounds; 33 units of 2^-53 times (1 + |log distance|) times the distance from the bound plus one unit of the value with one bound; 40 units times (2 + the absolute logs of both distances) times the distance from the lower bound plus one unit of the value with two.", "quantifier": "all sizes and shapes, all such bounds, all such values, every exp and log with the error of a few units in the last place", "why_tests_cant": "An optimizer passes through arbitrary values; a bound on the drift for all of them cannot be sampled.", "anchors": ["Parameters.py: constrain", "Parameters.py: unconstrain", "Parameters.py: unconstrain_array", "Parameters.py: unconstrain_scalar"]}
{"id": "C122", "title": "Scalar and array parameters behave as vectors in double precision", "statement": "For every sequence of set, set_vector, set_free, get, get_vector and get_free calls, a ScalarParam answers exactly as a VectorParam of size 1 with the same entries and bounds, and an ArrayParam exactly as a VectorParam with its entries in row-major order: the same doubles, bit for bit, the same NaN and infinities, and the same exceptions, constructor included. An ArrayParam's get() always has its shape, get_vector() and get_free() are flat, and set() raises ValueError exactly for arrays of another shape. A ScalarParam's get_vector() and get_free() have length one. So everything proved of vectors in double precision (C100-C106) holds of scalars and arrays.", "quantifier": "all bounds and values (NaN and infinities included), all shapes, all sequences of calls with one-entry arguments for scalars and real arrays for arrays, every exp and log whatsoever", "why_tests_cant": "Ranges over all histories of calls and all doubles; the three classes have separate code for the checks and conversions.", "anchors": ["Parameters.py: ScalarParam", "Parameters.py: VectorParam", "Parameters.py: ArrayParam", "Parameters.py: unconstrain_scalar", "Parameters.py: unconstrain_array"]}
{"id": "C123", "title": "What set_free of a positive definite matrix parameter stores, in double precision", "statement": "For a PosDefMatrixParam reached by any sequence of successful set, set_free and set_vector calls: set_free() of free values with a diagonal between -300 and 300 and off-diagonal entries up to 2^400 succeeds and stores an n by n matrix of finite doubles, exactly symmetric, each entry equal to the exact factor-times-transpose-plus-bound value up to an error of eps = 4n + 32 units of 2^-53 in the size of the row entries (their exact value plus the free diagonal, since exp of the diagonal is computed as L - diag(d) + diag(exp d)), plus 2^-1040. No reachable parameter ever holds a NaN or an unsymmetric matrix. A free vector of the wrong length, or with a NaN or infinite diagonal entry, makes set_free() raise ValueError. A diagonal free value of -40 or less, when the rest of its row is zero, is lost completely: its row and column come out as exactly zero and the diagonal as exactly the bound.", "quantifier": "all n up to 2^20, all bounds from 0 to 2^500, all such free vectors, all histories of calls, every exp with the error of a few units in the last place and every matrix product with the usual rounding error bound", "why_tests_cant": "Ranges over all sizes, free values and histories; a test sees the rounding of the values it tries.", "anchors": ["MatrixParameters.py: PosDefMatrixParam", "MatrixParameters.py: pack_posdef_matrix", "MatrixParameters.py: unpack_posdef_matrix", "MatrixParameters.py: exp_matrix_diagonal", "MatrixParameters.py: log_matrix_diagonal"]}
{"id": "C124", "title": "Which free values of a positive definite matrix parameter come back, in double precision", "statement": "get_free() returns, below the diagonal, the Cholesky factor of the stored matrix less its bound, and on the diagonal its logarithm up to 12 units of 2^-53 of 1 + |log c| + c; a factor diagonal of 2^64 or more gives exactly 0. It raises LinAlgError exactly when the factorisation does. The first free value (hence the only one of a 1 by 1 matrix, where both calls also succeed) comes back up to 8 eps (1 + |d| exp(-d) + lb exp(-2d)) plus 32 units of 1 + |d| + exp(d), if eps times the first bracket is at most 1/64. Outside this range it does not: after set_free() with a first free value of -40 or less get_free() raises LinAlgError, and a first free value of 45 or more comes back as 0 (if the bound is at most exp(2d)). With a bound of 2^54 or more the parameter's own default value makes get_free() raise LinAlgError.", "quantifier": "all n up to 2^20, all bounds from 0 to 2^500 (finite for the failures), all such free vectors, all histories of calls, every exp, log, matrix product and Cholesky factorisation with the usual rounding behaviour", "why_tests_cant": "Which values survive the round trip depends on all of the free vector, the bound and the size; tests use moderate values, where nothing is lost.", "anchors": ["MatrixParameters.py: PosDefMatrixParam", "MatrixParameters.py: pack_posdef_matrix", "MatrixParameters.py: unpack_posdef_matrix", "MatrixParameters.py: exp_matrix_diagonal", "MatrixParameters.py: log_matrix_diagonal"]}
{"id": "C125", "title": "The vector interface of positive definite matrix parameters in double precision", "statement": "For every reachable PosDefMatrixParam, set_vector() of a vector of the right length with finite diagonal entries and no NaN succeeds; get() then has every entry below and above the diagonal equal to the given one, and so does get_vector(); the diagonal entries are kept too, except that one of absolute value 2^1023 or more is silently stored as an infinity (the diagonal is doubled before being subtracted). A wrong length, a NaN anywhere or an infinite diagonal entry makes set_vector() raise ValueError. set_vector(get_vector()) leaves every entry as it was if the diagonal entries are finite and below 2^1023. (Equal means the same double, except that a zero may change sign.)", "quantifier": "all n, all bounds and all vectors of doubles, all histories of calls", "why_tests_cant": "Ranges over all doubles (NaN and infinities included), sizes and histories.", "anchors": ["MatrixParameters.py: PosDefMatrixParam", "MatrixParameters.py: vectorize_ld_matrix", "MatrixParameters.py: unvectorize_ld_matrix", "MatrixParameters.py: unvectorize_symmetric_matrix"]}
{"id": "C126", "title": "All free values of a positive definite matrix parameter come back, in double precision", "statement": "For every PosDefMatrixParam reached by any sequence of successful set, set_free and set_vector calls: if the rounding errors of the stored matrix and of its factorisation are small relative to the factor L of the free values (|L^-1| E |L^-1|^T at most g entry by entry, with n g at most 1/16, where E bounds both errors), then set_free() and get_free() both succeed and every free value comes back: those on the diagonal up to 4 g plus 32 units of 2^-53 of 1 + |d| + exp(d), those below it up to 2 g times the sum of the absolute values of the row of L. The same bounds hold for whatever get_free() returns if nothing is assumed about when the factorisation succeeds.", "quantifier": "all n up to 2^20, all bounds from 0 to 2^500, all free vectors with a diagonal between -300 and 300 and other entries up to 2^400, all histories of calls, every exp, log and matrix product with the usual rounding behaviour, every Cholesky factorisation with the usual backward error that succeeds on matrices farther than that from singular", "why_tests_cant": "The error grows with the conditioning of the matrix; a test tries a few well-conditioned ones.", "anchors": ["MatrixParameters.py: PosDefMatrixParam", "MatrixParameters.py: pack_posdef_matrix", "MatrixParameters.py: unpack_posdef_matrix", "MatrixParameters.py: exp_matrix_diagonal", "MatrixParameters.py: log_matrix_diagonal"]}
{"id": "C127", "title": "Vectors and arrays of positive definite matrices in double precision: free values", "statement": "For every PosDefMatrixParamVector and PosDefMatrixParamArray: set_free() of any doubles of the right number succeeds, and the matrix at each index is exactly the one a PosDefMatrixParam of the same size and bound computes from that index's part of the vector (parts in row-major order of the indices). Where that part is far from overflow the matrix is exactly symmetric, finite and within the error bound of C123, whatever the other parts hold. A NaN or an infinity on a diagonal is stored as NaN without an exception, where PosDefMatrixParam raises ValueError. get_free() concatenates what get_free() of each matrix alone would return, or raises what the first failing matrix raises. If C126's condition holds for each matrix, set_free() then get_free() returns all free values within C126's bounds. A new parameter without a value holds PosDefMatrixParam's default at every index. A wrong number of entries raises ValueError.", "quantifier": "all lengths, array shapes and matrix sizes, all bounds, all free vectors including NaN and infinities, every exp, log, matrix product and Cholesky factorisation with the usual rounding behaviour", "why_tests_cant": "The parts must not influence each other for any shape, size and value; a test tries a few shapes with well-behaved values.", "anchors": ["MatrixParameters.py: PosDefMatrixParamVector", "MatrixParameters.py: PosDefMatrixParamArray", "MatrixParameters.py: pack_posdef_matrix", "MatrixParameters.py: unpack_posdef_matrix"]}
{"id": "C128", "title": "Vectors and arrays of positive definite matrices in double precision: the vector interface", "statement": "For every PosDefMatrixParamVector and PosDefMatrixParamArray: set_vector() of any doubles of the right number succeeds; every entry below a diagonal is stored on both sides of it as it is (up to the sign of zero), a diagonal entry d is stored as it is if |d| < 2^1023, as an infinity if d is a larger finite number, and as NaN if d is not finite; get_vector() then returns exactly these entries in the same order. set() and the constructor store any array of the right shape unchanged, including one that is not symmetric or holds NaN, and raise ValueError if every axis has the wrong length.", "quantifier": "all lengths, array shapes and matrix sizes, all vectors of doubles including NaN and infinities", "why_tests_cant": "It covers every double and every shape; the exceptional values near overflow are rarely tried.", "anchors": ["MatrixParameters.py: PosDefMatrixParamVector", "MatrixParameters.py: PosDefMatrixParamArray", "MatrixParameters.py: vectorize_ld_matrix", "MatrixParameters.py: unvectorize_symmetric_matrix"]}
{"id": "C129", "title": "Dictionaries of parameters in double precision: order, sizes and failed calls", "statement": "For every tree of ModelParamsDict, scalar, vector, array, simplex and positive definite parameters that can be built with push_param() under new names and changed by any set calls: free_size() and vector_size() are the sums over its parameters. set_free() and set_vector() of any doubles of the right number hand each parameter, in the order pushed, its consecutive part and nothing else; if a parameter raises (for instance a matrix given a NaN), the call raises that exception, the parameters before it keep their new values and it and the ones after it are unchanged. A wrong number of entries raises ValueError and changes nothing. get_free() and get_vector() concatenate what the parameters return in the same order, or raise what the first failing one raises; an empty dictionary raises ValueError. free_to_vector(x) leaves the tree set to x and returns its vector.", "quantifier": "all trees of any depth and mix of the seven classes, all histories of pushes and set calls including failed ones, all vectors of doubles including NaN and infinities", "why_tests_cant": "The order and the partial effect of a failed call must hold for every tree, every position of the failure and every history.", "anchors": ["ParameterDictionary.py: ModelParamsDict", "Parameters.py: set_free_offset", "Parameters.py: set_vector_offset"]}
{"id": "C130", "title": "Dictionaries of parameters in double precision: vectors come back", "statement": "For every such tree without empty dictionaries: if it holds no positive definite matrices, set_vector(x) succeeds for any doubles x of the right number, including NaN and infinities, and get_vector() returns exactly x. With matrices among the parameters (none of them an empty vector or array of matrices), the same holds if the entries that belong to matrices are finite and below 2^1023 in absolute value, except that there a zero may change its sign.", "quantifier": "all trees of any depth and mix of the seven classes, all histories, all vectors of doubles", "why_tests_cant": "Exactness is claimed for every double and every tree.", "anchors": ["ParameterDictionary.py: ModelParamsDict", "Parameters.py: set_free_offset", "Parameters.py: set_vector_offset", "SimplexParams.py: SimplexParam.set_vector", "SimplexParams.py: SimplexParam.get_vector", "Parameters.py: VectorParam.set_vector", "Parameters.py: ArrayParam.set_vector"]}
{"id": "C131", "title": "Dictionaries of parameters in double precision: free values come back", "statement": "For every such tree without empty dictionaries and every free vector whose part for each parameter meets that parameter's own condition (C120 for scalars, vectors and arrays, C113 for simplexes, C126 and C127 for matrices): set_free() and then get_free() succeed and return all free values, each part within the error bounds of that parameter alone, whatever else is in the tree.", "quantifier": "all trees of any depth and mix of the seven classes, all histories, all free vectors whose parts are far from overflow and well conditioned, every exp, log, sum, matrix product and Cholesky factorisation with the usual rounding behaviour", "why_tests_cant": "It is a rounding error bound for all inputs at once, in every tree.", "anchors": ["ParameterDictionary.py: ModelParamsDict", "Parameters.py: set_free_offset", "Parameters.py: set_vector_offset"]}
{"id": "C132", "title": "Positive definite matrix parameters in double precision: setting a parameter to its own free value", "statement": "For every PosDefMatrixParam of at most 2^20 rows, with diag_lb >= 0, whose value is finite, at most 2^60 and at least 2^-800 above diag_lb on the diagonal: if get_free() returns a vector whose diagonal entries are at most 300, set_free() accepts it, and the parameter then holds an exactly symmetric finite matrix each of whose entries differs from the old one by at most a few rounding errors relative to the square roots r_i r_j of the diagonal (times the size of the free values). If the matrix without diag_lb is positive definite with a margin of a few rounding errors, get_free() does return such a vector. So reading a parameter in one parameterisation and writing it back does not damage it.", "quantifier": "all sizes up to 2^20, all bounds, all matrices of doubles in this range, all histories of the parameter, every exp, log, matrix product and Cholesky factorisation with the usual rounding behaviour", "why_tests_cant": "It is a rounding error bound (including a backward error analysis of the factorisation) for all matrices, also badly conditioned ones.", "anchors": ["MatrixParameters.py: PosDefMatrixParam.get_free", "MatrixParameters.py: PosDefMatrixParam.set_free", "MatrixParameters.py: pack_posdef_matrix", "MatrixParameters.py: unpack_posdef_matrix"]}
{"id": "C133", "title": "Vectors and arrays of positive definite matrices in double precision: setting them to their own free value", "statement": "For every non-empty PosDefMatrixParamVector or PosDefMatrixParamArray whose matrices all meet the conditions of C132: get_free() and then set_free() succeed, the shape is kept, and each matrix moves by no more than C132 allows for it alone, whatever the other matrices are.", "quantifier": "all lengths, array shapes, sizes up to 2^20, bounds and matrices of doubles in this range, every exp, log, matrix product and Cholesky factorisation with the usual rounding behaviour", "why_tests_cant": "It is a rounding error bound for all stacks of matrices at once.", "anchors": ["MatrixParameters.py: PosDefMatrixParamVector", "MatrixParameters.py: PosDefMatrixParamArray"]}
{"id": "C134", "title": "Simplex parameters in double precision: setting a parameter to its own free value", "statement": "For every SimplexParam with 1 to 2^20 columns, after a set() with a value whose entries are all positive and at most 1 (set() does not check that the rows add up to 1): set_free(get_free()) succeeds, keeps the shape, and replaces each row by the shares of its entries in the total of the row, with a relative error of at most (columns + 4096) 2^-48. So it silently normalises a row that does not add up to 1, and a row that adds up to 1 up to d moves by a relative error of at most 2 (d + (columns + 4096) 2^-48), plus 2^-1070.", "quantifier": "all numbers of rows, all numbers of columns up to 2^20, all positive entries (also subnormal ones), every exp and log with the usual rounding behaviour and every order of summation", "why_tests_cant": "It is a rounding error bound for all rows, including entries at the bottom of the double range, and for every order in which the entries may be added.", "anchors": ["SimplexParams.py: SimplexParam.get_free", "SimplexParams.py: SimplexParam.set_free", "SimplexParams.py: constrain_simplex_matrix", "SimplexParams.py: unconstrain_simplex_matrix"]}
{"id": "C135", "title": "Dictionaries of parameters in double precision: setting a dictionary to its own free value", "statement": "For every tree of ModelParamsDict built by push_param (with no empty dictionary in it) whose scalars, vectors, arrays, simplexes and positive definite matrices all hold values of the right shape that are not too close to the boundary of what they may hold: get_free() returns a vector of length free_size(), set_free() accepts it, and afterwards the tree has the same parameters in the same order, each of which moved by no more than the bound for it alone (C121, C122, C134, C132, C133). No parameter is exchanged with another or left at another's value.", "quantifier": "all trees of all depths and sizes, all mixtures of the seven classes, all histories of sets, all doubles in this range, every exp, log, summation order, matrix product and Cholesky factorisation with the usual rounding behaviour", "why_tests_cant": "It quantifies over all trees and all values held in them and bounds a rounding error.", "anchors": ["ParameterDictionary.py: ModelParamsDict.get_free", "ParameterDictionary.py: ModelParamsDict.set_free", "ParameterDictionary.py: ModelParamsDict.push_param"]}
{"id": "C136", "title": "Distribution parameters in double precision: construction", "statement": "UVNParam, UVNParamVector, UVNParamArray, UVNMomentParamArray, MVNArray, GammaParam, DirichletParamArray, MVNParam and WishartParam built in double precision: a lower bound that is finite or -inf is accepted (finite and >= 0 for the matrix of MVNParam and WishartParam), means start at 0, and positive parameters start at the double next to bound + 1 (0 for -inf), which is never below the bound; free and vector sizes are as documented. NaN raises AssertionError and +inf ValueError; DirichletParamArray with a negative bound raises AssertionError, and with a value of another shape ValueError; the degrees of freedom of WishartParam start at the size (its bound is size - 1) if min_df is not given or 0, and a min_df below size - 1 is refused. If the bounds are at most 2^50 in absolute value (or -inf), get_free() of a fresh object of any of these classes returns a vector of the right length, set_free() accepts it, and every parameter moves by no more than the bounds of C135.", "quantifier": "all names, sizes, shapes and lower bounds (all doubles, including NaN, infinities and subnormal numbers), every exp, log, summation order, matrix product and Cholesky factorisation with the usual rounding behaviour", "why_tests_cant": "It speaks about all bounds, sizes and shapes, and for large bounds adding 1 is lost to rounding.", "anchors": ["NormalParams.py: UVNParam.__init__", "NormalParams.py: UVNParamVector.__init__", "NormalParams.py: UVNParamArray.__init__", "NormalParams.py: UVNMomentParamArray.__init__", "NormalParams.py: MVNArray.__init__", "NormalParams.py: MVNParam.__init__", "GammaParams.py: GammaParam.__init__", "DirichletParams.py: DirichletParamArray.__init__", "WishartParams.py: WishartParam.__init__"]}
{"id": "C137", "title": "Moments of normal distribution parameters in double precision", "statement": "For UVNParam, UVNParamVector and UVNParamArray with means of at most 2^490 in absolute value and information between 2^-490 and 2^501: e() returns the means unchanged, var() is the correctly rounded inverse of the information (so positive and finite), and e_outer() is within 4 units of 2^-53 of mean^2 + 1 / info, relative to that number. After set_free() with free values of at most 300 in absolute value and a bound between 0 and 2^500 the means are exactly the free values given for them, every information is at least its bound and as close to bound + exp(free value) as C119 says, and the moments are those of these numbers.", "quantifier": "all shapes, all values in this range, all names and bounds, every implementation of x**2 that is not negative and within two units of the square, every exp with the usual rounding behaviour", "why_tests_cant": "It is a rounding error bound for all values in 980 binary orders of magnitude and all shapes.", "anchors": ["NormalParams.py: UVNParam.e", "NormalParams.py: UVNParam.var", "NormalParams.py: UVNParam.e_outer", "NormalParams.py: UVNParamVector.var", "NormalParams.py: UVNParamArray.e_outer"]}
{"id": "C138", "title": "Moment parameters of normal distributions in double precision: what var() is worth", "statement": "For every UVNMomentParamArray after any history of set_from_uvn_param_array, set_from_constant, set_free and set_vector (successful or not): set_from_uvn_param_array with an argument of the same shape, means of at most 2^490 and information between 2^-490 and 2^501 succeeds, e() and e_outer() then return the mean and the e_outer() of the argument, and var() is finite, never negative, and within 4 units of 2^-53 of 1 / info relative to mean^2 + 1 / info - not relative to 1 / info: once mean^2 * info reaches 2^55 var() is exactly 0. After set_from_constant var() is exactly 0. An argument of another shape raises AssertionError and changes nothing.", "quantifier": "all shapes, all histories, all values in this range, every implementation of x**2 that is not negative and within two units of the square", "why_tests_cant": "That a variance computed by subtraction cannot come out negative must hold for every pair of doubles, and after every history of the object.", "anchors": ["NormalParams.py: UVNMomentParamArray.set_from_uvn_param_array", "NormalParams.py: UVNMomentParamArray.set_from_constant", "NormalParams.py: UVNMomentParamArray.var", "NormalParams.py: UVNMomentParamArray.e_outer"]}
{"id": "C139", "title": "Means of Gamma, Dirichlet and Wishart parameters and second moments of MVNArray in double precision", "statement": "For parameters between 2^-490 and 2^501: GammaParam.e() is the correctly rounded quotient shape / rate and never 0; every entry of DirichletParamArray.e() with n <= 2^20 categories is positive, at most 1 and within 3n + 1 units of 2^-53 of alpha / sum(alpha) along the first axis, relative to that number, and the entries of each distribution add up to 1 within 3n + 1 units, in whatever order the sum is taken; the second moments of MVNArray (means of at most 2^490) are within 4 units of mean^2 + 1 / info with the information of the row; WishartParam.e() is df * v with every entry rounded once, so exactly symmetric if v is, whether df is a number or an array of shape (1,). For GammaParam and DirichletParamArray the range of parameters is met after set_free() with free values of at most 300 in absolute value and bounds between 0 and 2^500.", "quantifier": "all shapes, sizes, names, bounds and values in this range, every summation order, every implementation of x**2 that is not negative and within two units of the square, every exp with the usual rounding behaviour", "why_tests_cant": "It is a rounding error bound for all values in 990 binary orders of magnitude, all shapes and all summation orders.", "anchors": ["GammaParams.py: GammaParam.e", "DirichletParams.py: DirichletParamArray.e", "NormalParams.py: MVNArray.e2", "WishartParams.py: WishartParam.e"]}
{"id": "C140", "title": "Moments of exp of a normal variable in double precision", "statement": "For UVNParam, UVNParamVector and UVNParamArray with |mean| + 1 / info <= 290, let K = 10 + 3 (|mean| + 1 / info) and count in units of 2^-53: e_exp() is within K units of exp(mean + 1 / (2 info)), relative to that number; e2_exp() is within 7 K units of the exact second moment exp(2 mean + 2 / info); var_exp() is finite and within 4 K units of the exact variance, relative to the exact second moment - not relative to the variance: with a correctly rounded exp, var_exp() is exactly 0 once the information reaches 2^55, although the variance is positive. var_exp() is never negative if the library exp is monotone.", "quantifier": "all shapes and all values in this range, every exp with the usual rounding behaviour, every implementation of x**2 that is not negative and within two units of the square", "why_tests_cant": "It is a rounding error bound for all means and variances in the range, and the loss of the variance shows only for very sharp distributions.", "anchors": ["NormalParams.py: UVNParam.e_exp", "NormalParams.py: UVNParam.var_exp", "NormalParams.py: UVNParam.e2_exp", "NormalParams.py: UVNParamVector.var_exp", "NormalParams.py: UVNParamArray.e2_exp", "ExponentialFamilies.py: get_e_lognormal", "ExponentialFamilies.py: get_var_lognormal"]}
{"id": "C141", "title": "MVNParam.e_outer() is exactly symmetric in double precision", "statement": "For every mean, every information matrix and whatever numpy.linalg.inv returns for it (not symmetric, NaN, infinite): MVNParam.e_outer() is symmetric entry by entry, bit for bit; each entry is the rounded average of the two entries of mean mean^T + cov(), and averaging adds no error on the diagonal. If the inverse raises, cov() and e_outer() raise the same error.", "quantifier": "all sizes, all doubles in the mean, all results of the inverse", "why_tests_cant": "It must hold for every rounding error of the inverse.", "anchors": ["NormalParams.py: MVNParam.e_outer", "NormalParams.py: MVNParam.cov"]}
{"id": "C142", "title": "The entropy of multinoulli probabilities in double precision", "statement": "multinoulli_entropy(p, min_prob) for a matrix p of doubles between 0 and 1 with n <= 2^20 columns and min_prob between 2^-60 and 2^-53 (the default 1e-16 is): every entropy is finite, never NaN and never negative (in exact arithmetic the formula is slightly negative for a certain outcome), within (600 + 128 n) sum(p) + 2 n units of 2^-53 of the exact entropy -sum p ln p of the row (0 ln 0 being 0), and exactly 0 for rows of zeros and ones. So the entropy of a SimplexParam is finite and not negative after set_free() with any free values that are finite or -inf.", "quantifier": "all numbers of rows and columns, all doubles between 0 and 1, every min_prob in the range, every summation order, every log with the usual rounding behaviour that is not positive below 1", "why_tests_cant": "It is a bound for every double between 0 and 1, down to the subnormal ones, and for every summation order.", "anchors": ["ExponentialFamilies.py: multinoulli_entropy", "SimplexParams.py: SimplexParam.set_free"]}
{"id": "C143", "title": "Logit-normal expectations in double precision", "statement": "get_e_log_logitnormal(means, infos, gh_loc, gh_weights) in double precision. The integrand is, for every finite double x however large, a finite number that is not positive, within 64 units of 2^-53 of log(expit(x)) relative to 1 + |log(expit(x))|, and x itself for x <= -100: the guard against overflow works. For n <= 2^20 points of size at most 2^100, weights between 0 and 2^100, |means| <= 2^390 and infos between 2^-400 and 2^400: E log(X) is finite, not positive, and within (100 + 2n) units of the exact value of the quadrature rule, relative to sum w (1 + |sqrt(2) x / sqrt(info)| + |mean|) (plus n 2^-600 for underflow); E log(1 - X) is the rounded difference of E log(X) and the mean. The guard does not cover +inf: the integrand is NaN there, so an information that has underflowed to 0 gives NaN for both expectations as soon as one point is positive. Means and infos of different shapes raise an AssertionError.", "quantifier": "all shapes, all means, informations, points and weights in this range, every order of summation, every exp and log with the usual rounding behaviour; the integrand for all finite doubles", "why_tests_cant": "It covers every double, including those where exp overflows, and every summation order; the NaN appears only for an information of exactly 0.", "anchors": ["ExponentialFamilies.py: get_e_log_logitnormal", "ExponentialFamilies.py: get_e_fun_normal"]}
{"id": "C144", "title": "Entropies of univariate normal variables in double precision", "statement": "univariate_normal_entropy(info) in double precision. For an array of n <= 2^20 positive finite informations, from the smallest double to the largest, the result is one finite number within (40 + 6n) units of 2^-53 of the sum of (1 + log(2 pi / info)) / 2, relative to the sum of 1 + |log(info)|; without variables it is exactly 0; if one information is 0 (either sign of zero) the entropy is +inf. UVNParam.entropy(), UVNParamVector.entropy() and UVNParamArray.entropy() return this number for the stored informations, whatever the means: the second sum in the vector and array versions changes nothing. After set_free() with free values of size at most 300 the informations are positive, so the entropy is finite and that close.", "quantifier": "all shapes with at most 2^20 entries, all positive finite doubles, every order of summation, every log with the usual rounding behaviour; all calm free vectors and lower bounds between 0 and 2^500", "why_tests_cant": "It covers every positive double, subnormal ones included, and every order in which a library may add them.", "anchors": ["ExponentialFamilies.py: univariate_normal_entropy", "NormalParams.py: UVNParam.entropy, UVNParamVector.entropy, UVNParamArray.entropy"]}
{"id": "C145", "title": "Natural parameters and scalar priors in double precision", "statement": "get_uvn_from_natural_parameters, uvn_prior, gamma_prior and exponential_prior in double precision, entry by entry, for any mixture of arrays of one shape and scalars that are broadcast. The information -2 e2_term is exact for every double below 2^1023 in size, and the mean is the correctly rounded quotient; an e2_term of 0 gives an infinite or NaN mean, never a finite one. From the natural parameters info * mean and -0.5 * info (info between 2^-400 and 2^400, |mean| <= 2^400) one gets back exactly the same information, and the mean within 3 units of 2^-53 (plus 2^-600). For arguments of size at most 2^200, with non-negative informations and variances, uvn_prior is finite, never positive, and within 13 units of -info ((e - mean)^2 + var) / 2 relative to that number (plus 2^-870); gamma_prior is within 4 units of (shape - 1) e_log - rate e relative to |(shape - 1) e_log| + |rate e| (plus 2^-1070). exponential_prior is the correctly rounded -lambda e.", "quantifier": "all shapes, all mixtures of scalars and arrays, all doubles in the stated ranges, subnormal ones and zeros included", "why_tests_cant": "It covers every double, including those where products underflow, and every combination of shapes.", "anchors": ["ExponentialFamilies.py: get_uvn_from_natural_parameters", "ExponentialFamilies.py: uvn_prior", "ExponentialFamilies.py: gamma_prior", "ExponentialFamilies.py: exponential_prior"]}
{"id": "C146", "title": "Quadrature of any integrand, logit-normal means and the Dirichlet process prior in double precision", "statement": "get_e_fun_normal in double precision, for every integrand that computes a function changing no faster than its argument to within 64 units of 2^-53: for arrays of means and informations of any shape and at most 2^20 nodes, with sizes in a stated range, every entry is finite and within (100 + 2n) units of the exact value of the rule, relative to the sum of weight times (1 + |mean| + node size / sqrt(info)) (plus n 2^-600). For get_e_logitnormal every entry is in addition never negative and at most (1 + (8 + 3n) units) times the sum of the weights over sqrt(pi). Arrays of different shapes are refused with AssertionError. Every entry of get_e_dp_prior_logitnorm_approx, for alpha a scalar or an array, is finite and within 3 units of (alpha - 1) times the E log(1 - V) that get_e_log_logitnormal returns (plus 2^-1074).", "quantifier": "all shapes, all numbers of nodes up to 2^20, all doubles in the stated ranges, all integrands and all exp, log, expit and summation orders that meet their accuracy contracts", "why_tests_cant": "It covers every integrand, every rule and every shape; tests use one rule and a few values.", "anchors": ["ExponentialFamilies.py: get_e_fun_normal", "ExponentialFamilies.py: get_e_logitnormal", "ExponentialFamilies.py: get_e_dp_prior_logitnorm_approx"]}
{"id": "C147", "title": "Priors of normal and Dirichlet vectors in double precision", "statement": "mvn_prior in double precision, for vectors of length n <= 2^20 and n by n matrices with entries of size at most 2^100: the result is a finite scalar within 5n + 4 units of 2^-53 of -((e - m)' P (e - m) + tr(P C)) / 2, relative to the same sum computed from absolute values (plus (n + 1) 2^-900). An information matrix that is not n by n, or a covariance without n rows, raises ValueError. dirichlet_prior of two vectors with entries of size at most 2^400 is a finite scalar within 4n + 2 units of the sum of (alpha - 1) E log, relative to the sum of the absolute values (plus n 2^-1070); arguments of different shapes raise AssertionError.", "quantifier": "all dimensions up to 2^20, all doubles in the stated ranges, subnormal ones and zeros included, all inner products and summation orders that meet their accuracy contracts", "why_tests_cant": "It covers every vector and matrix, including those with strong cancellation, where a test has no exact reference.", "anchors": ["ExponentialFamilies.py: mvn_prior", "ExponentialFamilies.py: dirichlet_prior"]}
{"id": "C148", "title": "Log expectation and entropy of gamma variables in double precision", "statement": "get_e_log_gamma and gamma_entropy, and e_log() and entropy() of GammaParam, in double precision, for shapes between 2^-100 and 2^100 and every positive finite rate, the smallest subnormal one included. Let the library's digamma and gammaln compute functions psi and lgam to within 64 units of 2^-53 relative to 1 + |psi| and 1 + |lgam|. Every entry of get_e_log_gamma is finite and within 74 units of psi(shape) - ln(rate), relative to 1 + |psi(shape)| + |ln(rate)|. gamma_entropy of arrays of any one shape with n <= 2^20 entries is one finite number, within 90 + 3n units of the sum of shape - ln(rate) + lgam(shape) + (1 - shape) psi(shape), relative to the sum of 1 + shape + |ln(rate)| + |lgam(shape)| + |1 - shape| (1 + |psi(shape)|).", "quantifier": "all array shapes with at most 2^20 entries, all doubles in the stated ranges, all log, digamma, gammaln and summation orders that meet their accuracy contracts", "why_tests_cant": "It covers every double and every library; tests compare a few values at a loose tolerance.", "anchors": ["ExponentialFamilies.py: get_e_log_gamma", "ExponentialFamilies.py: gamma_entropy", "GammaParams.py: GammaParam.e_log", "GammaParams.py: GammaParam.entropy"]}
{"id": "C149", "title": "Log expectation of Dirichlet variables in double precision", "statement": "get_e_log_dirichlet, and e_log() of DirichletParamArray, in double precision, for an alpha of any shape with n <= 2^20 rows and entries between 2^-99 and 2^79. Let the library's digamma compute a function psi to within 64 units of 2^-53 relative to 1 + |psi|, and let psi change by at most 4g(1 + 1/x) when its argument x changes by a fraction g <= 1/1000. The result has the shape of alpha, and every entry is finite. The entry in row i and column j is within 131 + 8n units of psi(alpha_ij) - psi(T_j), where T_j is the sum of column j, relative to 1 + |psi(alpha_ij)| + |psi(T_j)| + 1/T_j.", "quantifier": "all array shapes with at most 2^20 rows, all doubles in the stated range, all digamma and summation orders that meet their accuracy contracts", "why_tests_cant": "It covers every double and every library; tests compare a few values at a loose tolerance.", "anchors": ["ExponentialFamilies.py: get_e_log_dirichlet", "DirichletParams.py: DirichletParamArray.e_log"]}
{"id": "C150", "title": "Multivariate digamma and expected log determinant of Wishart matrices in double precision", "statement": "multivariate_digamma, e_log_det_wishart and e_log_det() of WishartParam in double precision, for n <= 2^20. The digamma contract is that of C149. For a finite x with (n-1)/2 + 2^-99 <= x <= 2^79, as a number or an array of one entry, multivariate_digamma(x, n) is one finite number, within 69 + 3n units of 2^-53 of psi(x) + psi(x - 1/2) + ... + psi(x - (n-1)/2), relative to the sum of 1 + |psi(x - i/2)| + 1/(x - i/2). For n >= 1, a finite df with n - 1 + 2^-98 <= df <= 2^80 and an n by n matrix v for which slogdet gives a positive sign and a log determinant within err of l, e_log_det_wishart(df, v) is one finite number, within 92 + 3n units, relative to that sum at df/2 plus |l|, plus 2 err, of the multivariate digamma of df/2 plus n ln 2 + l. A matrix that is not square, or for which slogdet gives a sign that is not positive, raises AssertionError.", "quantifier": "all sizes up to 2^20, all doubles in the stated ranges, all log, digamma, slogdet and summation orders that meet their accuracy contracts", "why_tests_cant": "It covers every double, every size and every library; tests compare a few values at a loose tolerance.", "anchors": ["ExponentialFamilies.py: multivariate_digamma", "ExponentialFamilies.py: e_log_det_wishart", "WishartParams.py: WishartParam.e_log_det"]}
{"id": "C151", "title": "Diagonal of the inverse of Wishart matrices and expected LKJ prior in double precision", "statement": "e_log_inv_wishart_diag, expected_ljk_prior and e_log_lkj_inv_prior() of WishartParam in double precision, for n by n matrices with n <= 2^20 and n <= df <= 2^79. The digamma contract is that of C149. Let the library's inverse of v have the positive finite diagonal d. e_log_inv_wishart_diag(df, v) has n finite entries; entry i is within 130 units of 2^-53 of ln(d_i) - psi((df - n + 1)/2) - ln 2, relative to 1 + |ln(d_i)| + |psi|. With slogdet as in C150 and |lkj - 1| <= 2^50, expected_ljk_prior is one finite number, within |lkj - 1| times (140 + 3n units of the sizes of all terms, plus 4 err), plus 2^-1074, of (lkj - 1)(-E log det - the sum of those entries). The condition df >= n cannot be dropped altogether: for a 1 by 1 matrix and 0 < df <= 2^-55 the argument of digamma is computed as zero, whatever df is.", "quantifier": "all sizes up to 2^20, all doubles in the stated ranges, all log, digamma, slogdet, inverse and summation orders that meet their contracts", "why_tests_cant": "It covers every double, every size and every library; tests compare a few values at a loose tolerance and never take a tiny df.", "anchors": ["ExponentialFamilies.py: e_log_inv_wishart_diag", "ExponentialFamilies.py: expected_ljk_prior", "WishartParams.py: WishartParam.e_log_lkj_inv_prior"]}
