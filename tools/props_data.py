# ---------------------------------------------------------------- estimator: parameters
prop("C01", "Flattening the free entries and rebuilding is lossless",
 "For any list of parameters added with add_param (any shapes, any fixed masks), with at least one parameter, taking the free entries in order (what fit starts from) and rebuilding the parameters from them gives back exactly the same values, shapes and masks.",
 "all parameter lists, all shapes, all fixed/free masks, all values",
 "the number of masks is exponential in the number of entries; a test tries one or two masks",
 f"{B}:Param.compressed", f"{B}:MaxLike._reshape_array", f"{B}:MaxLike._reshape_params")
prop("C02", "Rebuilding from a flat vector puts every number in its place",
 "Rebuilding parameters from any flat vector of the right length yields parameters with the same shapes and masks, whose fixed entries are the original fixed values and whose free entries, read in order, are exactly the flat vector.",
 "all parameter lists, masks and flat vectors", "depends on the interleaving of fixed and free positions in every parameter",
 f"{B}:MaxLike._reshape_array", f"{B}:MaxLike._reshape_params")
prop("C03", "Per-parameter blocks of fisher_matrix/error_matrix/std_error line up with the entries they describe",
 "Reshaping a flat square matrix (resp. vector) over the free entries gives, for parameters i,j and entries a,b, the matrix element of the free ranks of a and b when both are free, and the filler (0 or NaN) when one of them is fixed; a non-square matrix raises ValueError.",
 "all parameter lists, masks, matrices and positions", "positions shift with each fixed entry in each parameter",
 f"{B}:MaxLike._reshape_matrix", f"{B}:MaxLike._reshape_array", f"{B}:MaxLike.fisher_matrix")
# ---------------------------------------------------------------- estimator: fit
prop("C04", "fit never touches fixed entries, shapes or masks",
 "Whatever the model, data, method and options, after fit returns the parameters have the same number, shapes and masks as before and every fixed entry has its original value.",
 "all estimators, models (as arbitrary functions that may raise), starting points, methods, max_steps, tolerances",
 "must hold along every iteration history", f"{B}:MaxLike.fit", f"{B}:MaxLike._reshape_params")
prop("C05", "A failed fit leaves the previous estimates in place",
 "If fit raises (non-convergence, invalid method, or any exception raised by the model or the linear algebra at any step), the stored parameters are those before the call; with Newton the stored curvature matrix is also unchanged. The only exception is a Broyden fit whose very last pseudo-inverse raises after the stopping criterion was met: there the parameters have already been replaced (finding). The data attributes passed to the call are replaced in every case.",
 "all failure points in all iteration histories", "a crash may happen at any evaluation of any step",
 f"{B}:MaxLike.fit")
prop("C06", "A successful Newton fit never ends at a worse objective than it started from",
 "When model.eval and model() give the same value, fit(method='newton') returning True implies objective(final params) >= objective(initial params).",
 "all objectives, number types with a transitive >=, starting points, step directions",
 "a monotonicity claim over every accepted step of every run", f"{B}:MaxLike.fit", f"{B}:MaxLike.newton_step")
prop("C07", "fit does a bounded amount of work",
 "fit(method='newton') computes at most max_steps Newton steps and at most 5 trial points per step, with multipliers 1, 1/2, 1/4, 1/8, 1/16 in that order, and then raises ConvergenceError; max_steps=0 always raises ConvergenceError. Broyden evaluates at most max_steps trial points.",
 "all max_steps and all objective behaviours", "the bound must hold for adversarial objective values (including NaN)",
 f"{B}:MaxLike.fit")
prop("C08", "The converged flag",
 "Every ConvergenceError leaves converged = False. A successful Broyden fit leaves converged = True. A successful Newton fit leaves converged as it was before the call, so a first successful Newton fit leaves it False (finding).",
 "all runs of fit from all states", "depends on the history of previous fits", f"{B}:MaxLike.fit")
prop("C09", "True is returned only when the stopping criterion holds",
 "If fit returns True, the last accepted objective g and the one before it, prev_g, satisfy |prev_g/g - 1| < tol, with g the objective at the returned parameters (Newton: and g >= prev_g, so neither is NaN). An exactly zero objective raises ZeroDivisionError instead.",
 "all runs, all tolerances", "quantifies over every run", f"{B}:MaxLike.fit")
prop("C10", "Which point the reported curvature belongs to",
 "After a successful Newton fit the stored curvature (source of fisher_matrix, error_matrix, std_error) is the Hessian at the point from which the last step was taken, and the final parameters are that point minus a multiplier in {1,1/2,1/4,1/8,1/16} times the last Newton step; it is not in general the Hessian at the returned parameters (finding).",
 "all successful Newton runs", "invisible when the last step is tiny, as in tests", f"{B}:MaxLike.fit", f"{B}:MaxLike.std_error")
prop("C11", "Linear constraints are enforced",
 "If the linear solve is exact, after an undamped Newton step every linear constraint holds exactly at the new parameters (including with fixed entries), and if the constraints held before the step they hold after a step with any damping.",
 "all constraints matrices, starting points, gradients, Hessians and multipliers", "tests look at one constraint",
 f"{B}:MaxLike.newton_step", f"{B}:MaxLike.flat_grad", f"{B}:MaxLike.flat_hess")
prop("C12", "The Newton step is cut to exactly the free parameters",
 "With f >= 1 free entries and c constraints, the solution of the (f+c)-dimensional system is truncated to its first f components, for every f and c (c = 0 included); with f = 0 and c >= 1 it is not truncated (c components remain).",
 "all f, c", "index arithmetic with a negative modulus", f"{B}:MaxLike.newton_step", f"{B}:MaxLike.fit")
prop("C13", "The flat gradient is assembled correctly",
 "flat_grad returns, for each free entry in order, the likelihood gradient minus the sum over regularizations of their gradient for the parameter they were registered for (every occurrence counted), followed by the value of each constraint.",
 "all numbers of parameters, masks, constraints, regularizations and param_maps", "combinatorial bookkeeping",
 f"{B}:MaxLike.flat_grad", f"{B}:MaxLike.add_regularization", f"{B}:MaxLike.add_constraint")
prop("C14", "The flat Hessian is assembled correctly and is symmetric",
 "flat_hess returns the block matrix whose (i,a),(j,b) free entry is the likelihood Hessian entry minus regularization Hessians, bordered by the constraint gradients and a zero block; it is symmetric whenever the diagonal blocks are. If some constraint/regularization lists its parameters out of ascending order it raises IndexError instead.",
 "all numbers of parameters, masks, constraints and regularizations", "combinatorial bookkeeping; tests only use ascending param_maps",
 f"{B}:MaxLike.flat_hess")
prop("C15", "std_error works exactly for constrained models",
 "With at least one constraint std_error returns, for each free entry, the square root of the corresponding diagonal element of minus the inverse curvature (NaN at fixed entries); with no constraint it raises TypeError for every model (finding).",
 "all fitted models", "every test model has a constraint", f"{B}:MaxLike.std_error")
prop("C16", "Degrees of freedom in AIC/BIC",
 "AIC = 2k/(n-k-1) - 2l and BIC = k ln(n)/n - 2l with n the total of N, l the objective and k = number of all parameter entries + nb_extra_params - number of constraints; fixed entries are counted in k (finding), so k is the number of free parameters exactly when nothing is fixed.",
 "all models, masks, extra parameter counts", "needs masks in combination with information criteria",
 f"{B}:MaxLike.akaine_information_criterion", f"{B}:MaxLike.bayesian_information_criterion")
prop("C17", "Verbosity does not change the outcome of a Newton fit",
 "fit(method='newton') returns/raises the same and leaves the same state for every verbose level. fit(method='broyden') with verbose > 0 never succeeds: it raises NameError at the first trial point that is evaluated without another exception (finding).",
 "all runs, all verbosity levels", "tests run with verbose = 0", f"{B}:MaxLike.fit")
# ---------------------------------------------------------------- likelihoods
for cid, cls, extra in [
  ("C18", "Poisson", ""), ("C19", "ZeroInflatedPoisson", " (scale s >= 0, s != 0 only needed for the constant Z log s)"),
  ("C20", "Logistic", ""), ("C21", "Finite", " (model values positive)"),
  ("C22", "NormalizedFinite", " (model values positive)"), ("C23", "NegativeBinomial", " (scale r > 0)")]:
    prop(cid, f"{cls}: grad_like and hess_like are the first and second derivatives of like",
     f"For the {cls} estimator{extra}, along every differentiable parameter curve the derivative of like equals the pairing of grad_like with the velocity, and the derivative of every entry of grad_like equals the pairing of hess_like with the velocity, whenever der and hess are the derivatives of the model.",
     "all finite data sets, all numbers and shapes of parameters, all models with correct der/hess, all points",
     "finite differences sample a few points with tolerance; the identity must hold everywhere",
     f"{M}:{cls}.like", f"{M}:{cls}.grad_like", f"{M}:{cls}.hess_like")
prop("C24", "Working on aggregated data does not move the optimum",
 "For Poisson, Logistic, NegativeBinomial and ZeroInflatedPoisson, like computed from the aggregates (N = count, X = sum, Z = zero count per cell) differs from the sum of the individual log-probabilities by an amount that does not depend on the model values; for Logistic the difference is 0.",
 "all samples in all cells, all model values", "one dataset in tests",
 f"{M}:Poisson.like", f"{M}:Logistic.like", f"{M}:NegativeBinomial.like", f"{M}:ZeroInflatedPoisson.like")
# ---------------------------------------------------------------- func
prop("C25", "Primitive functions: grad and hess are the derivatives of the value",
 "For X, Scalar, Vector, Constant, Linear, Quadratic, Exp, Log (positive argument), Logistic, ArcTan, Poisson and LogNegativeBinomial (positive arguments), along every differentiable curve of parameters the derivative of each output entry is the pairing of grad with the velocity and the derivative of each grad entry is the pairing of hess with the velocity.",
 "all parameter shapes and values in the domain, all sizes", "tests compare eval with grad at two points, not with the true derivative",
 f"{F}:Exp", f"{F}:Log", f"{F}:Linear", f"{F}:Quadratic", f"{F}:Vector", f"{SG}:Logistic", f"{SG}:ArcTan", f"{FP}:Poisson", f"{FP}:LogNegativeBinomial")
prop("C26", "Arithmetic on functions means what it says",
 "f+b, b+f, f-b, b-f, -f, f*a, a*f evaluate to the corresponding arithmetic on f's value, their derivatives scale accordingly, and nesting any number of them (which collapses into one Affine) does not change value, gradient, Hessian or eval.",
 "all functions, all nestings, all constants", "unbounded nesting", f"{FB}:Func", f"{FB}:Affine")
prop("C27", "Sum: derivatives",
 "grad/hess of a Sum are the derivatives of its value when those of its terms are; a term contributes to the gradient of parameter i only if i is in its param_map.",
 "all term lists, weights, maps, points", "unbounded number of terms", f"{FO}:Sum", f"{FO}:FuncWrap")
prop("C28", "Product: derivatives",
 "grad/hess of a Product are the derivatives of its value when those of its factors are, including the cross terms of the Hessian, for any number of factors (one included).",
 "all factor lists, maps, points", "unbounded number of factors", f"{FO}:Product", f"{FO}:Product._prod")
prop("C29", "Compose (@): chain rule to second order",
 "grad/hess of f @ [g1..gn] are the derivatives of its value when those of f and the g's are, for any number of inner functions and any shapes.",
 "all inner function lists, shapes, points", "unbounded", f"{FB}:Compose")
prop("C30", "FuncWrap: re-indexed functions keep correct derivatives when no parameter is repeated",
 "With a duplicate-free param_map, value/grad/hess of the wrapped function are the function's own with parameters, features and dims re-indexed, hence derivative-correct; with a repeated parameter the gradient omits every occurrence but the first (finding).",
 "all maps, functions, points", "tests never repeat a parameter inside one wrapper", f"{FO}:FuncWrap", f"{FO}:IndexMap")
prop("C31", "eval is consistent with calling, grad and hess",
 "For every function built with the combinators, eval(params) returns exactly (value, all gradients, lower-triangular Hessians) that the separate calls return, provided every param_map is strictly ascending and no Sum contains a constant offset; a Sum with a non-zero offset returns a different value from eval than from calling it (finding), and a wrapper with a descending param_map raises IndexError in eval (finding).",
 "all functions built from the combinators, all params", "tests check a handful of functions",
 f"{FO}:Sum.eval", f"{FO}:FuncWrap.eval", f"{FO}:Product.eval", f"{FB}:Compose.eval", f"{FB}:Affine.eval", f"{FB}:FuncMeta")
prop("C32", "Adding a Sum (or scaled function) into a Sum flattens it without changing its meaning",
 "Adding f with weight w to a Sum increases the Sum's value by w*f (re-indexed), also when f is itself an Affine or a Sum of any depth, if all offsets involved are 0 or all weights are 1; in general the offset is added without its weight: the value increases by w*f + (1-w)*offset (finding).",
 "all nestings, weights, offsets, maps", "unbounded nesting; tests only add offset-free functions", f"{FO}:Sum.add", f"{FO}:IndexMap.__call__")
prop("C33", "Adding a Product into a Product flattens it without changing its value",
 "Product.add of a Product with re-indexing maps gives the same value as multiplying by the inner product re-indexed.",
 "all nestings and maps", "unbounded nesting", f"{FO}:Product.add")
# ---------------------------------------------------------------- matrices
prop("C34", "Markov functions conserve probability",
 "MarkovMatrix and MarkovVector return arrays that sum to 1 for every size, number of steps and skew, and are entrywise non-negative when skew >= 0 and s1*f1+s2*f2 <= 1.",
 "all sizes, steps, skews, admissible rates", "unbounded size and number of steps", f"{MX}:MarkovMatrix.__call__", f"{MX}:MarkovVector.__call__")
prop("C35", "Markov functions follow the chain they describe",
 "The in-place sweeps compute exactly one synchronous step of the reflecting birth chain (each cell loses (s1 f1+s2 f2) of its mass, s1 f1 to the next x, s2 f2 to the next y / previous x, staying put at the boundary) for every step.",
 "all sizes, steps, skews, rates", "in-place update order matters for every size", f"{MX}:MarkovMatrix.__call__", f"{MX}:MarkovVector.__call__")
prop("C36", "Markov functions: eval's gradient and Hessian are derivatives of the value",
 "MarkovVector.eval returns the value and its true first and second derivatives in the two rates for every size/steps/skew. MarkovMatrix.eval does so when the skew is symmetric (default); with an asymmetric skew the mixed second derivative is wrong (finding), everything else is right.",
 "all sizes, steps, skews, rates", "recurrences over unbounded steps; tests use the default skew",
 f"{MX}:MarkovMatrix.eval", f"{MX}:MarkovVector.eval")
prop("C37", "CollapseMatrix partitions the matrix",
 "With the default conditions the three outputs are the sums over x>y, x=y, x<y; together they add up to the total of the matrix, and grad is the indicator of the cells each output sums (so it is the derivative). Passing conditions explicitly makes every call raise AttributeError (finding).",
 "all matrix sizes and entries", "unbounded sizes", f"{MX}:CollapseMatrix")
prop("C38", "Tennis: win and loss probabilities add to one",
 "For a point probability p in [0,1], the entries of Game(p) (resp. TieBreak(p)) are non-negative and sum(Game(p)) + sum(Game(1-p)) = 1 (same for TieBreak); for Set: sum(Set(p,t)) + sum(Set(1-p,1-t)) = 1 for p within the clipping range.",
 "all p, t in [0,1]", "polynomial identities over the reals", f"{TN}:Game.__call__", f"{TN}:TieBreak.__call__", f"{TN}:Set.__call__")
prop("C39", "Tennis: grad and hess are the derivatives",
 "Every entry of grad (hess) of Game, TieBreak, Set is the derivative of the value (grad) entry with respect to the parameter, for every real p (Set: within the clipping range) and t.",
 "all p, t", "floating point checks at a point cannot establish an identity", f"{TN}:Game", f"{TN}:TieBreak", f"{TN}:Set")
# ---------------------------------------------------------------- copulas
prop("C40", "Copula joints have total mass one and the given margins",
 "For any non-negative unnormalised marginals with positive total, constructing Clayton (rho>0), Gumbel (rho>=1), Frank (rho!=0) or AkiMikhailHaq (-1<=rho<=1) and calling it returns a matrix whose total is 1 and whose row (column) sums are the normalised first (second) marginal; any other rho is refused with AssertionError. (AkiMikhailHaq(1) needs one of the two first weights to be positive, else numpy gives nan.)",
 "all marginals of any lengths, all admissible parameters", "telescoping sums of any length", f"{CO}:copulaWrap", f"{CO}:Clayton", f"{CO}:Gumbel", f"{CO}:Frank", f"{CO}:AkiMikhailHaq")
prop("C41", "Copula joints are non-negative",
 "For non-negative marginals with positive total the joint returned by AkiMikhailHaq (-1<=rho<=1), Frank (any rho != 0), Clayton (rho>0) and Gumbel (rho>=1) has no negative entry.",
 "all marginals, all admissible parameters", "2-increasing property over the unit square", f"{CO}:Clayton.__call__", f"{CO}:Frank.__call__", f"{CO}:AkiMikhailHaq.__call__")
prop("C42", "Degenerate copulas are independence",
 "Gumbel(1) and AkiMikhailHaq(0) return the outer product of the normalised marginals; AkiMikhailHaq(1), which the docstring calls independent, does not (finding).",
 "all marginals", "any length", f"{CO}:Gumbel", f"{CO}:AkiMikhailHaq")
# ---------------------------------------------------------------- skellam
prop("C43", "poisson_vector returns the Poisson pmf and its derivative in the rate",
 "Row 0 is e^-a a^u/u! for u < size and row 1 is its derivative in a; poisson_cdf returns the cdf and its derivative, which equals -e^-a a^n/n!.",
 "all a > 0, all sizes", "all a and n", f"{SK}:poisson_vector", f"{SK}:poisson_cdf", f"{SK}:poisson_mid_cdf")
prop("C44", "poisson_cdf_root returns an actual root, positive, in bounded work",
 "For 0 < target < 1, whatever the quantile function gives as a starting guess, if poisson_cdf_root returns a number a then a > 0 and |P(X<=n) - target| <= |tol|; it performs at most 51 outer iterations of at most 11 cdf evaluations; the equation has exactly one positive solution; failure to converge is reported by returning (not raising) the exception class ConvergenceError and an invalid target by returning ValueError (finding).",
 "all targets, n, tolerances, starting guesses", "every iteration history", f"{SK}:poisson_cdf_root")
prop("C45", "Orientation of the Skellam functions",
 "skellam_cdf(a,b,n) is P(Y-X <= n) and skellam_cdf_pair(a,b,n) is (P(Y-X<n), P(Y-X>n)) with X of rate a and Y of rate b (truncated at the computed size), i.e. the first rate is the subtracted one; the docstring orientation P(X-Y<n) is false of the code (finding).",
 "all a, b, n, tolerances", "every argument", f"{SK}:skellam_cdf", f"{SK}:skellam_cdf_pair", f"{SK}:skellam_frame")
prop("C46", "skellam_cdf_root returns an actual root with positive rates in bounded work",
 "For valid targets, whatever the linear solver and quantiles return, a pair (a,b) returned by skellam_cdf_root has a,b >= 1e-6 and its truncated probabilities are within |tol| (Euclidean) of the targets; at most 51 outer iterations; non-convergence surfaces as TypeError rather than ConvergenceError (finding); invalid targets raise ValueError.",
 "all targets, n, tolerances, solver outputs", "every iteration history", f"{SK}:skellam_cdf_root")
prop("C47", "conditional_skellam_cdf_root: correct when it returns, but may never return",
 "A returned rate a is either the starting rate b or at least 1e-6, and satisfies |P(Y<X)+P(X=Y)/2 - target| <= |tol| on a truncation grid computed for one of the iterates; non-convergence is never reported and there is no iteration bound: when target+tol < 3/8 e^-b (not reachable by any admissible rate) the loop runs forever (finding).",
 "all b, targets, tolerances", "non-termination cannot be observed by a test", f"{SK}:conditional_skellam_cdf_root")
# ---------------------------------------------------------------- preprocessing
prop("C48", "prepare_series puts every observation in exactly one cell",
 "For any series of observations with any number of index levels and any extra axis values, the cell of the result at position (i1..im) is the transformation applied to exactly the observations whose labels are axis1[i1]..axism[im] (in order), or 0 when there is none; axes are sorted, duplicate-free and contain every label; in particular counts add up to the number of observations and sums to the grand total.",
 "all observation lists, label sets, added axes, transformations", "any data set", f"{PP}:prepare_series")
prop("C49", "prepare_dataframe weights",
 "prepare_dataframe returns N = per-cell sum of weights (even if a transformation is named 'N') and, for each transformation, the transformation of weight*result over the cell's rows, 0 for empty cells.",
 "all data frames", "any data set", f"{PP}:prepare_dataframe")
prop("C50", "df_count: one indicator per row, but the overflow column is not the last",
 "For size >= 2 every row of df_count has exactly one true entry; columns j < size-2 mean value = j, column size-1 means value = size-2 and column size-2 collects everything else (finding: last two columns are swapped with respect to their labels).",
 "all integer series, all sizes", "tests feed the result straight into a fit", f"{PP}:df_count")
# ---------------------------------------------------------------- tensors
prop("C51", "Negation, scalar arithmetic and drop_dim commute with toarray",
 "For every well-formed Tensor t and scalar c, (-t).toarray(), (t+c), (t-c), (c-t), (t*c), (t/c) .toarray() equal the same operation on t.toarray(); drop_dim does not change it; t/0 raises ZeroDivisionError.",
 "all ranks, shapes, partial mappings, values", "infinitely many rank/mapping combinations", f"{T}:Tensor.bin_op", f"{T}:Tensor.__neg__", f"{T}:Tensor.toarray", f"{T}:Tensor.drop_dim")
prop("C52", "Addition and subtraction of tensors are pointwise",
 "For every two well-formed, dimension-compatible tensors, a+b, a-b have as dense meaning the broadcast sum/difference of the dense meanings, whether represented as one tensor or as a formal sum; adding to a formal sum preserves this for any number of terms. A rank-0 non-zero tensor on the left of + with a diagonal-mapped tensor is the exception (finding).",
 "all ranks, shapes, mappings", "infinitely many combinations", f"{T}:Tensor.bin_op", f"{T}:GenericTensor.bin_op")
prop("C53", "Multiplication of tensors is pointwise",
 "For well-formed compatible tensors whose x (y) mappings are carried by at most one operand, or are equal, a*b has as dense meaning the broadcast product; when a diagonal has to be extracted from the other operand this holds if at most one axis follows the mapped feature and the feature has the same size in both; otherwise features come out exchanged or a wrong entry is used (finding), and y-diagonal extraction with x axes present is misplaced (finding).",
 "all ranks, shapes, mappings in the stated class", "infinitely many combinations", f"{T}:Tensor.bin_op", f"{T}:arr_take_diag", f"{T}:arr_expand_cross_diag")
prop("C54", "sum adds up the dense values",
 "For a well-formed tensor with injective mappings, t.sum() (all feature axes, with or without dims) has as dense meaning the sum of the dense meaning over those axes, including tensors mapped on x and y to the same feature. Summing only some feature axes while another is mapped gives a wrong array (finding).",
 "all ranks, shapes, mappings", "infinitely many combinations", f"{T}:Tensor.sum")
prop("C55", "expand re-indexes features/dims",
 "For distinct target positions, t.expand(where, newsize) has dense meaning t at the coordinates where[0..n-1], ignoring the new axes; mappings are carried along. Wrong lengths or positions >= newsize raise AssertionError. The zero tensor expands to itself.",
 "all ranks, shapes, mappings, where permutations", "permutations of any size", f"{T}:Tensor.expand", f"{T}:compose_mappings")
prop("C56", "flip reverses axes and is an involution",
 "t.flip(where) for unmapped features (or dims) reverses exactly those axes of the dense array; twice is the identity; flipping a mapped feature raises NotImplementedError.",
 "all ranks, shapes, axis lists", "any rank", f"{T}:Tensor.flip")
prop("C57", "transpose swaps the x and y spaces when each has at most one axis",
 "If x_dim = 0 or y_dim = 0 or x_dim = y_dim = 1, transpose() exchanges x and y coordinates of the dense array, and is an involution; for larger x_dim/y_dim it permutes axes incorrectly (finding).",
 "all ranks/shapes in the stated class", "tests only use 1x1", f"{T}:Tensor.transpose")
prop("C58", "dot_left is the contraction",
 "For well-formed self, other with other.y_dim = 0 and other.n = self.x_dim, self.dot_left(other) has dense meaning sum over n of other[x,n,e]*self[n,y,m,e], when self has no diagonal or every feature that other is diagonal along is an axis of self that is itself diagonal; when other.n is the number of y axes of self instead, self is transposed first.",
 "all ranks, shapes, mappings", "infinitely many combinations", f"{T}:Tensor.dot_left")
prop("C59", "dot_right is the contraction or an error",
 "For well-formed self (y_dim = 0) and other with other.n = self.x_dim, self.dot_right(other) has dense meaning sum over n of other[x,y,n,e]*self[n,m,e] when every feature that other is diagonal along is an axis of self that is itself diagonal (or neither has diagonals), and raises an exception (IndexError or ValueError) when self has no diagonal but other has; dimension mismatches raise AssertionError; a zero other gives the number 0.",
 "all ranks, shapes, mappings", "infinitely many combinations", f"{T}:Tensor.dot_right")
prop("C60", "Tensors and Params cannot be changed through their own interface, but share memory with the arrays they were built from",
 "Assigning or deleting any attribute of a Tensor/Param raises and changes nothing; writing through the array object handed to the constructor raises afterwards when it is stored without a copy; if no other writable array object shows the same memory, or the array was copied because of its dtype, no later history of views, writes, and constructions changes what the object holds (as long as nobody switches a write flag back on); the only operation that ever changes an array is a write through a writable object sharing its memory, and a view taken before construction is one (finding), as is the mask array of a Param (finding).",
 "all histories of allocations, views, writes, lock flags and constructions", "every history", f"{T}:Tensor.__init__", f"{B}:Param.__init__")
# ---------------------------------------------------------------- likelihood, continued
prop("C61", "Log-likelihoods of linear models are concave",
 "For a model linear in its parameters, with non-negative weights, the Hessian returned by hess_like of Poisson, ZeroInflatedPoisson, Logistic and NegativeBinomial is negative semi-definite at every parameter point.",
 "all designs, data, parameter points and directions", "negative semi-definiteness quantifies over every direction", f"{M}:Poisson.hess_like", f"{M}:ZeroInflatedPoisson.hess_like", f"{M}:Logistic.hess_like", f"{M}:NegativeBinomial.hess_like")
prop("C62", "Finite is scale-free",
 "Finite.like does not change when the positive model values of each feature cell are multiplied by any positive factor, and equals NormalizedFinite.like of the normalised model.",
 "all positive models, factors, counts", "all reals", f"{M}:Finite.like", f"{M}:NormalizedFinite.like")
prop("C63", "The objective that fit compares is differentiated consistently",
 "With any number of regularisations, the gradient of the value returned by g(params) is the gradient of like minus the gradients of the regularisations, divided by the total of N.",
 "all likelihoods, regularisations, totals", "all differentiable ingredients", f"{B}:MaxLike.g", f"{B}:MaxLike.flat_grad")
prop("C64", "Tennis entries follow the rules of the game",
 "For every point (game) probability, entry k of Game/TieBreak/Set is the probability, under independent points, that the match passes through the corresponding final score; the deuce entries are the sums of the infinite series over the number of deuces.",
 "all probabilities", "an infinite series and an identity over the reals", f"{TN}:Game.__call__", f"{TN}:TieBreak.__call__", f"{TN}:Set.__call__")
prop("C65", "Layout of the feature axes of the tennis functions",
 "With at most one feature axis, entry u of cell k is the function at the value of cell k; with two or more feature axes the result has its feature axes rotated: cell (k1,...,km) holds the value for (k2,...,km,k1) (finding).",
 "all ranks and index tuples", "any rank; tests use vectors", f"{TN}:Game.__call__", f"{TN}:TieBreak.__call__", f"{TN}:Set.__call__")

prop("C66", "Copula joints follow the documented copula",
 "For admissible rho and non-negative marginals of positive total, the mass of rows 0..i and columns 0..j of the matrix returned by Clayton, Gumbel, Frank, AkiMikhailHaq is the docstring's C(u,v) at u, v = the normalised cumulative marginals.",
 "all marginals, lengths, positions and admissible parameters", "closed form must hold for every size and parameter", f"{CO}:copulaWrap", f"{CO}:Clayton.__call__", f"{CO}:Gumbel.__call__", f"{CO}:Frank.__call__", f"{CO}:AkiMikhailHaq.__call__")
prop("C67", "Truncation error of skellam_cdf",
 "For non-negative rates, the number returned by skellam_cdf never exceeds the exact probability of the event under two independent Poisson variables and falls short of it by at most 2/q^2, with q the normal quantile of tol (the truncation grid covers all but that mass).",
 "all rates, n, tolerances below one half", "tail bound over all rates", f"{SK}:skellam_cdf", f"{SK}:tol2size")
prop("C68", "Derivatives of collapsed (summed) functions",
 "Summing a function over its feature and distribution axes with Collapse keeps its gradient and Hessian right whenever the gradient and Hessian of the summed function carry those axes in full (true of entrywise functions, Poisson, LogNegativeBinomial and their affine images); over a Sum whose atoms broadcast, e.g. p[i] + q[j], the gradient loses the broadcast factor (finding).",
 "all functions, shapes, parameter values", "calculus over every shape and function", "maxlike/func/func_op.py:Collapse", "maxlike/func/func_op.py:Sum")
prop("C69", "Expressions of tensors are evaluated entrywise",
 "Any expression built with +, - and unary - from tensors of a common shape (each axis full, of size 1 or absent, with or without diagonal mappings) evaluates without error, and the Tensor or formal sum it gives stands for the dense array obtained by doing the same operations entry by entry with broadcasting.",
 "all expressions, of any depth, over tensors of all shapes and mappings", "expressions of unbounded depth", f"{T}:Tensor.bin_op", f"{T}:GenericTensor.bin_op", f"{T}:GenericTensor.__neg__")
prop("C70", "NumPy functions applied to tensors",
 "np.exp, np.log, ... of a tensor without derivative axes is the entrywise function and keeps its dim axes; of a derivative it raises InvalidOperation; an array or number combined with a tensor on its right by +, -, *, / gives the entrywise result in the written order; np.maximum/np.minimum(t, c) is entrywise. Deviations proved: np.maximum(c, t) and np.maximum(t, u) recurse for ever, and np.add/subtract/multiply/divide called with a tensor first ignore the second argument.",
 "all tensors, arrays, numbers, functions and recursion depths", "ranges over all shapes and mappings; non-termination cannot be tested", f"{T}:Tensor.__array_ufunc__", f"{T}:GenericTensor.__array_ufunc__", f"{T}:BaseTensor.__radd__")
prop("C71", "Powers of tensors",
 "t ** a is the entrywise power of the dense array for every natural a >= 1, and for every a when no axis is diagonal; t ** 0 of a diagonal tensor is 0 instead of 1 off the diagonal (finding).",
 "all tensors and natural exponents", "ranges over all shapes and mappings", f"{T}:Tensor.__pow__")
prop("C72", "dot chooses the right contraction",
 "a.dot(b) contracts the derivative axes of a with the feature axes of b: as dot_left when b has no y axes, as dot_right when b is a second derivative, and with x and y exchanged when both only have y axes; the zero number absorbs; with nothing to contract it raises ValueError.",
 "all pairs of tensors, shapes and mappings", "ranges over all shapes and mappings", f"{T}:Tensor.dot", f"{T}:Tensor.dot_left", f"{T}:Tensor.dot_right")
FB, FO, FF = "maxlike/func/func_base.py", "maxlike/func/func_op.py", "maxlike/func/func.py"
prop("C73", "Gradients and Hessians computed with tensors are the derivatives",
 "For a function object built from X, Scalar, Vector, Constant, Exp, Log, Logistic, ArcTan, Poisson, LogNegativeBinomial with affine combinations, weighted Sums, parameter/feature re-indexing and @, every call of value, grad and hess on parameters given as numbers, arrays or Tensors returns, and, reading the Tensors and formal sums (with their diagonal axis maps) entry by entry, grad is the derivative of the value along every differentiable curve of parameters and hess the derivative of grad.",
 "all expressions of any depth, all shapes, parameter values and curves", "calculus over every expression, shape and point", f"{FB}:grad_tensor", f"{FB}:hess_tensor", f"{FB}:Compose", f"{FB}:Affine", f"{FO}:FuncWrap", f"{FO}:Sum", f"{T}:Tensor.dot_left", f"{T}:Tensor.dot_right")
prop("C74", "Values computed with tensors",
 "For the same expressions the Tensor returned by calling the object has the documented entries: a*f+b; the weighted sum of the atoms with numpy broadcasting; for a wrapped function the value at the renamed parameters read at the moved, possibly reversed axes; F(g) entrywise for @; exp, log, 1/(1+exp(-x)), arctan, a^k/k! for the primitives.",
 "all expressions, shapes, parameter values and entries", "ranges over all expressions and shapes", f"{FB}:Affine.__call__", f"{FB}:Compose.__call__", f"{FO}:FuncWrap.__call__", f"{FO}:Sum.__call__", f"{FF}:Exp.__call__")
prop("C75", "Limits of the tensor-valued function objects",
 "Outside that class the objects misbehave, for all entries of the parameters: the gradient of F @ g for a parameter g ignores comes back with y axes instead of x axes and the Hessian with an extra feature axis (a wrapper gives Tensor(0)); feat_flip on a feature carrying a diagonal makes grad raise NotImplementedError although the value is returned; a wrapper around F @ g with F linear raises AttributeError on hess; whether a spread and shifted scalar can be evaluated depends on its being exactly 0.",
 "all parameter values of the given shapes", "holds for all values, not a sample", f"{FB}:Compose.grad", f"{FB}:Compose.hess", f"{FO}:FuncWrap", f"{T}:Tensor.expand", f"{T}:Tensor.flip")
ML = "maxlike/maxlike.py"
prop("C76", "Likelihood classes computing with tensors",
 "For a model of the class of C73 fitted to data with the model's axes (axes of size 1 broadcast), Poisson, ZeroInflatedPoisson, Logistic, NegativeBinomial and NormalizedFinite: like returns one number, the sum over all observations of the documented log-probability at the model's value; grad_like returns for each parameter an array of that parameter's shape, hess_like for each pair an array of the two shapes together; and these arrays are the first and second derivatives of like along every differentiable curve of parameters. Finding: if the model does not use one of the parameters, its gradient block is a single number whatever the parameter's shape.",
 "all models, data, shapes, parameter values and curves; all scale parameters > 0", "calculus and tensor bookkeeping over every model, shape and point", f"{ML}:Poisson", f"{ML}:ZeroInflatedPoisson", f"{ML}:Logistic", f"{ML}:NegativeBinomial", f"{ML}:NormalizedFinite", f"{T}:Tensor.bin_op", f"{T}:Tensor.sum")
prop("C77", "Finite computing with tensors",
 "For a model of the class of C73 whose values and derivatives store the dim axes of the data in full, Finite: like returns sum over k, u of N[k,u] (log p(u|k) - log sum_v p(v|k)); grad_like and hess_like return arrays of the parameters' shapes which are its first and second derivatives, wherever all the model's values are positive. Finding: if a derivative is stored with a dim axis of size 1 (a parameter added to all probabilities of a row), sum(False) counts it once instead of once per value and grad_like returns a number that is not the derivative of like, even of the wrong sign.",
 "all models, data, shapes, parameter values and curves", "calculus and tensor bookkeeping over every model, shape and point", f"{ML}:Finite.like", f"{ML}:Finite.grad_like", f"{ML}:Finite.hess_like", f"{T}:Tensor.sum", f"{T}:GenericTensor.sum")
prop("C78", "Objective, flat gradient and flat Hessian of a MaxLike object, computing with tensors",
 "For any likelihood of C76/C77, regularizations and constraints added for ascending lists of parameters and any masks: g(params) is the log-likelihood minus the regularizations, divided by the total of N (ZeroDivisionError when it is 0); flat_grad returns a vector with one entry per free entry of the parameters, the partial derivative of log-likelihood minus regularizations, followed by the values of the constraints; flat_hess returns the symmetric matrix of the partial derivatives of flat_grad, with the derivatives of the constraints as border and a zero corner; neither raises. Quadratic(u, s) is such a regularization, with value the sum of ((p-u)/s)^2 over all entries, Linear(w) such a constraint, with value the weighted sum of the entries.",
 "all models, data, shapes, masks, constraints, regularizations and parameter values", "calculus and index bookkeeping over every object and point", f"{B}:MaxLike.g", f"{B}:MaxLike.flat_grad", f"{B}:MaxLike.flat_hess", f"{FF}:Linear", f"{FF}:Quadratic")
prop("C79", "eval agrees with value, grad and hess, computing with tensors",
 "For the expressions of C73 (Sums without offset), eval(params) returns the value, one gradient per parameter and the lower triangle of the Hessian row by row, entry by entry what calling the object, grad and hess return; so the gradients and Hessians MaxLike.fit gets from eval are the derivatives of the value it gets. Finding: for a Sum with an offset b, eval's value lacks b at every entry while calling the object includes it.",
 "all expressions of any depth, all shapes and parameter values", "ranges over all expressions, shapes and values; the two code paths are separate", f"{FB}:FuncMeta", f"{FB}:Affine.eval", f"{FB}:Compose.eval", f"{FO}:FuncWrap.eval", f"{FO}:Sum.eval", f"{FF}:Exp.eval")
prop("C80", "A fit that returns is a Newton iteration on the penalized likelihood",
 "For a MaxLike object of any of the six classes, its model an expression of C79, with the constraints and regularizations of C78 and any masks, and a linear solver that is exact: if fit(method='newton', N=..., X=...) returns, the fixed entries and shapes of the parameters are unchanged; the penalized log-likelihood of the data (a formula of the data and of the model's values) is at least that of the starting parameters; the final parameters are x - mult*step in the free entries, for some visited x, mult one of 1, 1/2, 1/4, 1/8, 1/16, and step the solution of H step = (gradient of the penalized log-likelihood, constraint values) with H its Hessian bordered by the derivatives of the constraints, which is stored as flat_hess_; and the relative change of the penalized log-likelihood in that step is below tol. One Newton step from any parameters of the domain raises no error apart from the solver's.",
 "all objects, data, shapes, masks, starting points, tolerances and numbers of steps", "ranges over all objects and whole runs of the loop; involves derivatives", f"{B}:MaxLike.fit", f"{B}:MaxLike.newton_step", f"{B}:MaxLike.flat_grad", f"{B}:MaxLike.flat_hess", f"{ML}:Poisson")
prop("C81", "Linear constraints after a fit",
 "In the situation of C80, each Newton step multiplies the value of a constraint that is an affine function of the parameters (as Linear) by 1 - mult, so a full step satisfies it and a step never changes a satisfied one; after a fit that returns its value is r times the value at the start with 0 <= r <= 15/16. Finding: started from the unconstrained maximum of the penalized likelihood (an earlier fit, say), where such a constraint does not hold, fit never returns, whatever the tolerance and number of steps.",
 "all objects, data, constraints, starting points and runs", "ranges over all objects and whole runs of the loop", f"{B}:MaxLike.fit", f"{B}:MaxLike.add_constraint", f"{FF}:Linear")
prop("C82", "Broyden fits satisfy linear constraints exactly, but may lower the likelihood",
 "For the objects of C80 and exact linear algebra (products, rank-one update, inverse of the Hessian at the start): if fit(method='broyden') returns, converged is set, shapes and fixed entries are unchanged, every constraint that is an affine function of the parameters (as Linear) has value exactly 0 at the final parameters, and the penalized likelihood there differs relatively by less than tol from that of another visited point. The same holds when the Hessian stored by an earlier Broyden fit is used again, and the Hessian stored at the end is again usable. Finding: unlike Newton's method, the returned parameters may be worse than the starting ones.",
 "all objects, data, starting points, stored Hessians and runs", "ranges over all objects and whole runs of the loop; a loop invariant of the quasi-Newton matrix", f"{B}:MaxLike.fit", f"{B}:MaxLike.add_constraint", f"{FF}:Linear")
prop("C83", "Product computing with tensors",
 "For factors that are expressions of C73, stored by add as wrapped functions, whose outputs broadcast to an array with at least one axis: calling the Product, grad and hess never raises; every entry of the value is the product of the factors' entries with numpy broadcasting, and the gradients and Hessians are its first and second derivatives along every curve of parameters, however the factors store theirs (diagonals, sums of tensors, placeholder zeros). A Product without factors raises TypeError when called but has gradient and Hessian 0.",
 "all lists of factors of any length and depth, shapes, parameter values and curves", "calculus and tensor bookkeeping over every list of factors, shape and point", f"{FO}:Product.__call__", f"{FO}:Product.grad", f"{FO}:Product.hess", f"{FO}:Product._prod")
prop("C84", "Product.eval agrees with value, grad and hess, computing with tensors",
 "For the same factors with eval methods, eval(params), which accumulates value, gradients and Hessians factor by factor starting from 1 and placeholder zeros, returns entry by entry what calling the Product, grad and hess return: one gradient per parameter and the lower triangle of the Hessian.",
 "all lists of factors of any length and depth, shapes and parameter values", "the two code paths are separate; a loop invariant over any number of factors", f"{FO}:Product.eval", f"{FO}:Product.grad", f"{FO}:Product.hess")
prop("C85", "@ can be grouped either way",
 "Python reads f1 @ f2 @ g as (f1 @ f2) @ g. For any f1, f2, g, calling (f1 @ f2) @ g and calling f1 @ (f2 @ g) return the same value or raise the same exception. For f1, f2 applied entry by entry (f1 possibly adding a dim axis, like Poisson) and g an expression of C73, both have right first and second derivatives, their gradients and Hessians agree entry by entry, and eval of both agrees with their methods.",
 "all such functions, shapes, parameter values and curves", "an algebraic law of two different code paths (the chain rule nested on the left and on the right), over all functions and points", f"{FB}:Func.__matmul__", f"{FB}:Compose.grad", f"{FB}:Compose.hess", f"{FB}:Compose.eval")
prop("C86", "NegativeBinomial on tensors",
 "NegativeBinomial(n, r), which is Exp() @ LogNegativeBinomial(n, r), called with an array or Tensor of positive numbers m of any shape, has in its dim axis the entries exp(k ln m + gammaln(r+k) - gammaln(r) + r ln r - ln k! - (k+r) ln(r+m)) for k < n; when r is a positive integer and gammaln(j+1) = ln j!, that is the negative binomial probability (k+r-1)!/(k!(r-1)!) (r/(r+m))^r (m/(r+m))^k of mean m. As the outer function of any expression g of C73 that is positive, NegativeBinomial(n, r) @ g never raises, its gradients and Hessians are the first and second derivatives of the value, and eval agrees with them.",
 "all n, r > 0, shapes, expressions g, parameter values and curves", "the chain rule through a Tensor whose diagonals run along dim axes, for every shape and point", "maxlike/func/func_proba.py:NegativeBinomial", "maxlike/func/func_proba.py:LogNegativeBinomial", f"{FB}:Compose.grad", f"{FB}:Compose.hess", f"{FF}:Exp")
prop("C87", "Reshaping a formal sum and turning it into an array",
 "For a GenericTensor g whose elements broadcast to a common shape: transpose (each element transposable), drop_dim (each element having all feature and dim axes), flip of features no diagonal runs along, flip of dim axes, expand and expand(dim=True) never raise and return a formal sum that stands for the same operation applied to the dense array g stands for, with x_dim, y_dim, n and dim updated accordingly; toarray returns that dense array when every element has all the axes. When an element lacks a dim axis that another one has, expand(dim=True) raises AssertionError although the elements can be broadcast, and toarray adds values of the wrong feature.",
 "all formal sums of any number of elements, diagonals, shapes and entries", "depends on how any number of elements with different diagonals and broadcast axes combine; all shapes and entries", "maxlike/tensor/tensor.py:GenericTensor.transpose", "maxlike/tensor/tensor.py:GenericTensor.drop_dim", "maxlike/tensor/tensor.py:GenericTensor.flip", "maxlike/tensor/tensor.py:GenericTensor.expand", "maxlike/tensor/tensor.py:GenericTensor.toarray")
prop("C88", "Products, quotients and scalars of a formal sum",
 "For a GenericTensor g whose elements broadcast to a common shape: g*o, o*g and g/o for a Tensor o, g*h for another GenericTensor (per group of axes, the diagonals of the two factors agree or one factor has no axes there), g+c, c+g, g-c, c-g, g*c, c*g and g/c for a number c never raise and return a formal sum that stands for the entry-by-entry operation on the dense arrays; the products with a Tensor and the operations with a number also set x_dim, y_dim, n and dim correctly. Multiplying by 0 gives a formal sum that stands for 0, dividing by 0 raises ZeroDivisionError, and a formal sum used as divisor raises InvalidOperation.",
 "all formal sums of any number of elements, diagonals, shapes and entries; all numbers", "a number must be added to exactly one element and a factor must multiply all of them, for any number of elements and any mix of diagonals; products of sums run over all pairs", "maxlike/tensor/tensor.py:GenericTensor.bin_op", "maxlike/tensor/tensor.py:GenericTensor.__mul__", "maxlike/tensor/tensor.py:Tensor.bin_op")
prop("C89", "Formal sums combined with NumPy arrays",
 "For a GenericTensor g whose elements broadcast to a common shape and a NumPy array a that broadcasts to its features: g*a, a*g and g/a never raise and stand for the entry-by-entry operation on the dense arrays, with x_dim, y_dim, n and dim unchanged; so do g+a, a+g, g-a and a-g when some element of g has no diagonals. When every element has a diagonal (refuted otherwise): g+a is accepted but keeps the bare array as an element, and drop_dim raises AttributeError afterwards, also after negation.",
 "all formal sums of any number of elements, diagonals, shapes and entries; all arrays", "which element absorbs the array depends on the diagonals of all elements; all shapes and entries", "maxlike/tensor/tensor.py:GenericTensor.bin_op", "maxlike/tensor/tensor.py:GenericTensor.__array_ufunc__")
prop("C90", "Summing a formal sum over its dim axes or one feature",
 "For a GenericTensor g with the recorded numbers of axes and at least one feature, g.sum(False, True) never raises and returns a formal sum that stands for the dense array summed over all dim axes (an element stored with size 1 along a dim axis counts as often as the axis is long), with dim 0 and the other counts unchanged. Refuted: with two or more features of full size, g.sum(k, False) does not sum over feature k, the elements come back unchanged.",
 "all formal sums of any number of elements, diagonals, shapes and entries", "the multiplicities depend on the joint size of all elements along every dim axis; all shapes and entries", "maxlike/tensor/tensor.py:GenericTensor.sum", "maxlike/tensor/tensor.py:Tensor.sum")
prop("C91", "The two-sided model of the library's own Poisson test",
 "The model that tests/tests.py builds from Sum, X, Scalar, Exp and Log with the features of its second half swapped, called with vectors a, b of any length N >= 1 and a number h, returns at (i, j) the number ln(exp(a_i - b_j + h) + exp(a_j - b_i - h)). For all such parameters calling it, grad and hess never raise (Log only ever sees positive numbers) and are the value and its first and second derivatives; with s and c the two exponentials, the gradient at (i, j) is ([i=k] s + [j=k] c)/(s+c) for a_k, -([j=k] s + [i=k] c)/(s+c) for b_k and (s-c)/(s+c) for h. Adding one number to all entries of a and b changes nothing, so a fit needs the constraint of the test. Fitted to tables of counts X and numbers of observations W as Poisson likelihood, like is the sum of X ln(s+c) - W (s+c) - ln X!, grad_like and hess_like are its derivatives, and with r = X/(s+c) - W grad_like is sum_j (r_kj s_kj + r_jk c_jk) for a_k, -sum_i (r_ik s_ik + r_ki c_ki) for b_k and sum_ij r_ij (s_ij - c_ij) for h; the scores of a and b add up to 0.",
 "all numbers of items N, all parameter values and curves", "the test fits one data set and compares final numbers; this is about all sizes and points", f"{FO}:Sum.add", f"{FO}:FuncWrap", f"{FB}:Compose.grad", f"{FB}:Compose.hess", "maxlike/maxlike.py:Poisson", "tests/tests.py:test_poisson_sum")
prop("C92", "Fitting the two-sided model of the library's own Poisson test",
 "Take the object that tests/tests.py:test_poisson_sum builds (Poisson, that model, the constraint Linear([1, 1]) on a and b), with any number of items, tables of counts X and of observations W with a positive total, any start and any mask that leaves an entry free, and a linear solver that is right when it returns. If fit with Newton's method returns, the masks, shapes and masked entries are as before; the log-likelihood sum X ln(s+c) - W (s+c) - ln X! at the final a, b, h is not below that at the start; the sum of all entries of a and b is the starting sum times a number between 0 and 15/16 (so it stays 0 if it was 0); and the result was reached from a visited point by a fraction 1, 1/2, ..., 1/16 of an exact Newton step of that log-likelihood bordered by the constraint, whose relative gain was below the tolerance. The model's eval, which fit uses, returns the value, gradients and Hessians that the function's other methods return. If a first fit with Broyden's method returns, and the Newton system of the start is regular, the final sum is exactly 0, however far the start was from it. Fits that move the parameters exist for both methods. The constraint loses nothing: every value of the log-likelihood is attained where the sum of a and b is 0, and a point where the score of every a_k and b_k is the same number (stationary under the constraint) has score 0 there.",
 "all numbers of items, data tables, starting points, masks, solvers, tolerances and step limits", "the test runs one fit of one data file", "maxlike/maxlike_base.py:MaxLike.fit", "maxlike/maxlike.py:Poisson", f"{FO}:Sum.eval", f"{FO}:FuncWrap.eval", "maxlike/func/func.py:Linear", "tests/tests.py:test_poisson_sum")
