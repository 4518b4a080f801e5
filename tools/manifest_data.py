C = {
"C01": ("proved", ""),
"C02": ("proved", ""),
"C03": ("proved", "error_matrix/fisher_matrix call _reshape_matrix with the scalar filler; the array-filler branch is not modelled (unused in the code base)."),
"C15": ("proved", "numpy inv and sqrt are oracles."),
"C16": ("proved", "n and l are arbitrary reals; np.ma.count(Param) counting every entry is read off numpy's behaviour (Param.__array__)."),
"C04": ("proved", ''),
"C05": ("proved", 'Covers every exception point of the modelled fit; the numerics (model, linear algebra, tol test) are oracles that may raise anywhere.'),
"C06": ("proved", ''),
"C07": ("proved", ''),
"C08": ("proved", 'Includes the finding that Newton never sets converged.'),
"C09": ("proved", ''),
"C10": ("proved", 'Includes the finding that the stored curvature is taken at the pre-step point.'),
"C12": ("proved", ''),
"C17": ("proved", 'Includes the finding that a verbose Broyden fit cannot succeed.'),
"C11": ("proved", 'Exact linear solve over any commutative ring; floating-point rounding is not modelled.'),
"C13": ("proved", 'Blocks are dense lists over any ring; Tensor representation is C51-C59.'),
"C14": ("proved", 'Blocks are dense lists over any ring; includes the IndexError finding for unordered param_maps.'),
"C18": ("proved", 'Dense arrays over R; floating point not modelled; gammaln is an arbitrary function. '),
"C19": ("proved", 'Dense arrays over R; floating point not modelled; gammaln is an arbitrary function. '),
"C20": ("proved", 'Dense arrays over R; floating point not modelled; gammaln is an arbitrary function. '),
"C21": ("proved", 'Dense arrays over R; floating point not modelled; gammaln is an arbitrary function. '),
"C22": ("proved", 'Dense arrays over R; floating point not modelled; gammaln is an arbitrary function. '),
"C23": ("proved", 'Dense arrays over R; floating point not modelled; gammaln is an arbitrary function. '),
"C24": ("proved", "Equality up to an additive constant that does not depend on the model values."),
"C61": ("proved", 'Dense arrays over R; floating point not modelled; gammaln is an arbitrary function. '),
"C62": ("proved", 'Dense arrays over R; floating point not modelled; gammaln is an arbitrary function. '),
"C63": ("proved", 'Dense arrays over R; floating point not modelled; gammaln is an arbitrary function. '),
"C34": ("proved", "One feature cell; the code treats cells independently."),
"C35": ("proved", "One feature cell."),
"C36": ("proved", "Includes the refutation of the mixed derivative for asymmetric skews."),
"C37": ("proved", "Includes the AttributeError finding and the rotated feature axes with three features."),
"C38": ("proved", ""),
"C39": ("proved", "Set within the clipping range; outside it grad is proved not to be the derivative."),
"C64": ("proved", ""),
"C65": ("proved", ""),
 "C40": ("proved", "Four of the five families, real arithmetic; the Gaussian copula (scipy mvnun) is not modelled."),
 "C41": ("proved", "All four closed-form families, via the 2-increasing property proved over the whole unit square."),
 "C42": ("proved", "Includes the refutation of the AkiMikhailHaq docstring: AMH(1) is never independence on two non-degenerate binary marginals."),
 "C66": ("proved", "u, v > 0 (and < 1 for Gumbel, whose formula has 0^a at the border; the border is covered by C40)."),
 "C43": ("proved", ""),
 "C44": ("proved", "ndtri is an arbitrary function; includes existence and uniqueness of the root and the returned-exception-class finding."),
 "C45": ("proved", "Includes the refutation of the documented orientation."),
 "C46": ("proved", "np.linalg.solve and ndtri are arbitrary functions; |tol| < 1."),
 "C47": ("proved", "Includes non-termination for unreachable targets, for every ndtri with ndtri(tol) <= -2; numpy's x/0 is an arbitrary finite number."),
 "C67": ("proved", "ndtri is an arbitrary function, negative at tol."),
 "C48": ("proved", "pandas groupby/agg/reindex/fillna modelled by association lists; NaN labels not modelled."),
 "C49": ("proved", "As C48; NaN weights and results not modelled."),
 "C50": ("proved", "Integer series; includes the swapped-columns finding and IndexError for size < 2."),
 "C25": ("proved", "Vector for a rank-0 parameter; X/Logistic/ArcTan for parameters without distribution axes; Linear stated as values and derivatives (its gradient has axes of size 1). Dense meaning; the Tensor representation is the subject of C51-C59."),
 "C26": ("proved", "For functions that are not themselves Affine; Affine of Affine is flattened by the constructor (C31/C32)."),
 "C27": ("proved", "Any atoms with distinct parameters in each atom; absent parameters give zero."),
 "C28": ("proved", "Non-empty products."),
 "C29": ("proved", "Each inner function on the whole parameter list."),
 "C30": ("proved", "Includes the refutation for a parameter repeated in param_map (cross term lost)."),
 "C31": ("proved", "Includes two findings: Sum.eval loses the offset; eval raises IndexError for a non-ascending param_map."),
 "C32": ("proved", "The drift of the offset by weight is computed exactly; includes the refutation."),
 "C33": ("proved", "Includes the first-factor case."),
 "C68": ("proved", "Includes the broadcast refutation."),
 "C51": ("proved", "Exact real entries. c/t is stated for tensors without diagonals (off a diagonal the dense quotient is not a number)."),
 "C52": ("proved", "Includes the refutation for a rank-0 Tensor on the left of a diagonal."),
 "C53": ("proved", "Class: equal maps or one operand without the axes; or a diagonal against a full operand (extraction). Includes refutations outside the class."),
 "C54": ("proved", "Includes the partial-sum refutation."),
 "C55": ("proved", "Non-negative positions."),
 "C56": ("proved", ""),
 "C57": ("proved", "Includes the refutation for larger x_dim/y_dim."),
 "C58": ("proved", ""),
 "C59": ("proved", ""),
 "C69": ("proved", ""),
 "C60": ("proved", "Heap model with numpy write-flag rules; includes two aliasing findings."),
 "C70": ("proved", "Includes two findings (infinite recursion of np.maximum(c, t); ignored second argument)."),
 "C71": ("proved", "Natural exponents only."),
 "C72": ("proved", ""),
 "C73": ("proved", "One inner function per @, outer function entrywise or itself such an @ (as Python groups a @ b @ c); class `tbuilt` of FTBuilt.v."),
 "C74": ("proved", ""),
 "C75": ("proved", "Findings: behaviour outside the class of C73."),
 "C76": ("proved", "Models: class `tbuilt`. Finite: C77."),
 "C77": ("proved", "Models: class `tbuilt` with full dim axes; the refutation shows the restriction is needed."),
 "C78": ("proved", "Constraints and regularizations: any function objects meeting `constraint`/`penalty` of OTSpec.v; Linear and Quadratic proved to meet them. param_map strictly ascending."),
 "C79": ("proved", "Class `ebuilt` (ETSpec.v): that of C73 with eval methods, Sum offset 0; the offset is a finding, proved."),
 "C80": ("proved", "Numbers are reals and the solver is a parameter assumed exact; C80_nonvacuous is a complete run."),
 "C81": ("proved", "Any constraint with affine value; C81_linear shows Linear is one. The finding is C81_unconstrained_start_refuted, with an instance."),
 "C82": ("proved", "Linear algebra is a parameter assumed exact on reals; the nonvacuity examples and the finding are complete runs."),
 "C83": ("proved", "Factors: class `tbuilt`; record `factors` of PTBuilt.v."),
 "C84": ("proved", "Factors: class `ebuilt`; record `efactors` of PTEval.v."),
 "C85": ("proved", "The value for any functions; derivatives for f1, f2 in the class `outer` (FTBuilt.v) and g in `tbuilt`."),
 "C86": ("proved", "r > 0; gammaln is a parameter of the model. g in `tbuilt` (`ebuilt` for eval), without dim axes."),
 "C87": ("proved", "Elements `fits` a common shape; `elements` states what each element must satisfy. The misalignment without it is proved (C87_missing_dim_refuted)."),
 "C88": ("proved", "Elements `fits` a common shape; formal sums non-empty where the statement says so (adding a number to an empty sum appends the bare number)."),
 "C89": ("proved", "Arrays with at least one axis. The failure without an element free of diagonals is proved (C89_unabsorbed_refuted)."),
 "C90": ("proved", "The sum over all features is C54_sum_formal. That a sum over one feature does nothing is proved (C90_one_feature_refuted)."),
 "C91": ("proved", "test_poisson_sum as a term of the class of C73, with any number of items; the closed-form gradient follows from the derivative theorem and the value."),
 "C92": ("proved", "C80 and C81 instantiated for test_poisson_sum with any number of items and the objective and constraint rewritten as formulas; solver assumed exact when it returns, as in C80."),
}
