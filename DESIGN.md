# Formal model of jpceia/maxlike in Rocq (Coq 8.16.1)

## Layers

| File (rocq/theories) | Models | Style |
|---|---|---|
| `Prelude.v` | Python exceptions as values, `for`-loops, list helpers | computable |
| `ParamModel.v` | `Param`, `_reshape_array`, `_reshape_params`, `_reshape_matrix`, `std_error`, AIC/BIC (maxlike_base.py) | computable, any scalar type |
| `FitModel.v` | `MaxLike.fit` (Newton and Broyden), `newton_step`, object state | computable, any number type, model/likelihood as oracles that may raise |
| `AssembleModel.v` | `flat_grad`, `flat_hess` | computable, any scalar ring |
| `LikeModel.v` | `like/grad_like/hess_like` of the six estimators | over R |
| `FuncModel.v` | Func combinators and primitives on dense arrays | over R |
| `FlattenModel.v` | `Sum.add`, `Product.add`, `Affine.__init__`, `IndexMap` | deep embedding |
| `MarkovModel.v`, `TennisModel.v`, `CopulaModel.v`, `SkellamModel.v` | func/matrix.py, func/tennis.py, func/copula.py, skellam.py | ring / R |
| `PrepModel.v` | preprocessing.py | computable |
| `NDArray.v`, `TensorModel.v` | the numpy operations used, and tensor/tensor.py | computable, any ring |
| `FTModel.v` | func.py, func_base.py, func_op.py, func_proba.py once more, computing with Tensors/GenericTensors as the code does | computable, over R |
| `HeapModel.v` | write flags and aliasing of the arrays handed to constructors | state machine |
| `*Proofs.v` | proofs | |
| `Props_*.v` | property theorems only (`exact lemma`, `Print Assumptions`) | |

Python exceptions are values (`res A := Ok a | Raise e`). Loops bounded by Python `range` are structural; `while` loops carry
fuel and return a distinct `OutOfFuel` value, excluded by the statements.

Numbers: Python floats are modelled by exact reals (`R`) where a property is about calculus, by an arbitrary ring where it is
about indexing/bookkeeping, and by an arbitrary type with arbitrary comparison functions (so IEEE doubles with NaN are an
instance) where it is about control flow (`fit`). Rounding is not modelled.

The plan per property (what is modelled, how it is proved) is in the table at the end; it is updated as the work grows.

## Plan per property

* C01-C03: lists with masks; numpy `insert` with multi-index modelled by its documented meaning; induction on masks.
* C04-C10, C12, C17: `fit` as a state machine over oracles; induction on the loop counters.
* C11: the bordered linear system over any field; algebra.
* C13-C14: block assembly; induction over parameter lists, constraints, regularizations.
* C15-C16: functions over the parameter lists.
* C18-C24: real analysis with Coquelicot; sums over arbitrary finite index lists.
* C25-C31: Func records over dense real arrays; correctness = derivative along every differentiable curve (closed under composition).
* C32-C33: deep embedding of the function syntax and its evaluation.
* C34-C37: the sweeps as folds over indices; invariants; derivatives by dual-number style simulation and by `is_derive`.
* C38-C39: polynomial/rational identities (`field`, `auto_derive`).
* C40-C42: telescoping sums; monotonicity of difference quotients for 2-increasingness.
* C43-C47: series and loops with oracles for quantile function and linear solver.
* C48-C50: list of observations; induction.
* C51-C59: numpy arrays as shape + index function; each Tensor method mirrored; dense meaning as independent spec.
* C60: heap of buffers with writable flags per array object.
* C68: `Collapse` as a finite sum of the dense gradient; condition `keeps_axes` proved for the primitives and affine images, refuted for a broadcasting Sum.

## Trusted base

* Coq 8.16.1's kernel (and the parser/pretty-printer a reader relies on to read statements). No axioms of our own, no
  functors, no plugins, no `Admitted`.
* `Print Assumptions` is run after every theorem of `Props_*.v`. It lists nothing ("Closed under the global context") for the
  Param, Fit, Assemble and most Prep theorems. For the theorems over the reals (Like, Copula, Tennis, Skellam, Func, the
  derivative parts of Markov) it lists only the standard library's
  `ClassicalDedekindReals.sig_not_dec`, `ClassicalDedekindReals.sig_forall_dec`,
  `FunctionalExtensionality.functional_extensionality_dep` and `Classical_Prop.classic`.
* The correspondence between the model and /repo is by reading; each definition cites file and lines.

### Modelled / not modelled

| Part | Modelled | Not modelled |
|---|---|---|
| numbers | exact reals, or any ring, or any type with any comparisons | IEEE rounding, overflow, NaN in the real-valued layers |
| numpy | the operations used, by documented meaning on shape + index function | memory order, dtypes, performance; `np.linalg.solve`, `ndtri`, `gammaln` are arbitrary functions (gammaln with its recurrence where needed) |
| maxlike_base.py | `Param`, reshape helpers, `fit`, `newton_step`, `flat_grad`, `flat_hess`, `std_error`, AIC/BIC, regularisation/constraint bookkeeping | `verbose` printing |
| maxlike.py | the six estimators' like/grad/hess | pandas conversion in their constructors |
| func/ | func.py, sigmoid.py, func_proba.py, func_base.py, func_op.py (dense meaning), tennis.py, copula.py, matrix.py | metaclass registration and docstrings |
| skellam.py | skellam_cdf and the root finder, loops with fuel | scipy internals |
| preprocessing.py | prepare_dataframe, prepare_series, scoped grouping as association lists | pandas internals, NaN labels |
| tensor/ | all of Tensor and GenericTensor: see the Tensor section below | `set_dtype`, `__str__`, `__array__`, ufunc methods other than the plain call, comparison with numpy scalars |

## Tensor layer

* `NDArray.v`: a numpy array is a shape and a function from index lists to reals. `np_index` (slices, new axes, Ellipsis),
  `swapaxes`, `transpose`, `moveaxis`, `diagonal`, `expand_dims`, `sum`, `flip`, `eye`, `broadcast_to` and broadcasting binary
  operations follow the numpy documentation, including the exceptions they raise.
* `TensorModel.v`: every method of `Tensor` and `GenericTensor` and the helpers of tensor.py:32-93, line by line, with the Python
  exceptions. An entry of x_map/y_map is `Some f`, or `None` for a negative one.
* `TensorSpec.v`: the meaning `den` of a Tensor as a dense array (`dt` of DenseModel, the arrays the Func layer works on) with one
  Kronecker delta per mapped axis; `gden` of a formal sum; `wf`: the shape fits the numbers of axes, no axis is empty, mapped
  axes are stored with size 1 and different axes of a group are mapped to different features. `C51_toarray` ties `den` to the
  observable `toarray()`.
* `TensorSpecOps.v`: the side conditions of binary operations (which shapes and maps are compatible) and the expression language.
* Proofs: NDProofs, TensorLemmas, TensorBasic (C51), TensorSum, TensorSumMain (C54), TensorShape, TensorMore (C56, C57),
  TensorExpand (C55), TensorBin, TensorArith, TensorDiag (C52, C53), TensorDotCore, TensorDot (C58, C59), TensorGeneric,
  TensorGSum, TensorGUni (C52, C54, C69). `TensorFindings.v` has the inputs outside the hypotheses on which the code is wrong.
* `HeapModel.v` (C60): array objects as lists of addresses with write flags; operations of a caller as a state machine; invariants by
  induction over histories of any length.
* `TensorUfunc.v` (C70-C72): numpy's ufunc dispatch to `__array_ufunc__` (a call with fuel; running out for every fuel is
  non-termination), `__pow__`, `__float__` and the dispatcher `dot`; proofs in `TensorUfuncP.v`.

## Function objects on tensors (C73-C75)

* `FTModel.v`: `grad_tensor`, `hess_tensor`, `Affine`, `Compose`, `FuncWrap`, `Sum` and the primitives, mirrored with the Tensor
  operations the code performs and the exceptions they raise. Not modelled at this level: `Product`, `Collapse`.
* `FTSpec.v`: correctness stated on the method results only, read through `vden`.
* `FTRep*.v`: when a value (Tensor, GenericTensor, placeholder Tensor(0)) represents a table of numbers of a given shape, and each
  Tensor operation used on such values; `FTRefine.v`: when a tensor-level object refines a dense one of FuncModel.v; `FTPrim`,
  `FTAffine`, `FTWrap`, `FTSum`, `FTCompose`: each construct preserves refinement; `FTBuilt.v`: induction over expressions, and
  transfer of the dense correctness (C25-C31); `FTValue.v`: values; `FTFindings.v`: C75.

* Grouping (C85): `a @ b @ c` is `(a @ b) @ c`, so the outer function may be a Compose. `FTNest`, `ETNest`: two entrywise functions
  composed are again an entrywise function (constructors `o_comp`, `eo_comp`); `FTAssoc`: both groupings give the same derivatives,
  proved on the dense functions both refine.
* NegativeBinomial (C86) is `Exp() @ LogNegativeBinomial`: Exp is called with a Tensor that has dim axes, and the diagonals of its
  derivatives run along those. `FTKeep`, `ETKeep`: such a Tensor is a Tensor without dim axes whose last features are renamed
  (`redim`), which the contractions do not look at (constructors `o_keep`, `eo_keep`); `FTNegBin`: values and the usual formula.

## Likelihood classes on tensors (C76, C77)

* `LTModel.v`: like / grad_like / hess_like of the six classes of maxlike.py with the Tensor operations in the order of the code
  (LikeModel.v has the same formulas on dense arrays); `loglik e f`: the three as functions of the parameters.
* `LTSpec.v`: which models and data are meant (`model_for`, `is_data`) and what right means (`likelihood_right`).
* `LTPlain` (arithmetic on Tensors without derivative axes), `LTProd`, `LTOuter` (products with and of derivatives), `LTCell` (sums
  over the data), `LTEst` (each class), `LTLik` (as a function of the parameters), `LTDer` (calculus of the summands).
* Finite (C77) sums the model and its derivatives over the dim axes: `TensorGMix` (elements of different dim axes in one
  GenericTensor), `LTMix` (`sum(False)`, arithmetic between values with and without dim axes), `LTFinite`, `LTFinDer`. It needs dim
  axes stored in full, which the class `exdims` of FTRep.v tracks through FTBuilt.v; `LTFinFindings.v` shows what happens otherwise.

## eval on tensors (C79)

* `ETModel.v`: the `eval` methods (FuncMeta's default, Exp, Logistic, Poisson, LogNegativeBinomial, Affine, Compose, FuncWrap, Sum) as
  written, with their own loops; an object (`tobj`) is its __call__/grad/hess together with its eval.
* `ETSpec.v`: the expressions (`ebuilt`) and `eval_agrees`. `ETRefine`, `ETWrap`, `ETCompose`, `ETSum`: eval of each construct agrees
  with the dense function its methods refine; `ETBuilt`: induction over expressions.

## MaxLike on tensors: g, flat_grad, flat_hess (C78)

* `OTModel.v`: maxlike_base.py:94-104, 321-416 with Tensor arithmetic, masks and numpy boolean indexing; Linear, Quadratic. The same
  assembly on blocks given as lists is in AssembleModel.v (C11-C14). Not modelled: gamma other than 0 (add_constraint stores 0),
  dtype of integer Params, boolean masks for leading axes only.
* `OTSpec.v`: what a regularization (`penalty`) and a constraint (`constraint`) must compute, MaxLike objects (`ml_object`), the
  penalized log-likelihood, one-entry changes of the parameters.
* `OTBlock`, `OTFlat` (Tensors as flat lists), `OTSim*` (simulation of AssembleModel.v), `OTForm` (closed forms), `OTCurve` (changing
  one entry is a curve), `OTMain`, `OTThm` (derivatives); `OTQuad`, `OTLin`: Quadratic and Linear.
* Restriction that the code does not check: param_map must be strictly ascending (hess[idx][param_map[j]] only exists below the
  diagonal), as in C13.

## Product on tensors (C83, C84)
* Model: `PTModel` (func_op.py:222-300): `_prod` with its `except TypeError`, `__call__`, `grad`, `hess`, `eval`. The factors are the wrapped functions `add` stores; `add` flattening a Product into its factors is not modelled.
* Specification: `t_correct` (FTSpec) and `eval_agrees` (ETSpec), as for the other combinators; the value is a plain product of real numbers.
* Proof: `PTMix` (sums, products, transposes of values that mix Tensors, GenericTensors and placeholder zeros), `PTProduct` (entries equal those of the dense Product of FuncProduct.v), `PTBuilt` (hence right derivatives), `PTEval` (loop invariant of eval: after k factors, the value, gradients and Hessians of the product of the first k). A Product is not itself in the class `tbuilt`.

## MaxLike.fit on tensors (C80, C81, C82)

* `NTModel.v`: the loop of FitModel.v (C01-C10, numbers and oracles abstract) instantiated with reals, the eval of ETModel.v, the
  likelihoods of LTModel.v and the flat gradient and Hessian of OTModel.v; fit's keyword data go through Tensor(..., dim). The linear
  algebra (numpy.linalg.solve, pinvh, Broyden's products) stays a parameter; C80, C81 assume that solve is exact when it returns.
* `NTSpec.v`: the log-likelihood formulas, what a problem must satisfy (`fit_problem`), the Newton system and its solution, without
  reference to the loop. `D` is the domain of the parameters (e.g. where probabilities are positive): the points at which steps were
  computed must lie in it; for models defined everywhere it is `arrays`, which always holds.
* `NTLoop` (the loop in terms of the visited points), `NTLike` (log-likelihood of of_eval and of the methods), `NTThm` (one point),
  `NTCon` (affine constraints), `NTFit` (theorems), `NTExample` (a run: Poisson regression of a 2 x 3 table with a constraint).
* Broyden (C82): `NBSpec` (what is assumed of the linear algebra), `NTBroyden` (loop invariant: the rows of the quasi-Newton matrix J for
  the free entries, weighted with the coefficients of an affine constraint, give the unit row of its multiplier; the rank-one update keeps
  this because every step satisfies the constraint), `NBExample` (runs, one of which lowers the likelihood), `Props_NB`.
* Not covered at this level: floating point, inexact solves.

## Formal sums, reshaped (C87)

* `TensorGOps.v`: GenericTensor.transpose, drop_dim, flip, expand map the operation over the elements; each dense operation is a
  re-indexing, hence commutes with the sum (`gre_same`: shape and entries from those of the elements). `TensorGArr.v`: toarray, by
  induction over the elements with the invariant "the array holds the dense sum so far" (`holds`). Theorems in `Props_GOps.v`.
* Products, quotients and scalars (C88, `TensorGMul.v`, `Props_GMul.v`): multiplication and division map over the elements and distribute
  over the sum; a number added is absorbed by the first element; g*h is an induction over h with the invariant "the accumulator stands for
  g times the elements so far", run at the exact joint shape so that shapes and entries come out together.
* Arrays (C89, `TensorGNp.v`, `Props_GNp.v`): an array behaves as `Tensor(a)` (features only), so every merge reduces to C88 and to the
  sums of C52; when nothing merges the bare array is appended, which later operations on elements reject.
* Sums over the dim axes (C90, `TensorGDims.v`, `Props_GDims.v`): per element the factor size/el_size turns the sum over its stored entries
  into the sum over the joint dim axes (`Rsum_bcast`), which then commutes with the sum over the elements.

## The two-sided model of test_poisson_sum (C91)

* `FTTwoSided.v` writes the model of tests.py:328-346 as the function objects its `add` and `@` calls store (`Sum.add` takes `-X()` apart
  into X() with weight -1), shows for any N that it lies in the class of C73 on *all* parameters (the domain of Log is met because the
  inner sum is positive, `both_pos`), and computes its value. `Props_Sided.v`: value, derivatives, closed-form gradient (the pairing with a unit
  velocity equals the derivative of the closed-form value; `is_derive_unique`).
  `Props_Sided2.v`: the Poisson likelihood of that model (C76 instantiated), its score in closed form and the flat direction.

## Fitting that model (C92)

* `FTTwoSidedFit.v`: the same expression as an object with eval (class of C79), the constraint Linear([1, 1]) and the `fit_problem` of C80,
  whose domain is "numpy arrays of the right shapes". `Props_SidedFit.v` proves that the objective and the constraint are the formulas
  (`C92_objective`, `C92_constraint_value`), that the domain holds at every visited point because the frame is kept, and instantiates C80
  and C81. `SidedExample.v` and `Props_SidedFit2.v`: a fit with one item that takes one Newton step and returns.
  `Props_SidedFit3.v`, `SidedBroyden.v`, `Props_SidedFit4.v`: the same for Broyden's method (`fit_broyden` of C82), with a run whose start
  violates the constraint. `Props_Sided3.v`: every likelihood value is attained on the constraint (a common shift), and its multiplier is 0.
