# laplax in Rocq/Coq: design

The model lives in `rocq/theories`.  For every area `X` of the code there are up to four
files: `X.v` (the model: definitions only, every one citing the Python file and lines it
models), `XSpec.v` (the vocabulary the theorem statements use, independent of the model's
helpers), `XProofs.v` (lemmas) and `P_X.v` (the property theorems `Cnn_...`, each followed by
`Print Assumptions` and accompanied by an `Example` showing that a concrete, non-trivial case
meets the hypotheses).  `MANIFEST.json` maps properties to theorems, `ASSUMPTIONS.md` lists what
`Print Assumptions` says for every one of them, `seeded/LOG.jsonl` records the wrong programs the
theorems were tried against.

## Modelling conventions

* Exceptions are values: `res A = Ok a | Raise e`; the exception class is part of the model.
* Numbers are exact.  Linear algebra is done over an arbitrary real closed field (`R : rcfType`
  of mathcomp; the statements therefore hold for the real numbers), analysis (`exp`, `log`,
  softmax, derivatives, normal distribution) over Coq's `R`, which `RealStruct.v` equips with the
  mathcomp structures.  IEEE rounding is *not* modelled, with one exception: the comparisons in the
  calibration grid search, where NaN and infinities decide the control flow, are modelled on the
  standard library's `SpecFloat`.
* Arrays are a shape plus C-order data (`arr`); PyTrees are finite trees whose leaves are arrays
  (`tree`); `wf_arr` (data length = product of the shape) is what jax guarantees.
* Stateful things are explicit: the process-wide `jax_enable_x64` flag (`flagged` monad in
  `LowRankSolvers.v`), the five registries of `register.py` (`Registry.v`), one-shot iterators and
  re-iterable loaders (`Loader.v`, `Api.v`), the metrics list that is extended in place
  (`EvalBatch.v`).
* Higher-order Python (factories, closures, `functools.partial`, `singledispatch`) becomes
  higher-order Gallina; keyword dictionaries become association lists with Python's
  overwrite/duplicate rules where they are observable.

## Trusted base

1. **Coq 8.16.1's kernel** and the standard library, mathcomp 1.x, Coquelicot as installed.
2. **Axioms**: none of ours.  `ASSUMPTIONS.md` (generated from `Print Assumptions`) gives the list
   per theorem.  Most theorems are closed under the global context.  The others, which speak
   about Coq's real numbers, depend only on axioms of the standard library:
   `ClassicalDedekindReals.sig_forall_dec`, `ClassicalDedekindReals.sig_not_dec`,
   `FunctionalExtensionality.functional_extensionality_dep`, `Classical_Prop.classic`,
   `ClassicalEpsilon.constructive_indefinite_description` (the last two through `RealStruct.v` and
   Coquelicot).
3. **The reading of the code**: nothing was run; every definition cites the lines it models.
4. **Oracles**, which appear as universally quantified functions with an explicit hypothesis in
   each theorem that needs one (never as axioms):
   * `jax.jvp`/`vjp`/`linearize`: the Jacobian `J` of the model and its transpose
     (`is_jacobian`); `jax.grad`/`hvp` for custom losses;
   * `eigh`: returns an orthogonal diagonalisation of a symmetric matrix;
   * `qr` and `svd` inside LOBPCG (orthonormal columns; a singular value decomposition), the PRNG (`split`, `normal`: only the lengths of the results are assumed);
   * user functions (`model_fn`, metrics, transforms, loaders): arbitrary.
5. `jit` is the identity; `vmap f` is `map f`; `lax.map f` with a batch size is the
   chunks-plus-remainder computation it performs (batch size 0: one remainder, as in recent jax).

## What is modelled and what is not

Modelled, function by function: `util/flatten.py`, `util/tree.py`, `util/mv.py`, `util/ops.py`,
`util/loader.py`, `util/utils.py`, `curv/ggn.py`, `curv/hessian.py`, `curv/utils.py`, `curv/cov.py`,
`curv/full.py`, `curv/diagonal.py`, `curv/low_rank.py`, `curv/lanczos.py`, `curv/lobpcg.py`,
`register.py`, `enums.py`, `eval/calibrate.py`, `eval/likelihood.py`, `eval/metrics.py`,
`eval/predictives.py`, `eval/pushforward.py`, `eval/utils.py`, `api.py`.

Not modelled: IEEE rounding, dtypes (except where they are observable: the x64 flag, the return dtype of the
low-rank solvers, `invert`), device placement, jit tracing errors, logging and progress bars, memory use and time, sharding;
the numerical method inside `eigh`, `qr`, `cholesky` (Cholesky is modelled by the textbook
recursion, the value being unique); `lax.while_loop` is a fuelled loop whose fuel is the code's own iteration bound;
`norm.cdf` is the integral of the density.

## Plan per property

| id | what is modelled | how it is proved |
|---|---|---|
| C01-C03 | trees, `split`/`cumsum`/`reshape`, both flatteners (`PyTree.v`) | induction over trees and shape lists |
| C04 | `searchsorted`, `cumsum`, index arithmetic, `eye`, axis-1 split | induction over the leaf-size list |
| C05 | argument lists, keyword arguments, wrapping | list lemmas; negative argnums refuted by witness |
| C06-C07 | tree map, block layout of `tree_matvec` | flattening is a homomorphism |
| C08-C09 | `diagonal`, `to_dense` with basis vectors and chunked `lax.map` (`Mv.v`) | linearity, transpose index lemmas |
| C10-C13 | `process_batches` fold, reductions, `DataLoaderMV` (`Loader.v`) | fold invariants, partition independence |
| C14 | `precompute_list`, `str_to_bool` | case analysis |
| C15, C16, C18 | GGN from per-sample Jacobians and loss Hessians (`Ggn.v`) | matrix algebra over `rcfType`; C18 for models that are not affine: product and chain rules along curves (`P_GaussNewton.v`, `P_GaussNewtonLosses.v`) |
| C17 | softmax / sigmoid / squares over `R` | Coquelicot derivatives |
| C19 | decision functions of `create_ggn_mv`, `create_loss_hessian_mv`, `concatenate_model_and_loss_fn` | case analysis |
| C20-C25 | Cholesky (recursive function), triangular solve, diagonal and low-rank states, tree wrapping (`Posterior.v`, `PosteriorTree.v`) | induction on the dimension, Woodbury identity, flattening homomorphism |
| C26-C27 | Lanczos recursion with reorthogonalisation (`LowRankSolvers.v`) | invariant over iterations; operand conversion `P_Operands.v` |
| C28-C29 | flag state machine, rank clipping, the LOBPCG loop | case analysis, loop invariant, induction on fuel |
| C30 | five dictionaries as finite maps (`Registry.v`) | invariant over registration histories; calibration methods `P_Operands.v` |
| C31-C32 | grid-search state machine on `SpecFloat` (`GridSearch.v`) | induction over the grid |
| C33-C36 | metrics over ordered fields / `R` (`Metrics.v`, `Normal.v`) | inequalities; derivatives for CRPS and NLL |
| C37 | closed-form predictives (`Predictives.v`) | inequalities, witnesses |
| C38 | marginal log-likelihoods (`Likelihood.v`; on PyTrees and arrays: `TreeMll.v`) | algebra of determinants, witnesses; the PyTree version equals the vector version |
| C39-C42 | push-forward function lists threading `results` and `aux`, kernels (`Pushforward.v`) | state invariant over the list of functions, matrix algebra |
| C43-C44 | dictionaries, generators, mutable metrics list (`EvalUtils.v`, `EvalBatch.v`) | fold invariants |
| C45-C48 | enum conversion, decision tables, iterator state, default metric sets (`Api.v`) | case analysis, induction |
| C49 | composition of the models of GGN, posterior and push-forward on PyTrees (`TreeGgn.v`, `Pipeline.v`), named and user-supplied losses | refinement to matrix algebra |
| C50 | corollary of C49, C54 | Loewner order: antitonicity of the inverse; for truncated Lanczos a counterexample in the data (`P_LanczosMoreData.v`: rank 2, three weights, both runs and both inverses computed exactly, for every exact eigendecomposition); mini-batches (`P_MinibatchVar.v`, diagonal `P_MinibatchDiag.v`, draws with repetitions `P_MinibatchDraws.v`): operator convexity of the inverse, double counting of subsets (`P_Minibatch.v`, also C16) |
| C51 | remaining leaf-wise functions (`TreeMore.v`); `unravel_array_into_pytree` along any axis (`PyTree.v`) | leaf-wise lemmas; C-order index arithmetic (`UnravelProofs.v`) |
| C52 | posterior + push-forward + metric composed as the objective (`Objectives.v`) | composition of C36, C39, C37, C33 |
| C53 | grid search on the concrete objective | C31 + C52 + C49 |
| C54 | `PipelineApprox.v`: diagonal and Lanczos routes composed | C21/C22/C26 + refinement to matrices |
| C55 | `Laplace.v`: `laplace()` from the data argument to the posterior operators, four approximations | C47 + C13 (sum over batches) reduce every presentation to one GGN matrix; then C54/C49 machinery; literal equality by extensionality of the operators |
| C56 | `Likelihood.v` and the GGN of `Ggn.v` on affine models; spec: density of the stacked targets (`P_Evidence.v`) | first-order condition of the maximiser, push-through identity for the exponent, Sylvester for the determinant |
| C57 | `Batched.v`: GGN, Hessian, concatenated loss and marginal likelihood of models that map a batch to an (N, K) array | the batch's linearisation stacks those of the samples, its transpose is the sum of transposes; the Hessian of a sum of row losses is block diagonal |
| C58 | the metrics of `Metrics.v`; spec: improper integrals (Coquelicot) of the Gaussian density | Gaussian integral by differentiating under the integral sign, tail bounds, explicit antiderivatives; `ln r <= r - 1` |
| C59 | the whole pipeline (`Pipeline.v`, `TreeMll.v`); spec: GP regression posterior by stacked block matrices, normal density | Woodbury identity, dual ridge regression, completing the square, determinant identity of C56 |
| C60 | `set_lin_pushforward`, `set_nonlin_pushforward` over all keys; spec: any linear normalised functional over keys | affine functions of uncorrelated draws; sums of products |
| C61 | `Keywords.v`: keyword dictionaries of `set_lin_pushforward`, `set_nonlin_pushforward`, `set_posterior_gp_kernel` | simulation of two runs that look the draws up differently; case analysis on dictionaries |
| C62 | `Pipeline.v`: `laplace_ensemble`; `Pushforward.v` | composition of C41 with C40 (same draws), C49 and C60 |
| C63 | `Posterior.v`, `LowRankSolvers.v`, `Likelihood.v` | `OrderProofs.v`: Hadamard's inequality from the Cholesky factor, monotonicity of determinant and trace of the inverse under compressions (Gram factorisation, Sylvester); rank-one Lanczos run as counterexample |
| C64 | `Pipeline.v`, `PipelineApprox.v`, `TreeGgn.v`, `Likelihood.v` | two runs compared: the transformed precision is the congruence with the (scaled orthogonal) change of basis, so `J P^-1 J^T` and the evidence are the same; counterexample for rotations with the diagonal |
| C65 | `Pipeline.v`, `TreeGgn.v` (models of C49) | Sherman–Morrison-type inequality `w^T P^-1 w < 1/c` when `P` exceeds `c w w^T`; trace identity `tr(P^-1 G)`; Cauchy–Schwarz in the precision for unseen directions |
| C66 | `Likelihood.v`, `GridSearch.v` | concavity of the log determinant (Hadamard after a congruence), trace of the resolvent, intermediate value theorem for `tau |th|^2 = eff(tau)`; valley lemma for the grid loop; mini-batch curvature by the same concavity (`P_MinibatchEvidence.v`) |

## Findings (the code does not do what is documented, or what a user would expect)

Each has a theorem with suffix `_refuted` (or named below).

* C05 negative `argnums` are not Python indices.  C09 unsupported layouts never reach the documented TypeError.
* C13 `DataLoaderMV`'s default reduction averages the parameters away.
* C16 `laplace()` inverts the scaling factor.  C24 low-rank posteriors misuse `loss_scaling_factor`.
* C19 the Hessian route refuses documented losses; with cross entropy the concatenated loss is not a scalar.
* C25 full posteriors with integer layouts raise.
* C27 Lanczos breakdown repeats basis vectors and over-counts curvature.  C28 an exception leaks 64-bit mode.
* C29 `size == 5*rank` and `size <= 5` always raise; the rank is passed as the iteration limit.
* C30 an unknown default leaves a half-registered method.
* C32 `max_iterations = m` visits `m+1` points; C46 and `calibration()` does not forward it.
* C35 the Brier score is negated and scaled.  C36 `rmse`/`chi_squared` broadcast silently.
* C37 with unequal variances the mean-field predictives can change the most likely class (expected of the formulas, not documented).
* C37 `mean_field_1` is not normalised; `laplace_bridge` fails on vectors and ignores the mean of a single row.
* C38 low-rank evidence is wrong unless the prior precision is 1; the noise key differs; cross entropy is not scalar.
* C39-C41 outputs with several axes, default list with `num_samples=0`, divisor `N` or `N-1` depending on order,
  at most five samples, variance fallback KeyError.
* C43 same-dictionary transfers are sequential.  C44 the caller's metric list grows.
* C45 registered curvatures are unusable through `laplace()`; `"NONE"` counts as classification.
* C47 one-shot iterators lose the first batch; empty loaders raise StopIteration.
* C48 the default classification metrics cannot be evaluated.
* C51 `invert` is bitwise; `allclose` is not symmetric.
* C52, C53 one-hot targets, `laplace_bridge` and nonlinear `mc_bridge` objectives never have a value; calibration then
  silently returns the smallest grid point.
* C56 with the default noise settings the marginal likelihood mixes noise variance 1 (data term) and 1/2 (determinant).
* C61 `precompute` as a keyword always raises TypeError when samples are drawn; the documented `n_samples` is ignored;
  an array as `output_layout` of a dense kernel has its truth value taken (ValueError).
* C63 a truncated Lanczos posterior can be more certain about a parameter than the full posterior.
* C50 with a truncated Lanczos posterior, adding a data point can raise a reported variance (2/11 to 1534/1975 in the example).
* C64 the diagonal approximation depends on the choice of axes in parameter space (expected; the report changes from 1/3 to 9/43 + 16/57 in the example).
* C66 the marginal likelihood has no optimum in the noise level `sigma` (normalising constant missing) nor in the loss scaling factor.
* C57 `cross_entropy` with `vmap_over_data=False` contracts the class axis with the batch axis.

## Checking the theorems against wrong programs

`seeded/LOG.jsonl`: every entry is one edit of a model definition in a scratch copy, rebuilt with all dependants; listed are
the property theorems that no longer prove.  Where none failed although the claim is false of the edited program, the
theorem added or tightened is named.  Entries whose claim is in parentheses are equivalent edits.
