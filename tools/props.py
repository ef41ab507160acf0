import json
P=[]
def p(title,statement,quant,why,anchors):
    P.append(dict(id="C%02d"%(len(P)+1),title=title,statement=statement,quantifier=quant,why_tests_cant=why,anchors=anchors))

p("Flatten/unflatten round trip","For the pair (flatten, unflatten) returned by create_pytree_flattener(layout): unflatten(flatten(t)) == t for every PyTree t with the same structure and leaf shapes as layout, and flatten(unflatten(v)) == v for every 1-D array v whose length is get_size(layout). Zero-size and scalar leaves and arbitrary nesting included.",
  "every layout PyTree with at least one leaf, every tree of that layout, every vector of that length","the set of tree structures and shapes (nesting, empty leaves, scalars) is infinite; tests try a handful of fixed trees",
  ["laplax/util/flatten.py:create_pytree_flattener","laplax/util/flatten.py:full_flatten","laplax/util/tree.py:get_size"])
p("Unflatten accepts exactly the right length","unflatten(v) raises for every 1-D v with len(v) != get_size(layout) and returns a tree for len(v) == get_size(layout); a layout without any leaf makes both flatten and unflatten raise instead of silently returning something.",
  "every layout and every vector of any length","needs all mismatched lengths, incl. ones hidden by slicing semantics of split",
  ["laplax/util/flatten.py:create_pytree_flattener"])
p("Partial (matrix) flattener round trip","For create_partial_pytree_flattener(tree) where all leaves share the trailing (column) dimension k >= 1: unflatten(flatten(t)) == t, the flattened array has shape (sum of leading sizes, k), and its rows are the rows of the leaves in leaf order; flatten(unflatten(M)) == M for each matrix of that shape; a 0-d leaf makes flatten raise.",
  "every layout, every matrix","infinitely many layouts","laplax/util/flatten.py:create_partial_pytree_flattener".split())
p("Basis vectors and identity trees","basis_vector_from_index(i, layout) flattens to the i-th unit vector for every 0 <= i < get_size(layout), also when some leaves are empty or scalar; for i >= size it is the all-zero tree; row i of eye_like(layout) and of eye_like_with_basis_vector(layout) is exactly that basis vector, so both builders agree.",
  "every layout, every index","the searchsorted/offset arithmetic must be right for every partition of the index range, including empty leaves",
  ["laplax/util/tree.py:basis_vector_from_index","laplax/util/tree.py:eye_like","laplax/util/tree.py:eye_like_with_basis_vector","laplax/util/flatten.py:unravel_array_into_pytree"])
p("Function wrapping","wrap_function(fn, input_fn, output_fn, argnums) calls fn with exactly argument number argnums transformed and every other positional and keyword argument untouched, then transforms the result; None means identity; nested wraps compose in the right order; flatten_function(fn, layout) is flatten . fn . unflatten; wrap_factory applies this to whatever the factory returns.",
  "every function, argument list, argument index and pair of transforms","higher-order: quantifies over all functions",
  ["laplax/util/flatten.py:wrap_function","laplax/util/flatten.py:wrap_factory","laplax/util/flatten.py:flatten_function"])
p("Tree arithmetic is vector arithmetic","add, sub, neg, mul on PyTrees of one layout act on the flattened vectors as vector addition, subtraction, negation and scaling, keep structure and shapes, and normal_like(key, mean, scale_mv) = mean + scale_mv(eps); add of trees with different structure raises.",
  "all layouts and values","algebraic law over all trees","laplax/util/tree.py:add laplax/util/tree.py:sub laplax/util/tree.py:neg laplax/util/tree.py:mul laplax/util/tree.py:normal_like".split())
p("tree_matvec multiplies by the block matrix","tree_matvec(blocks, v) with block (i,j) of shape shape_j ++ shape_i returns, after flattening, the dense matrix made of these blocks (j-th block row, i-th block column) times flatten(v), in v's structure.",
  "all leaf counts, shapes, block contents and vectors","index bookkeeping for all numbers of leaves","laplax/util/tree.py:tree_matvec".split())
p("diagonal(mv) is the diagonal of the operator","For every linear operator given as a callable on vectors (int layout) or on PyTrees (layout tree), diagonal(mv, layout) returns the diagonal of its dense matrix, for every diagonal_batch_size; a callable with layout None raises TypeError; a dense matrix returns its diagonal.",
  "all operators, layouts, batch sizes","ranges over all linear operators and layouts","laplax/util/mv.py:diagonal laplax/util/tree.py:tree_vec_get".split())
p("to_dense(mv) is the matrix of the operator","For every linear operator A on R^n with int layout n, to_dense(mv, n)[j,i] == (A e_i)_j, and for PyTree layouts the leaf of output leaf l satisfies out_l[reversed(index), i] == (A e_i)_l[index]; the result does not depend on to_dense_batch_size; the layout None (a PyTree without leaves) raises ValueError; composing with the matrix-vector product recovers mv, so two linear operators with the same dense form are the same function.",
  "all operators, layouts, batch sizes","ranges over all linear operators","laplax/util/mv.py:to_dense".split())
p("Batch reductions do not depend on the batching (sums)","process_batches with reduce_add over any split of a data set into batches equals the function's sum over the whole data set whenever the function is a sum of per-sample terms; an empty loader raises ValueError.",
  "all loaders, all splits into batches","all partitions of all data sets","laplax/util/loader.py:process_batches laplax/util/loader.py:reduce_add".split())
p("Online mean does not depend on the batching","reduce_online_mean over any split of the rows into non-empty batches returns the mean over all rows (and the counter is the number of rows). Batch results that are single numbers (no leading axis) count once each, whatever the batch size: the result is their mean.",
  "all splits of all row lists","all partitions","laplax/util/loader.py:reduce_online_mean".split())
p("Concat reduction keeps data order","reduce_concat over any split into batches returns the concatenation of the per-batch results in loader order, equal to the unbatched result for row-wise functions.",
  "all splits","all partitions","laplax/util/loader.py:concat laplax/util/loader.py:reduce_concat".split())
p("DataLoaderMV wrapping","wrap_function on a DataLoaderMV returns a new loader operator equal to output_fn . mv . input_fn, wrapping again composes, and the original operator's behaviour is unchanged; to_dense and diagonal of a loader operator with reduce_add equal the sum over batches of the dense matrices and diagonals.",
  "all transforms, loaders, operators","higher-order and history-dependent","laplax/util/loader.py:DataLoaderMV laplax/util/loader.py:_".split())
p("Precomputation switch is invisible","precompute_list(fn, items, precompute=True/False) hands back the same item for every in-range index whether results are materialised or computed lazily, for any mapping batch size.",
  "all functions, item lists, indices","all functions","laplax/util/ops.py:precompute_list".split())
p("GGN operator is linear, symmetric and positive semi-definite","For every data set, model Jacobians and each built-in loss (mse, cross_entropy, binary_cross_entropy, none) the operator returned by create_ggn_mv(_without_data) is linear and symmetric and satisfies <v, G v> >= 0; G = factor * sum_n J_n^T H_n J_n.",
  "all data sets, parameters, vectors, dimensions","all dimensions and vectors","laplax/curv/ggn.py:create_ggn_mv_without_data laplax/curv/ggn.py:create_ggn_mv".split())
p("GGN scaling and batching","create_ggn_mv(...) scales the sum over the given batch by num_total_samples/num_curv_samples, so summing the GGN operators of any split of a data set (same total factor) equals the GGN of the whole set; laplace() however passes num_curv_samples/num_total_samples, the inverse factor. Random mini-batches: with num_total_samples the size n of the data set, the average of the operators over all b-subsets (and over all lists of b independent draws) is the operator of the whole data set; with laplace()'s factor the average over the b-subsets is (b/n)^2 times it. The Hessian operators of the parts of a data set add up in the same way and random mini-batches of them are unbiased.",
  "all data sets and splits, all sample counts","all partitions","laplax/curv/ggn.py:create_ggn_mv laplax/api.py:GGN laplax/api.py:laplace".split())
p("Loss Hessians are the second derivatives of the losses","The operator of create_loss_hessian_mv is, for MSE, BINARY_CROSS_ENTROPY and CROSS_ENTROPY, the exact Hessian at the given prediction of sum-of-squares, logistic and softmax cross-entropy loss (independent of the target), and symmetric positive semi-definite; the CE Hessian annihilates constant vectors.",
  "all predictions, targets, directions, dimensions","analytic identity over all reals","laplax/curv/ggn.py:create_loss_hessian_mv laplax/curv/ggn.py:_cross_entropy_hessian_mv laplax/curv/ggn.py:_binary_cross_entropy_hessian_mv laplax/curv/ggn.py:_mse_hessian_mv".split())
p("GGN and Hessian: equality for affine models, Gauss-Newton decomposition in general","For a model affine in its parameters GGN(v) equals the Hessian of the summed loss applied to v, for squared error and for every other loss (both cross-entropies, callables). For any twice differentiable model the Hessian operator is the GGN operator plus the second derivatives of the outputs weighted with the gradient of the loss (2(f-y), softmax(f)-y, sigmoid(f)-y), so the two agree at parameters that interpolate the data; elsewhere the Hessian need not be positive semi-definite (refuted by q^2).",
  "all data sets, designs, parameters, directions","analytic identity","laplax/curv/ggn.py:create_ggn_mv_without_data laplax/curv/hessian.py:create_hessian_mv_without_data".split())
p("Curvature argument validation","create_ggn_mv accepts exactly one of loss_fn / loss_hessian_mv; create_loss_hessian_mv rejects None with ValueError and every unsupported value; the loss accepted by the Hessian route (concatenate_model_and_loss_fn) is only mse, cross_entropy or a callable, although binary_cross_entropy and none are valid LossFn members.",
  "all argument combinations","decision table over all values","laplax/curv/ggn.py laplax/curv/utils.py:concatenate_model_and_loss_fn".split())
p("Full-rank posterior inverts the precision","For every symmetric C and prior arguments with (sigma^2 C + tau I)/lsf positive definite, full_prec_to_scale returns a lower-triangular L with L L^T == precision^-1, and full_prec_to_posterior_state's cov_mv is that inverse; if it is not positive definite no finite factor is produced.",
  "all dimensions, all symmetric matrices, all prior settings","all dimensions and matrices","laplax/curv/full.py:create_full_cov laplax/curv/full.py:full_prec_to_scale laplax/curv/full.py:full_curvature_to_precision".split())
p("Diagonal posterior inverts the precision","diag posterior: scale = precision^-1/2 element-wise with precision (sigma^2 c + tau)/lsf, cov_mv(scale) multiplies by 1/precision, and cov = scale . scale.",
  "all sizes, values","all sizes","laplax/curv/diagonal.py".split())
p("Low-rank posterior inverts the precision","For orthonormal U, s > 0 and s + S_i > 0: the low-rank state is such that scale.scale = cov and cov is the inverse of U diag(S) U^T + s I (Woodbury); a low-rank product, its square and its inverse square root are again correct as dense matrices.",
  "all dimensions, ranks, orthonormal bases","all dimensions","laplax/curv/low_rank.py".split())
p("Curvature approximations agree","With loss_scaling_factor 1, the full, diagonal (for diagonal curvature) and low-rank (for curvature of exactly that rank) routes of create_posterior_fn give the same covariance operator.",
  "all curvatures and prior arguments","all dimensions","laplax/curv/cov.py laplax/curv/full.py laplax/curv/diagonal.py laplax/curv/low_rank.py".split())
p("loss_scaling_factor is honoured","Full and diagonal posteriors divide the whole precision by loss_scaling_factor; the low-rank route divides only the prior part, so for any factor != 1 and non-zero curvature its posterior differs from the documented one.",
  "all factors and curvatures","parametric","laplax/curv/low_rank.py:low_rank_curvature_to_precision laplax/curv/full.py:full_curvature_to_precision laplax/curv/diagonal.py:diag_curvature_to_precision".split())
p("Posterior over PyTrees","create_posterior_fn(...)(prior_arguments): scale_mv and cov_mv accept and return PyTrees of the parameter layout and act as the dense scale and covariance on flattened parameters; a None layout works on flat arrays directly.",
  "all layouts, curvature estimates","all layouts","laplax/curv/cov.py:set_posterior_fn laplax/curv/cov.py:create_posterior_fn".split())
p("Lanczos produces an orthonormal basis and a tridiagonal compression","lanczos_iterations with reorthogonalisation, absent breakdown: basis rows are orthonormal, T = V A V^T is tridiagonal with the returned diag/off-diag; the low-rank output has orthonormal U; with maxiter == n the operator is reproduced exactly. A 2-D array as operand acts as the product with it in the dimension of its rows, vectors of the wrong length and callables without a layout raise TypeError.",
  "all symmetric operators, start vectors, iteration counts","induction over iterations for all operators","laplax/curv/lanczos.py".split())
p("Lanczos breakdown","When the residual norm falls below tol the iteration neither stops nor restarts; the number of basis vectors nevertheless is maxiter and the previous vector is repeated, so the low-rank curvature can exceed the operator (A=[1], rank 2).",
  "operators with small Krylov spaces","requires exhibiting the exact arithmetic path","laplax/curv/lanczos.py:lanczos_iterations".split())
p("64-bit mode is restored","lanczos_lowrank and lobpcg_lowrank leave jax_enable_x64 as they found it on normal return; an exception (for example missing key and start vector) leaves it changed.",
  "every initial flag, every configuration, every raising point","all crash points","laplax/curv/lanczos.py:lanczos_lowrank laplax/curv/lobpcg.py:lobpcg_lowrank".split())
p("LOBPCG rank clipping and termination","lobpcg_lowrank's rank is reduced to max(1, size//5 - 1) exactly when size < 5*rank, is never larger than requested and at least 1; the iteration runs at most maxiter rounds and stops as soon as all residuals pass. A regular run (mv_jit=False) from a well-conditioned starting block keeps block and search directions orthonormal and returns orthonormal vectors with their Ritz values.",
  "all sizes, ranks, iteration behaviours","loop over an arbitrary operator","laplax/curv/lobpcg.py".split())
p("Registration of curvature methods","register_curvature_method either raises ValueError leaving all registries unchanged (missing function and no default) or makes every one of the five entries for the new name available; existing entries never change; with an unknown default it raises KeyError after having changed some registries. A calibration method name stands for the function registered last under it.",
  "all registries, names, argument subsets, histories","all histories of registrations","laplax/register.py:register_curvature_method laplax/curv/cov.py".split())
p("Grid search returns the first minimiser","grid_search returns a visited grid point whose objective (ValueError and NaN counted as +inf) is minimal among the visited ones, and the earliest such point; an empty grid raises; only ValueError is swallowed.",
  "all objectives (including NaN, inf, raising ones), all grids","all objective functions","laplax/eval/calibrate.py:grid_search".split())
p("Grid search stopping","Without stopping conditions all points are visited; with patience p the search stops right after the p-th consecutive increase; with max_iterations m at most m+1 points are visited (documented: m). For objectives with a single valley over the grid, patience never changes the outcome.",
  "all objectives, grids, patience and max_iterations","all sequences","laplax/eval/calibrate.py:grid_search".split())
p("Calibration metrics are well formed","For all confidences/correctness and bin counts: bin proportions are non-negative and sum to one, expected calibration error is at most the maximum calibration error and both lie in [0,1]; every sample lies in exactly one bin. Splitting every bin into k bins never decreases either error, and with one bin both are the difference between average confidence and accuracy.",
  "all samples, all bin counts","all samples","laplax/eval/metrics.py:calculate_bin_metrics laplax/eval/metrics.py:expected_calibration_error laplax/eval/metrics.py:maximum_calibration_error".split())
p("Classification metrics","correctness is 1 iff the first maximal prediction index equals the (first maximal) target index; top-k accuracy is a percentage, monotone in k, equals 100 for k = number of classes and counts targets whose score ranks within the top k; cross_entropy(p,p) <= cross_entropy(p,q).",
  "all predictions, targets and k","all inputs","laplax/eval/metrics.py".split())
p("Brier score sign and scale","multiclass_brier returns the negated mean over samples and classes; hence it is never positive and is -1/C times the documented mean squared distance.",
  "all inputs","all inputs","laplax/eval/metrics.py:multiclass_brier".split())
p("Regression metrics","rmse, chi-squared, nll_gaussian and crps_gaussian satisfy their defining formulas for all inputs: chi_squared is the mean of squared standardised errors, nll_gaussian(scaled) is the mean Gaussian negative log density, crps_gaussian is non-negative and zero-width limits aside symmetric in the error. In other units (a x + b, a > 0) rmse and CRPS are multiplied by a, chi-squared stays, and the negative log density grows by ln a per entry.",
  "all inputs","all inputs","laplax/eval/metrics.py".split())
p("Closed-form predictives","laplax_mean_field_0 is softmax of a scaled mean and sums to one; mean_field_1 equals softmax at zero variance and lies in (0,1]; mean_field_2 with diagonal covariance equals mean_field_1; laplace_bridge on a matrix of means and variances returns positive entries that sum to one over the whole matrix (not per row), but fails with IndexError for a single (1-D) input; mean_field_1 does not sum to one in general. The confidence of the mean-field predictives in the class with the largest logit lies between 1/K and that of the plain softmax and falls as variances (mean_field_2: covariances in the Loewner order) grow; with equal variances, and for two classes in mean_field_1 and 2, the order of the classes is that of the logits; with unequal variances the most likely class can change.",
  "all means, (co)variances, class counts","all inputs","laplax/eval/predictives.py".split())
p("Marginal likelihood formulas","full and diagonal marginal log-likelihood give identical values for diagonal curvature and are the Laplace evidence formula; the low-rank log-determinant differs from the log-determinant of the low-rank matrix it stands for (P=R=1).",
  "all curvatures, priors","all inputs","laplax/eval/likelihood.py".split())
p("Linearised push-forward computes J Sigma J^T","Every linearised pipeline returns pred_mean equal to the MAP prediction, pred_cov = J Sigma J^T, pred_var its diagonal (clamped shape rules), pred_std its square root, for outputs with at most one axis independent of the order of the functions in the list (with two or more output axes variance after covariance raises ValueError). The closed-form class probabilities receive that prediction and those variances (mean_field_2: that covariance), computing what is missing; an unknown name raises KeyError.",
  "all models, posteriors, inputs, function orders","all orders and dimensions","laplax/eval/pushforward.py".split())
p("Linearised samples have the linearised moments","linearised samples are map + J scale eps; over any weight ensemble with zero mean and identity covariance their mean is the MAP prediction and their covariance is pred_cov.",
  "all ensembles","all ensembles","laplax/eval/pushforward.py:lin_samples laplax/eval/pushforward.py:set_lin_pushforward".split())
p("Non-linear ensemble statistics","nonlin_pred_mean is the ensemble mean; nonlin_pred_var uses divisor n while nonlin_pred_cov uses n-1 and var taken after cov is its diagonal, so the reported variance depends on the function order by a factor n/(n-1).",
  "all ensembles","all ensembles","laplax/eval/pushforward.py".split())
p("GP kernel","the posterior GP kernel satisfies k(x1,x2)^T = k(x2,x1), is positive semi-definite over any finite input set, and for dense=True without output layout raises ValueError.",
  "all inputs and posteriors","all finite sets","laplax/eval/pushforward.py:set_posterior_gp_kernel".split())
p("Metric evaluation plumbing","apply_fns looks up each named argument in results before aux, raises ValueError for unknown names or mismatched lengths, and leaves other entries unchanged; finalize_fns threads results through the functions left to right; transfer_entry copies exactly the requested entries.",
  "all result/aux dictionaries and function lists","all dictionaries and histories","laplax/eval/utils.py".split())
p("Batched evaluation equals whole-data evaluation","evaluate_metrics_on_generator over any batching of a data set returns the same metric arrays as evaluate_metrics_on_dataset; an empty generator returns {}; the reduction given is applied per metric over the list of batch results; the caller's metrics list is extended in place when metrics_dict is given as well.",
  "all batchings","all partitions and call histories","laplax/eval/utils.py".split())
p("Enum conversion and predictive-type decisions","string arguments are matched case-insensitively to enum members, unknown strings raise ValueError unless str_default; laplace() cannot use a registered custom curvature; a predictive type given as upper-case \"NONE\" is treated as classification.",
  "all strings","all strings","laplax/api.py".split())
p("Calibration objective decision table","calibration chooses the objective exactly by its name and the predictive type; invalid combinations raise ValueError; max_iterations cannot be passed through calibration(). A function registered as grid_search replaces the built-in search and gets the objective and the four values with their defaults.",
  "all combinations","all combinations","laplax/api.py:_build_calibration_objective laplax/api.py:calibration".split())
p("Loader versus batch detection and one-shot iterators","a tuple or dict batch is treated as a single batch, an iterable as a loader; transforms are applied to every batch exactly once; with a one-shot iterator the first batch is lost (and an operator built by GGN from an iterator is always exhausted); a list [x, y] is a batch for evaluation and calibration but a loader for laplace; an empty loader raises StopIteration.",
  "all data arguments","all histories","laplax/api.py:_maybe_wrap_loader_or_batch laplax/api.py:_validate_and_get_transform laplax/util/loader.py:input_target_split".split())
p("Default metric sets","evaluation(metrics=\"regression\") returns for every point exactly the entries rmse, chi^2, nll, crps, each the metric function applied to mean, standard deviation and target, the same for a batch and for any loader over it; metrics=\"classification\" can never succeed (TypeError, because its last function receives the whole prediction); a metric function without **kwargs works on a batch but not on a loader.",
  "all predictions, targets, data arguments","all predictions and data arguments","laplax/api.py:_resolve_metrics laplax/eval/metrics.py:DEFAULT_REGRESSION_METRICS laplax/eval/utils.py:apply_fns".split())
p("End to end: data to predictive distribution","For every data set, every built-in loss, every PyTree of parameters and every test point, building the GGN with create_ggn_mv, the full posterior with create_posterior_fn and the linearised pushforward reports the trained model's prediction as mean and J (1/lsf * (sigma^2 G + tau I))^-1 J^T, G = factor * sum_n J_n^T H_n J_n, as covariance (variances its diagonal, standard deviations their roots), and its samples are prediction + J L eps with L L^T the posterior covariance. The targets (values and shapes) have no influence on the operator.",
  "all models, data sets, parameter trees, priors, test points, requested statistics","composition of four layers over all models and data","laplax/curv/ggn.py:create_ggn_mv laplax/curv/cov.py:create_posterior_fn laplax/eval/pushforward.py:set_lin_pushforward laplax/api.py:laplace".split())
p("Uncertainty is monotone in prior, noise and data","With the full Laplace approximation and likewise with the diagonal one, and linearised pushforward, no predictive variance grows when data points are added, when the prior precision grows or when sigma_squared (which multiplies the curvature) grows; every variance is non-negative and at most the prior predictive variance lsf/tau * |J_i|^2, and variances are proportional to the loss scaling factor. With the low-rank approximation of a truncated Lanczos run on fixed data the variances are still monotone in prior precision, sigma_squared and loss scaling factor. Adding data is different: with a truncated Lanczos approximation it can raise a variance (refuted by a concrete model, run and data set). Mini-batches with num_total_samples set to the data set size never underestimate the uncertainty on average, with the full and with the diagonal approximation: over all b-subsets, over all lists of b draws with repetitions, or over the equal batches of one epoch, the mean of each reported variance is at least that of the whole data set.",
  "all models, data sets, extensions of data sets, priors, test points","order relation over all data sets and priors","laplax/curv/ggn.py:create_ggn_mv laplax/curv/full.py laplax/eval/pushforward.py:set_lin_pushforward".split())
p("Remaining leaf-wise tree functions","mean, var and std with axis=0 drop the leading axis of every leaf and give the average, the mean of squares minus squared mean (never negative) and its root; cov(rowvar=False) is symmetric with non-negative quadratic form and diagonal n/(n-1) times the variances; sqrt returns the non-negative roots, ones_like/zeros_like the constants in the same layout, tree_partialmatvec contracts the last axis of every leaf with the vector (TypeError on a length mismatch, ValueError on 0-d leaves), allclose decides entry-wise |a-b| <= 1e-8 + 1e-5|b| and raises for different structures (it is not symmetric); invert, documented as inverting all elements, raises TypeError on floating-point leaves and is bitwise negation on integers; unravel_array_into_pytree(tree, axis, arr), for every axis given as any integer, replaces that axis by the shape of every leaf and puts at leaf entry p+j+q the array entry whose axis index is the position of j's entry in the flattened tree, rejects 0-d arrays and wrong lengths, and on vectors is unflatten.",
  "all trees, shapes and values","all trees","laplax/util/tree.py:sqrt laplax/util/tree.py:invert laplax/util/tree.py:tree_partialmatvec laplax/util/tree.py:ones_like laplax/util/tree.py:zeros_like laplax/util/tree.py:allclose laplax/util/tree.py:mean laplax/util/tree.py:var laplax/util/tree.py:std laplax/util/tree.py:cov laplax/util/flatten.py:unravel_array_into_pytree".split())
p("Calibration objectives as functions of the prior precision","With a linearised pushforward the regression NLL objective at tau is minus the average log density of the targets under Gaussians centred at the predictions with variances (J Sigma_tau J^T)_kk, the chi-squared objective |average of (f-y)^2/variance - 1|, the classification NLL the Gaussian NLL of the logits against one-hot labels, and the ECE objective the 15-bin expected calibration error (in [0,1]) whose confidences come from the chosen predictive but whose correctness comes from the MAP prediction. Exceptions: one-hot targets always raise ValueError, laplace_bridge always raises IndexError, and the ECE objective never has a value for a nonlinear mc_bridge pushforward.",
  "all models, posteriors, batches, prior precisions, random keys","all batches and priors, composition of predictive, stacking and metric","laplax/api.py:_make_nll_objective laplax/api.py:_make_chi2_objective laplax/api.py:_make_ece_objective laplax/api.py:get_pred_act laplax/eval/calibrate.py:evaluate_for_given_prior_arguments".split())
p("End to end: calibration picks the best prior precision of the grid","For a full GGN Laplace approximation and a regression batch, calibration() by grid search with objective nll or chi_squared returns the first point of the logarithmic grid whose (rounded) objective value, computed from variances (J (GGN + tau I)^-1 J^T)_kk, is least over the whole grid; with objective marginal_log_likelihood (loss mse) the first with the greatest Laplace evidence log p(D|th) + log p(th) - 1/2 log |(GGN + tau I)/2 pi|, and for this objective early stopping with any patience p >= 1 changes nothing. With one-hot classification targets and objective nll it returns the smallest prior precision of the grid without any error.",
  "all models, training sets, calibration batches, grids, rounding functions","composition of curvature, posterior, pushforward, metric and search over all inputs","laplax/api.py:calibration laplax/eval/calibrate.py:optimize_prior_prec laplax/eval/calibrate.py:grid_search laplax/curv/ggn.py:create_ggn_mv laplax/curv/cov.py:create_posterior_fn".split())
p("The diagonal and low-rank routes end to end",
"Running the workflow with the diagonal approximation reports the Gaussian with covariance J diag(lsf / (sigma^2 G_pp + tau)) J^T, with Lanczos (no breakdown, correct eigensolver) J (sigma^2 U S U^T + tau/lsf I)^-1 J^T where (S, U) are Ritz pairs of the GGN matrix G with orthonormal U; scale operators are square roots of the covariance; with num_samples the reported samples are the prediction plus J L eps_i, L L^T the posterior covariance of the approximation and eps_i the draw of the i-th split key; variances lie between 0 and those of the prior; at full rank and loss scaling 1 the Lanczos route reports exactly the distribution of the full route; the marginal variance of each weight under the diagonal approximation is at most that under the full one; the global 64-bit flag is left as found.",
"every data set, model, loss name, scaling counts, prior precision, noise, loss scaling, start vector or key, rank, tolerance, selection of statistics and test point",
"tests compare a few small networks numerically with tolerances",
"laplax/api.py:laplace laplax/curv/cov.py:estimate_curvature laplax/curv/cov.py:set_posterior_fn laplax/curv/low_rank.py:create_low_rank_curvature laplax/curv/diagonal.py:create_diagonal_curvature laplax/eval/pushforward.py:set_lin_pushforward".split())
p("laplace() on batches and loaders",
"laplace(...)[0](prior) with full, diagonal, Lanczos or LOBPCG builds the posterior of G = num_curv/num_total * sum J^T H J over all samples of the data argument; it gives literally the same result (value, exception, 64-bit flag) whether the samples come as one tuple or dict or as any re-iterable loader, in any batching and order; a one-shot iterator always fails with ValueError; num_total_samples = 0 raises ZeroDivisionError, an unknown approximation or loss name its error before any data is read.",
"every data argument (tuple, dict, loaders of pairs or dicts), batching, order, model, loss, approximation name in any spelling, solver arguments and prior",
"tests compare one loader with one batch for a few sizes within tolerances",
"laplax/api.py:laplace laplax/api.py:GGN laplax/api.py:_maybe_wrap_loader_or_batch laplax/curv/cov.py:estimate_curvature laplax/curv/cov.py:set_posterior_fn laplax/util/loader.py:DataLoaderMV laplax/curv/lobpcg.py:lobpcg_lowrank".split())
p("The marginal likelihood of affine Gaussian models is the exact evidence",
"For a model affine in its parameters (f(x) = A(x) th + b(x)), loss mse, at parameters that maximise the joint density, the full marginal log-likelihood equals the log density of the targets under N(b, sigma I + Phi Phi^T / tau), up to the constant N K / 2 log(2 pi sigma) that the code omits - provided sigma_squared = 1/(2 sigma), because the GGN matrix of mse is 2 Phi^T Phi; with the defaults (all that calibration passes) the value differs from the evidence by more than a constant.",
"every affine model, data set, noise level, prior precision",
"an identity between a determinant, a quadratic form and a density for all models and data; tests compare with hand-computed numbers for one data set",
"laplax/eval/likelihood.py:marginal_log_likelihood laplax/eval/likelihood.py:joint_log_likelihood laplax/eval/likelihood.py:full_marginal_log_likelihood laplax/curv/ggn.py:create_ggn_mv laplax/api.py:_make_mll_objective".split())
p("Models of whole batches (vmap_over_data=False)",
"For a model that maps a batch to an (N, K) array row by row, create_ggn_mv with vmap_over_data=False gives, for mse, binary_cross_entropy and none, exactly the operator obtained with vmap_over_data=True from the model of single samples (same values, same exceptions, any counts); for a loss function of all predictions and targets equal to c times a sum of single-sample losses it gives c times that operator; the concatenated loss and the Hessian operator agree for every kind of loss. cross_entropy is the exception: with two or more classes every application raises TypeError, with one class the operator is not even positive semi-definite.",
"every batched model, data set, loss, vector, scaling counts",
"an identity of operators over all models and batches; the tests of the flag use one network and one loss",
"laplax/curv/ggn.py:create_ggn_mv_without_data laplax/curv/ggn.py:create_ggn_mv laplax/curv/ggn.py:create_loss_hessian_mv laplax/curv/hessian.py:create_hessian_mv laplax/curv/utils.py:concatenate_model_and_loss_fn".split())
p("The regression metrics are the scores they are named after",
"crps_gaussian sums the continuous ranked probability scores of the entries, i.e. the integrals over the line of (F(x) - 1[y <= x])^2 with F the distribution function of N(mean, std^2), and differs from the absolute error by at most std/sqrt(pi) per entry; nll_gaussian is a strictly proper score: its expectation under N(m0, s0^2) is least for the forecast (m0, s0) and no other; the expectation of chi_squared is (s0^2 + (m0-m)^2)/s^2 per entry, hence one for the true distribution.",
"all means, standard deviations, targets, array shapes, true distributions",
"statements about integrals over the real line for all parameters; tests compare a few numbers",
"laplax/eval/metrics.py:crps_gaussian laplax/eval/metrics.py:nll_gaussian laplax/eval/metrics.py:chi_squared".split())
p("Laplace with squared error is Gaussian-process regression; exact for affine models",
"The posterior GP kernel (and linearised predictive covariance) built from the mse GGN with full approximation is k(x1,x2) - k(x1,X) (k(X,X) + c I)^-1 k(X,x2) times the loss scaling factor, with prior kernel k(x,x') = J(x) J(x')^T / tau and noise variance c = 1/(2 f sigma_squared), f the curvature scaling factor. For a model affine in its parameters, at parameters that maximise the joint density for noise variance s, and sigma_squared = 1/(2 f s): the joint density at every parameter is the evidence times the normal density with the trained parameters as mean and the returned covariance operator as covariance, and predictive mean, covariance, variance and standard deviation are those of GP regression on the training data.",
"every model (affine model), training set, prior precision, noise, scaling counts, loss scaling, test points, parameter layout, selection of statistics",
"matrix identities between weight space and function space for all data sizes; tests compare a few arrays within tolerances",
"laplax/eval/pushforward.py:set_posterior_gp_kernel laplax/eval/pushforward.py:set_lin_pushforward laplax/curv/cov.py:create_posterior_fn laplax/curv/ggn.py:create_ggn_mv laplax/eval/likelihood.py:joint_log_likelihood".split())
p("Samples and ensembles as estimates",
"Over a random key with standard uncorrelated draws: linearised samples have the prediction as mean, different samples are uncorrelated, and one sample at two inputs has the posterior kernel as covariance (the reported covariance at one input). For a model affine in its parameters the ensemble average is unbiased with covariance C/N, the ensemble covariance is an unbiased estimate of C, the ensemble variance is unbiased only when requested after the covariance and otherwise too small by (N-1)/N. The same holds end to end for samples from the diagonal and the Lanczos posterior, with the covariance of that posterior.",
"every expectation over keys, posterior, model, number of samples, list of statistics, pair of inputs",
"statements about expectations over the random key; a test sees finitely many keys",
"laplax/eval/pushforward.py:set_lin_pushforward laplax/eval/pushforward.py:set_nonlin_pushforward laplax/eval/pushforward.py:lin_samples laplax/eval/pushforward.py:nonlin_pred_cov laplax/eval/pushforward.py:nonlin_pred_var laplax/util/tree.py:normal_like".split())
p("Keyword arguments of the pushforward functions",
"Batch-size and precomputation keywords never change what a predictive built by set_lin_pushforward or set_nonlin_pushforward returns (values and exceptions), for any list of the library's functions; keywords that nothing reads are ignored silently, in particular the documented n_samples, so that requesting samples with it ends in KeyError; the fallback keyword precompute always raises TypeError when samples are drawn; names of parameters used as extra keywords raise TypeError; set_posterior_gp_kernel refuses num_samples, and dense without a truthy output_layout is a ValueError; special_pred_type given at call time replaces the predictive type chosen at set-up.",
"every keyword dictionary, function list, model, posterior, key and input",
"quantifies over all dictionaries and all function lists; tests use a few fixed keyword combinations",
"laplax/eval/pushforward.py:set_lin_pushforward laplax/eval/pushforward.py:set_nonlin_pushforward laplax/eval/pushforward.py:get_dist_state laplax/eval/pushforward.py:set_get_weight_sample laplax/eval/pushforward.py:set_posterior_gp_kernel laplax/util/ops.py:precompute_list laplax/api.py:_setup_pushforward".split())
p("The nonlinear (ensemble) route end to end",
"Following GGN, full posterior and set_nonlin_pushforward on a data set, ensemble member i is the model at the trained parameters plus L eps_i with L L^T the inverse of the posterior precision and eps_i the draw of the i-th split key, and the reported statistics are the statistics of the members. For a model affine in its parameters the nonlinear and the linear route agree draw by draw: with the same key and number of samples the ensemble mean and covariance are the empirical ones of the linear route's samples and the reported samples are its first five; over a random key mean and covariance are unbiased for the linear route's prediction and A P^-1 A^T.",
"every model (affine model), data set, loss, prior, scaling, key, number of samples, list of statistics, input",
"relates two code paths for all models, keys and data sets; tests use one network and compare loosely",
"laplax/eval/pushforward.py:set_nonlin_pushforward laplax/eval/pushforward.py:set_lin_pushforward laplax/eval/pushforward.py:set_get_weight_sample laplax/api.py:_setup_pushforward laplax/curv/cov.py:create_posterior_fn".split())
p("The approximations compared with the full posterior",
"With the same prior and noise (loss scaling 1): if a low-rank result consists of Ritz pairs of the curvature (what Lanczos and LOBPCG return), its posterior claims at least as much certainty as the full one along every returned vector, the prior's and so at most as much as the full one orthogonally to all of them, and the sum of all parameter variances is never understated; if the pairs are eigenpairs no direction is understated; dropping pairs never lowers a variance. It is false that Lanczos never is more certain than the full posterior in some parameter. The diagonal approximation may state more or less than the full one for a combination of parameters. The marginal likelihood with the diagonal is at most, with Ritz pairs (prior precision 1) at least, that of the full curvature.",
"every positive semidefinite curvature, size, rank, orthonormal pairs, noise, prior precision, direction, data and loss with scalar value",
"inequalities between matrix functions for all sizes and matrices (Hadamard's inequality, compressions); tests compare a few numbers",
"laplax/curv/low_rank.py:low_rank_posterior_state_to_cov laplax/curv/full.py:full_posterior_state_to_cov laplax/curv/diagonal.py:diagonal_posterior_state_to_cov laplax/curv/lanczos.py:lanczos_lowrank laplax/eval/likelihood.py:marginal_log_likelihood".split())
p("Independence of parametrisation and data order",
"With the same predictions, training set, loss, noise and scaling, the report of the full linearised Laplace approximation (mean, covariance, variance, standard deviation) does not depend on how the parameters are distributed over leaves or ordered, nor on a rotation of parameter space, nor on the unit of the parameters if the prior precision is rescaled with it; neither does the log marginal likelihood of the full curvature. The diagonal approximation is independent of order, layout, signs and units, but not of rotations. Neither depends on the order of the training data.",
"every pair of models, parameter trees and Jacobians related by a scaled orthogonal matrix (a signed permutation for the diagonal), every permutation of every data set, loss, prior, scaling, test point and selection of statistics",
"relates two runs on arbitrary models and arbitrary transformations; tests fix one network and one layout",
"laplax/curv/ggn.py:create_ggn_mv laplax/curv/cov.py:create_posterior_fn laplax/curv/full.py:full_curvature_to_precision laplax/curv/diagonal.py:diagonal_curvature_to_precision laplax/eval/pushforward.py:set_lin_pushforward laplax/eval/likelihood.py:marginal_log_likelihood laplax/util/flatten.py:create_pytree_flattener".split())
p("Uncertainty on the training data and away from it",
"With the full linearised Laplace approximation, every variance reported at a training input is below loss_scaling / (f h sigma^2), f the data scaling factor and h a lower bound of the loss curvature there (2 for squared error, p (1 - p) for binary cross-entropy), whatever the prior and the model; for losses with constant curvature the variances at all training inputs add up to (loss_scaling n - tau tr Sigma) / (f h sigma^2) and so to less than n loss_scaling / (f h sigma^2), n the number of parameters; at an input observed m times (with the same derivatives) the variance is below loss_scaling / (m f h sigma^2). A parameter direction along which the training predictions have no curvature (for cross-entropy: common shifts of all logits) keeps its prior variance, in every prediction's share of it; an output whose derivative is orthogonal to those of all training predictions keeps exactly its prior variance.",
"every model, parameter tree, data set, named loss, noise, prior precision, scaling, training or test input and output coordinate",
"inequalities and identities over all data sets, Jacobians and priors; tests check a few numbers on one network",
"laplax/curv/ggn.py:create_ggn_mv laplax/curv/full.py:full_curvature_to_precision laplax/curv/cov.py:create_posterior_fn laplax/eval/pushforward.py:lin_pred_var laplax/eval/pushforward.py:set_lin_pushforward".split())
p("The marginal likelihood as a function of its hyperparameters",
"With full curvature (positive semidefinite) and a loss with a scalar value, the change of the log marginal likelihood between two prior precisions is bounded on both sides by the effective number of parameters eff(tau) = tr(s A (s A + tau I)^-1); a best prior precision satisfies tau |theta|^2 = eff(tau), and conversely; with non-zero curvature and parameters there is exactly one best prior precision, at most P / |theta|^2, the marginal likelihood strictly rises before it and strictly falls after it, so that two neighbours of a grid point that is at least as good as both bracket it; early stopping (patience) never changes the outcome of choosing the prior precision by the marginal likelihood on a grid; for parameters zero it never decreases. The marginal likelihood of the mean of several curvatures is at most the mean of theirs, so curvatures from mini-batches (num_total_samples the data set size) never understate it on average. The marginal likelihood cannot choose the noise level or the loss scaling factor: every larger value is better.",
"every positive semidefinite curvature, size, data, model, loss with scalar value, parameters, noise, loss scaling, prior precisions, grid bounds and size, patience, monotone rounding",
"analysis of a determinant as a function of a real argument; tests evaluate it at a few points",
"laplax/eval/likelihood.py:marginal_log_likelihood laplax/eval/likelihood.py:joint_log_likelihood laplax/curv/full.py:full_curvature_to_precision laplax/eval/calibrate.py:optimize_prior_prec laplax/eval/calibrate.py:grid_search".split())
with open("/verif/properties.jsonl","w") as f:
    for x in P: f.write(json.dumps(x)+"\n")
print(len(P))
