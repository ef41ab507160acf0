{
 "C05": {
  "note": "Integer argnums; negative argnums are shown not to behave like Python indices (C05_negative_argnums_refuted)."
 },
 "C09": {
  "note": "The TypeError documented for an unsupported layout is unreachable: None is itself a PyTree without leaves and ends in ValueError (C09_to_dense_none_layout)."
 },
 "C13": {
  "note": "The default reduction (online mean) collapses a flat product to a scalar: C13_default_reduce_refuted."
 },
 "C16": {
  "note": "Finding: laplace() passes num_curv_samples/num_total_samples, the inverse of create_ggn_mv's factor (C16_laplace_scales_like_create_ggn_mv_refuted)."
 },
 "C17": {
  "note": "Derivatives are taken in Coq's reals with Coquelicot; jax autodiff is trusted to compute them."
 },
 "C19": {
  "note": "Finding: the Hessian route rejects two documented LossFn members, and with cross_entropy hands back an unsummed array (C19_hessian_*)."
 },
 "C20": {
  "note": "Cholesky and the triangular solve are concrete recursive functions in exact arithmetic; existence of the factor is proved equivalent to positive definiteness."
 },
 "C24": {
  "note": "Finding: the low-rank route divides only the prior part by loss_scaling_factor."
 },
 "C25": {
  "note": "Finding: the full method with a documented integer layout raises (C25_full_int_layout_refuted)."
 },
 "C26": {
  "note": "eigh is an oracle with the usual contract; exact arithmetic."
 },
 "C27": {
  "note": "Finding: a breakdown repeats the previous basis vector; ranks above the dimension over-count curvature."
 },
 "C28": {
  "note": "Finding: an exception leaves the process-wide jax_enable_x64 flag changed (C28_restored_on_exception_refuted)."
 },
 "C29": {
  "note": "Findings: size == 5*rank is not clipped and jax's own check then raises; sizes up to 5 always raise; the clipped rank is passed on as the iteration limit."
 },
 "C30": {
  "note": "Finding: an unknown default registers half a method (C30_all_or_nothing_refuted)."
 },
 "C32": {
  "note": "Finding: max_iterations m visits m+1 points; the documented default of patience differs from the code."
 },
 "C35": {
  "note": "Finding: the score is negated and divided by the number of classes relative to the documentation (C35_documented_value_refuted)."
 },
 "C36": {
  "note": "Finding: rmse and chi_squared do not check shapes and broadcast (C36_no_shape_check_refuted)."
 },
 "C37": {
  "note": "Findings: mean_field_1 is not normalised; laplace_bridge raises IndexError on 1-D means and ignores the mean on a single row."
 },
 "C38": {
  "note": "Findings: the low-rank log-determinant is wrong for prior precision other than 1; the noise level is read from another key; cross_entropy gives an array."
 },
 "C39": {
  "note": "Finding: for outputs with two or more axes variance after covariance raises ValueError (C39_several_axes_refuted)."
 },
 "C40": {
  "note": "Findings: the default list with num_samples=0 ends in KeyError; with two or more output axes in ValueError."
 },
 "C41": {
  "note": "Findings: variance uses divisor N or N-1 depending on the order of the functions; at most five samples are returned; the variance fallback of the closed-form predictives raises KeyError for ensembles."
 },
 "C43": {
  "note": "Findings: copies within one dictionary are sequential (a swap is not a swap); a bad field goes unnoticed when there are no functions."
 },
 "C44": {
  "note": "Finding: the caller's metrics list is extended in place, so repeated calls accumulate metrics."
 },
 "C45": {
  "note": "Findings: laplace() cannot use registered curvatures; predictive type \"NONE\" in upper case counts as classification."
 },
 "C46": {
  "note": "Finding: max_iterations is not forwarded by calibration()."
 },
 "C47": {
  "note": "Findings: one-shot iterators lose their first batch; an empty loader raises StopIteration; [x, y] is a loader for laplace but a batch for evaluation."
 },
 "C48": {
  "note": "Finding: the default classification metrics always raise TypeError; metric functions without **kwargs fail on loaders."
 },
 "C50": {
  "note": "sigma_squared multiplies the curvature, so a larger 'noise' shrinks the uncertainty. Finding: with a truncated Lanczos approximation an added data point can raise a reported variance (C50_lanczos_more_data_refuted)."
 },
 "C51": {
  "note": "Findings: tree.invert is bitwise NOT (TypeError on floats); allclose is not symmetric. unravel_array_into_pytree is covered for every array, every axis (any Python int) and every layout."
 },
 "C52": {
  "note": "Findings: classification NLL compares logits with one-hot labels as Gaussians; one-hot targets always raise; ECE takes correctness from the MAP; nonlinear mc_bridge ECE never has a value; laplace_bridge always raises."
 },
 "C53": {
  "note": "Finding: one-hot targets silently select the smallest grid point."
 },
 "C56": {
  "note": "Finding: the default noise settings mix two noise levels (data term: variance 1; determinant: variance 1/2), so the marginal-likelihood objective of calibration is not the evidence even for linear models."
 },
 "C57": {
  "note": "Finding: cross_entropy cannot be used with vmap_over_data=False (TypeError with two or more classes; wrong sign with one)."
 },
 "C59": {
  "note": "The noise variance must be passed as sigma_squared = 1/(2 f s) because the GGN of mse is 2 J^T J; C59_gp_kernel holds for every model, the exactness theorems for affine ones."
 },
 "C60": {
  "note": "The randomness is an arbitrary linear normalised functional on functions of the key under which the draws of randn_like have mean 0, variance 1 and are uncorrelated; that jax.random.normal behaves so is trusted."
 },
 "C61": {
  "note": "Findings: the keyword precompute can never be used; n_samples, documented for set_lin_pushforward, is ignored; an array of two or more entries as output_layout of a dense kernel is a ValueError. Dictionary values of undocumented types are left out of the model."
 },
 "C63": {
  "note": "Finding: a truncated Lanczos posterior can claim more certainty than the full one in a parameter (C63_lanczos_conservative_refuted). Stated at loss scaling factor 1, because the low-rank route scales only the prior part (C24), and the low-rank evidence at prior precision 1 (C38)."
 },
 "C64": {
  "note": "A reparametrisation is given by how the Jacobians are related (J2 = J1 Q on the training inputs and the test input); chain rule for the model functions themselves is not modelled."
 },
 "C65": {
  "note": ""
 },
 "C66": {
  "note": "Finding: the log marginal likelihood has no optimum in the noise level sigma (its normalising constant is missing) nor in the loss scaling factor."
 },
 "C62": {
  "note": "Affine models: agreement of the two routes draw by draw; unbiasedness under an expectation functional over keys with uncorrelated standard draws."
 },
 "C55": {
  "note": "LOBPCG theorem is conditional on the solver returning orthonormal vectors with non-negative values (C29_run_ritz_pairs gives this for regular mv_jit=False runs); Lanczos as in C54. Finding: one-shot iterators are never usable."
 },
 "C54": {
  "note": "Lanczos theorems assume no breakdown and a correct eigh; full-rank agreement holds only at loss_scaling_factor 1 because of C24."
 }
}