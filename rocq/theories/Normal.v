(** The Gaussian functions used by laplax/eval/metrics.py, over Coq's real numbers. *)
From Coq Require Import Reals Lra.
From Coquelicot Require Import Coquelicot.
Local Open Scope R_scope.

(** [jax.scipy.stats.norm.pdf(x, loc=0, scale=1)], [norm.cdf(x, loc=0, scale=1)] ([cdf x =
    (1 + erf (x / sqrt 2)) / 2], written as an integral from 0). *)
Definition norm_pdf (x : R) : R := exp (- (x * x / 2)) / sqrt (2 * PI).
Definition norm_cdf (x : R) : R := 1 / 2 + RInt norm_pdf 0 x.
(** [norm.logpdf(x, scale=s) = -(log(2 pi s^2) + x^2 / s^2) / 2] *)
Definition norm_logpdf (x s : R) : R := - ((ln (2 * PI * (s * s)) + x * x / (s * s)) / 2).

(** metrics.py:402-409, one entry of [crps_list]. *)
Definition crps_term (m s y : R) : R :=
  let z := (y - m) / s in
  -1 * s * (1 / sqrt PI - 2 * norm_pdf z - z * (2 * norm_cdf z - 1)).
