(* Model of models/pep.py and of the PEP likelihoods of likelihoods/likelihoods.py.

   One batch element, one output, over the reals of the standard library.  [led] and [grads]
   are the two results of grad_log_expected_density of the likelihood at (alpha, mean,
   variance, observation).  tf.squeeze of a tensor [num_data, 1] is read as [num_data] (it
   differs for a single data point). *)
From Coq Require Import Reals.
From mathcomp Require Import all_ssreflect all_algebra.
From Verif Require Import RealStruct M_Block M_SSM M_SSMLog M_Trans M_Kalman M_Kernel M_Cond M_Emission M_Cvi.
Set Implicit Arguments.
Unset Strict Implicit.
Unset Printing Implicit Defensive.
Import GRing.Theory.
Local Open Scope ring_scope.

(* external, called at likelihoods.py:250: gpflow.logdensities.gaussian(x, mu, var) *)
Definition ext_logdensity_gaussian (x mu var : R) : R :=
  - 2%:R^-1 * (ln (2%:R * PI) + ln var + (mu - x) ^+ 2 / var).

(* external, called at likelihoods.py:194, variational_cvi.py:420:
   gpflow.likelihoods.Gaussian.predict_log_density(Fmu, Fvar, Y) *)
Definition ext_gaussian_pld (s2 mu v y : R) : R := ext_logdensity_gaussian y mu (v + s2).

(* likelihoods.py:236-251 and 253-265, PEPGaussian; s2 is base.variance *)
Definition pep_gaussian_led (s2 alpha mu v y : R) : R := alpha * ext_logdensity_gaussian y mu (s2 + v).
(* likelihoods.py:253-265 *)
Definition pep_gaussian_grads (s2 alpha mu v y : R) : R * R :=
  let var := s2 + v in (alpha * (y - mu) / var, - alpha * 1 / var).

(* likelihoods.py:184-194 and 196-212, PEPScalarLikelihood: base_pld is predict_log_density of
   the wrapped likelihood and d1, d2 are its first and second derivatives in the mean, which
   the nested GradientTapes return *)
Definition pep_scalar_led (base_pld : R -> R -> R -> R) (alpha mu v y : R) : R := base_pld mu v y.
(* likelihoods.py:196-212 *)
Definition pep_scalar_grads (d1 d2 : R -> R -> R -> R) (alpha mu v y : R) : R * R := (d1 mu v y, d2 mu v y).

(* pep.py:250-261 gradient_correction *)
Definition gradient_correction (i1 i2 g1 g2 : R) : R * R :=
  let L2 := 2%:R^-1 * (i2 + 1 / g2)^-1 in
  let L1 := 2%:R * L2 * (1 * g1 / g2 - i1) in
  (L1, L2).

(* pep.py:111-118 mask_indices; tf.scatter_nd adds the updates of equal indices *)
Definition mask_indices (exclude_indices : option (seq nat)) (k : nat) : R :=
  if exclude_indices is Some l then \sum_(i <- l) (if i == k then 1 else 0) else 0.

(* the sites of the model, kalman_filter.py:382-433 with log_norm *)
Record pep_sites := PepSites { pe_sites : sites Rr; pe_log_norm : nat -> R }.

Section Pep.
Variables (d : nat) (kernel : sde_kernel Rr d) (emission : R -> 'M[R]_(1, d)).
Variables (led : R -> R -> R -> R -> R) (grads : R -> R -> R -> R -> R * R).
Variables (n : nat) (time_points observations : nat -> R) (alpha lr : R).
Let H (k : nat) := emission (time_points k).

(* pep.py:120-148 compute_cavity_from_marginals; the natural parameters of the cavity *)
Definition pep_cavity_nats (marginals : (nat -> 'cV[R]_d) * (nat -> 'M[R]_d)) (s : sites Rr) (k : nat) :
    'cV[R]_d * 'M[R]_d :=
  let chol_covs := ext_cholesky (R := Rr) (marginals.2 k) in
  let nat2 : 'M[R]_d := - 2%:R^-1 *: ext_cholesky_solve (R := Rr) chol_covs 1%:M in
  let nat1 : 'cV[R]_d := ext_cholesky_solve (R := Rr) chol_covs (marginals.1 k) in
  let bp := back_project_nats (st_nat1 s k) (st_nat2 s k) (H k) in
  (nat1 - alpha *: bp.1, nat2 - alpha *: bp.2).
(* pep.py:120-148 *)
Definition pep_cavity_from_marginals (marginals : (nat -> 'cV[R]_d) * (nat -> 'M[R]_d)) (s : sites Rr) (k : nat) : R * R :=
  let cav_chol_nat2 k := ext_cholesky (R := Rr) (- (pep_cavity_nats marginals s k).2) in
  let cav_means k := 2%:R^-1 *: ext_cholesky_solve (R := Rr) (cav_chol_nat2 k) (pep_cavity_nats marginals s k).1 in
  let cav_covs k := 2%:R^-1 *: ext_cholesky_solve (R := Rr) (cav_chol_nat2 k) 1%:M in
  let f := project_marginals_diag H cav_means cav_covs in
  (f.1 k 0 0, f.2 k 0 0).

(* dist_q.marginals, pep.py:156, 163 and 184 *)
Definition pep_marginals (q : ssm Rr d) := (ssm_marginal_means n q, ssm_marginal_covariances n q).

(* pep.py:150-157 compute_cavity *)
Definition pep_cavity (s : sites Rr) : option (nat -> R * R) :=
  omap (fun q => pep_cavity_from_marginals (pep_marginals q) s) (cvi_dist_q kernel emission n time_points s).

(* pep.py:103-109 local_objective_gradients at point k *)
Definition pep_objective (f : R * R) (k : nat) : R := led alpha f.1 f.2 (observations k).
(* pep.py:103-109 *)
Definition pep_gradients (f : R * R) (k : nat) : R * R :=
  let g := grads alpha f.1 f.2 (observations k) in gradient_correction f.1 f.2 g.1 g.2.

(* pep.py:164-167 and 185-188: the projection of the marginals to f *)
Definition pep_f_marginals (q : ssm Rr d) (k : nat) : R * R :=
  let f := project_marginals_diag H (ssm_marginal_means n q) (ssm_marginal_covariances n q) in (f.1 k 0 0, f.2 k 0 0).

(* pep.py:174-175 and 195-196 *)
Definition pep_log_norm_of (f : R * R) : R := 2%:R^-1 * (ln f.2 + f.1 ^+ 2 / f.2).

(* pep.py:159-177 compute_log_norm; the objective is evaluated at the marginals *)
Definition pep_compute_log_norm (s : sites Rr) : option (nat -> R) :=
  omap (fun q k =>
    let fx_marg := pep_f_marginals q k in
    let fx := pep_cavity_from_marginals (pep_marginals q) s k in
    pep_objective fx_marg k + pep_log_norm_of fx - pep_log_norm_of fx_marg)
    (cvi_dist_q kernel emission n time_points s).

(* pep.py:179-215 update_sites *)
Definition pep_update_sites (site_indices : option (seq nat)) (s : pep_sites) : option pep_sites :=
  omap (fun q =>
    let fx_marg k := pep_f_marginals q k in
    let fx k := pep_cavity_from_marginals (pep_marginals q) (pe_sites s) k in
    let log_norm k := pep_objective (fx k) k + pep_log_norm_of (fx k) - pep_log_norm_of (fx_marg k) in
    let g k := pep_gradients (fx k) k in
    let pep_nat1 k := (1 - alpha) * st_nat1 (pe_sites s) k + (g k).1 in
    let pep_nat2 k := (1 - alpha) * st_nat2 (pe_sites s) k + (g k).2 in
    let pep_log_norm k := (1 - alpha) * pe_log_norm s k + log_norm k in
    let new_nat1 k := (1 - lr) * st_nat1 (pe_sites s) k + lr * pep_nat1 k in
    let new_nat2 k := (1 - lr) * st_nat2 (pe_sites s) k + lr * pep_nat2 k in
    let new_log_norm k := (1 - lr) * pe_log_norm s k + lr * pep_log_norm k in
    let mask := mask_indices site_indices in
    let assign (old new : nat -> R) k := old k * (1 - mask k) + new k * mask k in
    PepSites (Sites (assign (st_nat1 (pe_sites s)) new_nat1) (assign (st_nat2 (pe_sites s)) new_nat2))
      (assign (pe_log_norm s) new_log_norm))
    (cvi_dist_q kernel emission n time_points (pe_sites s)).

(* pep.py:223-230 energy *)
Definition pep_energy (s : sites Rr) : option R :=
  obind (fun log_norm : nat -> R => obind (fun q => omap (fun dist_p =>
    ssm_normalizer n q - ssm_normalizer n dist_p + 1 / alpha * \sum_(k < n.+1) log_norm k)
    (kernel_ssm n kernel time_points)) (cvi_dist_q kernel emission n time_points s)) (pep_compute_log_norm s).
End Pep.
