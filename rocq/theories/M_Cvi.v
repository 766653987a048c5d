(* Model of models/variational_cvi.py and models/sparse_variational_cvi.py.

   One batch element, one output, over the reals of the standard library.  The derivatives
   that tf.GradientTape returns are inputs: grad_mu and grad_var at (mean, variance,
   observation) of a data point; the objective is a sum over the data points of a function of
   that point's mean and variance, so its gradient is taken point by point. *)
From Coq Require Import Reals.
From mathcomp Require Import all_ssreflect all_algebra.
From Verif Require Import RealStruct M_Block M_SSM M_SSMLog M_Trans M_Kalman M_Kernel M_Cond M_Emission M_Sort M_Models.
Set Implicit Arguments.
Unset Strict Implicit.
Unset Printing Implicit Defensive.
Import GRing.Theory.
Local Open Scope ring_scope.

(* variational_cvi.py:423-445 back_project_nats at one time point; C has one row *)
Definition back_project_nats e (nat1 nat2 : R) (C : 'M[R]_(1, e)) : 'cV[R]_e * 'M[R]_e :=
  (\col_j \sum_(i < 1) C i j * nat1, \matrix_(j, l) \sum_(i < 1) nat2 * C i j * C i l).

(* variational_cvi.py:448-462 *)
Definition gradient_mean_var_to_expectation (mu : R) (grads : R * R) : R * R :=
  (grads.1 - 2%:R * grads.2 * mu, grads.2).

(* external, called at variational_cvi.py:330, 396: gpflow.likelihoods.Gaussian.variational_expectations at one point with one output *)
Definition ext_gaussian_ve1 (s2 mu var y : R) : R :=
  ext_gaussian_ve (o := 1) s2 (const_mx mu) (const_mx var) (const_mx y).

Section Cvi.
Variables (d : nat) (kernel : sde_kernel Rr d) (emission : R -> 'M[R]_(1, d)).
Variables (grad_mu grad_var : R -> R -> R -> R).

(* predict_f of ConditionalProcess without mean function (variational_cvi.py:146-153): means
   and variances at the times x *)
Definition cvi_predict_f n (q : ssm Rr d) (z x : nat -> R) (k : nat) : R * R :=
  let f := predict_f_diag kernel (fun i => emission (x i)) (fun _ => 0) n q z x k in (f.1 0 0, f.2 0 0).

(* variational_cvi.py:332-349 local_objective_and_gradients, the gradients at one point *)
Definition cvi_gradients (f : R * R) (y : R) : R * R :=
  gradient_mean_var_to_expectation f.1 (grad_mu f.1 f.2 y, grad_var f.1 f.2 y).

Section Dense.
Variables (n : nat) (time_points observations : nat -> R).
Let H (k : nat) := emission (time_points k).

(* variational_cvi.py:105-135 dist_q; the prior is dist_p (211-216) *)
Definition cvi_naturals (dist_p : ssm Rr d) (s : sites Rr) : triple Rr d :=
  let prec := ssm_precision n dist_p in
  let prec_subdiag k := if bt_sub prec is Some sub then sub k else 0 in
  let bp k := back_project_nats (st_nat1 s k) (st_nat2 s k) (H k) in
  Triple (fun k => (bp k).1) (fun k => - 2%:R^-1 *: bt_diag prec k + (bp k).2)
    (fun k => - prec_subdiag k).
(* variational_cvi.py:105-135 dist_q *)
Definition cvi_dist_q (s : sites Rr) : option (ssm Rr d) :=
  obind (fun dist_p => naturals_to_ssm n (cvi_naturals dist_p s)) (kernel_ssm n kernel time_points).

(* variational_cvi.py:137-144 posterior_kalman and its posterior state space model *)
Definition cvi_posterior_kalman (s : sites Rr) : option (ssm Rr d) :=
  obind (fun dist_p => kf_posterior n (kf_sites dist_p H s)) (kernel_ssm n kernel time_points).

(* variational_cvi.py, posterior.predict_f of a model with a mean function: 92 stores it, and 146-153 builds the
   process without it *)
Definition cvi_posterior_predict_f (mean_function : R -> R) (s : sites Rr) (new : nat -> R) : option (nat -> R * R) :=
  omap (fun q => cvi_predict_f n q time_points new) (cvi_dist_q s).

(* variational_cvi.py:155-161 log_likelihood, 370-379 elbo *)
Definition cvi_elbo (s : sites Rr) : option R :=
  omap (fun dist_p => kf_sites_log_likelihood n dist_p H s) (kernel_ssm n kernel time_points).

(* variational_cvi.py:351-368 update_sites *)
Definition cvi_update_sites (lr : R) (s : sites Rr) : option (sites Rr) :=
  omap (fun q =>
    let grads k := cvi_gradients (cvi_predict_f n q time_points time_points k) (observations k) in
    Sites (fun k => (1 - lr) * st_nat1 s k + lr * (grads k).1)
          (fun k => (1 - lr) * st_nat2 s k + lr * (grads k).2)) (cvi_dist_q s).

(* variational_cvi.py:381-404 classic_elbo; ve is the variational expectation of a point *)
Definition cvi_classic_elbo (ve : R -> R -> R -> R) (s : sites Rr) : option R :=
  obind (fun q => omap (fun dist_p =>
    let f := cvi_predict_f n q time_points time_points in
    \sum_(k < n.+1) ve (f k).1 (f k).2 (observations k) - ssm_kl_divergence n q dist_p)
    (kernel_ssm n kernel time_points)) (cvi_dist_q s).

(* variational_cvi.py:98-103: the sites of a new model *)
Definition cvi_initial_sites : sites Rr := Sites (fun _ => 0) (fun _ => - (10 ^ 10)%N%:R^-1).
End Dense.

Section Sparse.
(* n + 1 inducing points *)
Variables (n : nat) (inducing : nat -> R).

(* sparse_variational_cvi.py:131-137: n + 2 sites on pairs of states *)
Record pair_sites := PairSites { ps_nat1 : nat -> 'cV[R]_(d + d); ps_nat2 : nat -> 'M[R]_(d + d) }.
(* sparse_variational_cvi.py:131-137 *)
Definition scvi_initial_sites : pair_sites := PairSites (fun _ => 0) (fun _ => 0).

(* sparse_variational_cvi.py:139-174 dist_q *)
Definition scvi_naturals (dist_p : ssm Rr d) (s : pair_sites) : triple Rr d :=
  let prec := ssm_precision n dist_p in
  let prec_subdiag k := if bt_sub prec is Some sub then sub k else 0 in
  let nat1_diag k := usubmx (ps_nat1 s k.+1) + dsubmx (ps_nat1 s k) in
  let nat2_diag k := ulsubmx (ps_nat2 s k.+1) + drsubmx (ps_nat2 s k) in
  let nat2_subdiag k := dlsubmx (ps_nat2 s k.+1) in
  Triple nat1_diag (fun k => - 2%:R^-1 *: bt_diag prec k + nat2_diag k)
    (fun k => - prec_subdiag k + 2%:R *: nat2_subdiag k).
(* sparse_variational_cvi.py:139-174 *)
Definition scvi_dist_q (s : pair_sites) : option (ssm Rr d) :=
  obind (fun dist_p => naturals_to_ssm n (scvi_naturals dist_p s)) (kernel_ssm n kernel inducing).

(* sparse_variational_cvi.py:176-221 update_sites with N data points.  dynamic_partition with
   the searchsorted index followed by reduce_sum: entry m is the sum of the contributions
   with index m *)
Definition scvi_update_sites (lr : R) N (X Y : nat -> R) (s : pair_sites) : option pair_sites :=
  omap (fun q =>
    let grads k := cvi_gradients (cvi_predict_f n q inducing X k) (Y k) in
    let HP k := emission (X k) *m (conditional_statistics kernel n.+1 inducing (X k)).1.1 in
    let bp k := back_project_nats (grads k).1 (grads k).2 (HP k) in
    let indices k := ext_searchsorted n.+1 inducing (X k) in
    let summed_theta_linear m := \sum_(k < N | indices k == m) (bp k).1 in
    let summed_lik_nat2 m := \sum_(k < N | indices k == m) (bp k).2 in
    PairSites (fun m => (1 - lr) *: ps_nat1 s m + lr *: summed_theta_linear m)
              (fun m => (1 - lr) *: ps_nat2 s m + lr *: summed_lik_nat2 m)) (scvi_dist_q s).

(* sparse_variational_cvi.py:270-292 classic_elbo *)
Definition scvi_classic_elbo (ve : R -> R -> R -> R) N (X Y : nat -> R) (s : pair_sites) : option R :=
  obind (fun q => omap (fun dist_p =>
    let f := cvi_predict_f n q inducing X in
    \sum_(k < N) ve (f k).1 (f k).2 (Y k) - ssm_kl_divergence n q dist_p)
    (kernel_ssm n kernel inducing)) (scvi_dist_q s).
End Sparse.
End Cvi.
