(* Model of the predictive densities of the models: predict_y and predict_log_density. *)
From Coq Require Import Reals.
From mathcomp Require Import all_ssreflect all_algebra.
From Verif Require Import RealStruct M_Block M_SSM M_SSMLog M_Trans M_Kalman M_Kernel M_Cond M_Emission M_Models M_Cvi M_Pep M_SPep M_Lik.
Set Implicit Arguments.
Unset Strict Implicit.
Unset Printing Implicit Defensive.
Import GRing.Theory.
Local Open Scope ring_scope.

Section Gpr.
Variables (o d : nat) (kernel : sde_kernel Rr d) (emission : R -> 'M[R]_(o, d)) (mean : R -> 'cV[R]_o).
Variables (n : nat) (time_points : nat -> R) (observations : nat -> 'cV[R]_o) (chol_obs_covariance : 'M[R]_o).

(* posterior.py:445-470 predict_y with full_output_cov, of the posterior of
   gaussian_process_regression.py:137-150: its likelihood is a MultivariateGaussian with the
   factor of the observation covariance *)
Definition gpr_predict_y (new : nat -> R) : option (nat -> 'cV[R]_o * 'M[R]_o) :=
  omap (fun f i => mvg_predict_mean_and_var chol_obs_covariance (f i).1 (f i).2)
    (gpr_predict_f kernel emission mean n time_points observations chol_obs_covariance new).

(* likelihood.predict_density at the result of predict_f of that posterior,
   multivariate_gaussian.py:117-146 *)
Definition gpr_predict_density (new : nat -> R) (y : nat -> 'cV[R]_o) : option (nat -> R) :=
  omap (fun f i => mvg_predict_density chol_obs_covariance (f i).1 (f i).2 (y i))
    (gpr_predict_f kernel emission mean n time_points observations chol_obs_covariance new).
End Gpr.

(* external, called at sparse_variational.py:270, models.py:227: gpflow.likelihoods.Gaussian.predict_log_density,
   the sum over the outputs *)
Definition ext_gaussian_pld_outputs o (s2 : R) (fmu fvar y : 'cV[R]_o) : R :=
  \sum_(r < o) ext_gaussian_pld s2 (fmu r 0) (fvar r 0) (y r 0).

(* sparse_variational.py:262-270 predict_log_density (full_output_cov is not used); models.py:206-227 with
   full_output_cov False; q is the distribution at the n + 1 times z *)
Definition svgp_predict_log_density o d (kernel : sde_kernel Rr d) (emission : R -> 'M[R]_(o, d)) (mean : R -> 'cV[R]_o)
    (pld : 'cV[R]_o -> 'cV[R]_o -> 'cV[R]_o -> R) n (q : ssm Rr d) (z new : nat -> R) (y : nat -> 'cV[R]_o) (i : nat) : R :=
  let f := model_predict_f_diag kernel emission mean n q z new i in pld f.1 f.2 (y i).

(* models.py:206-227 predict_log_density of SparseCVIGaussianProcess, whose posterior has no mean function
   (sparse_variational_cvi.py:231-238); sparse_pep.py:544-559, the same with the posterior of 134-140.
   pld is predict_log_density of the likelihood *)
Definition scvi_predict_log_density d (kernel : sde_kernel Rr d) (emission : R -> 'M[R]_(1, d)) n (inducing : nat -> R)
    (pld : R -> R -> R -> R) (s : pair_sites d) (new y : nat -> R) : option (nat -> R) :=
  omap (fun q i => let f := cvi_predict_f kernel emission n q inducing new i in pld f.1 f.2 (y i))
    (scvi_dist_q kernel n inducing s).
(* sparse_pep.py:544-559 *)
Definition spep_predict_log_density d (kernel : sde_kernel Rr d) (emission : R -> 'M[R]_(1, d)) n (inducing : nat -> R)
    (pld : R -> R -> R -> R) (s : pair_sites d) (new y : nat -> R) : option (nat -> R) :=
  omap (fun q i => let f := cvi_predict_f kernel emission n q inducing new i in pld f.1 f.2 (y i))
    (spep_dist_q kernel n inducing s).

(* variational_cvi.py:406-420 predict_log_density and pep.py:232-247, the same; pld is predict_log_density of the likelihood *)
Definition cvi_predict_log_density d (kernel : sde_kernel Rr d) (emission : R -> 'M[R]_(1, d)) n
    (time_points : nat -> R) (mean_function : R -> R) (pld : R -> R -> R -> R) (s : sites Rr) (new y : nat -> R) :
    option (nat -> R) :=
  omap (fun f : nat -> R * R => fun i => pld (f i).1 (f i).2 (y i))
    (cvi_posterior_predict_f kernel emission n time_points mean_function s new).
