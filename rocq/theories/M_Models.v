(* Model of models/gaussian_process_regression.py, models/variational.py and
   models/sparse_variational.py.

   One batch element.  Over the reals of the standard library.  The kernel's emission
   matrix and the mean function are functions of time: generate_emission_model(x) and
   mean_function(x) evaluate them at every entry of x.  z (n + 1 entries) holds the
   conditioning time points of the posterior process. *)
From Coq Require Import Reals.
From mathcomp Require Import all_ssreflect all_algebra.
From Verif Require Import RealStruct M_Block M_SSM M_SSMLog M_Kalman M_Kernel M_Cond M_Emission M_Sort.
Set Implicit Arguments.
Unset Strict Implicit.
Unset Printing Implicit Defensive.
Import GRing.Theory.
Local Open Scope ring_scope.

(* external, called at variational.py:145-147: gpflow.likelihoods.Gaussian.variational_expectations: for every output
   -1/2 log 2 pi - 1/2 log s2 - 1/2 ((y - fmu)^2 + fvar) / s2, summed over the outputs *)
Definition ext_gaussian_ve o (s2 : R) (fmu fvar y : 'cV[R]_o) : R :=
  \sum_(i < o) (- 2%:R^-1 * ln (2%:R * PI) - 2%:R^-1 * ln s2 - 2%:R^-1 * ((y i 0 - fmu i 0) ^+ 2 + fvar i 0) / s2).

Section Models.
Variables (o d : nat) (kernel : sde_kernel Rr d) (emission : R -> 'M[R]_(o, d)) (mean : R -> 'cV[R]_o).

(* posterior.py:230-258, predict_f of the posterior process of a model; models.py:96-114 *)
Definition model_predict_f_full n (post : ssm Rr d) (z new : nat -> R) : nat -> 'cV[R]_o * 'M[R]_o :=
  predict_f_full kernel (fun i => emission (new i)) (fun i => mean (new i)) n post z new.
(* posterior.py:230-258, models.py:96-114 *)
Definition model_predict_f_diag n (post : ssm Rr d) (z new : nat -> R) : nat -> 'cV[R]_o * 'cV[R]_o :=
  predict_f_diag kernel (fun i => emission (new i)) (fun i => mean (new i)) n post z new.

Section Gpr.
Variables (n : nat) (time_points : nat -> R) (observations : nat -> 'cV[R]_o) (chol_obs_covariance : 'M[R]_o).

(* gaussian_process_regression.py:118-129 _kalman: the residuals are the observations minus
   the mean function; None when state_space_model refuses the times *)
Definition gpr_residuals (k : nat) : 'cV[R]_o := observations k - mean (time_points k).
(* gaussian_process_regression.py:118-129 *)
Definition gpr_emission (k : nat) : 'M[R]_(o, d) := emission (time_points k).

(* gaussian_process_regression.py:152-160 *)
Definition gpr_log_likelihood : option R :=
  omap (fun prior => kf_plain_log_likelihood n prior gpr_emission gpr_residuals chol_obs_covariance)
    (kernel_ssm n kernel time_points).

(* gaussian_process_regression.py:131-135 *)
Definition gpr_loss : option R := omap (fun l => - l) gpr_log_likelihood.

(* gaussian_process_regression.py:137-150: the distribution of the posterior process *)
Definition gpr_posterior : option (ssm Rr d) :=
  obind (fun prior => kf_posterior n (kf_plain (F := Rr) prior gpr_emission gpr_residuals chol_obs_covariance))
    (kernel_ssm n kernel time_points).

(* gaussian_process_regression.py:137-150, models.py:96-114: predict_f of the model *)
Definition gpr_predict_f (new : nat -> R) : option (nat -> 'cV[R]_o * 'M[R]_o) :=
  omap (fun post => model_predict_f_full n post time_points new) gpr_posterior.
End Gpr.

(* variational_expectations of the likelihood at one data point: means and variances of
   the function values and the observation *)
Variable ve : 'cV[R]_o -> 'cV[R]_o -> 'cV[R]_o -> R.

(* variational.py:129-152 elbo; q is the variational distribution at the data points *)
Definition vgp_elbo n (time_points : nat -> R) (observations : nat -> 'cV[R]_o) (q : ssm Rr d) : option R :=
  omap (fun dist_p =>
    let f := model_predict_f_diag n q time_points time_points in
    let ve_fx := \sum_(k < n.+1) ve (f k).1 (f k).2 (observations k) in
    let kl_fx := ssm_kl_divergence n q dist_p in
    ve_fx - kl_fx) (kernel_ssm n kernel time_points).

(* sparse_variational.py:149-192 elbo; N data points (X, Y); num_data None is the default *)
Definition svgp_elbo n (inducing : nat -> R) (num_data : option R) (N : nat) (X : nat -> R) (Y : nat -> 'cV[R]_o)
    (q : ssm Rr d) : option R :=
  omap (fun dist_p =>
    let f := model_predict_f_diag n q inducing X in
    let ve_fx := \sum_(k < N) ve (f k).1 (f k).2 (Y k) in
    let kl_fz := ssm_kl_divergence n q dist_p in
    let scale := if num_data is Some m then m / N%:R else 1 in
    ve_fx * scale - kl_fz) (kernel_ssm n kernel inducing).
End Models.
