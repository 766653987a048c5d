(* Model of likelihoods/multivariate_gaussian.py and likelihoods/mutlistage_likelihood.py.
   One data point. *)
From Coq Require Import Reals.
From mathcomp Require Import all_ssreflect all_algebra.
From Verif Require Import RealStruct Spd M_Block M_SSM M_SSMLog.
Set Implicit Arguments.
Unset Strict Implicit.
Unset Printing Implicit Defensive.
Import GRing.Theory Num.Theory.
Local Open Scope ring_scope.

Section Mvg.
(* multivariate_gaussian.py:41-54: the parameter chol_covariance; the triangular transform of
   gpflow stores a lower triangle, with any sign on the diagonal *)
Variables (o : nat) (chol_covariance : 'M[R]_o).

(* multivariate_gaussian.py:63-78 *)
Definition mvg_log_probability_density (f y : 'cV[R]_o) : R := ext_mvn_tril_log_prob f chol_covariance y.

(* multivariate_gaussian.py:80-115 *)
Definition mvg_variational_expectations (mean : 'cV[R]_o) (cov : 'M[R]_o) (y : 'cV[R]_o) : R :=
  let inv_covariance := ext_cholesky_solve (R := Rr) chol_covariance 1%:M in
  - 2%:R^-1 * (\sum_i \sum_j inv_covariance i j * cov i j) + ext_mvn_tril_log_prob mean chol_covariance y.

(* multivariate_gaussian.py:117-146; it returns the log density *)
Definition mvg_predict_density (mean : 'cV[R]_o) (cov : 'M[R]_o) (y : 'cV[R]_o) : R :=
  let covariance := chol_covariance *m chol_covariance^T in
  let f_chol_covariances := ext_cholesky (R := Rr) (cov + covariance) in
  ext_mvn_tril_log_prob mean f_chol_covariances y.

(* multivariate_gaussian.py:148-177 *)
Definition mvg_predict_mean_and_var (mean : 'cV[R]_o) (cov : 'M[R]_o) : 'cV[R]_o * 'M[R]_o :=
  let covariance := chol_covariance *m chol_covariance^T in
  (mean, covariance + cov).
End Mvg.

Section Multi.
(* mutlistage_likelihood.py:52-55: the link functions; lgamma is tf.math.lgamma *)
Variables (invlink_bernoulli invlink_poisson lgamma : R -> R).

(* external, mutlistage_likelihood.py:52: gpflow.likelihoods.utils.inv_probit, the default link; erf is tf.math.erf *)
Definition ext_inv_probit (erf : R -> R) (x : R) : R :=
  let jitter := (10%:R ^+ 3)^-1 in
  2%:R^-1 * (1 + erf (x / Num.sqrt (2%:R : R))) * (1 - 2%:R * jitter) + jitter.

(* external, mutlistage_likelihood.py:85-91: gpflow.likelihoods.Bernoulli.log_prob: log(where(equal(y, 1), p, 1 - p)) *)
Definition ext_bernoulli_log_prob (f y : R) : R :=
  let p := invlink_bernoulli f in ln (if y == 1 then p else 1 - p).

(* external, mutlistage_likelihood.py:86, 92: gpflow.likelihoods.Poisson.log_prob: y log(lambda) - lambda - lgamma(y + 1) *)
Definition ext_poisson_log_prob (f y : R) : R :=
  let lam := invlink_poisson f in y * ln lam - lam - lgamma (y + 1).

(* mutlistage_likelihood.py:57-100 _split_f and _log_prob; f holds the three latent values *)
Definition multi_log_prob (f0 f1 f2 y : R) : R :=
  let lp0 := ext_bernoulli_log_prob f0 1 in
  let lpn0 := ext_bernoulli_log_prob f0 0 in
  let lp1 := ext_bernoulli_log_prob f1 1 in
  let lpn1 := ext_bernoulli_log_prob f1 0 in
  let lp2 := ext_poisson_log_prob f2 (y - 2%:R) in
  (if y == 0 then lp0 else 0) + (if y == 1 then lpn0 + lp1 else 0) + (if 2%:R <= y then lpn0 + lpn1 + lp2 else 0).

(* mutlistage_likelihood.py:102-142 _variational_expectations; bern_ve and poisson_ve are
   variational_expectations of the likelihoods of gpflow: mean, variance, observation *)
Definition multi_variational_expectations (bern_ve poisson_ve : R -> R -> R -> R) (m0 m1 m2 v0 v1 v2 y : R) : R :=
  let ve0 := bern_ve m0 v0 1 in
  let ven0 := bern_ve m0 v0 0 in
  let ve1 := bern_ve m1 v1 1 in
  let ven1 := bern_ve m1 v1 0 in
  let ve2 := poisson_ve m2 v2 (y - 2%:R) in
  (if y == 0 then ve0 else 0) + (if y == 1 then ven0 + ve1 else 0) + (if 2%:R <= y then ven0 + ven1 + ve2 else 0).

(* mutlistage_likelihood.py:150-179 sample_y, from the draws eta0, eta1 of the Bernoulli
   variables with the two rates and the draw lmbda of the Poisson variable *)
Definition multi_sample_y (eta0 eta1 : bool) (lmbda : nat) : nat :=
  let output_ones := ~~ eta0 && eta1 in
  let output_larger := ~~ eta0 && ~~ eta1 in
  ((if output_ones then 1 else 0) + (if output_larger then lmbda + 2 else 0))%N.
End Multi.
