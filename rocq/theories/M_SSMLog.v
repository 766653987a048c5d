(* Model of the densities and divergences of markovflow/state_space_model.py, over
   the reals of the standard library because of the logarithm. *)
From Coq Require Import Reals.
From mathcomp Require Import all_ssreflect all_algebra.
From Verif Require Import RealStruct Log Alg Lin Ent Spd M_Block M_SSM.
Set Implicit Arguments.
Unset Strict Implicit.
Unset Printing Implicit Defensive.
Import GRing.Theory.
Local Open Scope ring_scope.

Notation Rr := [rcfType of R].

(* external, called at state_space_model.py:502-512:
   tfp.distributions.MultivariateNormalTriL(loc, scale_tril).log_prob(x), as it is
   computed: standardise with a triangular solve, standard normal log density, minus
   log |det scale|. *)
Definition ext_mvn_tril_log_prob d (loc : 'cV[R]_d) (scale_tril : 'M[R]_d) (x : 'cV[R]_d) : R :=
  let z := ext_triangular_solve (R := Rr) false scale_tril (x - loc) in
  \sum_(i < d) (- 2%:R^-1 * (z i 0) ^+ 2 - 2%:R^-1 * ln (2%:R * PI))
  - \sum_(i < d) ln `|scale_tril i i|.

Section SSM.
Variables (d n : nat).
Implicit Types S : ssm Rr d.

(* state_space_model.py:343-373 *)
Definition ssm_log_det_precision S : R :=
  - (\sum_(r < d) ln ((s_cholP0 S r r) ^+ 2)
     + \sum_(k < n) \sum_(r < d) ln ((s_cholQ S k r r) ^+ 2)).

(* state_space_model.py:485-513 *)
Definition ssm_log_pdf_factors S (states : nat -> 'cV[R]_d) : nat -> R :=
  let conditional_means k := s_A S k *m states k + s_b S k in
  tcons (ext_mvn_tril_log_prob (s_mu0 S) (s_cholP0 S) (states 0%N))
        (fun k => ext_mvn_tril_log_prob (conditional_means k) (s_cholQ S k) (states k.+1)).

(* state_space_model.py:515-526 *)
Definition ssm_log_pdf S (states : nat -> 'cV[R]_d) : R :=
  \sum_(k < n.+1) ssm_log_pdf_factors S states k.

(* state_space_model.py:528-593: tf.reduce_sum(X * Y, axis=[-3, -2, -1]) *)
Definition reduce_sum_prod N (X Y : nat -> 'M[R]_d) : R :=
  \sum_(k < N) \sum_(i < d) \sum_(j < d) X k i j * Y k i j.

(* state_space_model.py:528-609: tf.reduce_sum(x * x, axis=[-2, -1]) *)
Definition reduce_sum_sq N (x : nat -> 'cV[R]_d) : R :=
  \sum_(k < N) \sum_(i < d) x k i 0 * x k i 0.

(* state_space_model.py:528-593; block_sub_diagonal of the precision is present for
   every state space model *)
Definition ssm_kl_divergence S (dist : ssm Rr d) : R :=
  let marginal_covs_1 := ssm_marginal_covariances n S in
  let precision_2 := ssm_precision n dist in
  let subsequent_covs_1 := ssm_subsequent_covariances S marginal_covs_1 in
  let block_sub_diagonal := if bt_sub precision_2 is Some a then a else fun _ => 0 in
  let trace := reduce_sum_prod n.+1 (bt_diag precision_2) marginal_covs_1
               + 2%:R * reduce_sum_prod n block_sub_diagonal subsequent_covs_1 in
  let mean_diff k := ssm_marginal_means n dist k - ssm_marginal_means n S k in
  let l_mean_diff := btd_dense_mult n.+1 false (btd_cholesky n.+1 precision_2) true mean_diff in
  let mahalanobis := reduce_sum_sq n.+1 l_mean_diff in
  let dim := ((n + 1) * d)%N%:R in
  2%:R^-1 * (trace + mahalanobis - dim - ssm_log_det_precision dist + ssm_log_det_precision S).

(* state_space_model.py:595-609 *)
Definition ssm_normalizer S : R :=
  let dim := ((n + 1) * d)%N%:R in
  let cst := dim * ln (2%:R * PI) in
  let log_det := - ssm_log_det_precision S in
  let l_mean := btd_dense_mult n.+1 false (btd_cholesky n.+1 (ssm_precision n S)) true
                  (ssm_marginal_means n S) in
  let mahalanobis := reduce_sum_sq n.+1 l_mean in
  2%:R^-1 * (cst + log_det + mahalanobis).

End SSM.
