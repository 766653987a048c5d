(* Model of markovflow/kalman_filter.py.  One batch element: the final sum of the log
   likelihood over the batch shape is over one term. *)
From Coq Require Import Reals.
From mathcomp Require Import all_ssreflect all_algebra.
From Verif Require Import RealStruct Log Alg Lin Ent Spd M_Block M_BlockLog M_SSM M_SSMLog.
Set Implicit Arguments.
Unset Strict Implicit.
Unset Printing Implicit Defensive.
Import GRing.Theory.
Local Open Scope ring_scope.

Section Kalman.
Variable F : rcfType.
Variables (d e n : nat).

(* The data of a filter: the emission matrices over time, the observation precisions
   _r_inv and the observations (kalman_filter.py:56-84).  A time invariant emission
   matrix or precision is a constant function. *)
Record kf := Kf {
  kf_ssm : ssm F d;
  kf_H : nat -> 'M[F]_(e, d);
  kf_rinv : nat -> 'M[F]_e;
  kf_obs : nat -> 'cV[F]_e
}.
Implicit Types f : kf.

(* kalman_filter.py:86-101 *)
Definition kf_k_inv_post f : btd F d :=
  let h_t_r_h k := (kf_H f k)^T *m kf_rinv f k *m kf_H f k in
  btd_add (ssm_precision n (kf_ssm f)) (Btd h_t_r_h None).

(* kalman_filter.py:257-271 *)
Definition kf_back_project f (y : nat -> 'cV[F]_e) : nat -> 'cV[F]_d :=
  let back_projection k := kf_rinv f k *m kf_H f k in
  fun k => (back_projection k)^T *m y k.

(* kalman_filter.py:109-182.  None: an exception, either from the prior precision of
   a chain with a single time point or from a missing sub-diagonal. *)
Definition kf_posterior f : option (ssm F d) :=
  let S := kf_ssm f in
  if ~~ ssm_ok n S then None else
  match btd_upper_diagonal_lower n.+1 (kf_k_inv_post f) with
  | None => None
  | Some (a_inv_post, chol_q_inv_post) =>
    match bt_sub a_inv_post with
    | None => None
    | Some sub =>
      let obs_proj := kf_back_project f (kf_obs f) in
      let k_inv_mu_prior :=
        btd_dense_mult n.+1 true (ssm_precision n S) false (ssm_marginal_means n S) in
      let m_post :=
        btd_solve n.+1 chol_q_inv_post true
          (btd_solve n.+1 chol_q_inv_post false
            (btd_solve n.+1 a_inv_post true (fun k => obs_proj k + k_inv_mu_prior k))) in
      let concatted_qs k :=
        ext_cholesky (ext_cholesky_solve (bt_diag chol_q_inv_post k) 1%:M) in
      Some (Ssm (m_post 0%N) (concatted_qs 0%N) (fun k => - sub k)
                (fun k => m_post k.+1) (fun k => concatted_qs k.+1))
    end
  end.

(* KalmanFilter, kalman_filter.py:275-353: one observation covariance for all times *)
Definition kf_plain (S : ssm F d) (H : nat -> 'M[F]_(e, d)) (obs : nat -> 'cV[F]_e)
    (chol_obs_covariance : 'M[F]_e) : kf :=
  Kf S H (fun _ => ext_cholesky_solve chol_obs_covariance 1%:M) obs.

End Kalman.

Section Sites.
Variable F : rcfType.
Variables (d n : nat).

(* UnivariateGaussianSitesNat, kalman_filter.py:382-433: scalar sites *)
Record sites := Sites { st_nat1 : nat -> F; st_nat2 : nat -> F }.
(* kalman_filter.py:416-421 means *)
Definition sites_means (s : sites) (k : nat) : 'cV[F]_1 :=
  (- 2%:R^-1 * st_nat1 s k / st_nat2 s k)%:M.
(* kalman_filter.py:423-428 precisions *)
Definition sites_precisions (s : sites) (k : nat) : 'M[F]_1 := (- 2%:R * st_nat2 s k)%:M.

(* KalmanFilterWithSites, kalman_filter.py:437-497 *)
Definition kf_sites (S : ssm F d) (H : nat -> 'M[F]_(1, d)) (s : sites) : kf F d 1 :=
  Kf S H (sites_precisions s) (sites_means s).

(* external, called at kalman_filter.py:565: tf.scatter_nd: contributions at equal indices are added.  An index outside the
   grid raises on CPU and is not modelled. *)
Definition ext_scatter_nd p q m (idx : nat -> nat) (t : nat -> 'M[F]_(p, q)) : nat -> 'M[F]_(p, q) :=
  fun k => \sum_(j < m | idx j == k) t j.

(* KalmanFilterWithSparseSites, kalman_filter.py:501-582: m observations at the grid
   indices idx.  The observations are those passed to the constructor; of the sites
   only the precisions are read. *)
Definition kf_sparse (S : ssm F d) (H : nat -> 'M[F]_(1, d)) (m : nat) (s : sites)
    (idx : nat -> nat) (obs : nat -> 'cV[F]_1) : kf F d 1 :=
  Kf S H (ext_scatter_nd m idx (sites_precisions s)) (ext_scatter_nd m idx obs).

End Sites.

(* external, called at kalman_filter.py:107, 492, 547: tf.linalg.logdet of a positive definite matrix: from the Cholesky factor *)
Definition ext_logdet d (M : 'M[R]_d) : R := 2%:R * \sum_(i < d) ln (ext_cholesky (R := Rr) M i i).

Section Likelihood.
Variables (d e n : nat).

(* kalman_filter.py:235, 606: einsum("...op,...p,...o->...o", r, x, x) summed over the last two axes *)
Definition quad_sum N (r : nat -> 'M[R]_e) (x : nat -> 'cV[R]_e) : R :=
  \sum_(k < N) \sum_(o < e) (\sum_(p < e) r k o p * x k p 0) * x k o 0.

(* kalman_filter.py:184-255; [ldr] is _log_det_observation_precision *)
Definition kf_log_likelihood (ldr : R) (f : kf Rr d e) : R :=
  let l_post := btd_cholesky n.+1 (kf_k_inv_post n f) in
  let num_data := (n + 1)%N in
  let marginal k := kf_H f k *m ssm_marginal_means n (kf_ssm f) k in
  let disp k := kf_obs f k - marginal k in
  let cst := - 2%:R^-1 * ln (2%:R * PI) * (e * num_data)%:R in
  let term1 := - 2%:R^-1 * quad_sum n.+1 (kf_rinv f) disp in
  let obs_proj := kf_back_project f disp in
  let term2 := 2%:R^-1 * \sum_(k < n.+1) \sum_(i < d) (btd_solve n.+1 l_post false obs_proj k i 0) ^+ 2 in
  let term3 := 2%:R^-1 * ssm_log_det_precision n (kf_ssm f) - btd_abs_log_det n.+1 l_post
               + 2%:R^-1 * ldr in
  cst + term1 + term2 + term3.

(* kalman_filter.py:104-107 with 184-255 *)
Definition kf_plain_log_likelihood (S : ssm Rr d) (H : nat -> 'M[R]_(e, d)) (obs : nat -> 'cV[R]_e)
    (chol_obs_covariance : 'M[R]_e) : R :=
  let f := kf_plain (F := Rr) S H obs chol_obs_covariance in
  kf_log_likelihood ((n + 1)%:R * ext_logdet (kf_rinv f 0%N)) f.
End Likelihood.

(* kalman_filter.py:488-492 with 184-255 *)
Definition kf_sites_log_likelihood d n (S : ssm Rr d) (H : nat -> 'M[R]_(1, d)) (s : sites Rr) : R :=
  kf_log_likelihood n (\sum_(k < n.+1) ext_logdet (sites_precisions s k)) (kf_sites (F := Rr) S H s).

(* kalman_filter.py:584-626 *)
Definition kf_sparse_log_likelihood d n (S : ssm Rr d) (H : nat -> 'M[R]_(1, d)) (m : nat) (s : sites Rr)
    (idx : nat -> nat) (obs : nat -> 'cV[R]_1) : R :=
  let f := kf_sparse (F := Rr) S H m s idx obs in
  let l_post := btd_cholesky n.+1 (kf_k_inv_post n f) in
  let marginal k := H k *m ssm_marginal_means n S k in
  let disp k := kf_obs f k - marginal k in
  let disp_data j := obs j - marginal (idx j) in
  let cst := - 2%:R^-1 * ln (2%:R * PI) * (1 * m)%:R in
  let term1 := - 2%:R^-1 * quad_sum m (sites_precisions s) disp_data in
  let obs_proj := kf_back_project f disp in
  let term2 := 2%:R^-1 * \sum_(k < n.+1) \sum_(i < d) (btd_solve n.+1 l_post false obs_proj k i 0) ^+ 2 in
  let term3 := 2%:R^-1 * ssm_log_det_precision n S - btd_abs_log_det n.+1 l_post
               + 2%:R^-1 * \sum_(j < m) ext_logdet (sites_precisions s j) in
  cst + term1 + term2 + term3.
