(* Model of markovflow/ssm_gaussian_transformations.py.  One batch element; n is the
   number of transitions (N in the docstrings).  The five returned tensors are packed
   into the state space model they are the parameters of. *)
From mathcomp Require Import all_ssreflect all_algebra.
From Verif Require Import Alg Lin Ent Spd M_Block M_SSM.
Set Implicit Arguments.
Unset Strict Implicit.
Unset Printing Implicit Defensive.
Import GRing.Theory.
Local Open Scope ring_scope.

Section Trans.
Variable F : rcfType.
Variable d : nat.

(* ssm_gaussian_transformations.py:32-89: a triple (linear, diagonal, sub-diagonal) *)
Record triple := Triple {
  t_lin : nat -> 'cV[F]_d;
  t_diag : nat -> 'M[F]_d;
  t_sub : nat -> 'M[F]_d
}.

Variable n : nat.
Implicit Types S : ssm F d.

(* ssm_gaussian_transformations.py:32-89 *)
Definition ssm_to_expectations S : triple :=
  let marginal_means := ssm_marginal_means n S in
  let marginal_covs := ssm_marginal_covariances n S in
  Triple marginal_means
    (fun k => marginal_covs k + marginal_means k *m (marginal_means k)^T)
    (fun k => s_A S k *m marginal_covs k + marginal_means k.+1 *m (marginal_means k)^T).

(* ssm_gaussian_transformations.py:93-178 *)
Definition expectations_to_ssm (t : triple) : ssm F d :=
  let marginal_covs k := t_diag t k - t_lin t k *m (t_lin t k)^T in
  let covs_sub_diag k := (t_sub t k)^T - t_lin t k *m (t_lin t k.+1)^T in
  let marginal_chols k := ext_cholesky (marginal_covs k) in
  let As k := (ext_cholesky_solve (marginal_chols k) (covs_sub_diag k))^T in
  let offsets k := t_lin t k.+1 - As k *m t_lin t k in
  let conditional_covs k := marginal_covs k.+1 - As k *m (marginal_covs k *m (As k)^T) in
  Ssm (t_lin t 0%N) (marginal_chols 0%N) As offsets (fun k => ext_cholesky (conditional_covs k)).

(* ssm_gaussian_transformations.py:182-253; the two concat along time are written
   with the test k < n *)
Definition ssm_to_naturals S : triple :=
  let As := s_A S in
  let offsets := ssm_concat_offsets S in
  let chols := ssm_concat_chol S in
  let Linv_As k := ext_triangular_solve false (chols k.+1) (As k) in
  let theta_subdiag k := ext_triangular_solve true (chols k.+1) (Linv_As k) in
  let tmp k := ext_cholesky_solve (chols k) (offsets k) in
  let theta_linear k := if (k < n)%N then tmp k - (As k)^T *m tmp k.+1 else tmp k in
  let tmp2 k := if (k < n)%N then (Linv_As k)^T *m Linv_As k else 0 in
  let precisions k := ext_cholesky_solve (chols k) 1%:M in
  let theta_diag k := - 2%:R^-1 *: (precisions k + tmp2 k) in
  Triple theta_linear theta_diag theta_subdiag.

(* ssm_gaussian_transformations.py:257-329 *)
Definition ssm_to_naturals_no_smoothing S : triple :=
  let chols := ssm_concat_chol S in
  Triple (fun k => ext_cholesky_solve (chols k) (ssm_concat_offsets S k))
    (fun k => - 2%:R^-1 *: ext_cholesky_solve (chols k) 1%:M)
    (fun k => ext_cholesky_solve (chols k.+1) (s_A S k)).

(* ssm_gaussian_transformations.py:333-511.  None: the constructor of the precision
   raises (a sub-diagonal is given and there is a single block).  band_to_block is
   called with its default symmetric=True; matrix_transpose and reshape put entry
   (r, k * d + s) of the block tensor at [k, s, r]. *)
Definition naturals_to_precision (t : triple) : btd F d :=
  Btd (fun k => - 2%:R *: t_diag t k) (Some (fun k => - t_sub t k)).

(* ssm_gaussian_transformations.py:333-511 *)
Definition naturals_to_ssm (t : triple) : option (ssm F d) :=
  let precision := naturals_to_precision t in
  if ~~ btd_ctor_ok n.+1 precision then None else
  let w := (btd_bandwidth precision).+1 in
  let cholesky := btd_cholesky n.+1 precision in
  let block := ext_band_to_block d true
    (ext_inverse_from_cholesky_band (btd_bandwidth cholesky).+1 (n.+1 * d) (btd_as_band n.+1 cholesky)) in
  let marginal_covs k : 'M[F]_d := \matrix_(s, r) block r (k * d + s)%N in
  let sub_diag k : 'M[F]_d := \matrix_(s, r) block (d + r)%N (k * d + s)%N in
  let As k := (ext_solve (marginal_covs k) (sub_diag k))^T in
  let a_inv_block := Btd (fun _ => 1%:M) (Some (fun k => - As k)) in
  let tmp := ext_solve_triang_band (btd_bandwidth a_inv_block).+1 w w (n.+1 * d)
    (btd_as_band n.+1 a_inv_block) (btd_as_band n.+1 precision) true in
  let tmp_block := ext_band_to_block d true tmp in
  let conditional_precisions k : 'M[F]_d := \matrix_(s, r) tmp_block r (k * d + s)%N in
  let covariances k := ext_cholesky_solve (ext_cholesky (conditional_precisions k)) 1%:M in
  let chols k := ext_cholesky (covariances k) in
  let precision_times_offsets := btd_solve n.+1 a_inv_block true (t_lin t) in
  let offsets k := covariances k *m precision_times_offsets k in
  Some (Ssm (offsets 0%N) (chols 0%N) As (fun k => offsets k.+1) (fun k => chols k.+1)).

(* ssm_gaussian_transformations.py:515-593 *)
Definition naturals_to_ssm_no_smoothing (t : triple) : ssm F d :=
  let chol_conditional_prec k := ext_cholesky (- 2%:R *: t_diag t k) in
  let As k := ext_cholesky_solve (chol_conditional_prec k.+1) (t_sub t k) in
  let offsets k := ext_cholesky_solve (chol_conditional_prec k) (t_lin t k) in
  let conditional_covs k := ext_cholesky_solve (chol_conditional_prec k) 1%:M in
  let chols k := ext_cholesky (conditional_covs k) in
  Ssm (offsets 0%N) (chols 0%N) As (fun k => offsets k.+1) (fun k => chols k.+1).

End Trans.
