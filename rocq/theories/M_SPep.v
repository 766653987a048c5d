(* Model of models/sparse_pep.py, SparsePowerExpectationPropagation.

   One batch element, one output, over the reals of the standard library, n + 1 inducing
   points and N data points (X, Y).  [led] and [grads] are the two results of
   grad_log_expected_density of the likelihood at (alpha, mean, variance, observation).
   tf.searchsorted followed by dynamic_partition and reduce_sum is a sum over the data points
   with a given index.  tf.squeeze of a tensor [num_data, 1] is read as [num_data] (it differs
   for a single data point, where the result broadcasts to the same value).  Not modelled:
   loss (504), local_objective (166) and mask_indices (148, 151), which use attributes that
   the class does not have. *)
From Coq Require Import Reals.
From mathcomp Require Import all_ssreflect all_algebra.
From Verif Require Import RealStruct M_Block M_SSM M_SSMLog M_Trans M_Kalman M_Kernel M_Cond M_Emission M_Cvi M_Pep.
Set Implicit Arguments.
Unset Strict Implicit.
Unset Printing Implicit Defensive.
Import GRing.Theory.
Local Open Scope ring_scope.

(* the variables of the model, sparse_pep.py:130-132 *)
Record spep_state d := SpepState { sp_sites : pair_sites d; sp_log_norm : nat -> R }.

(* sparse_pep.py:123-132: the sites of a new model *)
Definition spep_initial d : spep_state d :=
  SpepState (PairSites (fun _ => 0) (fun _ => - (10 ^ 10)%N%:R^-1 *: 1%:M)) (fun _ => 0).

Section SPep.
Variables (d : nat) (kernel : sde_kernel Rr d) (emission : R -> 'M[R]_(1, d)).
Variables (led : R -> R -> R -> R -> R) (grads : R -> R -> R -> R -> R * R).
Variables (n : nat) (inducing : nat -> R) (alpha lr : R).
Variables (N : nat) (X Y : nat -> R).
Let indices (k : nat) := ext_searchsorted n.+1 inducing (X k).

(* sparse_pep.py:450-462 compute_num_data_per_interval *)
Definition spep_num_data (m : nat) : R := \sum_(k < N | indices k == m) 1.

(* sparse_pep.py:176-195 fraction_sites; reciprocal_no_nan is 0 at 0, as is the inverse here *)
Definition spep_fraction (m : nat) : R := (spep_num_data m)^-1.

(* sparse_pep.py:197-231 compute_posterior_ssm, 233-238 dist_q; the same operations as
   sparse_variational_cvi.py:139-174 *)
Definition spep_dist_q (s : pair_sites d) : option (ssm Rr d) :=
  obind (fun dist_p =>
    let prec := ssm_precision n dist_p in
    let prec_subdiag k := if bt_sub prec is Some sub then sub k else 0 in
    let summed_lik_nat1_diag k := usubmx (ps_nat1 s k.+1) + dsubmx (ps_nat1 s k) in
    let summed_lik_nat2_diag k := ulsubmx (ps_nat2 s k.+1) + drsubmx (ps_nat2 s k) in
    let summed_lik_nat2_subdiag k := dlsubmx (ps_nat2 s k.+1) in
    naturals_to_ssm n (Triple summed_lik_nat1_diag
      (fun k => - 2%:R^-1 *: bt_diag prec k + summed_lik_nat2_diag k)
      (fun k => - prec_subdiag k + 2%:R *: summed_lik_nat2_subdiag k)))
    (kernel_ssm n kernel inducing).

(* sparse_pep.py:240-249 compute_marginals *)
Definition spep_marginals (q : ssm Rr d) := pairwise_marginals n q (k_mean0 kernel) (k_P0 kernel 0).

(* sparse_pep.py:251-280 remove_cavity_from_marginals at data point k: the natural parameters
   of the cavity of its pair of states *)
Definition spep_cavity_nats (marginals : (nat -> 'cV[R]_(d + d)) * (nat -> 'M[R]_(d + d))) (s : pair_sites d) (k : nat) :
    'cV[R]_(d + d) * 'M[R]_(d + d) :=
  let pw_chol_covs m := ext_cholesky (R := Rr) (marginals.2 m) in
  let pw_nat2 m : 'M[R]_(d + d) := - 2%:R^-1 *: ext_cholesky_solve (R := Rr) (pw_chol_covs m) 1%:M in
  let pw_nat1 m : 'cV[R]_(d + d) := ext_cholesky_solve (R := Rr) (pw_chol_covs m) (marginals.1 m) in
  let frac_nat1 := spep_fraction (indices k) *: ps_nat1 s (indices k) in
  let frac_nat2 := spep_fraction (indices k) *: ps_nat2 s (indices k) in
  (pw_nat1 (indices k) - alpha *: frac_nat1, pw_nat2 (indices k) - alpha *: frac_nat2).
(* sparse_pep.py:282-293, the marginal of the state at the data point *)
Definition spep_cavity_state marginals (s : pair_sites d) (k : nat) : 'cV[R]_d * 'M[R]_d :=
  let cav := spep_cavity_nats marginals s k in
  let cav_chol_nat2 := ext_cholesky (R := Rr) (- cav.2) in
  let cav_means : 'cV[R]_(d + d) := 2%:R^-1 *: ext_cholesky_solve (R := Rr) cav_chol_nat2 cav.1 in
  let cav_covs : 'M[R]_(d + d) := 2%:R^-1 *: ext_cholesky_solve (R := Rr) cav_chol_nat2 1%:M in
  let: (P, T, _) := conditional_statistics kernel n.+1 inducing (X k) in
  base_conditional_predict P T cav_means (Some cav_covs).
(* sparse_pep.py:310-313 and 333-335, the projection to f *)
Definition spep_cavity_f marginals (s : pair_sites d) (k : nat) : R * R :=
  let sx := spep_cavity_state marginals s in
  let f := project_marginals_diag (fun k => emission (X k)) (fun k => (sx k).1) (fun k => (sx k).2) in
  (f.1 k 0 0, f.2 k 0 0).

(* sparse_pep.py:304-314 compute_cavity (through 295-302) *)
Definition spep_cavity (s : pair_sites d) : option (nat -> R * R) :=
  omap (fun q => spep_cavity_f (spep_marginals q) s) (spep_dist_q s).

(* sparse_pep.py:168-174 local_objective_gradients at point k, with the power a *)
Definition spep_objective (a : R) (f : R * R) (k : nat) : R := led a f.1 f.2 (Y k).
(* sparse_pep.py:168-174 *)
Definition spep_gradients (a : R) (f : R * R) (k : nat) : R * R :=
  let g := grads a f.1 f.2 (Y k) in gradient_correction f.1 f.2 g.1 g.2.

(* sparse_pep.py:316-380 compute_new_sites; 338 leaves the power at its default, one *)
Definition spep_new_sites (s : pair_sites d) : option (pair_sites d) :=
  omap (fun f : nat -> R * R =>
    let g k := spep_gradients 1 (f k) k in
    let HP k := emission (X k) *m (conditional_statistics kernel n.+1 inducing (X k)).1.1 in
    let theta k := back_project_nats (g k).1 (g k).2 (HP k) in
    let summed_theta_linear m := \sum_(k < N | indices k == m) ((theta k).1 + 0 *: const_mx (spep_fraction (indices k))) in
    let summed_lik_nat2 m := \sum_(k < N | indices k == m) ((theta k).2 + 0 *: const_mx (spep_fraction (indices k))) in
    let pep_nat1 m := (1 - alpha) *: ps_nat1 s m + alpha *: summed_theta_linear m in
    let pep_nat2 m := (1 - alpha) *: ps_nat2 s m + alpha *: summed_lik_nat2 m in
    PairSites (fun m => (1 - lr) *: ps_nat1 s m + lr *: pep_nat1 m)
              (fun m => (1 - lr) *: ps_nat2 s m + lr *: pep_nat2 m)) (spep_cavity s).

(* sparse_pep.py:418-422: the sites with a fraction of the one of interval j taken out *)
Definition spep_one_out (s : pair_sites d) (j : nat) : pair_sites d :=
  let diag m : R := if m == j then (spep_num_data m)^-1 * alpha else 0 in
  PairSites (fun m => (1 - diag m) *: ps_nat1 s m) (fun m => (1 - diag m) *: ps_nat2 s m).

(* sparse_pep.py:424-429: the posteriors of all partitions, defined when each of them is *)
Definition collect (T : Type) (M : nat) (f : nat -> option T) (x0 : T) : option (nat -> T) :=
  if all (fun m => f m) (iota 0 M) then Some (fun m => odflt x0 (f m)) else None.

(* sparse_pep.py:382-448 compute_log_norm *)
Definition spep_compute_log_norm (s : pair_sites d) : option (nat -> R) :=
  obind (fun f : nat -> R * R => obind (fun q => omap (fun log_norm_cav : nat -> R =>
    let log_norm k := spep_objective alpha (f k) k + (log_norm_cav (indices k) - ssm_normalizer n q) in
    fun m => (\sum_(k < N | indices k == m) log_norm k) / alpha)
    (collect n.+2 (fun m => omap (fun q' => ssm_normalizer n q') (spep_dist_q (spep_one_out s m))) 0))
    (spep_dist_q s)) (spep_cavity s).

(* sparse_pep.py:473-487 update_sites *)
Definition spep_update_sites (st : spep_state d) : option (spep_state d) :=
  obind (fun s' => omap (fun log_norm : nat -> R =>
    let pep_log_norm m := sp_log_norm st m * (1 - alpha) + log_norm m * alpha in
    let changed_log_norm m := sp_log_norm st m * (1 - lr) + pep_log_norm m * lr in
    SpepState s' changed_log_norm) (spep_compute_log_norm s')) (spep_new_sites (sp_sites st)).

(* sparse_pep.py:489-495 energy *)
Definition spep_energy (s : pair_sites d) : option R :=
  obind (fun log_norm : nat -> R => obind (fun q => omap (fun dist_p =>
    ssm_normalizer n q - ssm_normalizer n dist_p + \sum_(m < n.+2) log_norm m)
    (kernel_ssm n kernel inducing)) (spep_dist_q s)) (spep_compute_log_norm s).

(* sparse_pep.py:520-542 classic_elbo; ve is the variational expectation of a point *)
Definition spep_classic_elbo (ve : R -> R -> R -> R) (s : pair_sites d) : option R :=
  obind (fun q => omap (fun dist_p =>
    let f := cvi_predict_f kernel emission n q inducing X in
    \sum_(k < N) ve (f k).1 (f k).2 (Y k) - ssm_kl_divergence n q dist_p)
    (kernel_ssm n kernel inducing)) (spep_dist_q s).
End SPep.
