(* Property theorems C112: the sparse models depend on the data set and not on the order of the data points.

   Vocabulary: S_Order.v ([reordered] s x x', x' lists the first N entries of x in the order s); S_Kernel.v
   ([markov_kernel], [increasing]).  [k_P0] ker t is the covariance of the state at time t. *)
From Coq Require Import Reals.
From mathcomp Require Import all_ssreflect all_algebra all_fingroup.
From Verif Require Import RealStruct M_Block M_SSM P_SSM M_SSMLog M_Kernel S_Kernel M_Cond M_Models M_Trans M_Cvi M_Pep M_SPep
  M_Comb M_Space S_Order P_Order P_Order2.
Set Implicit Arguments.
Unset Strict Implicit.
Unset Printing Implicit Defensive.
Import GRing.Theory Num.Theory Order.TTheory.
Local Open Scope ring_scope.

(* the bound of SparseVariationalGaussianProcess, with or without num_data: kernels whose state covariance does not change
   over time, data anywhere *)
Theorem C112_bound N (s : {perm 'I_N}) d (ker : sde_kernel Rr d) : (forall t t', k_P0 ker t = k_P0 ker t') ->
  forall o (emission : R -> 'M[R]_(o, d)) mean ve n z num_data X X' Y Y' q,
  reordered s X X' -> reordered s Y Y' ->
  svgp_elbo ker emission mean ve n z num_data N X' Y' q = svgp_elbo ker emission mean ve n z num_data N X Y q.
Proof. exact: svgp_order. Qed.
Print Assumptions C112_bound.

(* and for any Markov kernel when the data are within the range of the inducing points *)
Theorem C112_bound_in_range N (s : {perm 'I_N}) o d (ker : sde_kernel Rr d) (emission : R -> 'M[R]_(o, d)) mean ve n z num_data
    X X' Y Y' q :
  markov_kernel ker -> k_mean0 ker = 0 -> increasing n.+1 z -> - APPROX_INF Rr < z 0%N ->
  (forall k, (k < N)%N -> z 0%N <= X k <= z n) -> ssm_nonsing n q ->
  reordered s X X' -> reordered s Y Y' ->
  svgp_elbo ker emission mean ve n z num_data N X' Y' q = svgp_elbo ker emission mean ve n z num_data N X Y q.
Proof. exact: svgp_order_covered. Qed.
Print Assumptions C112_bound_in_range.

(* in general the order matters: two data points to the right of the inducing points 0 and 1, Gaussian likelihood; the
   kernel is a Brownian motion whose variance at time t is exp t *)
Theorem C112_first_point_refuted : exists (X X' Y : nat -> R) (q : ssm Rr 1) (s : {perm 'I_2}),
  let ker : sde_kernel Rr 1 :=
    SdeKernel (fun _ _ => 1%:M) (fun s a => (exp (s + a) - exp s)%:M) (fun _ _ => 0) 0 (fun s => (exp s)%:M) in
  let z i : R := i%:R in
  [/\ markov_kernel ker, increasing (F := Rr) 2 z, reordered s X X', reordered s Y Y &
   svgp_elbo ker (fun _ => 1%:M : 'M[R]_1) (fun _ => 0) (ext_gaussian_ve 1) 1 z None 2 X' (fun k => (Y k)%:M) q <>
   svgp_elbo ker (fun _ => 1%:M : 'M[R]_1) (fun _ => 0) (ext_gaussian_ve 1) 1 z None 2 X (fun k => (Y k)%:M) q].
Proof. exact: two_points_order. Qed.
Print Assumptions C112_first_point_refuted.

(* SparseCVIGaussianProcess: any number of updates, each with the data in an order of its own, give the same sites; the bound
   does not depend on the order either *)
Theorem C112_sparse_cvi N d (ker : sde_kernel Rr d) emission grad_mu grad_var n z lr X Y (ds : seq ((nat -> R) * (nat -> R))) s0 :
  (forall t t', k_P0 ker t = k_P0 ker t') ->
  (forall D, List.In D ds -> exists s : {perm 'I_N}, reordered s X D.1 /\ reordered s Y D.2) ->
  foldl (fun st D => obind (scvi_update_sites ker emission grad_mu grad_var n z lr N D.1 D.2) st) s0 ds =
  iter (size ds) (obind (scvi_update_sites ker emission grad_mu grad_var n z lr N X Y)) s0.
Proof. exact: scvi_run_order. Qed.
Print Assumptions C112_sparse_cvi.

Theorem C112_sparse_cvi_bound N (s : {perm 'I_N}) d (ker : sde_kernel Rr d) : (forall t t', k_P0 ker t = k_P0 ker t') ->
  forall emission n z X X' Y Y', reordered s X X' -> reordered s Y Y' -> forall ve st,
  scvi_classic_elbo ker emission n z ve N X' Y' st = scvi_classic_elbo ker emission n z ve N X Y st.
Proof. exact: scvi_elbo_order. Qed.
Print Assumptions C112_sparse_cvi_bound.

(* sparse power expectation propagation: sites and normalisers after any number of updates, and the energy *)
Theorem C112_sparse_pep N d (ker : sde_kernel Rr d) emission led grads n z alpha lr X Y (ds : seq ((nat -> R) * (nat -> R))) s0 :
  (forall D, List.In D ds -> exists s : {perm 'I_N}, reordered s X D.1 /\ reordered s Y D.2) ->
  foldl (fun st D => obind (spep_update_sites ker emission led grads n z alpha lr N D.1 D.2) st) s0 ds =
  iter (size ds) (obind (spep_update_sites ker emission led grads n z alpha lr N X Y)) s0.
Proof. exact: spep_run_order. Qed.
Print Assumptions C112_sparse_pep.

Theorem C112_sparse_pep_energy N (s : {perm 'I_N}) d (ker : sde_kernel Rr d) emission led n z alpha X X' Y Y' :
  reordered s X X' -> reordered s Y Y' -> forall st,
  spep_energy ker emission led n z alpha N X' Y' st = spep_energy ker emission led n z alpha N X Y st.
Proof. exact: spep_energy_order. Qed.
Print Assumptions C112_sparse_pep_energy.

(* the spatio-temporal models *)
Theorem C112_spatio_temporal_bound N (s : {perm 'I_N}) (S : Type) (space : S -> S -> R) d (kernel_time : skernel Rr 1 d) Ms
    (Z : nat -> S) mean_function n z x x' t t' Y Y' :
  reordered s x x' -> reordered s t t' -> reordered s Y Y' ->
  forall ve num_data (q : ssm Rr (concat_dim (st_children kernel_time Ms))),
  st_elbo space Z mean_function n z ve num_data N x' t' Y' q = st_elbo space Z mean_function n z ve num_data N x t Y q.
Proof. exact: st_elbo_order. Qed.
Print Assumptions C112_spatio_temporal_bound.

Theorem C112_spatio_temporal_update N (s : {perm 'I_N}) (S : Type) (space : S -> S -> R) d (kernel_time : skernel Rr 1 d) Ms
    (Z : nat -> S) mean_function n z x x' t t' Y Y' :
  reordered s x x' -> reordered s t t' -> reordered s Y Y' ->
  forall grad_mu grad_var lr (st : pair_sites (concat_dim (st_children kernel_time Ms))),
  st_update_sites space Z mean_function n z grad_mu grad_var lr N x' t' Y' st =
  st_update_sites space Z mean_function n z grad_mu grad_var lr N x t Y st.
Proof. exact: st_update_order. Qed.
Print Assumptions C112_spatio_temporal_update.

(* a data set and the same in reverse; every kernel of the library except the piecewise one has a constant state covariance *)
Example C112_example o d (k : skernel Rr o d) :
  (forall t t', k_P0 (to_sde k) t = k_P0 (to_sde k) t') /\
  forall N (x : nat -> R), reordered (perm (@rev_ord_inj N)) x (fun i => x (N - i.+1)%N).
Proof. by split=> // N x i; rewrite permE. Qed.
