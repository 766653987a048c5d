(* Model of utils.py batch_base_conditional and of models/spatio_temporal_variational.py.

   One batch element.  The points of space have any type; kernel_space is a gpflow kernel,
   given by its covariance function: the call K(A, B) returns its value at every pair, the
   call K(A, full_cov=False) its value at every point paired with itself. *)
From Coq Require Import Reals.
From mathcomp Require Import all_ssreflect all_algebra.
From Verif Require Import RealStruct Alg Ent Spd M_Block M_SSM M_SSMLog M_Trans M_Kalman M_Kernel M_Comb M_Cond M_Emission M_Sort M_Models M_Cvi.
Set Implicit Arguments.
Unset Strict Implicit.
Unset Printing Implicit Defensive.
Import GRing.Theory.
Local Open Scope ring_scope.

Section Conditional.
Variables (F : rcfType) (m : nat).

(* utils.py:159-257: the argument q_sqrt of batch_base_conditional at one n: absent, a column of a matrix with
   two dimensions, or a matrix of a tensor with three *)
Inductive q_sqrt_arg := QNone | QDiag of 'cV[F]_m | QTri of 'M[F]_m.

(* utils.py:159-257 for one n: (Kmn[:, n], Kmm, Knn[n], f[:, n]).  tf.linalg.band_part(M, -1, 0)
   is tril; the solve with adjoint(Lm) and lower=False (233) reads the upper triangle of
   Lm^T, which is the lower triangle of Lm.  The sum of 248 is over the M rows of LTA. *)
Definition batch_base_conditional (Kmn : 'cV[F]_m) (Kmm : 'M[F]_m) (Knn : F) (f : 'cV[F]_m)
    (q_sqrt : q_sqrt_arg) (white : bool) : F * F :=
  let Lm := ext_cholesky Kmm in
  let A0 := ext_triangular_solve false Lm Kmn in
  let fvar := Knn - \sum_(i < m) A0 i 0 ^+ 2 in
  let A := if white then A0 else ext_triangular_solve true Lm A0 in
  let fmean := \sum_(i < m) A i 0 * f i 0 in
  match q_sqrt with
  | QNone => (fmean, fvar)
  | QDiag q =>
    let LTA : 'cV[F]_m := \col_i (q i 0 * A i 0) in
    (fmean, fvar + \sum_(i < m) LTA i 0 ^+ 2)
  | QTri q =>
    let L := tril q in
    (* einsum("nmo,on->mn", L, A) *)
    let LTA : 'cV[F]_m := \col_i \sum_(o < m) L i o * A o 0 in
    (fmean, fvar + \sum_(i < m) LTA i 0 ^+ 2)
  end.
End Conditional.

Section Kernel.
Variables (F : rcfType) (S : Type) (space : S -> S -> F) (d : nat) (kernel_time : skernel F 1 d).
(* spatial inducing points 0 .. Ms - 1 *)
Variables (Ms : nat) (Z : nat -> S).

(* spatio_temporal_variational.py:63-70: Ms children, all the same object *)
Definition st_children : seq (child F 1) := nseq Ms (mkchild kernel_time).
Notation M := (size st_children * 1)%N.
Notation D := (concat_dim st_children).

(* spatio_temporal_variational.py:84, 103, 173: kernel_space(inducing_space) *)
Definition st_Kmm : 'M[F]_M := \matrix_(i, j) space (Z i) (Z j).
(* spatio_temporal_variational.py:105, 172: kernel_space(x, inducing_space) and kernel_space(inducing_space, x) at one point x *)
Definition st_Knm (x : S) : 'rV[F]_M := \row_j space x (Z j).
(* spatio_temporal_variational.py:172 *)
Definition st_Kmn (x : S) : 'cV[F]_M := \col_i space (Z i) x.

(* spatio_temporal_variational.py:72-85 generate_emission_model at one time *)
Definition st_emission (t : F) : 'M[F]_(M, D) := ext_cholesky st_Kmm *m indep_emission st_children t.

(* spatio_temporal_variational.py:45-70 SparseSpatioTemporalKernel, jitter left at 0 *)
Definition st_kernel : skernel F M D := concat_kernel st_emission 0.

(* spatio_temporal_variational.py:87-111 state_to_space_conditional_projection at one input *)
Definition st_state_to_space (x : S) (t : F) : 'M[F]_(1, D) :=
  let C := ext_triangular_solve true (ext_cholesky st_Kmm) (indep_emission st_children t) in
  \row_j \sum_(i < M) st_Knm x 0 i * C i j.

(* spatio_temporal_variational.py:149-183 space_time_predict_f at input k of the inputs
   (x, t); q is the posterior at the n + 1 times z.  The posterior process has no mean
   function (340-344, 442-448). *)
Definition st_predict_f (mean_function : option (S -> F -> F)) n (q : ssm F D) (z : nat -> F)
    (x : nat -> S) (t : nat -> F) (k : nat) : F * F :=
  let u := predict_f_full (to_sde st_kernel) (fun i => st_emission (t i)) (fun _ => 0) n q z t k in
  let chol_cov_u := ext_cholesky u.2 in
  let f := batch_base_conditional (st_Kmn (x k)) st_Kmm (space (x k) (x k)) u.1 (QTri chol_cov_u) false in
  (if mean_function is Some mf then f.1 + mf (x k) (t k) else f.1, f.2).
End Kernel.

Section Models.
Variables (S : Type) (space : S -> S -> R) (d : nat) (kernel_time : skernel Rr 1 d) (Ms : nat) (Z : nat -> S).
Variable mean_function : option (S -> R -> R).
Variables (n : nat) (z : nat -> R).
Notation D := (concat_dim (st_children kernel_time Ms)).
Let ker := to_sde (st_kernel (F := Rr) space kernel_time Ms Z).
Let predict_f := st_predict_f (F := Rr) (S := S) space (kernel_time := kernel_time) (Ms := Ms) Z mean_function n.

(* spatio_temporal_variational.py:209-236 elbo and 185-192 loss, with N data points ((x, t), Y)
   and one output; ve is variational_expectations of a point *)
Definition st_elbo (ve : R -> R -> R -> R) (num_data : option R) (N : nat) (x : nat -> S) (t Y : nat -> R)
    (q : ssm Rr D) : option R :=
  omap (fun dist_p =>
    let f := predict_f q z x t in
    let ve_fx := \sum_(k < N) ve (f k).1 (f k).2 (Y k) in
    let kl_fz := ssm_kl_divergence n q dist_p in
    let scale := if num_data is Some num then num / N%:R else 1 in
    ve_fx * scale - kl_fz) (kernel_ssm n ker z).
(* spatio_temporal_variational.py:185-192 *)
Definition st_loss ve num_data N x t Y q : option R := omap (fun e => - e) (st_elbo ve num_data N x t Y q).

(* spatio_temporal_variational.py:337-338: dist_q of a new SpatioTemporalSparseVariational is a
   copy of dist_p *)
Definition st_initial_q : option (ssm Rr D) := kernel_ssm n ker z.

(* ---------- SpatioTemporalSparseCVI ---------- *)
Variables (grad_mu grad_var : R -> R -> R -> R).

(* spatio_temporal_variational.py:433-439 initial sites: zeros; 451-485 dist_q: the code of the temporal model *)
Definition st_initial_sites : pair_sites D := PairSites (fun _ => 0) (fun _ => 0).
(* spatio_temporal_variational.py:451-485 *)
Definition st_dist_q (s : pair_sites D) : option (ssm Rr D) := scvi_dist_q ker n z s.

(* spatio_temporal_variational.py:494-507 projection_inducing_states_to_observations at one input *)
Definition st_projection (x : S) (t : R) : 'M[R]_(1, D + D) :=
  st_state_to_space (F := Rr) space kernel_time Ms Z x t *m (conditional_statistics ker n.+1 z t).1.1.

(* spatio_temporal_variational.py:554-576 local_objective_and_gradients at one input *)
Definition st_gradients (f : R * R) (x : S) (t y : R) : R * R :=
  let g := (grad_mu f.1 f.2 y, grad_var f.1 f.2 y) in
  let mu := if mean_function is Some mf then f.1 - mf x t else f.1 in
  gradient_mean_var_to_expectation mu g.

(* spatio_temporal_variational.py:509-552 update_sites with N data points; dynamic_partition with the searchsorted index
   followed by reduce_sum, as in M_Cvi *)
Definition st_update_sites (lr : R) N (x : nat -> S) (t Y : nat -> R) (s : pair_sites D) : option (pair_sites D) :=
  omap (fun q =>
    let f := predict_f q z x t in
    let grads k := st_gradients (f k) (x k) (t k) (Y k) in
    let bp k := back_project_nats (grads k).1 (grads k).2 (st_projection (x k) (t k)) in
    let indices k := ext_searchsorted (F := Rr) n.+1 z (t k) in
    let summed_theta_linear m := \sum_(k < N | indices k == m) (bp k).1 in
    let summed_lik_nat2 m := \sum_(k < N | indices k == m) (bp k).2 in
    PairSites (fun m => (1 - lr) *: ps_nat1 s m + lr *: summed_theta_linear m)
              (fun m => (1 - lr) *: ps_nat2 s m + lr *: summed_lik_nat2 m)) (st_dist_q s).
End Models.
