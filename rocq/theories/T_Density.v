(* Property theorems C102 and C108: predict_y, predicted covariances and the predictive log density.

   Vocabulary: S_Density.v ([insert] k a x, the sequence x with a inserted after x k);
   S_Gauss.v ([gauss_logpdf], the log density of a Gaussian); S_Kernel.v ([markov_kernel],
   [increasing]); S_Cvi.v ([gradients_of], partial derivatives). [ext_gaussian_pld] s2 is
   predict_log_density of gpflow's Gaussian likelihood with variance s2 and
   [ext_gaussian_ve1] s2 its variational expectation; Stein.v ([normal_density] m s, the density
   of a normal variable with mean m and standard deviation s; [integral], over the line). *)
From Coq Require Import Reals.
From mathcomp Require Import all_ssreflect all_algebra.
From Verif Require Import RealStruct Nat Alg Lin Ent Spd Log M_Block M_SSM S_SSM P_SSM M_SSMLog S_Gauss M_Trans S_Trans
  S_Kalman M_Kalman M_Kernel S_Kernel M_KernelR M_Comb M_Cond M_Emission M_Models S_GP M_Cvi S_Cvi M_Pep M_SPep M_Lik
  M_Sort Stein M_Density S_Density P_Density P_GaussInt P_PredSpd P_PredSpd2.
Set Implicit Arguments.
Unset Strict Implicit.
Unset Printing Implicit Defensive.
Import GRing.Theory Num.Theory Order.TTheory.
Local Open Scope ring_scope.

(* regression: (m, S), the result of predict_y at a new time, is the conditional law of the
   observation there: its log density at any ys is the log likelihood of the data with
   (new i, ys) added minus the log likelihood of the data; predict_density of the likelihood at
   the result of predict_f is that log density *)
Theorem C102_regression o d (ker : sde_kernel Rr d) (emission : R -> 'M[R]_(o, d)) mean :
  markov_kernel ker -> k_mean0 ker = 0 -> forall n z y (cR : 'M[R]_o), increasing n.+1 z -> lownz cR ->
  - APPROX_INF Rr < z 0%N -> forall new i k, (k < n)%N -> z k < new i -> new i < z k.+1 ->
  exists m S a, [/\ omap (fun p => p i) (gpr_predict_y ker emission mean n z y cR new) = Some (m, S), spd S,
    gpr_log_likelihood ker emission mean n z y cR = Some a,
    forall ys, gpr_log_likelihood ker emission mean n.+1 (insert k (new i) z) (insert k ys y) cR =
      Some (a + gauss_logpdf m S ys) &
    forall ys, omap (fun p => p i) (gpr_predict_density ker emission mean n z y cR new ys) = Some (gauss_logpdf m S (ys i))].
Proof. exact: gpr_new. Qed.
Print Assumptions C102_regression.

(* conjugate computation variational inference with a Gaussian likelihood: after one update
   with learning rate 1, predict_log_density of a new observation is the difference between
   the ELBO of a model that has that observation as well, after one such update, and the ELBO *)
Theorem C102_cvi d (ker : sde_kernel Rr d) (emission : R -> 'M[R]_(1, d)) :
  markov_kernel ker -> k_mean0 ker = 0 -> forall n z, increasing n.+1 z -> - APPROX_INF Rr < z 0%N ->
  forall gm gv (s2 : R) y, 0 < s2 -> gradients_of (ext_gaussian_ve1 s2) gm gv ->
  forall new i k, (k < n)%N -> z k < new i -> new i < z k.+1 -> forall mean (ys : nat -> R) s t,
  (forall j, (j <= n)%N -> st_nat2 s j <= 0) -> (forall j, (j <= n.+1)%N -> st_nat2 t j <= 0) ->
  exists a b s' t', [/\ cvi_update_sites ker emission gm gv n z y 1 s = Some s',
    cvi_elbo ker emission n z s' = Some a,
    cvi_update_sites ker emission gm gv n.+1 (insert k (new i) z) (insert k (ys i) y) 1 t = Some t',
    cvi_elbo ker emission n.+1 (insert k (new i) z) t' = Some b &
    omap (fun p => p i) (cvi_predict_log_density ker emission n z mean (ext_gaussian_pld s2) s' new ys) = Some (b - a)].
Proof. exact: cvi_new. Qed.
Print Assumptions C102_cvi.

(* the two external functions of the Gaussian likelihood are what their names say: the expected
   log density of the observation, and the log of the expected density *)
Theorem C102_contracts (s2 m v y : R) : 0 < s2 -> 0 < v ->
  integral (fun f => ln (normal_density f (Num.sqrt s2) y) * normal_density m (Num.sqrt v) f) (ext_gaussian_ve1 s2 m v y) /\
  integral (fun f => normal_density f (Num.sqrt s2) y * normal_density m (Num.sqrt v) f) (exp (ext_gaussian_pld s2 m v y)).
Proof. split; [exact: ve_integral | exact: pld_integral]. Qed.
Print Assumptions C102_contracts.

(* the hypotheses hold for a Matern 3/2 kernel, integer times and a new time half way between
   two of them *)
Example C102_example (l v s2 : R) n k : 0 < l -> 0 < v -> 0 < s2 -> (k < n)%N ->
  let ke := matern32 1 0 l v 0 in let z i : R := i%:R in let t : R := k%:R + 2%:R^-1 in
  [/\ markov_kernel (to_sde ke), k_mean0 (to_sde ke) = 0, increasing (F := Rr) n.+1 z, - APPROX_INF Rr < z 0%N &
      lownz ((Num.sqrt s2)%:M : 'M[R]_1) /\ z k < t /\ t < z k.+1].
Proof. exact: density_example. Qed.

(* predict_state and predict_f never report certainty: at every time between the dummy points -1e10 and 1e10, before,
   between, at or after the conditioning times, and for every posterior with nonsingular covariance factors, the
   covariance of the state is positive definite; a combination x of the outputs has a positive variance exactly when
   the emission matrix does not cancel it; the variances without full_output_cov are the diagonal of the covariance
   with it *)
Theorem C108_state (F : rcfType) d (ker : sde_kernel F d) n z (post : ssm F d) :
  markov_kernel ker -> increasing n.+1 z -> ssm_nonsing n post ->
  forall t0 t, - APPROX_INF F < t -> t < APPROX_INF F -> spd (predict_state ker n post z t0 t).2.
Proof. exact: (fun A B C => @predict_spd F d ker n z A B post C). Qed.
Print Assumptions C108_state.

Theorem C108_function (F : rcfType) d (ker : sde_kernel F d) n z (post : ssm F d) :
  markov_kernel ker -> increasing n.+1 z -> ssm_nonsing n post ->
  forall o (H : nat -> 'M[F]_(o, d)) mean new i, - APPROX_INF F < new i -> new i < APPROX_INF F ->
  let C := (predict_f_full ker H mean n post z new i).2 in
  [/\ C^T = C, forall x, 0 <= qf C x, forall x, 0 < qf C x <-> (H i)^T *m x != 0 &
      forall r, (predict_f_diag ker H mean n post z new i).2 r 0 = C r r /\ (0 < C r r <-> row r (H i) != 0)].
Proof. exact: (fun A B C => @predict_f_spd F d ker n z A B post C). Qed.
Print Assumptions C108_function.

(* predict_log_density of the sparse variational model, Gaussian likelihood: the sum over the outputs of the log of
   the integral of p(y | f) against the normal density with the mean and the (positive) variance of predict_f *)
Theorem C108_variational d (ker : sde_kernel Rr d) : markov_kernel ker -> forall n z, increasing n.+1 z ->
  forall o (emission : R -> 'M[R]_(o, d)) mean q new (y : nat -> 'cV[R]_o) (s2 : R) i, ssm_nonsing n q ->
  - APPROX_INF Rr < new i -> new i < APPROX_INF Rr -> (forall r, row r (emission (new i)) != 0) -> 0 < s2 ->
  exists l : 'I_o -> R, svgp_predict_log_density ker emission mean (@ext_gaussian_pld_outputs o s2) n q z new y i = \sum_r l r /\
  forall r, let f := model_predict_f_diag ker emission mean n q z new i in 0 < f.2 r 0 /\
    integral (fun x => normal_density x (Num.sqrt s2) (y i r 0) * normal_density (f.1 r 0) (Num.sqrt (f.2 r 0)) x) (exp (l r)).
Proof. exact: svgp_pld. Qed.
Print Assumptions C108_variational.

(* the same for the models with sites on the function values: conjugate computation variational inference and power
   expectation propagation *)
Theorem C108_sites d (ker : sde_kernel Rr d) : markov_kernel ker -> forall n z, increasing n.+1 z ->
  forall emission : R -> 'M[R]_(1, d), k_mean0 ker = 0 -> (0 < n)%N -> forall new y (s2 : R) i,
  - APPROX_INF Rr < new i -> new i < APPROX_INF Rr -> emission (new i) != 0 -> 0 < s2 ->
  forall s mean, (forall j, (j <= n)%N -> st_nat2 s j <= 0) ->
  exists m v l, [/\ omap (fun f => f i) (cvi_posterior_predict_f ker emission n z mean s new) = Some (m, v),
    omap (fun p => p i) (cvi_predict_log_density ker emission n z mean (ext_gaussian_pld s2) s new y) = Some l, 0 < v &
    integral (fun x => normal_density x (Num.sqrt s2) (y i) * normal_density m (Num.sqrt v) x) (exp l)].
Proof. exact: cvi_pld. Qed.
Print Assumptions C108_sites.

(* and for their sparse versions, with sites on pairs of inducing states *)
Theorem C108_sparse_sites d (ker : sde_kernel Rr d) : markov_kernel ker -> forall n z, increasing n.+1 z ->
  forall emission : R -> 'M[R]_(1, d), k_mean0 ker = 0 -> (0 < n)%N -> forall new y (s2 : R) i,
  - APPROX_INF Rr < new i -> new i < APPROX_INF Rr -> emission (new i) != 0 -> 0 < s2 ->
  forall s, valid_pairs n s ->
  exists q l, let f := cvi_predict_f ker emission n q z new i in [/\ scvi_dist_q ker n z s = Some q,
    omap (fun p => p i) (scvi_predict_log_density ker emission n z (ext_gaussian_pld s2) s new y) = Some l,
    omap (fun p => p i) (spep_predict_log_density ker emission n z (ext_gaussian_pld s2) s new y) = Some l, 0 < f.2 &
    integral (fun x => normal_density x (Num.sqrt s2) (y i) * normal_density f.1 (Num.sqrt f.2) x) (exp l)].
Proof. exact: scvi_pld. Qed.
Print Assumptions C108_sparse_sites.

(* the hypotheses hold for a Matern 3/2 kernel, integer times, its emission, its prior and flat sites *)
Example C108_example (l v : R) n : 0 < l -> 0 < v ->
  let ke := matern32 1 0 l v 0 in let z i : R := i%:R in
  [/\ markov_kernel (to_sde ke), increasing (F := Rr) n.+1 z, exists2 q, kernel_ssm n (to_sde ke) z = Some q & ssm_nonsing n q,
      forall t r, row r (sk_H ke t) != 0 & valid_pairs n (scvi_initial_sites 2)].
Proof. exact: pld_example. Qed.
