(* Property theorems C49, C50, C51, C79, C80, C81: conjugate computation variational
   inference (CVIGaussianProcess and SparseCVIGaussianProcess).

   Vocabulary: S_Cvi.v ([sites_exponent], [pairs_exponent], the log of the product of the
   sites without its normalisation; [valid_pairs]; [projected], the conditional mean of f(t)
   given the inducing states; [gradients_of], partial derivatives); S_GP.v ([f_cov],
   [f_gram], [fx_gram], [x_gram]); S_Gauss.v ([gauss_logpdf]); S_Kalman.v ([cond_mean],
   [cond_cov]); S_SSM.v ([has_law]); S_Kernel.v ([markov_kernel], [increasing]).
   [ext_gaussian_ve1] s2 is the variational expectation of gpflow's Gaussian likelihood with
   variance s2. *)
From Coq Require Import Reals.
From Coquelicot Require Import Derive_2d.
From mathcomp Require Import all_ssreflect all_algebra.
From Verif Require Import RealStruct Nat Alg Lin Ent Spd Log M_Block M_SSM S_SSM P_SSM M_SSMLog S_Gauss M_Trans S_Trans
  S_Kalman M_Kalman M_Kernel S_Kernel M_Cond M_Emission M_Sort P_Sort M_Models S_GP P_Models3 M_Comb S_Comb M_KernelR
  M_Cvi S_Cvi P_Cvi P_Cvi2 P_Cvi3 P_Cvi4 P_SparseDense P_SPep9 P_Examples.
Set Implicit Arguments.
Unset Strict Implicit.
Unset Printing Implicit Defensive.
Import GRing.Theory Num.Theory Order.TTheory.
Local Open Scope ring_scope.

(* ---------- C50: the posterior of CVI ---------- *)

(* density of dist_q = density of the prior times the sites, up to normalisation *)
Theorem C50_posterior d (ker : sde_kernel Rr d) (emission : R -> 'M[R]_(1, d)) :
  markov_kernel ker -> forall n z, increasing n.+1 z -> (0 < n)%N -> forall s,
  (forall k, (k <= n)%N -> st_nat2 s k <= 0) -> k_mean0 ker = 0 ->
  exists q c, [/\ cvi_dist_q ker emission n z s = Some q, ssm_chol n q &
    forall m K x, has_law n.+1 n.+1 (ssm_path q) m K ->
    gauss_logpdf (flat n.+1 m) (dense n.+1 n.+1 K) (flat n.+1 x) =
    gauss_logpdf 0 (x_gram ker n.+1 z) (flat n.+1 x) + sites_exponent n (fun k => emission (z k)) s x + c].
Proof. exact: cvi_posterior_density. Qed.
Print Assumptions C50_posterior.

(* the Kalman filter with the sites gives the same distribution *)
Theorem C50_kalman d (ker : sde_kernel Rr d) (emission : R -> 'M[R]_(1, d)) :
  markov_kernel ker -> forall n z, increasing n.+1 z -> (0 < n)%N -> forall s,
  (forall k, (k <= n)%N -> st_nat2 s k < 0) -> k_mean0 ker = 0 ->
  exists q q', [/\ cvi_dist_q ker emission n z s = Some q, cvi_posterior_kalman ker emission n z s = Some q',
    ssm_nonsing n q, ssm_nonsing n q' &
    forall m K, has_law n.+1 n.+1 (ssm_path q) m K <-> has_law n.+1 n.+1 (ssm_path q') m K].
Proof. by move=> Hk n z Hz Hn s Hs; apply: (cvi_kalman_same emission Hk Hz Hn _ Hs) => k /Hs /ltW. Qed.
Print Assumptions C50_kalman.

(* a new model: the prior given observations 0 with noise variance 5e9 *)
Theorem C50_new_model d (ker : sde_kernel Rr d) (emission : R -> 'M[R]_(1, d)) : markov_kernel ker -> k_mean0 ker = 0 ->
  forall n z, increasing n.+1 z -> (0 < n)%N ->
  exists2 q, cvi_dist_q ker emission n z cvi_initial_sites = Some q &
    forall m K, has_law n.+1 n.+1 (ssm_path q) m K -> flat n.+1 m = 0 /\
      dense n.+1 n.+1 K = cond_cov (x_gram ker n.+1 z) (dense n.+1 n.+1 (rdiag (fun k => emission (z k)))) ((10 ^ 10)%N%:R / 2%:R)%:M.
Proof. exact: cvi_new_model. Qed.
Print Assumptions C50_new_model.

(* ---------- C79: a state mean of the kernel ---------- *)

(* dist_q and posterior_kalman agree exactly when the state mean of the kernel is zero *)
Theorem C79_state_mean d (ker : sde_kernel Rr d) (emission : R -> 'M[R]_(1, d)) :
  markov_kernel ker -> forall n z, increasing n.+1 z -> (0 < n)%N -> forall s,
  (forall k, (k <= n)%N -> st_nat2 s k < 0) ->
  exists q q', [/\ cvi_dist_q ker emission n z s = Some q, cvi_posterior_kalman ker emission n z s = Some q' &
    (exists m K, has_law n.+1 n.+1 (ssm_path q) m K /\ has_law n.+1 n.+1 (ssm_path q') m K) <-> k_mean0 ker = 0].
Proof. by move=> Hk n z Hz Hn s Hs; apply: (cvi_kalman_mean emission Hk Hz Hn _ Hs) => k /Hs /ltW. Qed.
Print Assumptions C79_state_mean.

Theorem C79_state_mean_refuted (l v : R) (mu : 'cV[R]_1) (emission : R -> 'M[R]_1) n z s : 0 < l -> 0 < v -> mu != 0 ->
  increasing (F := Rr) n.+1 z -> (0 < n)%N -> (forall k, (k <= n)%N -> st_nat2 s k < 0) ->
  let ker := to_sde (matern12 1 0 l v mu) in
  exists q q', [/\ cvi_dist_q ker emission n z s = Some q, cvi_posterior_kalman ker emission n z s = Some q' &
    forall m K, has_law n.+1 n.+1 (ssm_path q) m K -> ~ has_law n.+1 n.+1 (ssm_path q') m K].
Proof. exact: cvi_state_mean_refuted. Qed.
Print Assumptions C79_state_mean_refuted.

(* the prior of a Matern 1/2 kernel with mean m *)
Example C79_example (l v : R) (m : 'cV[R]_1) n : 0 < l -> 0 < v ->
  let ker := to_sde (matern12 1 0 l v m) in let z i : R := i%:R in
  [/\ markov_kernel ker, k_mean0 ker = m, increasing (F := Rr) n.+1 z & exists S, kernel_ssm n ker z = Some S].
Proof. exact: forget_example. Qed.

(* ---------- C49: one unit step for a Gaussian likelihood ---------- *)

(* from any sites, update_sites with learning rate 1 makes dist_q the exact posterior, and
   both lower bounds the log evidence *)
Theorem C49_unit_step d (ker : sde_kernel Rr d) (emission : R -> 'M[R]_(1, d)) :
  markov_kernel ker -> k_mean0 ker = 0 -> forall n z, increasing n.+1 z -> (0 < n)%N -> - APPROX_INF Rr < z 0%N ->
  forall gm gv (s2 : R) y, 0 < s2 -> gradients_of (ext_gaussian_ve1 s2) gm gv ->
  forall s, (forall k, (k <= n)%N -> st_nat2 s k <= 0) ->
  let Hd := dense n.+1 n.+1 (rdiag (fun k => emission (z k))) in
  let Y := flat n.+1 (fun k => const_mx (y k) : 'cV[R]_1) in
  let evidence := gauss_logpdf 0 (f_gram ker emission n.+1 n.+1 z z + s2%:M) Y in
  exists s' q, [/\ cvi_update_sites ker emission gm gv n z y 1 s = Some s', cvi_dist_q ker emission n z s' = Some q,
    forall m K, has_law n.+1 n.+1 (ssm_path q) m K ->
      flat n.+1 m = cond_mean 0 (x_gram ker n.+1 z) Hd s2%:M Y /\
      dense n.+1 n.+1 K = cond_cov (x_gram ker n.+1 z) Hd s2%:M,
    cvi_elbo ker emission n z s' = Some evidence &
    cvi_classic_elbo ker emission n z y (ext_gaussian_ve1 s2) s' = Some evidence].
Proof. exact: cvi_unit_step. Qed.
Print Assumptions C49_unit_step.

(* and predict_f between the first and the last data point that of exact regression *)
Theorem C49_predict d (ker : sde_kernel Rr d) (emission : R -> 'M[R]_(1, d)) :
  markov_kernel ker -> k_mean0 ker = 0 -> forall n z, increasing n.+1 z -> (0 < n)%N -> - APPROX_INF Rr < z 0%N ->
  forall gm gv (s2 : R) y, 0 < s2 -> gradients_of (ext_gaussian_ve1 s2) gm gv ->
  forall s mean new i, (forall k, (k <= n)%N -> st_nat2 s k <= 0) -> z 0%N <= new i -> new i <= z n ->
  let Kt := brow n.+1 (fun j => f_cov ker emission (new i) (z j)) in
  let W := invmx (f_gram ker emission n.+1 n.+1 z z + s2%:M) in
  let Y := flat n.+1 (fun k => const_mx (y k) : 'cV[R]_1) in
  omap (fun f => f i) (obind (fun s' => cvi_posterior_predict_f ker emission n z mean s' new)
    (cvi_update_sites ker emission gm gv n z y 1 s)) =
  Some ((Kt *m W *m Y) 0 0, (f_cov ker emission (new i) (new i) - Kt *m W *m Kt^T) 0 0).
Proof. exact: cvi_unit_predict. Qed.
Print Assumptions C49_predict.

(* r updates with learning rate lr *)
Theorem C49_rate d (ker : sde_kernel Rr d) (emission : R -> 'M[R]_(1, d)) :
  markov_kernel ker -> forall n z, increasing n.+1 z -> (0 < n)%N ->
  forall gm gv (s2 : R) y, 0 < s2 -> gradients_of (ext_gaussian_ve1 s2) gm gv -> k_mean0 ker = 0 ->
  forall lr s r, 0 <= lr <= 1 -> (forall k, (k <= n)%N -> st_nat2 s k <= 0) ->
  exists s', [/\ iter r (obind (cvi_update_sites ker emission gm gv n z y lr)) (Some s) = Some s',
    forall k, st_nat1 s' k - y k / s2 = (1 - lr) ^+ r * (st_nat1 s k - y k / s2),
    forall k, st_nat2 s' k - - (2%:R * s2)^-1 = (1 - lr) ^+ r * (st_nat2 s k - - (2%:R * s2)^-1) &
    forall k, (k <= n)%N -> st_nat2 s' k <= 0].
Proof. exact: cvi_iterates. Qed.
Print Assumptions C49_rate.

(* the hypotheses hold for a Matern 3/2 kernel on integer times, the derivatives of the
   Gaussian variational expectation, and the initial sites of the library *)
Example C49_example (l v s2 : R) n : 0 < l -> 0 < v -> 0 < s2 ->
  let k := matern32 1 0 l v 0 in let z i : R := i%:R in
  [/\ markov_kernel (to_sde k), k_mean0 (to_sde k) = 0, increasing (F := Rr) n.+1 z, - APPROX_INF Rr < z 0%N &
      gradients_of (ext_gaussian_ve1 s2) (fun mu _ y => (y - mu) / s2) (fun _ _ _ => - (2%:R * s2)^-1) /\
      (forall k, st_nat2 cvi_initial_sites k < 0)].
Proof. exact: cvi_example. Qed.

(* ---------- C80: the mean function ---------- *)

(* after convergence, the predictions at the data points are those of regression with the
   same mean function only if that function is zero at all data points *)
Theorem C80_mean_function d (ker : sde_kernel Rr d) (emission : R -> 'M[R]_(1, d)) :
  markov_kernel ker -> k_mean0 ker = 0 -> forall n z, increasing n.+1 z -> (0 < n)%N -> - APPROX_INF Rr < z 0%N ->
  forall (s2 : R) y, 0 < s2 -> forall s mean,
  (forall k, (k <= n)%N -> st_nat1 s k = y k / s2) -> (forall k, (k <= n)%N -> st_nat2 s k = - (2%:R * s2)^-1) ->
  (forall i, (i <= n)%N ->
    omap (fun f => (f i).1) (cvi_posterior_predict_f ker emission n z mean s z) =
    omap (fun f : nat -> 'cV[R]_1 * 'M[R]_1 => (f i).1 0 0)
      (gpr_predict_f ker emission (fun t => const_mx (mean t)) n z (fun k => const_mx (y k)) (Num.sqrt s2)%:M z)) <->
  (forall i, (i <= n)%N -> mean (z i) = 0).
Proof. exact: cvi_mean_ignored. Qed.
Print Assumptions C80_mean_function.

Theorem C80_mean_function_refuted (l v : R) n z (s2 : R) y mean s j : 0 < l -> 0 < v -> 0 < s2 ->
  increasing (F := Rr) n.+1 z -> (0 < n)%N -> - APPROX_INF Rr < z 0%N -> (j <= n)%N -> mean (z j) != 0 ->
  (forall k, (k <= n)%N -> st_nat1 s k = y k / s2) -> (forall k, (k <= n)%N -> st_nat2 s k = - (2%:R * s2)^-1) ->
  let k := matern32 1 0 l v 0 in
  exists2 i, (i <= n)%N &
    omap (fun f => (f i).1) (cvi_posterior_predict_f (to_sde k) (sk_H k) n z mean s z) <>
    omap (fun f : nat -> 'cV[R]_1 * 'M[R]_1 => (f i).1 0 0)
      (gpr_predict_f (to_sde k) (sk_H k) (fun t => const_mx (mean t)) n z (fun k => const_mx (y k)) (Num.sqrt s2)%:M z).
Proof. exact: cvi_mean_function_refuted. Qed.
Print Assumptions C80_mean_function_refuted.

(* ---------- C81: gradients in the expectation parameters ---------- *)

(* ve is differentiable at (mu, v) with partial derivatives g1, g2; the expectation
   parameters are eta1 = mu, eta2 = mu^2 + v, so that v = eta2 - eta1^2 *)
Theorem C81_expectation_gradient (ve : R -> R -> R) (mu v g1 g2 : R) : differentiable_pt_lim ve mu v g1 g2 ->
  let r := gradient_mean_var_to_expectation mu (g1, g2) in
  derivable_pt_lim (fun eta1 => ve eta1 (mu ^+ 2 + v - eta1 ^+ 2)) mu r.1 /\
  derivable_pt_lim (fun eta2 => ve mu (eta2 - mu ^+ 2)) (mu ^+ 2 + v) r.2.
Proof. exact: cvi_chain_rule. Qed.
Print Assumptions C81_expectation_gradient.

Example C81_example : differentiable_pt_lim (fun m v => (m * v)%Re) 1 2%:R 2%:R 1.
Proof. exact: chain_rule_example. Qed.

(* ---------- C51: sparse CVI ---------- *)

(* density of dist_q = density of the prior of the inducing states times the pair sites *)
Theorem C51_posterior d (ker : sde_kernel Rr d) : markov_kernel ker -> k_mean0 ker = 0 ->
  forall n z, increasing n.+1 z -> (0 < n)%N -> forall s, valid_pairs n s ->
  exists q c, [/\ scvi_dist_q ker n z s = Some q, ssm_chol n q &
    forall m K u, has_law n.+1 n.+1 (ssm_path q) m K ->
    gauss_logpdf (flat n.+1 m) (dense n.+1 n.+1 K) (flat n.+1 u) =
    gauss_logpdf 0 (x_gram ker n.+1 z) (flat n.+1 u) + pairs_exponent n s u + c].
Proof. exact: scvi_posterior. Qed.
Print Assumptions C51_posterior.

(* a new model: dist_q is the prior of the inducing states *)
Theorem C51_new_model d (ker : sde_kernel Rr d) : markov_kernel ker -> k_mean0 ker = 0 ->
  forall n z, increasing n.+1 z -> (0 < n)%N ->
  exists q, [/\ scvi_dist_q ker n z (scvi_initial_sites d) = Some q, ssm_nonsing n q &
    forall m K, has_law n.+1 n.+1 (ssm_path q) m K -> flat n.+1 m = 0 /\ dense n.+1 n.+1 K = x_gram ker n.+1 z].
Proof. exact: scvi_new_model. Qed.
Print Assumptions C51_new_model.

(* update_sites, for any likelihood: every data point is counted once, through the
   conditional mean of f at its time given all inducing states *)
Theorem C51_update d (ker : sde_kernel Rr d) (emission : R -> 'M[R]_(1, d)) : markov_kernel ker -> k_mean0 ker = 0 ->
  forall n z, increasing n.+1 z -> (0 < n)%N -> forall N (X : nat -> R) gm gv (Y : nat -> R) (lr : R), 0 <= lr <= 1 ->
  (forall mu v y, gv mu v y <= 0) ->
  forall s, valid_pairs n s -> (forall k, (k < N)%N -> covered (F := Rr) n z (X k)) ->
  exists q s', [/\ scvi_dist_q ker n z s = Some q, scvi_update_sites ker emission gm gv n z lr N X Y s = Some s',
    valid_pairs n s' &
    let g k := cvi_gradients gm gv (cvi_predict_f ker emission n q z X k) (Y k) in
    forall u, pairs_exponent n s' u = (1 - lr) * pairs_exponent n s u +
      lr * \sum_(k < N) (let f := projected ker emission n z (X k) u in (g k).1 * f + (g k).2 * f ^+ 2)].
Proof. exact: scvi_update. Qed.
Print Assumptions C51_update.

(* Gaussian likelihood, learning rate 1, from any sites: dist_q is the optimal Gaussian for the
   inducing states, and the lower bound the collapsed bound *)
Theorem C51_unit_step d (ker : sde_kernel Rr d) (emission : R -> 'M[R]_(1, d)) : markov_kernel ker -> k_mean0 ker = 0 ->
  forall n z, increasing n.+1 z -> (0 < n)%N -> - APPROX_INF Rr < z 0%N ->
  forall N (X : nat -> R) gm gv (Y : nat -> R) (s2 : R), 0 < s2 -> gradients_of (ext_gaussian_ve1 s2) gm gv ->
  (forall k, (k < N)%N -> z 0%N <= X k <= z n) -> forall s, valid_pairs n s ->
  let Kzz := x_gram ker n.+1 z in let Kfz := fx_gram ker emission N n.+1 X z in
  let Kff := f_gram ker emission N N X X in let G := Kfz *m invmx Kzz in let Qff := G *m Kfz^T in
  let Yv := flat N (fun k => const_mx (Y k) : 'cV[R]_1) in
  exists s' q, [/\ scvi_update_sites ker emission gm gv n z 1 N X Y s = Some s', scvi_dist_q ker n z s' = Some q,
    forall m K, has_law n.+1 n.+1 (ssm_path q) m K ->
      flat n.+1 m = cond_mean 0 Kzz G s2%:M Yv /\ dense n.+1 n.+1 K = cond_cov Kzz G s2%:M &
    scvi_classic_elbo ker emission n z (ext_gaussian_ve1 s2) N X Y s' =
    Some (gauss_logpdf 0 (Qff + s2%:M) Yv - (2%:R * s2)^-1 * \tr (Kff - Qff))].
Proof. exact: scvi_unit_step. Qed.
Print Assumptions C51_unit_step.

(* r updates with learning rate lr *)
Theorem C51_rate d (ker : sde_kernel Rr d) (emission : R -> 'M[R]_(1, d)) : markov_kernel ker -> k_mean0 ker = 0 ->
  forall n z, increasing n.+1 z -> (0 < n)%N ->
  forall N (X : nat -> R) gm gv (Y : nat -> R) (s2 : R), 0 < s2 -> gradients_of (ext_gaussian_ve1 s2) gm gv ->
  (forall k, (k < N)%N -> covered (F := Rr) n z (X k)) -> forall lr s r, 0 <= lr <= 1 -> valid_pairs n s ->
  let target u := \sum_(k < N) (let f := projected ker emission n z (X k) u in
    Y k / s2 * f + - (2%:R * s2)^-1 * f ^+ 2) in
  exists s', [/\ iter r (obind (scvi_update_sites ker emission gm gv n z lr N X Y)) (Some s) = Some s', valid_pairs n s' &
    forall u, pairs_exponent n s' u - target u = (1 - lr) ^+ r * (pairs_exponent n s u - target u)].
Proof. exact: scvi_iterates. Qed.
Print Assumptions C51_rate.

(* the initial sites of the library, and data at and between the inducing points *)
Example C51_example d n (X : nat -> R) N : (forall k, (k < N)%N -> 0 <= X k <= n%:R) ->
  valid_pairs n (scvi_initial_sites d) /\ forall k, (k < N)%N -> covered (F := Rr) n (fun i => i%:R) (X k).
Proof. exact: scvi_example. Qed.

(* ---------- C107: inducing points at the data points ---------- *)

(* sparse CVI with inducing points at the data points is CVI: from sites with the same exponent,
   after any number of updates with any likelihood, the same distribution, predictions and
   lower bound *)
Theorem C107_sparse_cvi d (ker : sde_kernel Rr d) (emission : R -> 'M[R]_(1, d)) : markov_kernel ker -> k_mean0 ker = 0 ->
  forall n z, increasing n.+1 z -> (0 < n)%N -> - APPROX_INF Rr < z 0%N ->
  forall (gm gv : R -> R -> R -> R) (Y : nat -> R) (lr : R) r (s : sites Rr) (p : pair_sites d) (ve : R -> R -> R -> R) mean,
  0 <= lr <= 1 -> (forall mu v y, gv mu v y <= 0) ->
  (forall k, (k <= n)%N -> st_nat2 s k <= 0) -> valid_pairs n p ->
  (forall u, pairs_exponent n p u = sites_exponent n (fun k => emission (z k)) s u) ->
  exists s' p' q q',
  [/\ iter r (obind (cvi_update_sites ker emission gm gv n z Y lr)) (Some s) = Some s' /\
      iter r (obind (scvi_update_sites ker emission gm gv n z lr n.+1 z Y)) (Some p) = Some p',
      cvi_dist_q ker emission n z s' = Some q /\ scvi_dist_q ker n z p' = Some q',
      forall m K, has_law n.+1 n.+1 (ssm_path q) m K <-> has_law n.+1 n.+1 (ssm_path q') m K,
      forall new i, z 0%N <= new i <= z n ->
        omap (fun f => f i) (cvi_posterior_predict_f ker emission n z mean s' new) =
        Some (cvi_predict_f ker emission n q' z new i) &
      cvi_classic_elbo ker emission n z Y ve s' = scvi_classic_elbo ker emission n z ve n.+1 z Y p'].
Proof. exact: sparse_dense. Qed.
Print Assumptions C107_sparse_cvi.

(* all sites of CVI have such pair sites *)
Theorem C107_matching_sites d (ker : sde_kernel Rr d) (emission : R -> 'M[R]_(1, d)) : markov_kernel ker ->
  forall n z, increasing n.+1 z -> - APPROX_INF Rr < z 0%N ->
  forall s : sites Rr, (forall k, (k <= n)%N -> st_nat2 s k <= 0) -> exists2 p, valid_pairs n p &
  forall u, pairs_exponent n p u = sites_exponent n (fun k => emission (z k)) s u.
Proof. exact: matching_pairs. Qed.
Print Assumptions C107_matching_sites.

(* the sites of a Gaussian likelihood and pair sites with the same factors *)
Example C107_example (l v s2 : R) n (y : nat -> R) : 0 < l -> 0 < v -> 0 < s2 ->
  let k := matern32 1 0 l v 0 in let z i : R := i%:R in
  let s := Sites (fun i => y i / s2) (fun _ => - (2%:R * s2)^-1) in
  [/\ markov_kernel (to_sde k), k_mean0 (to_sde k) = 0, increasing (F := Rr) n.+1 z, - APPROX_INF Rr < z 0%N &
   [/\ forall i, st_nat2 s i < 0, forall mu v y : R, (fun _ _ _ => - (2%:R * s2)^-1) mu v y <= 0 &
       exists2 p, valid_pairs n p & forall u, pairs_exponent n p u = sites_exponent n (fun k' => sk_H k (z k')) s u]].
Proof. exact: sparse_dense_example. Qed.

(* the bounds of the variational models coincide for every variational distribution *)
Theorem C107_variational o d (ker : sde_kernel Rr d) (emission : R -> 'M[R]_(o, d)) mean ve n z Y (q : ssm Rr d) :
  svgp_elbo ker emission mean ve n z None n.+1 z Y q = vgp_elbo ker emission mean ve n z Y q.
Proof. exact: svgp_vgp. Qed.
Print Assumptions C107_variational.
