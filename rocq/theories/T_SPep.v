(* Property theorems C98, C99, C100, C101: sparse power expectation propagation.

   Vocabulary: S_SPep.v ([below], the interval of a time; [share], the number of data points of
   an interval; [scale_pair], a site raised to a power; [site_exponent]; [first_site];
   [unexplained], the variance of f(t) given the inducing states; [interval_mean]); S_Cvi.v
   ([pairs_exponent], [valid_pairs], [projected]); S_GP.v ([f_gram], [fx_gram], [x_gram]);
   S_Gauss.v ([gauss_logpdf]); S_Kalman.v ([cond_mean], [cond_cov]); S_SSM.v ([has_law]);
   S_Kernel.v ([markov_kernel], [increasing]).

   In all theorems the data points are between the first and the last inducing point and the
   sites satisfy [valid_pairs] and [first_site]; both hold for the sites of a new model and
   every update keeps them. *)
From Coq Require Import Reals.
From mathcomp Require Import all_ssreflect all_algebra.
From Verif Require Import RealStruct Nat Alg Lin Ent Spd Log M_Block M_SSM S_SSM P_SSM M_SSMLog S_Gauss M_Trans S_Trans
  S_Kalman M_Kalman M_Kernel S_Kernel M_Cond M_Emission M_Models S_GP M_Comb S_Comb M_KernelR S_KernelR P_KernelR2
  M_Cvi S_Cvi M_Pep S_Pep M_SPep S_SPep P_SPep2 P_SPep3 P_SPep6 P_SPep7 P_SPep8 P_SPep9 P_Cases.
Set Implicit Arguments.
Unset Strict Implicit.
Unset Printing Implicit Defensive.
Import GRing.Theory Num.Theory Order.TTheory.
Local Open Scope ring_scope.

(* a Matern 1/2 process with the inducing points 0, 1, ..., n and the sites of a new model
   satisfies the hypotheses of all theorems of this file *)
Example C98_nonvacuous (l v : R) n : 0 < l -> 0 < v -> v < (10 ^ 10)%N%:R / 2%:R ->
  let k := matern12 1 0 l v 0 in let z i : R := i%:R in
  [/\ markov_kernel (to_sde k), k_mean0 (to_sde k) = 0, increasing (F := Rr) n.+1 z, - APPROX_INF Rr < z 0%N &
      valid_pairs n (sp_sites (spep_initial 1)) /\ first_site (to_sde k) (sp_sites (spep_initial 1))].
Proof. exact: spep_example. Qed.

(* ---------- C98: the cavity ---------- *)

(* the cavity at data point k is the prediction at its time of the model in which the site of
   its interval is raised to the power 1 - alpha / (number of data points of the interval) *)
Theorem C98_cavity d (ker : sde_kernel Rr d) (emission : R -> 'M[R]_(1, d)) :
  markov_kernel ker -> k_mean0 ker = 0 -> forall n z, increasing n.+1 z -> (0 < n)%N -> - APPROX_INF Rr < z 0%N ->
  forall N X k, (k < N)%N -> z 0%N <= X k <= z n -> forall (alpha : R) s, 0 <= alpha <= 1 -> valid_pairs n s -> first_site ker s ->
  let m := below n z (X k) in
  exists f q', [/\ spep_cavity ker emission n z alpha N X s = Some f,
    spep_dist_q ker n z (scale_pair s m (1 - alpha * (share n z N X m)%:R^-1)) = Some q', ssm_nonsing n q' &
    f k = cvi_predict_f ker emission n q' z X k].
Proof. exact: spep_cavity_thm. Qed.
Print Assumptions C98_cavity.

(* ---------- C99: the update ---------- *)

(* every likelihood whose log expected density is concave enough: update_sites mixes each site
   with the sum over the data points of its interval of the quadratic of the corrected
   gradients at the cavity, in the predicted mean E[f | u] at the data point *)
Theorem C99_update d (ker : sde_kernel Rr d) (emission : R -> 'M[R]_(1, d)) :
  markov_kernel ker -> k_mean0 ker = 0 -> forall n z, increasing n.+1 z -> (0 < n)%N -> - APPROX_INF Rr < z 0%N ->
  forall N X, (forall k, (k < N)%N -> z 0%N <= X k <= z n) ->
  forall (grads : R -> R -> R -> R -> R * R) (alpha lr : R) (Y : nat -> R), 0 <= alpha <= 1 -> 0 <= lr <= 1 ->
  (forall mu v y, 0 <= v -> let g := grads 1 mu v y in (gradient_correction mu v g.1 g.2).2 <= 0) ->
  forall s, valid_pairs n s -> first_site ker s -> exists f s',
  [/\ spep_cavity ker emission n z alpha N X s = Some f, forall k, (k < N)%N -> 0 <= (f k).2,
   spep_new_sites ker emission grads n z alpha lr N X Y s = Some s', valid_pairs n s' /\ first_site ker s' &
   let g k := let g := grads 1 (f k).1 (f k).2 (Y k) in gradient_correction (f k).1 (f k).2 g.1 g.2 in
   forall u, (pairs_exponent n s' u = (1 - lr * alpha) * pairs_exponent n s u +
     lr * alpha * \sum_(k < N) (let p := projected ker emission n z (X k) u in (g k).1 * p + (g k).2 * p ^+ 2)) /\
   forall m, (m <= n.+1)%N -> site_exponent n s' u m = (1 - lr * alpha) * site_exponent n s u m +
     lr * alpha * \sum_(k < N | below n z (X k) == m) (let p := projected ker emission n z (X k) u in (g k).1 * p + (g k).2 * p ^+ 2)].
Proof. exact: spep_update. Qed.
Print Assumptions C99_update.

(* the normal likelihood satisfies the hypothesis on the gradients *)
Example C99_nonvacuous (s2 : R) : 0 < s2 -> forall mu v y, 0 <= v ->
  let g := pep_gaussian_grads s2 1 mu v y in (gradient_correction mu v g.1 g.2).2 <= 0.
Proof. exact: spep_grads_example. Qed.

(* a new model: every inducing state is observed to be 0 with noise variance 2.5e9 *)
Theorem C99_new_model d (ker : sde_kernel Rr d) : markov_kernel ker -> k_mean0 ker = 0 ->
  forall n z, increasing n.+1 z -> (0 < n)%N ->
  exists q, [/\ spep_dist_q ker n z (sp_sites (spep_initial d)) = Some q, ssm_nonsing n q,
    forall m K, has_law n.+1 n.+1 (ssm_path q) m K -> flat n.+1 m = 0 /\
      dense n.+1 n.+1 K = cond_cov (x_gram ker n.+1 z) 1%:M ((10 ^ 10)%N%:R / 4%:R)%:M &
    forall m, sp_log_norm (spep_initial d) m = 0].
Proof. exact: spep_new_model. Qed.
Print Assumptions C99_new_model.

(* the stored log normaliser of an interval moves, by the factor lr alpha, to the one the new
   sites give: the sum over its data points of the log expected density under the cavity
   (led) and the difference of the log normalisers (C16_normalizer) of the posterior with
   and without the share of the data point, divided by alpha *)
Theorem C99_log_norm d (ker : sde_kernel Rr d) (emission : R -> 'M[R]_(1, d)) :
  markov_kernel ker -> k_mean0 ker = 0 -> forall n z, increasing n.+1 z -> (0 < n)%N -> - APPROX_INF Rr < z 0%N ->
  forall N X, (forall k, (k < N)%N -> z 0%N <= X k <= z n) ->
  forall (led : R -> R -> R -> R -> R) (grads : R -> R -> R -> R -> R * R) (alpha lr : R) (Y : nat -> R), 0 < alpha <= 1 -> 0 <= lr <= 1 ->
  (forall mu v y, 0 <= v -> let g := grads 1 mu v y in (gradient_correction mu v g.1 g.2).2 <= 0) ->
  forall st, valid_pairs n (sp_sites st) -> first_site ker (sp_sites st) -> exists st' f q,
  [/\ spep_update_sites ker emission led grads n z alpha lr N X Y st = Some st',
      spep_new_sites ker emission grads n z alpha lr N X Y (sp_sites st) = Some (sp_sites st'),
      spep_cavity ker emission n z alpha N X (sp_sites st') = Some f, spep_dist_q ker n z (sp_sites st') = Some q &
      forall m, (m <= n.+1)%N ->
      exists2 qc, spep_dist_q ker n z (scale_pair (sp_sites st') m (1 - alpha * (share n z N X m)%:R^-1)) = Some qc &
      sp_log_norm st' m = (1 - lr * alpha) * sp_log_norm st m + lr * \sum_(k < N | below n z (X k) == m)
        (led alpha (f k).1 (f k).2 (Y k) + (ssm_normalizer n qc - ssm_normalizer n q))].
Proof. exact (fun H1 H2 n z H3 H4 H5 => @spep_log_norm d ker H1 H2 n z H3 H4 emission H5). Qed.
Print Assumptions C99_log_norm.

(* normal likelihood: after r updates the log of the product of the sites differs from
   sum_k (Y_k p_k / s2 - p_k^2 / (2 s2)), p_k = E[f(X_k) | u], by (1 - lr alpha)^r times the
   initial difference; the target does not depend on alpha *)
Theorem C99_rate d (ker : sde_kernel Rr d) (emission : R -> 'M[R]_(1, d)) :
  markov_kernel ker -> k_mean0 ker = 0 -> forall n z, increasing n.+1 z -> (0 < n)%N ->
  forall N X, - APPROX_INF Rr < z 0%N -> (forall k, (k < N)%N -> z 0%N <= X k <= z n) ->
  forall (s2 : R) (Y : nat -> R), 0 < s2 -> forall (alpha lr : R) st r, 0 <= alpha <= 1 -> 0 <= lr <= 1 ->
  valid_pairs n (sp_sites st) -> first_site ker (sp_sites st) ->
  let target u := \sum_(k < N) (let p := projected ker emission n z (X k) u in Y k / s2 * p + - (2%:R * s2)^-1 * p ^+ 2) in
  exists st', [/\ iter r (obind (spep_update_sites ker emission (pep_gaussian_led s2) (pep_gaussian_grads s2) n z alpha lr N X Y)) (Some st) = Some st',
   valid_pairs n (sp_sites st'), first_site ker (sp_sites st') &
   forall u, pairs_exponent n (sp_sites st') u - target u = (1 - lr * alpha) ^+ r * (pairs_exponent n (sp_sites st) u - target u)].
Proof. exact: spep_iterates. Qed.
Print Assumptions C99_rate.

(* normal likelihood, power and learning rate one: one update from any sites makes dist_q the
   posterior of the inducing states given Y = E[f | u] + noise and the ELBO the collapsed
   bound, as in the sparse variational model *)
Theorem C99_unit_step d (ker : sde_kernel Rr d) (emission : R -> 'M[R]_(1, d)) :
  markov_kernel ker -> k_mean0 ker = 0 -> forall n z, increasing n.+1 z -> (0 < n)%N ->
  forall N X, - APPROX_INF Rr < z 0%N -> (forall k, (k < N)%N -> z 0%N <= X k <= z n) ->
  forall (s2 : R) (Y : nat -> R), 0 < s2 -> forall st, valid_pairs n (sp_sites st) -> first_site ker (sp_sites st) ->
  let Kzz := x_gram ker n.+1 z in let Kfz := fx_gram ker emission N n.+1 X z in
  let Kff := f_gram ker emission N N X X in let G := Kfz *m invmx Kzz in let Qff := G *m Kfz^T in
  let Yv := flat N (fun k => const_mx (Y k) : 'cV[R]_1) in
  exists st' q, [/\ spep_update_sites ker emission (pep_gaussian_led s2) (pep_gaussian_grads s2) n z 1 1 N X Y st = Some st',
    spep_dist_q ker n z (sp_sites st') = Some q,
    forall m K, has_law n.+1 n.+1 (ssm_path q) m K ->
      flat n.+1 m = cond_mean 0 Kzz G s2%:M Yv /\ dense n.+1 n.+1 K = cond_cov Kzz G s2%:M &
    spep_classic_elbo ker emission n z N X Y (ext_gaussian_ve1 s2) (sp_sites st') =
    Some (gauss_logpdf 0 (Qff + s2%:M) Yv - (2%:R * s2)^-1 * \tr (Kff - Qff))].
Proof. exact: spep_unit. Qed.
Print Assumptions C99_unit_step.

(* ---------- C100: data at inducing points ---------- *)

(* one update gives the exact posterior *)
Theorem C100_posterior d (ker : sde_kernel Rr d) (emission : R -> 'M[R]_(1, d)) :
  markov_kernel ker -> k_mean0 ker = 0 -> forall n z, increasing n.+1 z -> (0 < n)%N -> - APPROX_INF Rr < z 0%N ->
  forall N X Y (s2 : R), 0 < s2 -> (forall k, (k < N)%N -> exists2 i, (i <= n)%N & X k = z i) ->
  forall st, valid_pairs n (sp_sites st) -> first_site ker (sp_sites st) ->
  let Kzz := x_gram ker n.+1 z in let Kfz := fx_gram ker emission N n.+1 X z in
  let Kff := f_gram ker emission N N X X in let Yv := flat N (fun k => const_mx (Y k) : 'cV[R]_1) in
  exists st' q, [/\ spep_update_sites ker emission (pep_gaussian_led s2) (pep_gaussian_grads s2) n z 1 1 N X Y st = Some st',
    spep_dist_q ker n z (sp_sites st') = Some q &
    forall m K, has_law n.+1 n.+1 (ssm_path q) m K ->
      flat n.+1 m = Kfz^T *m invmx (Kff + s2%:M) *m Yv /\ dense n.+1 n.+1 K = Kzz - Kfz^T *m invmx (Kff + s2%:M) *m Kfz].
Proof. exact: posterior_inducing. Qed.
Print Assumptions C100_posterior.

(* the energy after that update: the log evidence plus a non-negative term that vanishes when
   data points at the same inducing point have the same observation; v_k is the variance of
   the cavity *)
Theorem C100_energy d (ker : sde_kernel Rr d) (emission : R -> 'M[R]_(1, d)) :
  markov_kernel ker -> k_mean0 ker = 0 -> forall n z, increasing n.+1 z -> (0 < n)%N -> - APPROX_INF Rr < z 0%N ->
  forall N X Y (s2 : R), (forall k, (k < N)%N -> z 0%N <= X k <= z n) -> 0 < s2 ->
  forall st, valid_pairs n (sp_sites st) -> first_site ker (sp_sites st) ->
  (forall k, (k < N)%N -> exists2 i, (i <= n)%N & X k = z i) ->
  let Kff := f_gram ker emission N N X X in let Yv := flat N (fun k => const_mx (Y k) : 'cV[R]_1) in
  exists st' f, [/\ spep_update_sites ker emission (pep_gaussian_led s2) (pep_gaussian_grads s2) n z 1 1 N X Y st = Some st',
  spep_cavity ker emission n z 1 N X (sp_sites st') = Some f,
  forall k, (k < N)%N -> 0 <= (f k).2 /\ (emission (X k) != 0 -> 0 < (f k).2) &
  spep_energy ker emission (pep_gaussian_led s2) n z 1 N X Y (sp_sites st') = Some (gauss_logpdf 0 (Kff + s2%:M) Yv +
    \sum_(k < N) 2%:R^-1 * (Y k - interval_mean n z N X Y (X k)) ^+ 2 * (s2^-1 - (s2 + (f k).2)^-1))].
Proof. exact: energy_inducing. Qed.
Print Assumptions C100_energy.

(* so the energy is the evidence when no inducing point has two data points, and is larger
   than the evidence as soon as two data points have the same time and different observations *)
Theorem C100_refuted d (ker : sde_kernel Rr d) (emission : R -> 'M[R]_(1, d)) :
  markov_kernel ker -> k_mean0 ker = 0 -> forall n z, increasing n.+1 z -> (0 < n)%N -> - APPROX_INF Rr < z 0%N ->
  forall N X Y (s2 : R), 0 < s2 -> (forall k, (k < N)%N -> exists2 i, (i <= n)%N & X k = z i) ->
  forall st, valid_pairs n (sp_sites st) -> first_site ker (sp_sites st) ->
  let Kff := f_gram ker emission N N X X in let Yv := flat N (fun k => const_mx (Y k) : 'cV[R]_1) in
  exists st' e, [/\ spep_update_sites ker emission (pep_gaussian_led s2) (pep_gaussian_grads s2) n z 1 1 N X Y st = Some st',
  spep_energy ker emission (pep_gaussian_led s2) n z 1 N X Y (sp_sites st') = Some e,
  gauss_logpdf 0 (Kff + s2%:M) Yv <= e,
  (forall m, (share n z N X m <= 1)%N) -> e = gauss_logpdf 0 (Kff + s2%:M) Yv &
  forall j k, (j < N)%N -> (k < N)%N -> X j = X k -> Y j <> Y k -> emission (X k) != 0 ->
    gauss_logpdf 0 (Kff + s2%:M) Yv < e].
Proof. exact: energy_evidence. Qed.
Print Assumptions C100_refuted.

(* ---------- C101: data between inducing points ---------- *)

(* one data point in each interval at most: the energy adds, to the evidence of the model with
   covariance Qff + s2, the difference of the log densities with and without the variance of
   f(X_k) that the inducing states do not explain *)
Theorem C101_energy d (ker : sde_kernel Rr d) (emission : R -> 'M[R]_(1, d)) :
  markov_kernel ker -> k_mean0 ker = 0 -> forall n z, increasing n.+1 z -> (0 < n)%N -> - APPROX_INF Rr < z 0%N ->
  forall N X Y (s2 : R), (forall k, (k < N)%N -> z 0%N <= X k <= z n) -> 0 < s2 ->
  forall st, valid_pairs n (sp_sites st) -> first_site ker (sp_sites st) ->
  let Kzz := x_gram ker n.+1 z in let Kfz := fx_gram ker emission N n.+1 X z in
  let Qff := Kfz *m invmx Kzz *m Kfz^T in let Yv := flat N (fun k => const_mx (Y k) : 'cV[R]_1) in
  (forall m, (share n z N X m <= 1)%N) -> exists st' f,
  [/\ spep_update_sites ker emission (pep_gaussian_led s2) (pep_gaussian_grads s2) n z 1 1 N X Y st = Some st',
  spep_cavity ker emission n z 1 N X (sp_sites st') = Some f, forall k, (k < N)%N -> unexplained ker emission n z (X k) <= (f k).2 &
  spep_energy ker emission (pep_gaussian_led s2) n z 1 N X Y (sp_sites st') = Some (gauss_logpdf 0 (Qff + s2%:M) Yv +
    \sum_(k < N) (ext_logdensity_gaussian (Y k) (f k).1 (s2 + (f k).2) -
      ext_logdensity_gaussian (Y k) (f k).1 (s2 + (f k).2 - unexplained ker emission n z (X k))))].
Proof. exact: energy_single. Qed.
Print Assumptions C101_energy.

(* one data point: the update gives the exact posterior covariance of the inducing states if
   and only if the inducing states determine f there or are independent of it *)
Theorem C101_single d (ker : sde_kernel Rr d) (emission : R -> 'M[R]_(1, d)) :
  markov_kernel ker -> k_mean0 ker = 0 -> forall n z, increasing n.+1 z -> (0 < n)%N -> - APPROX_INF Rr < z 0%N ->
  forall t (y s2 : R), 0 < s2 -> z 0%N <= t <= z n -> let X (_ : nat) := t in
  forall st, valid_pairs n (sp_sites st) -> first_site ker (sp_sites st) ->
  let Kzz := x_gram ker n.+1 z in let Kfz := fx_gram ker emission 1 n.+1 X z in let Kff := f_gram ker emission 1 1 X X in
  exists st' q, [/\ spep_update_sites ker emission (pep_gaussian_led s2) (pep_gaussian_grads s2) n z 1 1 1 X (fun _ => y) st = Some st',
  spep_dist_q ker n z (sp_sites st') = Some q &
  forall m K, has_law n.+1 n.+1 (ssm_path q) m K ->
    dense n.+1 n.+1 K = Kzz - Kfz^T *m invmx (Kff + s2%:M) *m Kfz <-> unexplained ker emission n z t = 0 \/ Kfz = 0].
Proof. exact: single_posterior. Qed.
Print Assumptions C101_single.

(* so it is never exact for a Matern 1/2 process and a data point strictly between two
   inducing points, although one normal observation has an exact site *)
Theorem C101_refuted (l v : R) n z k (t y s2 : R) st : 0 < l -> 0 < v -> 0 < s2 ->
  increasing (F := Rr) n.+1 z -> - APPROX_INF Rr < z 0%N -> (k < n)%N -> z k < t -> t < z k.+1 ->
  let m12 := matern12 1 0 l v 0 in let ker := to_sde m12 in let emission := sk_H m12 in let X (_ : nat) := t in
  valid_pairs n (sp_sites st) -> first_site ker (sp_sites st) ->
  let Kzz := x_gram ker n.+1 z in let Kfz := fx_gram ker emission 1 n.+1 X z in let Kff := f_gram ker emission 1 1 X X in
  exists st' q, [/\ spep_update_sites ker emission (pep_gaussian_led s2) (pep_gaussian_grads s2) n z 1 1 1 X (fun _ => y) st = Some st',
    spep_dist_q ker n z (sp_sites st') = Some q &
    forall m K, has_law n.+1 n.+1 (ssm_path q) m K -> dense n.+1 n.+1 K <> Kzz - Kfz^T *m invmx (Kff + s2%:M) *m Kfz].
Proof. exact: single_refuted. Qed.
Print Assumptions C101_refuted.

(* a new model with one data point in the middle of every interval between integer inducing points *)
Example C101_example (l v : R) n : 0 < l -> 0 < v -> v < (10 ^ 10)%N%:R / 2%:R ->
  let k := matern12 1 0 l v 0 in let z i : R := i%:R in let X i : R := i%:R + 2%:R^-1 in
  [/\ markov_kernel (to_sde k), k_mean0 (to_sde k) = 0, increasing (F := Rr) n.+1 z & - APPROX_INF Rr < z 0%N] /\
  [/\ valid_pairs n (sp_sites (spep_initial 1)), first_site (to_sde k) (sp_sites (spep_initial 1)),
      forall i, (i < n)%N -> z 0%N <= X i <= z n & forall m, (share n z n X m <= 1)%N].
Proof. exact: case_intervals. Qed.
