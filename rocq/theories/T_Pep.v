(* Property theorems C52, C53, C54, C82, C83, C84, C85: power expectation propagation.

   Vocabulary: S_Pep.v ([scale_site], a site raised to a power; [log_normal]; [log_power_expectation],
   the log of the integral of a power of a normal likelihood; [mean_derivatives]); S_GP.v
   ([f_gram], [x_gram]); S_Gauss.v ([gauss_logpdf]); S_Kalman.v ([cond_mean], [cond_cov]);
   S_SSM.v ([has_law]); S_Kernel.v ([markov_kernel], [increasing]). *)
From Coq Require Import Reals.
From mathcomp Require Import all_ssreflect all_algebra.
From Verif Require Import RealStruct Nat Alg Lin Ent Spd Log M_Block M_SSM S_SSM P_SSM M_SSMLog S_Gauss M_Trans S_Trans
  S_Kalman M_Kalman M_Kernel S_Kernel M_Cond M_Emission M_Sort P_Sort M_Models S_GP P_Models3 M_Comb S_Comb M_KernelR
  M_Cvi S_Cvi P_Cvi P_Cvi4 M_Pep S_Pep P_Pep2 P_Pep3 P_Pep4 P_Pep5 P_Pep6 P_Pep7 P_Cases.
Set Implicit Arguments.
Unset Strict Implicit.
Unset Printing Implicit Defensive.
Import GRing.Theory Num.Theory Order.TTheory.
Local Open Scope ring_scope.

(* ---------- C82: the cavity ---------- *)

(* the cavity at data point k is the marginal of f at k under the posterior in which the site
   of k is raised to the power 1 - alpha (removed for alpha = 1) *)
Theorem C82_cavity d (ker : sde_kernel Rr d) (emission : R -> 'M[R]_(1, d)) :
  markov_kernel ker -> k_mean0 ker = 0 -> forall n z, increasing n.+1 z -> (0 < n)%N ->
  forall (alpha : R) (s : sites Rr) k, (k <= n)%N -> 0 <= alpha <= 1 -> (forall j, (j <= n)%N -> st_nat2 s j <= 0) ->
  exists q', [/\ cvi_dist_q ker emission n z (scale_site s k (1 - alpha)) = Some q', ssm_nonsing n q' &
    forall m' K', has_law n.+1 n.+1 (ssm_path q') m' K' ->
    omap (fun f => f k) (pep_cavity ker emission n z alpha s) =
    Some ((emission (z k) *m m' k) 0 0, (emission (z k) *m K' k k *m (emission (z k))^T) 0 0)].
Proof. exact: cavity_thm. Qed.
Print Assumptions C82_cavity.

(* and the matrix given to the Cholesky factorisation is positive definite *)
Theorem C82_cavity_exists d (ker : sde_kernel Rr d) (emission : R -> 'M[R]_(1, d)) :
  markov_kernel ker -> k_mean0 ker = 0 -> forall n z, increasing n.+1 z -> (0 < n)%N ->
  forall (alpha : R) (s : sites Rr) k, (k <= n)%N -> 0 <= alpha <= 1 -> (forall j, (j <= n)%N -> st_nat2 s j <= 0) ->
  exists q, [/\ cvi_dist_q ker emission n z s = Some q, spd ((pep_marginals n q).2 k) &
    spd (- (pep_cavity_nats emission z alpha (pep_marginals n q) s k).2)].
Proof. exact: cavity_spd. Qed.
Print Assumptions C82_cavity_exists.

(* ---------- C84: the moments after an update ---------- *)

(* update_sites on one site with learning rate 1 makes the marginal of f at that point have
   mean mu + v g1 and variance v + v^2 g2, where (mu, v) is the cavity and g1, g2 are the
   derivatives that the likelihood returns there *)
Theorem C84_moments d (ker : sde_kernel Rr d) (emission : R -> 'M[R]_(1, d)) :
  markov_kernel ker -> k_mean0 ker = 0 -> forall n z, increasing n.+1 z -> (0 < n)%N ->
  forall led grads y alpha s k, (k <= n)%N -> 0 <= alpha <= 1 ->
  (forall j, (j <= n)%N -> st_nat2 (pe_sites s) j <= 0) ->
  exists2 f, pep_cavity ker emission n z alpha (pe_sites s) = Some f &
  let g := grads alpha (f k).1 (f k).2 (y k) in g.2 < 0 -> 0 < 1 + (f k).2 * g.2 ->
  exists s' q', [/\ pep_update_sites ker emission led grads n z y alpha 1 (Some [:: k]) s = Some s',
    forall j, j != k -> st_nat1 (pe_sites s') j = st_nat1 (pe_sites s) j /\ st_nat2 (pe_sites s') j = st_nat2 (pe_sites s) j,
    cvi_dist_q ker emission n z (pe_sites s') = Some q' &
    forall m K, has_law n.+1 n.+1 (ssm_path q') m K ->
      (emission (z k) *m m k) 0 0 = (f k).1 + (f k).2 * g.1 /\
      (emission (z k) *m K k k *m (emission (z k))^T) 0 0 = (f k).2 + (f k).2 ^+ 2 * g.2].
Proof. exact: moments. Qed.
Print Assumptions C84_moments.

(* the derivatives of the Gaussian likelihood satisfy the two conditions *)
Example C84_example (s2 mu v y : R) : 0 < s2 -> 0 <= v ->
  let g := pep_gaussian_grads s2 1 mu v y in g.2 < 0 /\ 0 < 1 + v * g.2.
Proof. exact: moments_example. Qed.

(* ---------- C52: Gaussian likelihood, power one ---------- *)

(* any schedule of updates of groups of sites: the error of site k shrinks by 1 - lr at each
   update that includes k, whatever happens to the other sites *)
Theorem C52_schedule d (ker : sde_kernel Rr d) (emission : R -> 'M[R]_(1, d)) :
  markov_kernel ker -> k_mean0 ker = 0 -> forall n z, increasing n.+1 z -> (0 < n)%N ->
  forall y s2, 0 < s2 -> forall lr sched s, 0 <= lr <= 1 -> all uniq sched ->
  (forall j, (j <= n)%N -> st_nat2 (pe_sites s) j <= 0) ->
  exists s', [/\ foldl (fun os l => obind (pep_update_sites ker emission (pep_gaussian_led s2) (pep_gaussian_grads s2)
      n z y 1 lr (Some l)) os) (Some s) sched = Some s',
    forall k, (k <= n)%N -> st_nat1 (pe_sites s') k - y k / s2 =
      (1 - lr) ^+ count (fun l => k \in l) sched * (st_nat1 (pe_sites s) k - y k / s2),
    forall k, (k <= n)%N -> st_nat2 (pe_sites s') k - - (2%:R * s2)^-1 =
      (1 - lr) ^+ count (fun l => k \in l) sched * (st_nat2 (pe_sites s) k - - (2%:R * s2)^-1) &
    forall k, (k <= n)%N -> st_nat2 (pe_sites s') k <= 0].
Proof. exact: gauss_schedule. Qed.
Print Assumptions C52_schedule.

(* with learning rate 1, once every site has been updated, in any order and grouping, dist_q
   is the exact posterior and elbo the log evidence *)
Theorem C52_exact d (ker : sde_kernel Rr d) (emission : R -> 'M[R]_(1, d)) :
  markov_kernel ker -> k_mean0 ker = 0 -> forall n z, increasing n.+1 z -> (0 < n)%N ->
  forall y s2, 0 < s2 -> forall sched s, all uniq sched -> (forall k, (k <= n)%N -> has (fun l => k \in l) sched) ->
  (forall j, (j <= n)%N -> st_nat2 (pe_sites s) j <= 0) ->
  let Hd := dense n.+1 n.+1 (rdiag (fun k => emission (z k))) in
  let Y := flat n.+1 (fun k => const_mx (y k) : 'cV[R]_1) in
  exists s' q, [/\ foldl (fun os l => obind (pep_update_sites ker emission (pep_gaussian_led s2) (pep_gaussian_grads s2)
      n z y 1 1 (Some l)) os) (Some s) sched = Some s',
    forall k, (k <= n)%N -> st_nat1 (pe_sites s') k = y k / s2 /\ st_nat2 (pe_sites s') k = - (2%:R * s2)^-1,
    cvi_dist_q ker emission n z (pe_sites s') = Some q,
    forall m K, has_law n.+1 n.+1 (ssm_path q) m K ->
      flat n.+1 m = cond_mean 0 (x_gram ker n.+1 z) Hd s2%:M Y /\
      dense n.+1 n.+1 K = cond_cov (x_gram ker n.+1 z) Hd s2%:M &
    cvi_elbo ker emission n z (pe_sites s') = Some (gauss_logpdf 0 (f_gram ker emission n.+1 n.+1 z z + s2%:M) Y)].
Proof. exact: gauss_exact. Qed.
Print Assumptions C52_exact.

(* an update at an exact site also makes its normalisation exact: the site, as a function of
   f, is then the likelihood of the observation *)
Theorem C52_normalisation d (ker : sde_kernel Rr d) (emission : R -> 'M[R]_(1, d)) :
  markov_kernel ker -> k_mean0 ker = 0 -> forall n z, increasing n.+1 z -> (0 < n)%N ->
  forall y s2, 0 < s2 -> forall l s k, uniq l -> (k <= n)%N -> k \in l -> emission (z k) != 0 ->
  (forall j, (j <= n)%N -> st_nat2 (pe_sites s) j <= 0) ->
  st_nat1 (pe_sites s) k = y k / s2 -> st_nat2 (pe_sites s) k = - (2%:R * s2)^-1 ->
  exists2 s', pep_update_sites ker emission (pep_gaussian_led s2) (pep_gaussian_grads s2) n z y 1 1 (Some l) s = Some s' &
  forall f, pe_log_norm s' k + st_nat1 (pe_sites s') k * f + st_nat2 (pe_sites s') k * f ^+ 2 = log_normal (y k) f s2.
Proof. exact: site_is_likelihood. Qed.
Print Assumptions C52_normalisation.

(* ---------- C53: powers below one ---------- *)

(* with PEPGaussian, an update leaves an exact site as it is only for alpha = 1 (or a zero
   learning rate, or an observation that does not depend on the state) *)
Theorem C53_power d (ker : sde_kernel Rr d) (emission : R -> 'M[R]_(1, d)) :
  markov_kernel ker -> k_mean0 ker = 0 -> forall n z, increasing n.+1 z -> (0 < n)%N ->
  forall s2 y alpha lr l s k, 0 < s2 -> 0 < alpha <= 1 -> uniq l -> (k <= n)%N -> k \in l ->
  (forall j, (j <= n)%N -> st_nat2 (pe_sites s) j <= 0) ->
  st_nat2 (pe_sites s) k = - (2%:R * s2)^-1 ->
  exists2 s', pep_update_sites ker emission (pep_gaussian_led s2) (pep_gaussian_grads s2) n z y alpha lr (Some l) s = Some s' &
  st_nat2 (pe_sites s') k = st_nat2 (pe_sites s) k <-> [\/ alpha = 1, lr = 0 | emission (z k) = 0].
Proof. exact: power_fixed. Qed.
Print Assumptions C53_power.

(* so the exact posterior is not a fixed point: a Matern 3/2 kernel, any power below one *)
Theorem C53_power_refuted (l v s2 : R) n z y alpha lr ind s k : 0 < l -> 0 < v -> 0 < s2 ->
  increasing (F := Rr) n.+1 z -> (0 < n)%N -> 0 < alpha < 1 -> lr != 0 -> uniq ind -> (k <= n)%N -> k \in ind ->
  (forall j, (j <= n)%N -> st_nat1 (pe_sites s) j = y j / s2) ->
  (forall j, (j <= n)%N -> st_nat2 (pe_sites s) j = - (2%:R * s2)^-1) ->
  let ker := matern32 1 0 l v 0 in
  exists2 s', pep_update_sites (to_sde ker) (sk_H ker) (pep_gaussian_led s2) (pep_gaussian_grads s2) n z y alpha lr (Some ind) s = Some s' &
  st_nat2 (pe_sites s') k <> - (2%:R * s2)^-1.
Proof. exact: power_refuted. Qed.
Print Assumptions C53_power_refuted.

(* the sites of the exact posterior and the update of all sites meet the hypotheses of C53 and C85; C52_example has the kernel *)
Example C53_example (s2 : R) n (y : nat -> R) : 0 < s2 -> let s := Sites (fun i => y i / s2) (fun _ => - (2%:R * s2)^-1) in
  [/\ forall j, st_nat2 s j <= 0, forall j, st_nat1 s j = y j / s2, forall j, st_nat2 s j = - (2%:R * s2)^-1,
      uniq (iota 0 n.+1) & forall k, (k <= n)%N -> k \in iota 0 n.+1].
Proof. exact: case_exact_sites. Qed.

(* ---------- C54: the default argument of update_sites ---------- *)

(* update_sites() without indices changes nothing *)
Theorem C54_default_refuted d (ker : sde_kernel Rr d) (emission : R -> 'M[R]_(1, d)) :
  markov_kernel ker -> k_mean0 ker = 0 -> forall n z, increasing n.+1 z -> (0 < n)%N ->
  forall led grads y alpha lr s, (forall j, (j <= n)%N -> st_nat2 (pe_sites s) j <= 0) ->
  exists s', [/\ pep_update_sites ker emission led grads n z y alpha lr None s = Some s',
    forall k, st_nat1 (pe_sites s') k = st_nat1 (pe_sites s) k,
    forall k, st_nat2 (pe_sites s') k = st_nat2 (pe_sites s) k &
    forall k, pe_log_norm s' k = pe_log_norm s k].
Proof. exact: update_none. Qed.
Print Assumptions C54_default_refuted.

(* with distinct indices, exactly the listed sites are updated *)
Theorem C54_indices_partial d (ker : sde_kernel Rr d) (emission : R -> 'M[R]_(1, d)) :
  markov_kernel ker -> k_mean0 ker = 0 -> forall n z, increasing n.+1 z -> (0 < n)%N ->
  forall led grads y alpha lr ind s, uniq ind -> 0 <= alpha <= 1 -> (forall j, (j <= n)%N -> st_nat2 (pe_sites s) j <= 0) ->
  exists s' f, [/\ pep_update_sites ker emission led grads n z y alpha lr (Some ind) s = Some s',
    pep_cavity ker emission n z alpha (pe_sites s) = Some f &
    forall k, let g := grads alpha (f k).1 (f k).2 (y k) in
      let L2 := (2%:R * ((f k).2 + g.2^-1))^-1 in
      let L1 := 2%:R * L2 * (g.1 / g.2 - (f k).1) in
      st_nat1 (pe_sites s') k = (if k \in ind then
        (1 - lr) * st_nat1 (pe_sites s) k + lr * ((1 - alpha) * st_nat1 (pe_sites s) k + L1) else st_nat1 (pe_sites s) k) /\
      st_nat2 (pe_sites s') k = (if k \in ind then
        (1 - lr) * st_nat2 (pe_sites s) k + lr * ((1 - alpha) * st_nat2 (pe_sites s) k + L2) else st_nat2 (pe_sites s) k)].
Proof. exact: update_listed. Qed.
Print Assumptions C54_indices_partial.

(* an index listed twice takes the step twice over: with learning rate 1 and exact gradients
   the site overshoots to the mirror image of where it was *)
Theorem C54_repeated_refuted d (ker : sde_kernel Rr d) (emission : R -> 'M[R]_(1, d)) :
  markov_kernel ker -> k_mean0 ker = 0 -> forall n z, increasing n.+1 z -> (0 < n)%N ->
  forall s2 (y : nat -> R) s k, 0 < s2 -> (k <= n)%N -> (forall j, (j <= n)%N -> st_nat2 (pe_sites s) j <= 0) ->
  exists2 s', pep_update_sites ker emission (pep_gaussian_led s2) (pep_gaussian_grads s2) n z y 1 1 (Some [:: k; k]) s = Some s' &
  st_nat1 (pe_sites s') k - y k / s2 = - (st_nat1 (pe_sites s) k - y k / s2) /\
  st_nat2 (pe_sites s') k - - (2%:R * s2)^-1 = - (st_nat2 (pe_sites s) k - - (2%:R * s2)^-1).
Proof. exact: update_twice. Qed.
Print Assumptions C54_repeated_refuted.

(* ---------- C83: log_expected_density ---------- *)

(* the integral of N(f; mu, v) N(y; f, s2)^alpha has one value *)
Theorem C83_value (s2 alpha mu v y : R) : 0 < s2 -> 0 < alpha -> 0 < v ->
  exists2 Z, log_power_expectation s2 alpha mu v y Z &
  forall Z', log_power_expectation s2 alpha mu v y Z' -> Z' = Z.
Proof. exact: power_value_unique. Qed.
Print Assumptions C83_value.

(* PEPGaussian returns it for alpha = 1 *)
Theorem C83_unit_power (s2 mu v y : R) : 0 < s2 -> 0 < v ->
  log_power_expectation s2 1 mu v y (pep_gaussian_led s2 1 mu v y).
Proof. exact: led_unit. Qed.
Print Assumptions C83_unit_power.

(* and for no other power *)
Theorem C83_gaussian_refuted (s2 alpha mu v : R) : 0 < s2 -> 0 < alpha -> alpha != 1 -> 0 < v ->
  exists y, ~ log_power_expectation s2 alpha mu v y (pep_gaussian_led s2 alpha mu v y).
Proof. exact: led_refuted. Qed.
Print Assumptions C83_gaussian_refuted.

(* PEPScalarLikelihood around a Gaussian likelihood ignores the power *)
Theorem C83_scalar_refuted (s2 alpha mu v : R) : 0 < s2 -> 0 < alpha -> alpha != 1 -> 0 < v ->
  exists y, ~ log_power_expectation s2 alpha mu v y (pep_scalar_led (ext_gaussian_pld s2) alpha mu v y).
Proof. exact: scalar_refuted. Qed.
Print Assumptions C83_scalar_refuted.

(* its updates stop at the posterior for the noise variance alpha s2 in place of s2 *)
Theorem C83_scalar_fixed_point d (ker : sde_kernel Rr d) (emission : R -> 'M[R]_(1, d)) : markov_kernel ker -> k_mean0 ker = 0 ->
  forall n z, increasing n.+1 z -> (0 < n)%N -> forall (y : nat -> R) (s2 alpha lr : R) d1 d2,
  0 < s2 -> 0 < alpha <= 1 -> 0 <= lr <= 1 -> mean_derivatives (ext_gaussian_pld s2) d1 d2 ->
  forall s l, uniq l ->
  (forall k, (k <= n)%N -> st_nat1 (pe_sites s) k = y k / (alpha * s2)) ->
  (forall k, (k <= n)%N -> st_nat2 (pe_sites s) k = - (2%:R * (alpha * s2))^-1) ->
  let Hd := dense n.+1 n.+1 (rdiag (fun k => emission (z k))) in
  let Y := flat n.+1 (fun k => const_mx (y k) : 'cV[R]_1) in
  exists s' q, [/\ pep_update_sites ker emission (pep_scalar_led (ext_gaussian_pld s2)) (pep_scalar_grads d1 d2)
      n z y alpha lr (Some l) s = Some s',
    forall k, (k <= n)%N -> st_nat1 (pe_sites s') k = st_nat1 (pe_sites s) k /\ st_nat2 (pe_sites s') k = st_nat2 (pe_sites s) k,
    cvi_dist_q ker emission n z (pe_sites s) = Some q &
    forall m K, has_law n.+1 n.+1 (ssm_path q) m K ->
      flat n.+1 m = cond_mean 0 (x_gram ker n.+1 z) Hd (alpha * s2)%:M Y /\
      dense n.+1 n.+1 K = cond_cov (x_gram ker n.+1 z) Hd (alpha * s2)%:M].
Proof. exact: scalar_fixed. Qed.
Print Assumptions C83_scalar_fixed_point.

(* and any schedule of updates brings the sites there geometrically *)
Theorem C83_scalar_schedule d (ker : sde_kernel Rr d) (emission : R -> 'M[R]_(1, d)) : markov_kernel ker -> k_mean0 ker = 0 ->
  forall n z, increasing n.+1 z -> (0 < n)%N -> forall (y : nat -> R) (s2 alpha lr : R) d1 d2,
  0 < s2 -> 0 < alpha <= 1 -> 0 <= lr <= 1 -> mean_derivatives (ext_gaussian_pld s2) d1 d2 ->
  forall sched s, all uniq sched -> (forall j, (j <= n)%N -> st_nat2 (pe_sites s) j <= 0) ->
  exists s', [/\ foldl (fun os l => obind (pep_update_sites ker emission (pep_scalar_led (ext_gaussian_pld s2)) (pep_scalar_grads d1 d2)
      n z y alpha lr (Some l)) os) (Some s) sched = Some s',
    forall k, (k <= n)%N -> st_nat1 (pe_sites s') k - y k / (alpha * s2) =
      (1 - lr * alpha) ^+ count (fun l => k \in l) sched * (st_nat1 (pe_sites s) k - y k / (alpha * s2)),
    forall k, (k <= n)%N -> st_nat2 (pe_sites s') k - - (2%:R * (alpha * s2))^-1 =
      (1 - lr * alpha) ^+ count (fun l => k \in l) sched * (st_nat2 (pe_sites s) k - - (2%:R * (alpha * s2))^-1) &
    forall k, (k <= n)%N -> st_nat2 (pe_sites s') k <= 0].
Proof. exact: scalar_schedule. Qed.
Print Assumptions C83_scalar_schedule.

Example C83_example (s2 : R) : 0 < s2 ->
  mean_derivatives (ext_gaussian_pld s2) (fun mu v y => (y - mu) / (s2 + v)) (fun mu v y => - 1 / (s2 + v)).
Proof. exact: pld_derivatives. Qed.

(* ---------- C85: the energy ---------- *)

(* at the exact sites of a Gaussian likelihood with power one, energy differs from the log
   evidence by the log densities of the observations at the posterior marginals (a) minus
   those at the cavities (c): log_expected_density is evaluated at the former *)
Theorem C85_energy d (ker : sde_kernel Rr d) (emission : R -> 'M[R]_(1, d)) :
  markov_kernel ker -> k_mean0 ker = 0 -> forall n z, increasing n.+1 z -> (0 < n)%N ->
  forall y s2, 0 < s2 -> forall s,
  (forall k, (k <= n)%N -> st_nat1 s k = y k / s2) -> (forall k, (k <= n)%N -> st_nat2 s k = - (2%:R * s2)^-1) ->
  let Y := flat n.+1 (fun k => const_mx (y k) : 'cV[R]_1) in
  let evidence := gauss_logpdf 0 (f_gram ker emission n.+1 n.+1 z z + s2%:M) Y in
  exists q c e, [/\ cvi_dist_q ker emission n z s = Some q, pep_cavity ker emission n z 1 s = Some c,
    pep_energy ker emission (pep_gaussian_led s2) n z y 1 s = Some e &
    forall m K, has_law n.+1 n.+1 (ssm_path q) m K ->
    e = evidence + \sum_(k < n.+1)
      (log_normal (y k) ((emission (z k) *m m k) 0 0) (s2 + (emission (z k) *m K k k *m (emission (z k))^T) 0 0) -
       log_normal (y k) (c k).1 (s2 + (c k).2))].
Proof. exact: energy_law. Qed.
Print Assumptions C85_energy.

(* so it is not the log evidence: it exceeds it when all observations are zero *)
Theorem C85_energy_refuted (l v s2 : R) n z s : 0 < l -> 0 < v -> 0 < s2 ->
  increasing (F := Rr) n.+1 z -> (0 < n)%N ->
  (forall k, (k <= n)%N -> st_nat1 s k = 0) -> (forall k, (k <= n)%N -> st_nat2 s k = - (2%:R * s2)^-1) ->
  let ker := matern32 1 0 l v 0 in
  exists2 e, pep_energy (to_sde ker) (sk_H ker) (pep_gaussian_led s2) n z (fun _ => 0) 1 s = Some e &
  gauss_logpdf 0 (f_gram (to_sde ker) (sk_H ker) n.+1 n.+1 z z + s2%:M) 0 < e.
Proof. exact: energy_refuted. Qed.
Print Assumptions C85_energy_refuted.

(* the hypotheses hold for a Matern 3/2 kernel on integer times with the initial sites *)
Example C52_example (l v s2 : R) n : 0 < l -> 0 < v -> 0 < s2 ->
  let k := matern32 1 0 l v 0 in let z i : R := i%:R in
  [/\ markov_kernel (to_sde k), k_mean0 (to_sde k) = 0, increasing (F := Rr) n.+1 z &
      (forall k, st_nat2 cvi_initial_sites k <= 0) /\ (forall t, sk_H k t != 0)].
Proof. exact: pep_example. Qed.
