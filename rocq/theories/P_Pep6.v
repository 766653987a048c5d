(* Proofs for M_Pep.v: log expected densities. *)
From Coq Require Import Reals Lra FunctionalExtensionality.
From mathcomp Require Import all_ssreflect all_algebra.
From Verif Require Import MCalc Stein GaussInt RealStruct Nat Alg Lin Ent Spd Log M_Block S_Block P_Block M_SSM S_SSM P_SSM M_SSMLog P_SSMLog S_Gauss P_Gauss
  M_Trans S_Trans P_Trans S_Kalman M_Kalman P_Kalman M_Kernel S_Kernel P_Kernel M_Cond P_Cond P_Cond4
  M_Emission P_Emission M_Sort P_Sort M_Models S_GP P_Models P_Models2 M_Cvi S_Cvi P_Cvi P_Cvi3 M_Pep S_Pep P_Block2 P_Pep P_Pep2 P_KernelR P_KernelR2 M_KernelR P_Models3 P_KalmanLog P_TransLog P_Pep3 P_Pep4 P_Pep5.
Set Implicit Arguments.
Unset Strict Implicit.
Unset Printing Implicit Defensive.
Import GRing.Theory Num.Theory Order.TTheory.
Local Open Scope ring_scope.






Definition power_value (s2 alpha mu v y : R) : R :=
  - 2%:R^-1 * (ln (s2 + alpha * v) - ln s2 + alpha * (y - mu) ^+ 2 / (s2 + alpha * v) + alpha * ln (2%:R * PI * s2)).

Lemma twopi_gt0 : 0 < 2%:R * PI :> R.
Proof. by apply: mulr_gt0; [rewrite ltr0n | apply/RltP; exact: PI_RGT_0]. Qed.

Lemma ln_twopi (x : R) : 0 < x -> ln (2%:R * PI * x) = ln (2%:R * PI) + ln x.
Proof. by move=> x0; rewrite lnM // twopi_gt0. Qed.

Lemma ln_sqrt (x : R) : (0 < x)%Re -> ln (sqrt x) = (ln x / 2)%Re.
Proof.
move=> Hx; have Hs := sqrt_lt_R0 _ Hx; have := ln_mult _ _ Hs Hs; rewrite (sqrt_sqrt _ (Rlt_le _ _ Hx)); lra.
Qed.

Lemma log_normal_density (x mu v : R) : 0 < v -> log_normal x mu v = ln (normal_density mu (sqrt v) x).
Proof.
move=> /RltP Hv; have Hs := sqrt_lt_R0 _ Hv; rewrite (ln_normal _ _ _ Hs) (sqrt_sqrt _ (Rlt_le _ _ Hv)) !ln_sqrt //; last first.
  by have := PI_RGT_0; lra.
rewrite /log_normal ln_twopi; last exact/RltP.
have -> : ln (2 * PI) = ln (2%:R * PI) by rewrite natrR.
move: (ln _) (ln _) => l1 l2; eqR; toF; field; exact: Rgt_not_eq.
Qed.

Lemma square_integral (s2 alpha mu v y Z m' v' : R) : 0 < s2 -> 0 < v -> 0 < v' ->
  (forall f, log_normal f mu v + alpha * log_normal y f s2 = Z + log_normal f m' v') -> log_power_expectation s2 alpha mu v y Z.
Proof.
move=> s0 v0 v1 H; have S (w : R) : 0 < w -> (0 < sqrt w)%Re by move=> /RltP; exact: sqrt_lt_R0.
have := integral_scal (exp Z) _ _ (normal_integral m' (sqrt v') (S _ v1)); rewrite Rmult_1_r; apply: integral_ext => f.
rewrite /Rpower -(log_normal_density _ _ s0).
rewrite -(exp_ln _ (normal_pos m' _ f (S _ v1))) -(exp_ln _ (normal_pos mu _ f (S _ v0))) -!log_normal_density //.
transitivity (exp (Z + log_normal f m' v')); first by rewrite -exp_plus.
by rewrite -H; exact: exp_plus.
Qed.

Lemma power_value_spec (s2 alpha mu v y : R) : 0 < s2 -> 0 < alpha -> 0 < v ->
  log_power_expectation s2 alpha mu v y (power_value s2 alpha mu v y).
Proof.
move=> s0 a0 v0; have p0 : 0 < s2 + alpha * v by rewrite addr_gt0 ?mulr_gt0.
have w0 : 0 < v * s2 / (s2 + alpha * v) by rewrite divr_gt0 ?mulr_gt0.
apply: (@square_integral s2 alpha mu v y _ ((mu * s2 + alpha * y * v) / (s2 + alpha * v)) _ s0 v0 w0) => f; rewrite /log_normal /power_value !ln_twopi //.
have -> : ln (v * s2 / (s2 + alpha * v)) = ln v + ln s2 - ln (s2 + alpha * v).
  by rewrite lnM ?mulr_gt0 ?invr_gt0 // lnM // lnV.
have n1 : s2 <> 0%Re by apply/eqP; exact: lt0r_neq0.
have n2 : v <> 0%Re by apply/eqP; exact: lt0r_neq0.
have n3 : (s2 + alpha * v)%Re <> 0%Re by apply/eqP; exact: lt0r_neq0.
move: (ln _) (ln _) (ln _) (ln _) => l1 l2 l3 l4; eqR; toF; field => //.
Qed.

Lemma power_unique (s2 alpha mu v y Z Z' : R) :
  log_power_expectation s2 alpha mu v y Z -> log_power_expectation s2 alpha mu v y Z' -> Z = Z'.
Proof. by move=> H H'; apply: exp_inv; exact: (integral_unique _ _ _ H H'). Qed.

Lemma led_unit (s2 mu v y : R) : 0 < s2 -> 0 < v -> log_power_expectation s2 1 mu v y (pep_gaussian_led s2 1 mu v y).
Proof.
move=> s0 v0; have := @power_value_spec s2 1 mu v y s0 ltr01 v0; rewrite /power_value /pep_gaussian_led /ext_logdensity_gaussian ln_twopi //.
have -> : - 2%:R^-1 * (ln (s2 + 1 * v) - ln s2 + 1 * (y - mu) ^+ 2 / (s2 + 1 * v) + 1 * (ln (2%:R * PI) + ln s2)) =
  1 * (- 2%:R^-1 * (ln (2%:R * PI) + ln (s2 + v) + (mu - y) ^+ 2 / (s2 + v))) => //.
rewrite !mul1r; move: (ln _) (ln _) (ln _) ((s2 + v)^-1) => l1 l2 l3 w; eqR; toF; ring.
Qed.

(* the shape of a wrong value *)
Lemma power_wrong (s2 alpha mu v w : R) (led : R -> R) : 0 < s2 -> 0 < alpha -> 0 < v ->
  led (mu + 1) - led mu = - 2%:R^-1 * w -> w != alpha / (s2 + alpha * v) ->
  exists y, ~ log_power_expectation s2 alpha mu v y (led y).
Proof.
move=> s0 a0 v0 E Hw.
have [E0|N0] := eqVneq (led mu) (power_value s2 alpha mu v mu); last first.
  by exists mu => /(power_unique (@power_value_spec s2 alpha mu v mu s0 a0 v0)) Q; move: N0; rewrite -Q eqxx.
exists (mu + 1) => /(power_unique (@power_value_spec s2 alpha mu v (mu + 1) s0 a0 v0)) Q.
case/eqP: Hw; move: E; rewrite E0 -Q /power_value.
move: (ln _) (ln _) (ln _) => l1 l2 l3; rewrite -!/(_ / _); move: ((s2 + alpha * v)^-1) => u; toF => E.
lra.
Qed.

Lemma led_refuted (s2 alpha mu v : R) : 0 < s2 -> 0 < alpha -> alpha != 1 -> 0 < v ->
  exists y, ~ log_power_expectation s2 alpha mu v y (pep_gaussian_led s2 alpha mu v y).
Proof.
move=> s0 a0 a1 v0; apply: (@power_wrong _ _ _ _ (alpha / (s2 + v))) => //.
  rewrite /pep_gaussian_led /ext_logdensity_gaussian; move: (ln _) (ln _) ((s2 + v)^-1) => l1 l2 w; eqR; toF; field.
apply: contra a1 => /eqP E; have : (s2 + v)^-1 = (s2 + alpha * v)^-1 by apply: (mulfI (lt0r_neq0 a0)).
move/invr_inj/addrI => /eqP; rewrite -{1}(mul1r v) (inj_eq (mulIf (lt0r_neq0 v0))) eq_sym; exact.
Qed.

Lemma scalar_refuted (s2 alpha mu v : R) : 0 < s2 -> 0 < alpha -> alpha != 1 -> 0 < v ->
  exists y, ~ log_power_expectation s2 alpha mu v y (pep_scalar_led (ext_gaussian_pld s2) alpha mu v y).
Proof.
move=> s0 a0 a1 v0; apply: (@power_wrong _ _ _ _ (v + s2)^-1) => //.
  rewrite /pep_scalar_led /ext_gaussian_pld /ext_logdensity_gaussian; move: (ln _) (ln _) ((v + s2)^-1) => l1 l2 w; eqR; toF; field.
apply: contra a1 => /eqP E; have p0 : 0 < s2 + alpha * v by rewrite addr_gt0 ?mulr_gt0.
have q0 : v + s2 != 0 by rewrite lt0r_neq0 // addr_gt0.
have : s2 + alpha * v = alpha * (v + s2).
  by apply: (mulfI (invr_neq0 q0)); rewrite mulrCA mulVf // mulr1 E mulfVK // lt0r_neq0.
rewrite mulrDr addrC => /addrI /eqP; rewrite -{1}(mul1r s2) (inj_eq (mulIf (lt0r_neq0 s0))) eq_sym; exact.
Qed.

Lemma pld_derivatives (s2 : R) : 0 < s2 ->
  mean_derivatives (ext_gaussian_pld s2) (fun mu v y => (y - mu) / (s2 + v)) (fun mu v y => - 1 / (s2 + v)).
Proof.
move=> s0 mu v y v0; split.
  apply: (@dext (fun t => ((- 2%:R^-1 * (ln (2%:R * PI) + ln (v + s2))) + (- 2%:R^-1 / (s2 + v)) * ((y - t) * (y - t)))%R)).
    by move=> t; rewrite /ext_gaussian_pld /ext_logdensity_gaussian [s2 + v]addrC; move: (_^-1) (_^-1) (ln _) (ln _) => w h l1 l2; toR_ops; rewrite exprR; ring.
  have := @quad_deriv (- 2%:R^-1 * (ln (2%:R * PI) + ln (v + s2))) (- 2%:R^-1 / (s2 + v)) y mu.
  suff -> : (- (2 * (- 2%:R^-1 / (s2 + v))%R * (y - mu)))%Re = ((y - mu) / (s2 + v))%R by [].
  by move: ((s2 + v)^-1) => w; rewrite halfR; toR_ops; field.
apply: (@dext (fun t => (y / (s2 + v) + (- 1 / (s2 + v)) * t)%R)); last exact: lin_deriv.
by move=> t; move: ((s2 + v)^-1) => w; toR_ops; ring.
Qed.

Lemma pld_grads (s2 : R) d1 d2 : 0 < s2 -> mean_derivatives (ext_gaussian_pld s2) d1 d2 ->
  forall mu v y, 0 <= v -> d1 mu v y = (y - mu) / (s2 + v) /\ d2 mu v y = - 1 / (s2 + v).
Proof.
move=> s0 Hd mu v y v0; have G t : d1 t v y = (y - t) / (s2 + v).
  by have [H1 _] := Hd t v y v0; have [G1 _] := pld_derivatives s0 t y v0; exact: (uniqueness_limite _ _ _ _ H1 G1).
split=> //; have [_ H2] := Hd mu v y v0; have [_ G2] := pld_derivatives s0 mu y v0.
apply: (uniqueness_limite _ _ _ _ _ G2); apply: (@dext (fun t => d1 t v y)) H2 => t; exact: G.
Qed.

(* the wrapped Gaussian likelihood: the sites go to those of a likelihood with variance alpha s2 *)
Lemma scalar_schedule d (ker : sde_kernel Rr d) (emission : R -> 'M[R]_(1, d)) : markov_kernel ker -> k_mean0 ker = 0 ->
  forall n z, increasing n.+1 z -> (0 < n)%N -> forall (y : nat -> R) (s2 alpha lr : R) d1 d2,
  0 < s2 -> 0 < alpha <= 1 -> 0 <= lr <= 1 -> mean_derivatives (ext_gaussian_pld s2) d1 d2 ->
  forall sched s, all uniq sched -> (forall j, (j <= n)%N -> st_nat2 (pe_sites s) j <= 0) ->
  exists s', [/\ foldl (fun os l => obind (pep_update_sites ker emission (pep_scalar_led (ext_gaussian_pld s2)) (pep_scalar_grads d1 d2)
      n z y alpha lr (Some l)) os) (Some s) sched = Some s',
    forall k, (k <= n)%N -> st_nat1 (pe_sites s') k - y k / (alpha * s2) =
      (1 - lr * alpha) ^+ count (fun l => k \in l) sched * (st_nat1 (pe_sites s) k - y k / (alpha * s2)),
    forall k, (k <= n)%N -> st_nat2 (pe_sites s') k - - (2%:R * (alpha * s2))^-1 =
      (1 - lr * alpha) ^+ count (fun l => k \in l) sched * (st_nat2 (pe_sites s) k - - (2%:R * (alpha * s2))^-1) &
    forall k, (k <= n)%N -> st_nat2 (pe_sites s') k <= 0].
Proof.
move=> Hker Hm0 n z Hz Hn y s2 alpha lr d1 d2 s0 Ha Hlr Hd sched s Hu Hs.
apply: schedule => // mu v yk v0; rewrite /pep_scalar_grads [(_, _).1]/= [(_, _).2]/=.
by have [-> ->] := pld_grads s0 Hd mu yk v0; exact: gc_gauss.
Qed.

Lemma scalar_fixed d (ker : sde_kernel Rr d) (emission : R -> 'M[R]_(1, d)) : markov_kernel ker -> k_mean0 ker = 0 ->
  forall n z, increasing n.+1 z -> (0 < n)%N -> forall (y : nat -> R) (s2 alpha lr : R) d1 d2,
  0 < s2 -> 0 < alpha <= 1 -> 0 <= lr <= 1 -> mean_derivatives (ext_gaussian_pld s2) d1 d2 ->
  forall s l, uniq l ->
  (forall k, (k <= n)%N -> st_nat1 (pe_sites s) k = y k / (alpha * s2)) ->
  (forall k, (k <= n)%N -> st_nat2 (pe_sites s) k = - (2%:R * (alpha * s2))^-1) ->
  let Hd := dense n.+1 n.+1 (rdiag (fun k => emission (z k))) in
  let Y := flat n.+1 (fun k => const_mx (y k) : 'cV[R]_1) in
  exists s' q, [/\ pep_update_sites ker emission (pep_scalar_led (ext_gaussian_pld s2)) (pep_scalar_grads d1 d2)
      n z y alpha lr (Some l) s = Some s',
    forall k, (k <= n)%N -> st_nat1 (pe_sites s') k = st_nat1 (pe_sites s) k /\ st_nat2 (pe_sites s') k = st_nat2 (pe_sites s) k,
    cvi_dist_q ker emission n z (pe_sites s) = Some q &
    forall m K, has_law n.+1 n.+1 (ssm_path q) m K ->
      flat n.+1 m = cond_mean 0 (x_gram ker n.+1 z) Hd (alpha * s2)%:M Y /\
      dense n.+1 n.+1 K = cond_cov (x_gram ker n.+1 z) Hd (alpha * s2)%:M].
Proof.
move=> Hker Hm0 n z Hz Hn y s2 alpha lr d1 d2 s0 Ha Hlr Hd s l Hl E1 E2 Hdn Y.
have p0 : 0 < alpha * s2 by rewrite mulr_gt0 //; case/andP: Ha.
have Hs j : (j <= n)%N -> st_nat2 (pe_sites s) j <= 0.
  by move=> Hj; rewrite E2 // oppr_le0 invr_ge0 mulr_ge0 ?ler0n // ltW.
have Hu : all uniq [:: l] by rewrite /= Hl.
have [s' [G1 G2 G3 _]] := scalar_schedule emission Hker Hm0 Hz Hn y s0 Ha Hlr Hd Hu Hs.
have [q [Q1 _ Q2]] := exact_posterior emission Hker Hz Hn p0 Hm0 E1 E2.
exists s', q; split=> // k Hk; split.
  by apply/eqP; have /eqP := G2 k Hk; rewrite E1 // subrr mulr0 subr_eq0.
by apply/eqP; have /eqP := G3 k Hk; rewrite E2 // subrr mulr0 subr_eq0.
Qed.

(* equal indices add up *)
Lemma mask_twice k : mask_indices (Some [:: k; k]) k = 2%:R.
Proof. by rewrite /mask_indices !big_cons big_nil eqxx addr0. Qed.
