(* Sparse CVI with the inducing points at the data points is CVI. *)
From Coq Require Import Reals.
From mathcomp Require Import all_ssreflect all_algebra.
From Verif Require Import RealStruct Nat Alg Lin Ent Spd M_Block S_Block M_SSM S_SSM P_SSM M_SSMLog P_SSMLog S_Gauss P_Gauss M_Trans S_Trans P_Trans
  S_Kalman M_Kalman P_Kalman M_Kernel S_Kernel P_Kernel M_Cond P_Cond P_Cond4
  M_Emission M_Sort P_Sort M_Models S_GP P_Models P_Models2 P_Models3 M_Cvi S_Cvi P_Cvi P_Cvi2 P_Cvi3.
Set Implicit Arguments.
Unset Strict Implicit.
Unset Printing Implicit Defensive.
Import GRing.Theory Num.Theory Order.TTheory.
Local Open Scope ring_scope.

Lemma predict_same d (ker : sde_kernel Rr d) (emission : R -> 'M[R]_(1, d)) n z (q q' : ssm Rr d) m K x i :
  markov_kernel ker -> k_mean0 ker = 0 -> increasing n.+1 z -> covered n z (x i) ->
  ssm_nonsing n q -> ssm_nonsing n q' ->
  has_law n.+1 n.+1 (ssm_path q) m K -> has_law n.+1 n.+1 (ssm_path q') m K ->
  cvi_predict_f ker emission n q z x i = cvi_predict_f ker emission n q' z x i.
Proof.
move=> Hk H0 Hz Hc Nq Nq' L L'; rewrite /cvi_predict_f.
have [_ ->] := @predict_f_covered Rr _ _ ker (fun i => emission (x i)) (fun _ => 0) n z x i q m K Hk H0 Hz Hc Nq L.
by have [_ ->] := @predict_f_covered Rr _ _ ker (fun i => emission (x i)) (fun _ => 0) n z x i q' m K Hk H0 Hz Hc Nq' L'.
Qed.

Section SparseDense.
Variables (d : nat) (ker : sde_kernel Rr d) (emission : R -> 'M[R]_(1, d)).
Hypothesis Hker : markov_kernel ker.
Hypothesis Hm0 : k_mean0 ker = 0.
Variables (n : nat) (z : nat -> R).
Hypothesis Hz : increasing n.+1 z.
Hypothesis Hn : (0 < n)%N.
Hypothesis Hinf : - APPROX_INF Rr < z 0%N.
Let H k := emission (z k).

Lemma at_covered k : (k < n.+1)%N -> covered n z (z k).
Proof. by move=> Hk; right; exists k. Qed.

Lemma projected_at k u : (k < n.+1)%N -> projected ker emission n z (z k) u = (H k *m u k) 0 0.
Proof.
move=> Hk; rewrite /projected.
have uK : x_gram ker n.+1 z \in unitmx by exact: (@Kzz_unit Rr).
have E1 : brow n.+1 (fun j => state_cov ker (z k) (z j)) *m invmx (x_gram ker n.+1 z) *m flat n.+1 u = u k.
  have E : x_gram ker n.+1 z *m invmx (x_gram ker n.+1 z) *m flat n.+1 u = flat n.+1 u by rewrite mulmxV // mul1mx.
  have := congr1 (fun v => unflat v k) E.
  by rewrite {1}/x_gram /dense !mul_bcol_mx !unflat_bcol.
by rewrite -!mulmxA [_ *m (invmx _ *m _)]mulmxA E1.
Qed.

Let matched (s : sites Rr) (p : pair_sites d) := forall u, pairs_exponent n p u = sites_exponent n H s u.
Let valid (s : sites Rr) := forall k, (k <= n)%N -> st_nat2 s k <= 0.

Lemma matched_q s p : valid s -> valid_pairs n p -> matched s p -> exists q q',
  [/\ cvi_dist_q ker emission n z s = Some q, scvi_dist_q ker n z p = Some q', ssm_nonsing n q, ssm_nonsing n q' &
   forall m K, has_law n.+1 n.+1 (ssm_path q) m K <-> has_law n.+1 n.+1 (ssm_path q') m K].
Proof.
move=> Vs Vp M.
have [q [E1 N1 [c1 D1]]] := cvi_density emission Hker Hz Hn Vs Hm0.
have [||q' [E2 N2 [c2 D2]]] := @scvi_density _ ker Hker Hm0 n z Hz Hn p; [by move=> m /Vp [] | by move=> m v /Vp [] |].
have {}N1 := ssm_chol_nonsing N1; have {}N2 := ssm_chol_nonsing N2.
have E x : ssm_log_pdf n q x = ssm_log_pdf n q' x + (c1 - c2).
  rewrite D1 D2 (M x) -/H; move: (ssm_log_pdf _ _ _) (sites_exponent _ _ _ _) => a b.
  by rewrite -!addrA; congr (_ + (_ + _)); rewrite [c1 - _]addrC addNKr.
exists q, q'; split=> // m K; split; first exact: (same_density_has_law N1 N2 E).
by apply: (same_density_has_law (c := - (c1 - c2)) N2 N1) => x; rewrite E addrK.
Qed.

Section Update.
Variables (gm gv : R -> R -> R -> R) (Y : nat -> R) (lr : R).
Hypothesis Hlr : 0 <= lr <= 1.
Hypothesis Hgv : forall mu v y, gv mu v y <= 0.

Lemma sites_comb (s1 s2 s3 : sites Rr) a b x :
  (forall k, (k <= n)%N -> st_nat1 s1 k = a * st_nat1 s2 k + b * st_nat1 s3 k) ->
  (forall k, (k <= n)%N -> st_nat2 s1 k = a * st_nat2 s2 k + b * st_nat2 s3 k) ->
  sites_exponent n H s1 x = a * sites_exponent n H s2 x + b * sites_exponent n H s3 x.
Proof.
move=> E1 E2; rewrite /sites_exponent !mulr_sumr -big_split; apply: eq_bigr => k _.
have Hk : (k <= n)%N by rewrite -ltnS.
cbv zeta; move: ((H k *m x k) 0 0) => f; rewrite (E1 k Hk) (E2 k Hk).
move: (st_nat1 s2 k) (st_nat1 s3 k) (st_nat2 s2 k) (st_nat2 s3 k) (f ^+ 2) => a1 a3 b2 b3 g.
rewrite !mulrDl !mulrDr -!mulrA; exact: addrACA.
Qed.

Lemma matched_update s p : valid s -> valid_pairs n p -> matched s p -> exists s' p',
  [/\ cvi_update_sites ker emission gm gv n z Y lr s = Some s',
      scvi_update_sites ker emission gm gv n z lr n.+1 z Y p = Some p', valid s', valid_pairs n p' & matched s' p'].
Proof.
move=> Vs Vp M; have [q [q' [E1 E2 N1 N2 L]]] := matched_q Vs Vp M.
have [q1 [p' [F1 F2 F3 F4]]] := @scvi_update _ ker emission Hker Hm0 n z Hz Hn n.+1 z gm gv Y lr Hlr Hgv p Vp at_covered.
move: F1; rewrite E2 => /Some_inj F1; subst q1.
pose g k := cvi_gradients gm gv (cvi_predict_f ker emission n q z z k) (Y k).
have Eg k : (k < n.+1)%N -> cvi_gradients gm gv (cvi_predict_f ker emission n q' z z k) (Y k) = g k.
  move=> Hk; rewrite /g; have L1 := ssm_has_law n q; have L2 := proj1 (L _ _) L1.
  by rewrite (@predict_same _ ker emission n z q q' _ _ z k Hker Hm0 Hz (at_covered Hk) N1 N2 L1 L2).
pose s' := Sites (fun k => (1 - lr) * st_nat1 s k + lr * (g k).1) (fun k => (1 - lr) * st_nat2 s k + lr * (g k).2).
exists s', p'; split=> //; first by rewrite /cvi_update_sites E1.
- move=> k Hk; have /andP [l0 l1] := Hlr; have Hg : (g k).2 <= 0 by exact: Hgv.
  have Es : st_nat2 s' k = (1 - lr) * st_nat2 s k + lr * (g k).2 by [].
  rewrite Es -[0]addr0; apply: ler_add; first by apply: mulr_ge0_le0; [rewrite subr_ge0|exact: Vs].
  exact: mulr_ge0_le0.
- move=> u; rewrite F4 M (@sites_comb s' s (Sites (fun k => (g k).1) (fun k => (g k).2)) (1 - lr) lr) //.
  congr (_ + lr * _); apply: eq_bigr => k _; rewrite Eg // -[(_ *m _) 0 0 in LHS]/(projected ker emission n z (z k) u).
  by rewrite projected_at.
Qed.

Lemma matched_iter r s p : valid s -> valid_pairs n p -> matched s p -> exists s' p',
  [/\ iter r (obind (cvi_update_sites ker emission gm gv n z Y lr)) (Some s) = Some s',
      iter r (obind (scvi_update_sites ker emission gm gv n z lr n.+1 z Y)) (Some p) = Some p',
      valid s', valid_pairs n p' & matched s' p'].
Proof.
move=> Vs Vp M; elim: r => [|r [s' [p' [E1 E2 V1 V2 M']]]]; first by exists s, p.
by rewrite !iterS E1 E2; exact: matched_update.
Qed.
End Update.

Lemma sparse_dense (gm gv : R -> R -> R -> R) (Y : nat -> R) (lr : R) r (s : sites Rr) (p : pair_sites d) (ve : R -> R -> R -> R) mean : 0 <= lr <= 1 -> (forall mu v y, gv mu v y <= 0) ->
  (forall k, (k <= n)%N -> st_nat2 s k <= 0) -> valid_pairs n p ->
  (forall u, pairs_exponent n p u = sites_exponent n (fun k => emission (z k)) s u) ->
  exists s' p' q q',
  [/\ iter r (obind (cvi_update_sites ker emission gm gv n z Y lr)) (Some s) = Some s' /\
      iter r (obind (scvi_update_sites ker emission gm gv n z lr n.+1 z Y)) (Some p) = Some p',
      cvi_dist_q ker emission n z s' = Some q /\ scvi_dist_q ker n z p' = Some q',
      forall m K, has_law n.+1 n.+1 (ssm_path q) m K <-> has_law n.+1 n.+1 (ssm_path q') m K,
      forall new i, z 0%N <= new i <= z n ->
        omap (fun f => f i) (cvi_posterior_predict_f ker emission n z mean s' new) =
        Some (cvi_predict_f ker emission n q' z new i) &
      cvi_classic_elbo ker emission n z Y ve s' = scvi_classic_elbo ker emission n z ve n.+1 z Y p'].
Proof.
move=> Hlr Hgv Vs Vp M.
have [s' [p' [E1 E2 V1 V2 M']]] := @matched_iter gm gv Y lr Hlr Hgv r s p Vs Vp M.
have [q [q' [F1 F2 N1 N2 L]]] := matched_q V1 V2 M'.
have L1 := ssm_has_law n q; have L2 := proj1 (L _ _) L1.
have P new i : covered n z (new i) -> cvi_predict_f ker emission n q z new i = cvi_predict_f ker emission n q' z new i.
  by move=> Hc; exact: (@predict_same _ ker emission n z q q' _ _ new i Hker Hm0 Hz Hc N1 N2 L1 L2).
exists s', p', q, q'; split.
- exact: (conj E1 E2).
- exact: (conj F1 F2).
- exact: L.
- move=> new i /andP [H1 H2]; rewrite /cvi_posterior_predict_f F1 /Option.map /Option.bind /Option.apply.
  have Hc : covered n z (new i) by exact: covered_range.
  by rewrite (P new i Hc).
- have Np : ssm_nonsing n (kssm ker z) := kssm_nonsing Hker Hz.
  have Lp := ssm_has_law n (kssm ker z).
  have KL : ssm_kl_divergence n q (kssm ker z) = ssm_kl_divergence n q' (kssm ker z).
    by have [-> _ _ _] := kl_law N1 Np L1 Lp; have [-> _ _ _] := kl_law N2 Np L2 Lp.
  have S : \sum_(k < n.+1) ve (cvi_predict_f ker emission n q z z k).1 (cvi_predict_f ker emission n q z z k).2 (Y k) =
           \sum_(k < n.+1) ve (cvi_predict_f ker emission n q' z z k).1 (cvi_predict_f ker emission n q' z z k).2 (Y k).
    by apply: eq_bigr => k _; rewrite (P z k (at_covered (ltn_ord k))).
  rewrite /cvi_classic_elbo /scvi_classic_elbo F1 F2 (kernel_ssmE ker Hz) /obind /oapp /Option.map /Option.bind /Option.apply.
  exact: (f_equal2 (fun a b : R => Some (a - b)) S KL).
Qed.

(* for any sites there are matching pair sites *)
Lemma matching_pairs s : (forall k, (k <= n)%N -> st_nat2 s k <= 0) -> exists2 p, valid_pairs n p &
  forall u, pairs_exponent n p u = sites_exponent n (fun k => emission (z k)) s u.
Proof.
move=> Vs.
pose C k := emission (z k) *m (conditional_statistics ker n.+1 z (z k)).1.1.
pose bp k := back_project_nats (st_nat1 s k) (st_nat2 s k) (C k).
exists (PairSites (fun m => \sum_(k < n.+1 | ext_searchsorted n.+1 z (z k) == m) (bp k).1)
                  (fun m => \sum_(k < n.+1 | ext_searchsorted n.+1 z (z k) == m) (bp k).2)).
  move=> m _; split; first exact: (contrib_sym ker emission n z n.+1 z (st_nat1 s) (st_nat2 s) m).
  by move=> v; apply: (@contrib_neg _ ker emission n z n.+1 z (st_nat1 s) (st_nat2 s) m v) => k; exact: Vs.
move=> u; apply: (etrans (contrib_exponent emission Hker Hz (st_nat1 s) (st_nat2 s) u at_covered)).
apply: eq_bigr => k _; cbv zeta.
rewrite -[(_ *m flat _ _) 0 0]/(projected ker emission n z (z k) u).
by rewrite projected_at.
Qed.
End SparseDense.

Lemma svgp_vgp o d (ker : sde_kernel Rr d) (emission : R -> 'M[R]_(o, d)) mean ve n z Y (q : ssm Rr d) :
  svgp_elbo ker emission mean ve n z None n.+1 z Y q = vgp_elbo ker emission mean ve n z Y q.
Proof.
rewrite /svgp_elbo /vgp_elbo; case: (kernel_ssm _ _ _) => [p|]; last by [].
rewrite /Option.map /Option.bind /Option.apply; cbv zeta.
by move: (\sum_(k < n.+1) _) => a; rewrite (mulr1 a).
Qed.
