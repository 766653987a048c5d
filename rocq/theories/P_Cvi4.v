(* CVI: the statements about one call of update_sites; the mean refutations; the chain rule. *)
From Coq Require Import Reals Lra.
From Coquelicot Require Import Coquelicot.
From mathcomp Require Import all_ssreflect all_algebra.
From Verif Require Import MCalc RealStruct Nat Alg Lin Ent Spd Log M_Block S_Block M_SSM S_SSM P_SSM M_SSMLog P_SSMLog S_Gauss P_Gauss M_Trans S_Trans P_Trans
  S_Kalman M_Kalman P_Kalman M_Kernel S_Kernel P_Kernel M_Cond P_Cond P_Cond4
  M_Emission M_Sort P_Sort M_Models S_GP P_Models P_Models2 P_Models3 M_Comb S_Comb M_KernelR S_KernelR P_KernelR P_KernelR2
  M_Cvi S_Cvi P_Cvi P_Cvi2 P_Cvi3.
Set Implicit Arguments.
Unset Strict Implicit.
Unset Printing Implicit Defensive.
Import GRing.Theory Num.Theory Order.TTheory.
Local Open Scope ring_scope.

Section Dense.
Variables (d : nat) (ker : sde_kernel Rr d) (emission : R -> 'M[R]_(1, d)).
Hypothesis Hker : markov_kernel ker.
Hypothesis Hm0 : k_mean0 ker = 0.
Variables (n : nat) (z : nat -> R).
Hypothesis Hz : increasing n.+1 z.
Hypothesis Hn : (0 < n)%N.
Hypothesis Hinf : - APPROX_INF Rr < z 0%N.
Variables (gm gv : R -> R -> R -> R) (s2 : R) (y : nat -> R).
Hypothesis s2_gt0 : 0 < s2.
Hypothesis Hg : gradients_of (ext_gaussian_ve1 s2) gm gv.

Lemma cvi_unit_sites s : (forall k, (k <= n)%N -> st_nat2 s k <= 0) ->
  exists2 s', cvi_update_sites ker emission gm gv n z y 1 s = Some s' &
    forall k, st_nat1 s' k = y k / s2 /\ st_nat2 s' k = - (2%:R * s2)^-1.
Proof.
move=> Hs; have [s' [E1 E2 E3]] := cvi_update emission Hker Hz Hn y s2_gt0 Hg Hm0 1 Hs.
by exists s' => // k; rewrite E2 E3 subrr !mul0r !add0r !mul1r.
Qed.

Lemma cvi_unit_step s : (forall k, (k <= n)%N -> st_nat2 s k <= 0) ->
  let Hd := dense n.+1 n.+1 (rdiag (fun k => emission (z k))) in
  let Y := flat n.+1 (fun k => const_mx (y k) : 'cV[R]_1) in
  let evidence := gauss_logpdf 0 (f_gram ker emission n.+1 n.+1 z z + s2%:M) Y in
  exists s' q, [/\ cvi_update_sites ker emission gm gv n z y 1 s = Some s', cvi_dist_q ker emission n z s' = Some q,
    forall m K, has_law n.+1 n.+1 (ssm_path q) m K ->
      flat n.+1 m = cond_mean 0 (x_gram ker n.+1 z) Hd s2%:M Y /\ dense n.+1 n.+1 K = cond_cov (x_gram ker n.+1 z) Hd s2%:M,
    cvi_elbo ker emission n z s' = Some evidence &
    cvi_classic_elbo ker emission n z y (ext_gaussian_ve1 s2) s' = Some evidence].
Proof.
move=> Hs Hd Y ev; have [s' E E'] := cvi_unit_sites Hs.
have E1 k : (k <= n)%N -> st_nat1 s' k = y k / s2 by move=> _; have [] := E' k.
have E2 k : (k <= n)%N -> st_nat2 s' k = - (2%:R * s2)^-1 by move=> _; have [] := E' k.
have [q [F1 F2 F3]] := exact_posterior emission Hker Hz Hn s2_gt0 Hm0 E1 E2.
exists s', q; split=> //.
  exact: exact_elbo.
exact: exact_classic.
Qed.

Lemma cvi_unit_predict s mean new i : (forall k, (k <= n)%N -> st_nat2 s k <= 0) -> z 0%N <= new i -> new i <= z n ->
  let Kt := brow n.+1 (fun j => f_cov ker emission (new i) (z j)) in
  let W := invmx (f_gram ker emission n.+1 n.+1 z z + s2%:M) in
  let Y := flat n.+1 (fun k => const_mx (y k) : 'cV[R]_1) in
  omap (fun f => f i) (obind (fun s' => cvi_posterior_predict_f ker emission n z mean s' new)
    (cvi_update_sites ker emission gm gv n z y 1 s)) =
  Some ((Kt *m W *m Y) 0 0, (f_cov ker emission (new i) (new i) - Kt *m W *m Kt^T) 0 0).
Proof.
move=> Hs H1 H2 Kt W Y; have [s' E E'] := cvi_unit_sites Hs.
have E1 k : (k <= n)%N -> st_nat1 s' k = y k / s2 by move=> _; have [] := E' k.
have E2 k : (k <= n)%N -> st_nat2 s' k = - (2%:R * s2)^-1 by move=> _; have [] := E' k.
rewrite E; exact: cvi_exact_predict.
Qed.
End Dense.

(* a kernel whose state mean is not zero *)
Lemma cvi_state_mean_refuted (l v : R) (mu : 'cV[R]_1) (emission : R -> 'M[R]_1) n z s : 0 < l -> 0 < v -> mu != 0 ->
  increasing (F := Rr) n.+1 z -> (0 < n)%N -> (forall k, (k <= n)%N -> st_nat2 s k < 0) ->
  let ker := to_sde (matern12 1 0 l v mu) in
  exists q q', [/\ cvi_dist_q ker emission n z s = Some q, cvi_posterior_kalman ker emission n z s = Some q' &
    forall m K, has_law n.+1 n.+1 (ssm_path q) m K -> ~ has_law n.+1 n.+1 (ssm_path q') m K].
Proof.
move=> Hl Hv Hmu Hz Hn Hs ker.
have [||q [q' [E1 E2 E3]]] := @cvi_kalman_mean _ ker emission _ n z Hz Hn s _ Hs.
- exact: m12_markov.
- by move=> k /Hs /ltW.
exists q, q'; split=> // m K H H'; move/negP: Hmu; apply; apply/eqP.
by apply/E3; exists m, K.
Qed.

(* a mean function that is not zero at one of the data points *)
Lemma cvi_mean_function_refuted (l v : R) n z (s2 : R) y mean s j : 0 < l -> 0 < v -> 0 < s2 ->
  increasing (F := Rr) n.+1 z -> (0 < n)%N -> - APPROX_INF Rr < z 0%N -> (j <= n)%N -> mean (z j) != 0 ->
  (forall k, (k <= n)%N -> st_nat1 s k = y k / s2) -> (forall k, (k <= n)%N -> st_nat2 s k = - (2%:R * s2)^-1) ->
  let k := matern32 1 0 l v 0 in
  exists2 i, (i <= n)%N &
    omap (fun f => (f i).1) (cvi_posterior_predict_f (to_sde k) (sk_H k) n z mean s z) <>
    omap (fun f : nat -> 'cV[R]_1 * 'M[R]_1 => (f i).1 0 0)
      (gpr_predict_f (to_sde k) (sk_H k) (fun t => const_mx (mean t)) n z (fun k => const_mx (y k)) (Num.sqrt s2)%:M z).
Proof.
move=> Hl Hv Hs Hz Hn Hinf Hj Hmean E1 E2 k.
have [H1 H2] := matern_markov Hl Hv.
have [H _] := cvi_mean_ignored (sk_H k) H1 H2 Hz Hn Hinf Hs mean E1 E2.
apply: Classical_Prop.NNPP => Hno; move/negP: Hmean; apply; apply/eqP; apply: H => // i Hi.
by apply: Classical_Prop.NNPP => Hne; apply: Hno; exists i.
Qed.

(* the gradient in the expectation parameters eta1 = mu, eta2 = mu^2 + v *)
Lemma cvi_chain_rule (ve : R -> R -> R) (mu v g1 g2 : R) : differentiable_pt_lim ve mu v g1 g2 ->
  let r := gradient_mean_var_to_expectation mu (g1, g2) in
  derivable_pt_lim (fun e => ve e (mu ^+ 2 + v - e ^+ 2)) mu r.1 /\
  derivable_pt_lim (fun e => ve mu (e - mu ^+ 2)) (mu ^+ 2 + v) r.2.
Proof.
move=> H r; split.
  have := @derivable_pt_lim_comp_2d ve (fun e => e) (fun e => mu ^+ 2 + v - e ^+ 2) mu g1 g2 1 (- (2%:R * mu)).
  rewrite (_ : mu ^+ 2 + v - mu ^+ 2 = v); last by crng.
  move=> /(_ H (derivable_pt_lim_id _)).
  rewrite (_ : r.1 = (g1 * 1 + g2 * - (2%:R * mu))%Re); last by rewrite /r /=; toR_ops; rewrite natrR /=; ring.
  apply.
  have := lin_deriv.
  have -> : (fun e : R => mu ^+ 2 + v - e ^+ 2) = (fun e : R => ((mu * mu + v) + (-1) * ((0 - e) * (0 - e)))%Re).
    by apply: FunctionalExtensionality.functional_extensionality => e; toR_ops; rewrite !exprR /=; ring.
  move=> _; have := quad_deriv (mu * mu + v)%Re (-1)%Re 0 mu.
  by rewrite (_ : (- (2 * -1 * (0 - mu)))%Re = - (2%:R * mu)) //; toR_ops; rewrite natrR /=; ring.
have := @derivable_pt_lim_comp_2d ve (fun e => mu) (fun e => e - mu ^+ 2) (mu ^+ 2 + v) g1 g2 0 1.
rewrite (_ : mu ^+ 2 + v - mu ^+ 2 = v); last by crng.
move=> /(_ H (derivable_pt_lim_const _ _)).
rewrite (_ : r.2 = (g1 * 0 + g2 * 1)%Re); last by rewrite /r /=; toR_ops; ring.
apply.
have -> : (fun e : R => e - mu ^+ 2) = (fun e : R => (- (mu * mu) + 1 * e)%Re).
  by apply: FunctionalExtensionality.functional_extensionality => e; toR_ops; rewrite !exprR /=; ring.
exact: lin_deriv.
Qed.

Lemma cvi_example (l v s2 : R) n : 0 < l -> 0 < v -> 0 < s2 ->
  let k := matern32 1 0 l v 0 in let z i : R := i%:R in
  [/\ markov_kernel (to_sde k), k_mean0 (to_sde k) = 0, increasing (F := Rr) n.+1 z, - APPROX_INF Rr < z 0%N &
      gradients_of (ext_gaussian_ve1 s2) (fun mu _ y => (y - mu) / s2) (fun _ _ _ => - (2%:R * s2)^-1) /\
      (forall k, st_nat2 cvi_initial_sites k < 0)].
Proof.
move=> Hl Hv Hs k z; have [H1 H2 H3 H4 _] := models_example n 0 0 Hl Hv; split=> //; split; last first.
  by move=> i; rewrite oppr_lt0 invr_gt0 ltr0n expn_gt0.
exact: gauss_has_grad.
Qed.

Lemma chain_rule_example : differentiable_pt_lim (fun m v => (m * v)%Re) 1 2%:R 2%:R 1.
Proof.
move=> eps; exists eps => u v Hu Hv; rewrite natrR /=.
have -> : (u * v - 1 * (1 + 1) - ((1 + 1) * (u - 1) + 1 * (v - (1 + 1))) = (u - 1) * (v - (1 + 1)))%Re by ring.
rewrite natrR /= in Hv; rewrite Rabs_mult.
have H1 := Rmax_r (Rabs (u - 1)) (Rabs (v - (1 + 1))); have P := Rabs_pos (v - (1 + 1)).
by apply: Rmult_le_compat => //; [exact: Rabs_pos|apply: Rlt_le].
Qed.

Lemma scvi_posterior d (ker : sde_kernel Rr d) : markov_kernel ker -> k_mean0 ker = 0 ->
  forall n z, increasing n.+1 z -> (0 < n)%N -> forall s, valid_pairs n s ->
  exists q c, [/\ scvi_dist_q ker n z s = Some q, ssm_chol n q &
    forall m K u, has_law n.+1 n.+1 (ssm_path q) m K ->
    gauss_logpdf (flat n.+1 m) (dense n.+1 n.+1 K) (flat n.+1 u) =
    gauss_logpdf 0 (x_gram ker n.+1 z) (flat n.+1 u) + pairs_exponent n s u + c].
Proof.
by move=> Hk Hm n z Hz Hn s Hs; apply: scvi_posterior_density => // [m /Hs []|m w /Hs []].
Qed.

Lemma scvi_unit_step d (ker : sde_kernel Rr d) (emission : R -> 'M[R]_(1, d)) : markov_kernel ker -> k_mean0 ker = 0 ->
  forall n z, increasing n.+1 z -> (0 < n)%N -> - APPROX_INF Rr < z 0%N ->
  forall N X gm gv Y (s2 : R), 0 < s2 -> gradients_of (ext_gaussian_ve1 s2) gm gv ->
  (forall k, (k < N)%N -> z 0%N <= X k <= z n) -> forall s, valid_pairs n s ->
  let Kzz := x_gram ker n.+1 z in let Kfz := fx_gram ker emission N n.+1 X z in
  let Kff := f_gram ker emission N N X X in let G := Kfz *m invmx Kzz in let Qff := G *m Kfz^T in
  let Yv := flat N (fun k => const_mx (Y k) : 'cV[R]_1) in
  exists s' q, [/\ scvi_update_sites ker emission gm gv n z 1 N X Y s = Some s', scvi_dist_q ker n z s' = Some q,
    forall m K, has_law n.+1 n.+1 (ssm_path q) m K ->
      flat n.+1 m = cond_mean 0 Kzz G s2%:M Yv /\ dense n.+1 n.+1 K = cond_cov Kzz G s2%:M &
    scvi_classic_elbo ker emission n z (ext_gaussian_ve1 s2) N X Y s' =
    Some (gauss_logpdf 0 (Qff + s2%:M) Yv - (2%:R * s2)^-1 * \tr (Kff - Qff))].
Proof.
move=> Hk Hm n z Hz Hn Hinf N X gm gv Y s2 Hs2 Hg HX s Hs Kzz Kfz Kff G Qff Yv.
have HX' k : (k < N)%N -> covered (F := Rr) n z (X k).
  by move=> Hi; have /andP [H1 H2] := HX k Hi; apply: (@covered_range Rr).
have H01 : 0 <= (1 : R) <= 1 by rewrite ler01 lexx.
have [s' [E1 E2 E3]] := scvi_gauss_update emission Hk Hm Hz Hn Y Hs2 Hg HX' H01 Hs.
have E4 u : pairs_exponent n s' u = \sum_(k < N) (Y k / s2 * projected ker emission n z (X k) u
    + - (2%:R * s2)^-1 * projected ker emission n z (X k) u ^+ 2).
  by rewrite E3 subrr mul0r add0r mul1r.
have [q [F1 F2 F3]] := scvi_exact Hk Hm Hz Hn Hs2 E2 E4.
exists s', q; split=> //.
exact: (scvi_exact_elbo Hk Hm Hz Hn Hs2 E2 E4 Hinf HX).
Qed.

Lemma scvi_example d n (X : nat -> R) N : (forall k, (k < N)%N -> 0 <= X k <= n%:R) ->
  valid_pairs n (scvi_initial_sites d) /\ forall k, (k < N)%N -> covered (F := Rr) n (fun i => i%:R) (X k).
Proof.
move=> HX; split.
  move=> m _; split; first exact: trmx0.
  by move=> v; rewrite /qf mulmx0 mul0mx mxE.
move=> k Hk; have /andP [H1 H2] := HX k Hk; apply: (@covered_range Rr) => //.
  by move=> i _; rewrite ltr_nat.
by rewrite oppr_lt0; apply: lt_trans ltr01 (@inf_gt1 Rr).
Qed.

Lemma flat_zero d N : flat N (fun _ => 0 : 'cV[R]_d) = 0.
Proof. exact: bcol0. Qed.

Lemma cvi_vague d (ker : sde_kernel Rr d) (emission : R -> 'M[R]_(1, d)) (c : R) : markov_kernel ker -> k_mean0 ker = 0 ->
  forall n z, increasing n.+1 z -> (0 < n)%N -> 0 < c ->
  exists2 q, cvi_dist_q ker emission n z (Sites (fun _ => 0) (fun _ => - c^-1)) = Some q &
    forall m K, has_law n.+1 n.+1 (ssm_path q) m K -> flat n.+1 m = 0 /\
      dense n.+1 n.+1 K = cond_cov (x_gram ker n.+1 z) (dense n.+1 n.+1 (rdiag (fun k => emission (z k)))) (c / 2%:R)%:M.
Proof.
move=> Hk H0 n z Hz Hn Hc.
have s20 : 0 < c / 2%:R by rewrite divr_gt0 ?ltr0n.
have [||q [E Nq H]] := @exact_posterior d ker emission Hk n z Hz Hn (c / 2%:R) (fun _ => 0) s20 H0 (Sites (fun _ => 0) (fun _ => - c^-1)).
- by move=> k _; rewrite mul0r.
- by move=> k _; rewrite mulrC divfK // pnatr_eq0.
exists q => // m K /H [-> ->]; split=> //.
rewrite /cond_mean (_ : flat n.+1 _ = 0) ?mulmx0 ?subr0 ?mulmx0 ?addr0 //.
by rewrite -[RHS](flat_zero 1 n.+1); apply: eq_flat => k _; apply/matrixP => i j; rewrite !mxE.
Qed.

Lemma cvi_new_model d (ker : sde_kernel Rr d) (emission : R -> 'M[R]_(1, d)) : markov_kernel ker -> k_mean0 ker = 0 ->
  forall n z, increasing n.+1 z -> (0 < n)%N ->
  exists2 q, cvi_dist_q ker emission n z cvi_initial_sites = Some q &
    forall m K, has_law n.+1 n.+1 (ssm_path q) m K -> flat n.+1 m = 0 /\
      dense n.+1 n.+1 K = cond_cov (x_gram ker n.+1 z) (dense n.+1 n.+1 (rdiag (fun k => emission (z k)))) ((10 ^ 10)%N%:R / 2%:R)%:M.
Proof.
move=> Hk H0 n z Hz Hn; rewrite /cvi_initial_sites.
have : (0 < 10 ^ 10)%N by rewrite expn_gt0.
by move: (10 ^ 10)%N => c c0; apply: cvi_vague => //; rewrite ltr0n.
Qed.
