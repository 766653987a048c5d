(* Proofs for M_Pep.v: statements of T_Pep.v. *)
From Coq Require Import Reals Lra FunctionalExtensionality.
From mathcomp Require Import all_ssreflect all_algebra.
From Verif Require Import MCalc RealStruct Nat Alg Lin Ent Spd Log M_Block S_Block P_Block M_SSM S_SSM P_SSM M_SSMLog P_SSMLog S_Gauss P_Gauss
  M_Trans S_Trans P_Trans S_Kalman M_Kalman P_Kalman M_Kernel S_Kernel P_Kernel M_Cond P_Cond P_Cond4
  M_Emission P_Emission M_Sort P_Sort M_Models S_GP P_Models P_Models2 M_Cvi S_Cvi P_Cvi P_Cvi3 M_Pep S_Pep P_Block2 P_Pep P_Pep2 P_KernelR P_KernelR2 M_KernelR P_Models3 P_KalmanLog P_TransLog P_Pep3 P_Pep4 P_Pep5 P_Pep6 P_Cvi4 M_Comb S_Comb P_Comb.
Set Implicit Arguments.
Unset Strict Implicit.
Unset Printing Implicit Defensive.
Import GRing.Theory Num.Theory Order.TTheory.
Local Open Scope ring_scope.







Section Pep.
Variables (d : nat) (ker : sde_kernel Rr d) (emission : R -> 'M[R]_(1, d)).
Hypothesis Hker : markov_kernel ker.
Hypothesis Hm0 : k_mean0 ker = 0.
Variables (n : nat) (z : nat -> R).
Hypothesis Hz : increasing n.+1 z.
Hypothesis Hn : (0 < n)%N.
Let H (k : nat) := emission (z k).

Lemma cavity_spd (alpha : R) (s : sites Rr) k : (k <= n)%N -> 0 <= alpha <= 1 -> (forall j, (j <= n)%N -> st_nat2 s j <= 0) ->
  exists q, [/\ cvi_dist_q ker emission n z s = Some q, spd ((pep_marginals n q).2 k) &
    spd (- (pep_cavity_nats emission z alpha (pep_marginals n q) s k).2)].
Proof.
move=> Hk Ha Hs; have [q Eq Nq] := dist_q_exists emission Hker Hm0 Hz Hn Hs.
have [q0 Eq0 Nq0] := dist_q_exists emission Hker Hm0 Hz Hn (scaled_le0 k Ha Hs).
have [S _] := cavity Hker Hm0 Hz Hn Hk Ha Hs Eq Eq0 Nq (ssm_has_law n q0).
exists q; split=> //; change (pep_marginals n q).2 with (ssm_marginal_covariances n q).
have L := ssm_has_law n q; have [_ M2 _ _] := ssm_covariances Nq L; rewrite M2 //.
apply: (spd_blk Hk); have [_ <-] := ssm_lawE L; exact: cov_spd.
Qed.

Lemma site_is_likelihood (y : nat -> R) (s2 : R) : 0 < s2 -> forall l s k, uniq l -> (k <= n)%N -> k \in l -> emission (z k) != 0 ->
  (forall j, (j <= n)%N -> st_nat2 (pe_sites s) j <= 0) ->
  st_nat1 (pe_sites s) k = y k / s2 -> st_nat2 (pe_sites s) k = - (2%:R * s2)^-1 ->
  exists2 s', pep_update_sites ker emission (pep_gaussian_led s2) (pep_gaussian_grads s2) n z y 1 1 (Some l) s = Some s' &
  forall f, pe_log_norm s' k + st_nat1 (pe_sites s') k * f + st_nat2 (pe_sites s') k * f ^+ 2 = log_normal (y k) f s2.
Proof.
move=> s0 l s k Hl Hk kl HH Hs E1 E2.
have [s' U1 U2] := log_norm_update Hker Hm0 Hz Hn s0 1 Hl Hk kl HH Hs E1 E2.
have Hlr : 0 <= (1 : R) <= 1 by rewrite ler01 lexx.
have Hu : all uniq [:: l] by rewrite /= Hl.
have [s1 [G1 G2 G3 _]] := gauss_schedule emission Hker Hm0 Hz Hn y s0 Hlr Hu Hs.
have Es : s1 = s' by apply: Some_inj; rewrite -G1 -U1.
have N1 : st_nat1 (pe_sites s') k = y k / s2.
  by apply/eqP; have /eqP := G2 k Hk; rewrite E1 (subrr (y k / s2)) mulr0 subr_eq0 Es.
have N2 : st_nat2 (pe_sites s') k = - (2%:R * s2)^-1.
  by apply/eqP; have /eqP := G3 k Hk; rewrite E2 (subrr (- (2%:R * s2)^-1)) mulr0 subr_eq0 Es.
exists s' => // f; rewrite U2 N1 N2 subrr mul0r add0r mul1r /log_normal ln_twopi //.
have n1 : s2 <> 0%Re by apply/eqP; exact: lt0r_neq0.
by move: (ln _) (ln _) (y k) => a b c; eqR; toF; field.
Qed.

Lemma update_listed led grads y alpha lr ind s : uniq ind -> 0 <= alpha <= 1 -> (forall j, (j <= n)%N -> st_nat2 (pe_sites s) j <= 0) ->
  exists s' f, [/\ pep_update_sites ker emission led grads n z y alpha lr (Some ind) s = Some s',
    pep_cavity ker emission n z alpha (pe_sites s) = Some f &
    forall k, let g := grads alpha (f k).1 (f k).2 (y k) in
      let L2 := (2%:R * ((f k).2 + g.2^-1))^-1 in
      let L1 := 2%:R * L2 * (g.1 / g.2 - (f k).1) in
      st_nat1 (pe_sites s') k = (if k \in ind then
        (1 - lr) * st_nat1 (pe_sites s) k + lr * ((1 - alpha) * st_nat1 (pe_sites s) k + L1) else st_nat1 (pe_sites s) k) /\
      st_nat2 (pe_sites s') k = (if k \in ind then
        (1 - lr) * st_nat2 (pe_sites s) k + lr * ((1 - alpha) * st_nat2 (pe_sites s) k + L2) else st_nat2 (pe_sites s) k)].
Proof.
move=> Hl Ha Hs.
have [s' [q [f [F1 _ F4 _ F6]]]] := update_some emission Hker Hm0 Hz Hn led grads y lr Hl Ha Hs.
exists s', f; split=> // k g L2 L1; have := F6 k; rewrite /pep_gradients /gradient_correction; cbv zeta.
have -> : 2%:R^-1 * ((f k).2 + 1 / g.2)^-1 = L2 by rewrite mul1r /L2 invfM.
by rewrite mul1r; case: (k \in ind) => -[-> -> _].
Qed.

Lemma update_twice (s2 : R) (y : nat -> R) s k : 0 < s2 -> (k <= n)%N -> (forall j, (j <= n)%N -> st_nat2 (pe_sites s) j <= 0) ->
  exists2 s', pep_update_sites ker emission (pep_gaussian_led s2) (pep_gaussian_grads s2) n z y 1 1 (Some [:: k; k]) s = Some s' &
  st_nat1 (pe_sites s') k - y k / s2 = - (st_nat1 (pe_sites s) k - y k / s2) /\
  st_nat2 (pe_sites s') k - - (2%:R * s2)^-1 = - (st_nat2 (pe_sites s) k - - (2%:R * s2)^-1).
Proof.
move=> s0 Hk Hs; have Ha : 0 <= (1 : R) <= 1 by rewrite ler01 lexx.
have [q Eq Nq] := dist_q_exists emission Hker Hm0 Hz Hn Hs.
have [s1 [q1 [f [_ _ F4 F5 _]]]] := update_some emission Hker Hm0 Hz Hn (pep_gaussian_led s2) (pep_gaussian_grads s2) y 1 (l := [::]) isT Ha Hs.
have Ef : pep_cavity_from_marginals emission z 1 (pep_marginals n q) (pe_sites s) k = f k.
  by move: F4; rewrite /pep_cavity Eq /Option.map /Option.bind /Option.apply => /Some_inj <-.
eexists; first by rewrite /pep_update_sites Eq /Option.map /Option.bind /Option.apply; reflexivity.
cbn [pe_sites st_nat1 st_nat2]; rewrite mask_twice Ef /pep_gradients gc_pep_gauss ?F5 // [(_, _).1]/= [(_, _).2]/=.
move: (st_nat1 _ _) (st_nat2 _ _) (y k) (s2^-1) ((2%:R * s2)^-1) => a b c w v.
by split; eqR; toF; ring.
Qed.

Lemma led_log_normal (s2 mu v y : R) : 0 < s2 -> 0 <= v -> pep_gaussian_led s2 1 mu v y = log_normal y mu (s2 + v).
Proof.
move=> s0 v0; rewrite /pep_gaussian_led /ext_logdensity_gaussian /log_normal ln_twopi; last exact: ltr_paddr.
by move: (ln _) (ln _) ((s2 + v)^-1) => a b w; eqR; toF; field.
Qed.

Lemma energy_law (y : nat -> R) (s2 : R) : 0 < s2 -> forall s : sites Rr,
  (forall k, (k <= n)%N -> st_nat1 s k = y k / s2) -> (forall k, (k <= n)%N -> st_nat2 s k = - (2%:R * s2)^-1) ->
  let Y := flat n.+1 (fun k => const_mx (y k) : 'cV[R]_1) in
  let evidence := gauss_logpdf 0 (f_gram ker emission n.+1 n.+1 z z + s2%:M) Y in
  exists q c e, [/\ cvi_dist_q ker emission n z s = Some q, pep_cavity ker emission n z 1 s = Some c,
    pep_energy ker emission (pep_gaussian_led s2) n z y 1 s = Some e &
    forall m K, has_law n.+1 n.+1 (ssm_path q) m K ->
    e = evidence + \sum_(k < n.+1)
      (log_normal (y k) ((emission (z k) *m m k) 0 0) (s2 + (emission (z k) *m K k k *m (emission (z k))^T) 0 0) -
       log_normal (y k) (c k).1 (s2 + (c k).2))].
Proof.
move=> s0 s E1 E2 Y ev; have [q [c [e [Eq Nq Ec Ee Ev]]]] := energy_exact emission Hker Hm0 Hz Hn s0 E1 E2.
have Hs k : (k <= n)%N -> st_nat2 s k <= 0.
  by move=> Hk; rewrite E2 // oppr_le0 invr_ge0 mulr_ge0 ?ler0n // ltW.
have Ha : 0 <= (1 : R) <= 1 by rewrite ler01 lexx.
exists q, c, e; split=> // m K L; rewrite Ev; congr (_ + _); apply: eq_bigr => k _.
have [M1 M2 _ _] := ssm_covariances Nq L.
have [C0 _] := cavity_var Hker Hm0 Hz Hn Ha (ltn_ord k) Hs Ec.
have Ef : pep_f_marginals emission n z q k = ((H k *m m k) 0 0, (H k *m K k k *m (H k)^T) 0 0).
  rewrite /pep_f_marginals /project_marginals_diag; cbv zeta; congr pair.
    by rewrite [(_, _).1]/= /project_state_to_f (M1 _ (ltn_ord k)).
  by rewrite [(_, _).2]/= cov_diagE (M2 _ (ltn_ord k)).
have PK : spd (K k k).
  apply: (@spd_blk d n K k (ltn_ord k)); have [_ ->] := ssm_lawE L; exact: cov_spd.
rewrite Ef ![(_, _).1]/= ![(_, _).2]/= !led_log_normal //; exact: cov_ge0.
Qed.
End Pep.

Lemma power_value_unique (s2 alpha mu v y : R) : 0 < s2 -> 0 < alpha -> 0 < v ->
  exists2 Z, log_power_expectation s2 alpha mu v y Z &
  forall Z', log_power_expectation s2 alpha mu v y Z' -> Z' = Z.
Proof.
move=> s0 a0 v0; exists (power_value s2 alpha mu v y); first exact: power_value_spec.
by move=> Z' HZ; apply: (power_unique HZ); exact: power_value_spec.
Qed.

Lemma moments_example (s2 mu v y : R) : 0 < s2 -> 0 <= v ->
  let g := pep_gaussian_grads s2 1 mu v y in g.2 < 0 /\ 0 < 1 + v * g.2.
Proof.
move=> s0 v0; have p0 : 0 < s2 + v by exact: ltr_paddr.
rewrite /pep_gaussian_grads [(_, _).2]/= mulr1 mulN1r; split; first by rewrite oppr_lt0 invr_gt0.
have -> : 1 + v * - (s2 + v)^-1 = s2 / (s2 + v).
  by rewrite mulrN -{1}(divff (lt0r_neq0 p0)) -mulrBl addrK.
exact: divr_gt0.
Qed.

Lemma matern_H (l v : R) t : sk_H (matern32 1 0 l v 0) t != 0.
Proof.
apply/eqP => /matrixP /(_ 0 0); rewrite /= !mxE /=.
by move/eqP; rewrite oner_eq0.
Qed.

Lemma power_refuted (l v s2 : R) n z y alpha lr ind s k : 0 < l -> 0 < v -> 0 < s2 ->
  increasing (F := Rr) n.+1 z -> (0 < n)%N -> 0 < alpha < 1 -> lr != 0 -> uniq ind -> (k <= n)%N -> k \in ind ->
  (forall j, (j <= n)%N -> st_nat1 (pe_sites s) j = y j / s2) ->
  (forall j, (j <= n)%N -> st_nat2 (pe_sites s) j = - (2%:R * s2)^-1) ->
  let ker := matern32 1 0 l v 0 in
  exists2 s', pep_update_sites (to_sde ker) (sk_H ker) (pep_gaussian_led s2) (pep_gaussian_grads s2) n z y alpha lr (Some ind) s = Some s' &
  st_nat2 (pe_sites s') k <> - (2%:R * s2)^-1.
Proof.
move=> Hl Hv Hs Hz Hn /andP [a0 a1] Hlr Hu Hk ki E1 E2 ker; have [H1 H2] := matern_markov Hl Hv.
have Ha : 0 < alpha <= 1 by rewrite a0 ltW.
have Hle j : (j <= n)%N -> st_nat2 (pe_sites s) j <= 0.
  by move=> Hj; rewrite E2 // oppr_le0 invr_ge0 mulr_ge0 ?ler0n // ltW.
have [s' U [V _]] := power_fixed (sk_H ker) H1 H2 Hz Hn y lr Hs Ha Hu Hk ki Hle (E2 k Hk).
exists s' => // E; case: V; first by rewrite E E2.
- by move=> A; move: a1; rewrite A ltxx.
- by move=> A; move: Hlr; rewrite A eqxx.
by move/eqP; rewrite (negbTE (matern_H l v (z k))).
Qed.

Lemma energy_refuted (l v s2 : R) n z s : 0 < l -> 0 < v -> 0 < s2 ->
  increasing (F := Rr) n.+1 z -> (0 < n)%N ->
  (forall k, (k <= n)%N -> st_nat1 s k = 0) -> (forall k, (k <= n)%N -> st_nat2 s k = - (2%:R * s2)^-1) ->
  let ker := matern32 1 0 l v 0 in
  exists2 e, pep_energy (to_sde ker) (sk_H ker) (pep_gaussian_led s2) n z (fun _ => 0) 1 s = Some e &
  gauss_logpdf 0 (f_gram (to_sde ker) (sk_H ker) n.+1 n.+1 z z + s2%:M) 0 < e.
Proof.
move=> Hl Hv Hs Hz Hn E1 E2 ker; have [H1 H2] := matern_markov Hl Hv.
have E1' k : (k <= n)%N -> st_nat1 s k = (fun _ : nat => 0 : R) k / s2 by move=> Hk; rewrite E1 // mul0r.
have [e A B] := energy_zero H1 H2 Hz Hn Hs E1' E2 (fun k _ => erefl) (leq0n n) (matern_H l v (z 0%N)).
exists e => //; move: B.
have -> : flat n.+1 (fun _ : nat => const_mx 0 : 'cV[R]_1) = 0 => //.
by rewrite -[RHS](flat_unflat (0 : 'cV[R]_(n.+1 * 1))); apply: eq_flat => k Hk; rewrite (@unflat0 Rr); apply/colP => i; rewrite !mxE.
Qed.

Lemma pep_example (l v s2 : R) n : 0 < l -> 0 < v -> 0 < s2 ->
  let k := matern32 1 0 l v 0 in let z i : R := i%:R in
  [/\ markov_kernel (to_sde k), k_mean0 (to_sde k) = 0, increasing (F := Rr) n.+1 z &
      (forall k, st_nat2 cvi_initial_sites k <= 0) /\ (forall t, sk_H k t != 0)].
Proof.
move=> Hl Hv Hs k z; have [A B C _ [_ D]] := cvi_example n Hl Hv Hs; split=> //; split; last exact: matern_H.
by move=> j; rewrite ltW.
Qed.
