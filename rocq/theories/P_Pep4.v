(* Proofs for M_Pep.v: log normalisers, energy, powers below one. *)
From Coq Require Import Reals Lra FunctionalExtensionality.
From mathcomp Require Import all_ssreflect all_algebra.
From Verif Require Import MCalc RealStruct Nat Alg Lin Ent Spd Log M_Block S_Block P_Block M_SSM S_SSM P_SSM M_SSMLog P_SSMLog S_Gauss P_Gauss
  M_Trans S_Trans P_Trans S_Kalman M_Kalman P_Kalman M_Kernel S_Kernel P_Kernel M_Cond P_Cond P_Cond4
  M_Emission P_Emission M_Sort P_Sort M_Models S_GP P_Models P_Models2 M_Cvi S_Cvi P_Cvi P_Cvi3 M_Pep S_Pep P_Block2 P_Pep P_Pep2 P_KernelR P_KernelR2 M_KernelR P_Models3 P_KalmanLog P_TransLog P_Pep3.
Set Implicit Arguments.
Unset Strict Implicit.
Unset Printing Implicit Defensive.
Import GRing.Theory Num.Theory Order.TTheory.
Local Open Scope ring_scope.




Ltac eqR := match goal with |- @eq _ ?a ?b => change (@eq R a b) end.

Lemma norm_scalar (s2 yk mc vc mf vf : R) : 0 < s2 -> 0 < vc -> vc = vf * (1 + vc / s2) ->
  mc + yk / s2 * vc = mf * (1 + vc / s2) ->
  - 2%:R^-1 * (ln (2%:R * PI) + ln (s2 + vc) + (mc - yk) ^+ 2 / (s2 + vc)) + pep_log_norm_of (mc, vc) - pep_log_norm_of (mf, vf) =
  - 2%:R^-1 * (ln (2%:R * PI) + ln s2 + yk ^+ 2 / s2).
Proof.
move=> s0 v0 Q1 Q2; rewrite /pep_log_norm_of ![(_, _).1]/= ![(_, _).2]/=.
have p0 : 0 < s2 + vc by apply: addr_gt0.
have n1 : s2 <> 0%Re by apply/eqP; exact: lt0r_neq0.
have n2 : vc <> 0%Re by apply/eqP; exact: lt0r_neq0.
have n3 : (s2 + vc)%Re <> 0%Re by apply/eqP; exact: lt0r_neq0.
have Ev : vf = vc * s2 / (s2 + vc).
  move: Q1; toF => Q1; have -> : vf = (vf * (R1 + vc * / s2) * s2 / (s2 + vc))%Re by field.
  by rewrite -Q1; toF.
have Em : mf = (mc * s2 + yk * vc) / (s2 + vc).
  move: Q2; toF => Q2; have -> : mf = (mf * (R1 + vc * / s2) * s2 / (s2 + vc))%Re by field.
  by rewrite -Q2; toF; field.
have El : ln vf = ln vc + ln s2 - ln (s2 + vc).
  by rewrite Ev lnM ?invr_gt0 ?mulr_gt0 // lnM // lnV.
rewrite El Ev Em; move: (ln _) (ln _) (ln _) (ln _) => l1 l2 l3 l4; eqR; toF; field => //.
Qed.

Section Pep.
Variables (d : nat) (ker : sde_kernel Rr d) (emission : R -> 'M[R]_(1, d)).
Hypothesis Hker : markov_kernel ker.
Hypothesis Hm0 : k_mean0 ker = 0.
Variables (n : nat) (z : nat -> R).
Hypothesis Hz : increasing n.+1 z.
Hypothesis Hn : (0 < n)%N.
Let H (k : nat) := emission (z k).



Lemma led_drop (s2 vc vf : R) : 0 < s2 -> 0 <= vc -> vc = vf * (1 + vc / s2) ->
  let t := pep_gaussian_led s2 1 0 vf 0 - pep_gaussian_led s2 1 0 vc 0 in 0 <= t /\ (0 < vc -> 0 < t).
Proof.
move=> s0 v0 E t; have [V0|V0] := eqVneq vc 0.
  have F0 : vf = 0 by move: E; rewrite V0 mul0r addr0 mulr1.
  by rewrite /t F0 V0 subrr lexx ltxx.
have vp : 0 < vc by rewrite lt0r V0.
have fp : 0 < vf.
  have q0 : 0 < 1 + vc / s2 by rewrite addr_gt0 ?ltr01 ?divr_gt0.
  by rewrite -(pmulr_lgt0 _ q0) -E.
have Lt : vf < vc.
  have : vf * 1 < vf * (1 + vc / s2) by rewrite ltr_pmul2l // ltr_addl divr_gt0.
  by rewrite mulr1 -E.
suff : 0 < t by move=> Ht; rewrite ltW.
rewrite /t /pep_gaussian_led /ext_logdensity_gaussian !subr0 !expr0n !mul0r !mul1r !addr0.
have : ln (s2 + vf) < ln (s2 + vc).
  apply/RltP/ln_increasing; apply/RltP; first exact: addr_gt0.
  by rewrite ltr_add2l.
move: (ln _) (ln _) (ln _) => a b c /RltP; rewrite halfR => U; apply/RltP; move: U; toR_ops; lra.
Qed.

Section Gauss.
Variables (y : nat -> R) (s2 : R).
Hypothesis s2_gt0 : 0 < s2.
Let Y := flat n.+1 (fun k => const_mx (y k) : 'cV[R]_1).
Let Hd := dense n.+1 n.+1 (rdiag H).
Let evidence := gauss_logpdf 0 (f_gram ker emission n.+1 n.+1 z z + s2%:M) Y.
Notation upd alpha lr := (pep_update_sites ker emission (pep_gaussian_led s2) (pep_gaussian_grads s2) n z y alpha lr).

Lemma log_norm_update l s k lr : uniq l -> (k <= n)%N -> k \in l -> H k != 0 ->
  (forall j, (j <= n)%N -> st_nat2 (pe_sites s) j <= 0) ->
  st_nat1 (pe_sites s) k = y k / s2 -> st_nat2 (pe_sites s) k = - (2%:R * s2)^-1 ->
  exists2 s', upd 1 lr (Some l) s = Some s' &
  pe_log_norm s' k = (1 - lr) * pe_log_norm s k + lr * (- 2%:R^-1 * (ln (2%:R * PI) + ln s2 + y k ^+ 2 / s2)).
Proof.
move=> Hl Hk kl HH Hs E1 E2.
have Ha : 0 <= (1 : R) <= 1 by rewrite ler01 lexx.
have [s' [q [f [F1 [F2 F3] F4 F5 F6]]]] := update_some emission Hker Hm0 Hz Hn (pep_gaussian_led s2) (pep_gaussian_grads s2) y lr Hl Ha Hs.
exists s' => //; have := F6 k; rewrite kl => -[_ _ ->]; congr (_ + _ * _); rewrite subrr mul0r add0r.
have [_ P R1 R2] := exact_rel Hker Hm0 Hz Hn Hk Hs E1 E2 F2 F3.
have Ef : pep_cavity_from_marginals emission z 1 (pep_marginals n q) (pe_sites s) k = f k.
  by move: F4; rewrite /pep_cavity F2 /Option.map /Option.bind /Option.apply => /Some_inj <-.
move: (P HH) R1 R2; rewrite Ef /pep_objective /pep_gaussian_led /ext_logdensity_gaussian mul1r.
by case: (f k) (pep_f_marginals _ _ _ _ _) => [mc vc] [mf vf]; exact: norm_scalar.
Qed.

Section Energy.
Variable s : sites Rr.
Hypothesis E1 : forall k, (k <= n)%N -> st_nat1 s k = y k / s2.
Hypothesis E2 : forall k, (k <= n)%N -> st_nat2 s k = - (2%:R * s2)^-1.

Lemma term_eq (C M : R * R) k : C = (0, 0) /\ M = (0, 0) \/
    [/\ 0 < C.2, C.2 = M.2 * (1 + C.2 / s2) & C.1 + y k / s2 * C.2 = M.1 * (1 + C.2 / s2)] ->
  pep_objective (pep_gaussian_led s2) y 1 M k + pep_log_norm_of C - pep_log_norm_of M =
  - 2%:R^-1 * (ln (2%:R * PI) + ln s2 + y k ^+ 2 / s2) +
  (pep_gaussian_led s2 1 M.1 M.2 (y k) - pep_gaussian_led s2 1 C.1 C.2 (y k)).
Proof.
rewrite /pep_objective => -[[-> ->]|[p0 Q1 Q2]].
  rewrite addrK subrr addr0 /pep_gaussian_led /ext_logdensity_gaussian [(_, _).1]/= [(_, _).2]/= mul1r addr0 sub0r sqrrN.
  by [].
have := norm_scalar s2_gt0 p0 Q1 Q2; rewrite -!surjective_pairing => <-.
rewrite [pep_gaussian_led _ _ C.1 _ _]/pep_gaussian_led /ext_logdensity_gaussian mul1r.
move: (pep_log_norm_of _) (pep_log_norm_of _) (_ * _) (pep_gaussian_led _ _ _ _ _) => a b u v.
by zmod.
Qed.

Lemma normalizers q : cvi_dist_q ker emission n z s = Some q ->
  ssm_normalizer n q - ssm_normalizer n (kssm ker z) +
   \sum_(k < n.+1) - 2%:R^-1 * (ln (2%:R * PI) + ln s2 + y k ^+ 2 / s2) = evidence.
Proof.
move=> Eq; have [q' [Eq' Nq Lq]] := exact_posterior emission Hker Hz Hn s2_gt0 Hm0 E1 E2.
move: Eq'; rewrite Eq => /Some_inj Q; move: Nq Lq; rewrite -Q => Nq Lq {q' Q}.
have L := ssm_has_law n q; have [M1 M2] := Lq _ _ L.
have Np : ssm_nonsing n (kssm ker z) by exact: kssm_nonsing.
have PK : spd (x_gram ker n.+1 z) by exact: Kzz_spd.
have PS : spd (s2%:M : 'M[R]_(n.+1 * 1)) by apply: spd_scalar.
have Eq0 : ssm_normalizer n q = - gauss_logpdf (cond_mean 0 (x_gram ker n.+1 z) Hd s2%:M Y) (cond_cov (x_gram ker n.+1 z) Hd s2%:M) 0.
  by rewrite (normalizerE Nq) -M1 -M2.
have Ep0 : ssm_normalizer n (kssm ker z) = - gauss_logpdf 0 (x_gram ker n.+1 z) 0.
  rewrite (normalizerE Np); have [<- <-] := ssm_lawE (prior_law Hker Hz).
  by rewrite (flat_mean0 Hm0).
have EY : gauss_logpdf (Hd *m 0) s2%:M Y = \sum_(k < n.+1) - 2%:R^-1 * (ln (2%:R * PI) + ln s2 + y k ^+ 2 / s2).
  rewrite mulmx0 -(flat_unflat (0 : 'cV[R]_(n.+1 * 1))) -(@dense_scalar Rr n.+1 1 s2) gauss_logpdf_rdiag; last by move=> k _; apply: spd_scalar.
  apply: eq_bigr => k _; rewrite gauss_logpdf_scalar // big_ord1 (@unflat0 Rr) !mxE.
  by move: (ln _) (ln _) (y k) => a b c; eqR; toF; ring.
have := @gauss_bayes _ _ 0 (x_gram ker n.+1 z) s2%:M Hd 0 Y PK PS.
rewrite EY -(f_gram_Hd ker emission n z) mulmx0 -/evidence Eq0 Ep0.
move: (gauss_logpdf _ _ 0) (gauss_logpdf _ _ 0) evidence (\sum_(k < n.+1) _) => a b c e; toR_ops => U; lra.
Qed.

Lemma energy_exact : exists q c e, [/\ cvi_dist_q ker emission n z s = Some q, ssm_nonsing n q,
  pep_cavity ker emission n z 1 s = Some c,
  pep_energy ker emission (pep_gaussian_led s2) n z y 1 s = Some e &
  e = evidence + \sum_(k < n.+1) (pep_gaussian_led s2 1 (pep_f_marginals emission n z q k).1 (pep_f_marginals emission n z q k).2 (y k) -
    pep_gaussian_led s2 1 (c k).1 (c k).2 (y k))].
Proof.
have Hs k : (k <= n)%N -> st_nat2 s k <= 0.
  by move=> Hk; rewrite E2 // oppr_le0 invr_ge0 mulr_ge0 ?ler0n // ltW.
have [q Eq Nq] := dist_q_exists emission Hker Hm0 Hz Hn Hs.
pose c k := pep_cavity_from_marginals emission z 1 (pep_marginals n q) s k.
exists q, c; eexists; split=> //.
- by rewrite /pep_cavity Eq.
rewrite /pep_energy /pep_compute_log_norm Eq (kernel_ssmE ker Hz) /obind /oapp /Option.map /Option.bind /Option.apply.
congr Some; rewrite -(normalizers Eq) divr1 mul1r -[RHS]addrA; congr (_ + _).
rewrite -[RHS]big_split; apply: eq_bigr => k _; apply: term_eq.
have [P0 P Q1 Q2] := exact_rel Hker Hm0 Hz Hn (ltn_ord k) Hs (E1 (ltn_ord k)) (E2 (ltn_ord k)) Eq Nq.
have [E0|/P p0] := eqVneq (H k) 0; [left | right; split].
  have C0 : c k = (0, 0).
    rewrite /c /pep_cavity_from_marginals /project_marginals_diag; cbv zeta; congr pair.
      by rewrite [(_, _).1]/= /project_state_to_f -/(H k) E0 mul0mx mxE.
    by rewrite [(_, _).2]/= cov_diagE -/(H k) E0 !mul0mx mxE.
  have F0 : pep_f_marginals emission n z q k = (0, 0).
    rewrite /pep_f_marginals /project_marginals_diag; cbv zeta; congr pair.
      by rewrite [(_, _).1]/= /project_state_to_f -/(H k) E0 mul0mx mxE.
    by rewrite [(_, _).2]/= cov_diagE -/(H k) E0 !mul0mx mxE.
  by [].
- exact: p0.
- exact: Q1.
- exact: Q2.
Qed.

Lemma energy_zero k0 : (forall k, (k <= n)%N -> y k = 0) -> (k0 <= n)%N -> H k0 != 0 ->
  exists2 e, pep_energy ker emission (pep_gaussian_led s2) n z y 1 s = Some e & evidence < e.
Proof.
move=> Hy Hk0 HH; have [q [c [e [Eq Nq Ec Ee Ev]]]] := energy_exact.
exists e => //; rewrite Ev -[X in X < _]addr0 ltr_add2l.
have Hs k : (k <= n)%N -> st_nat2 s k <= 0.
  by move=> Hk; rewrite E2 // oppr_le0 invr_ge0 mulr_ge0 ?ler0n // ltW.
have Y0 : Y = 0.
  by rewrite -(flat_unflat (0 : 'cV[R]_(n.+1 * 1))); apply: eq_flat => k Hk; rewrite (@unflat0 Rr) Hy //; apply/colP => i; rewrite !mxE.
have [q' [Eq' _ Lq]] := exact_posterior emission Hker Hz Hn s2_gt0 Hm0 E1 E2.
move: Eq'; rewrite Eq => /Some_inj Q; move: Lq; rewrite -Q => Lq {q' Q}.
have [M0 _] := Lq _ _ (ssm_has_law n q); move: M0; rewrite -/Y Y0 /cond_mean mulmx0 subr0 mulmx0 addr0 => M0.
have F1 k : (k <= n)%N -> (pep_f_marginals emission n z q k).1 = 0.
  move=> Hk; rewrite /pep_f_marginals /project_marginals_diag; cbv zeta; rewrite [(_, _).1]/= /project_state_to_f.
  have := sel_bcol Hk (ssm_marginal_means n q); rewrite -/(flat n.+1 _) M0 mulmx0 => <-.
  by rewrite mulmx0 [LHS]mxE.
have C k : (k <= n)%N -> c k = pep_cavity_from_marginals emission z 1 (pep_marginals n q) s k.
  by move: Ec; rewrite /pep_cavity Eq /Option.map /Option.bind /Option.apply => /Some_inj <-.
have T k : (k <= n)%N -> (H k != 0 -> 0 < (c k).2) /\ let t := pep_gaussian_led s2 1 (pep_f_marginals emission n z q k).1 (pep_f_marginals emission n z q k).2 (y k) -
    pep_gaussian_led s2 1 (c k).1 (c k).2 (y k) in 0 <= t /\ (0 < (c k).2 -> 0 < t).
  move=> Hk; have [P0 P Q1 Q2] := exact_rel Hker Hm0 Hz Hn Hk Hs (E1 Hk) (E2 Hk) Eq Nq.
  split; first by rewrite C.
  move: P0 Q1 Q2; rewrite -(C k Hk) Hy // (F1 _ Hk) !mul0r addr0 => P0 Q1 Q2.
  by rewrite Q2; exact: led_drop.
rewrite (bigD1 (Ordinal (Hk0 : (k0 < n.+1)%N))) //=; apply: ltr_paddr.
  by apply: sumr_ge0 => k _; have [_ []] := T k (ltn_ord k).
by have [A [_ B]] := T k0 Hk0; apply: B; exact: A.
Qed.
End Energy.
End Gauss.
End Pep.
