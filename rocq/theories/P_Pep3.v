(* Proofs for M_Pep.v: moments, Gaussian likelihoods, energy. *)
From Coq Require Import Reals Lra FunctionalExtensionality.
From mathcomp Require Import all_ssreflect all_algebra.
From Verif Require Import MCalc RealStruct Nat Alg Lin Ent Spd Log M_Block S_Block P_Block M_SSM S_SSM P_SSM M_SSMLog P_SSMLog S_Gauss P_Gauss
  M_Trans S_Trans P_Trans S_Kalman M_Kalman P_Kalman M_Kernel S_Kernel P_Kernel M_Cond P_Cond P_Cond4
  M_Emission P_Emission M_Sort P_Sort M_Models S_GP P_Models P_Models2 M_Cvi S_Cvi P_Cvi P_Cvi3 M_Pep S_Pep P_Block2 P_Pep P_Pep2 P_KernelR P_KernelR2 M_KernelR P_Models3 P_KalmanLog P_TransLog.
Set Implicit Arguments.
Unset Strict Implicit.
Unset Printing Implicit Defensive.
Import GRing.Theory Num.Theory Order.TTheory.
Local Open Scope ring_scope.



(* scalar facts about gradient_correction *)
Lemma add_le0 (a b : R) : a <= 0 -> b <= 0 -> a + b <= 0.
Proof. by move=> Ha Hb; rewrite -oppr_ge0 opprD addr_ge0 // oppr_ge0. Qed.

Lemma gc_le0 (i1 i2 g1 g2 : R) : g2 < 0 -> 0 < 1 + i2 * g2 -> (gradient_correction i1 i2 g1 g2).2 <= 0.
Proof.
move=> H2 H1; rewrite /gradient_correction [(_, _).2]/=; apply: mulr_ge0_le0; first by rewrite invr_ge0 ler0n.
rewrite invr_le0; have -> : i2 + 1 / g2 = (1 + i2 * g2) / g2 by rewrite mulrDl mulfK ?ltr0_neq0 // addrC.
by apply: mulr_ge0_le0; [exact: ltW | rewrite invr_le0 ltW].
Qed.

Lemma invR (x : R) : x^-1 = (/ x)%Re.
Proof.
have [->|/eqP H] := eqVneq x 0; first by rewrite invr0; symmetry; exact: Rinv_0.
by rewrite invrR //; apply/eqP.
Qed.
Ltac toF := rewrite ?expr2 ?twoR ?invR; toR_ops.

Lemma gc_moments (mu v mu' v' g1 g2 : R) : let g := gradient_correction mu' v' g1 g2 in
  g2 < 0 -> 0 < 1 + v' * g2 ->
  v' = v * (1 - 2%:R * g.2 * v') -> mu' + g.1 * v' = mu * (1 - 2%:R * g.2 * v') ->
  mu = mu' + v' * g1 /\ v = v' + v' ^+ 2 * g2.
Proof.
move=> g /RltP H2 /RltP H1.
have n2 : g2 <> 0%Re by move: H2; toF; lra.
have n1 : (1 + v' * g2)%Re <> 0%Re by move: H1; toF; lra.
have E0 : (v' + R1 * / g2)%Re = ((1 + v' * g2) / g2)%Re by field.
have E2 : g.2 = (g2 / (2 * (1 + v' * g2)))%Re.
  by rewrite /g /gradient_correction [(_, _).2]/=; toF; rewrite E0; field.
have E1 : g.1 = ((g1 - g2 * mu') / (1 + v' * g2))%Re.
  by rewrite /g /gradient_correction [(_, _).1]/=; toF; rewrite E0; field.
rewrite E1 E2; toF => A B; split.
  have -> : mu = ((1 + v' * g2) * (mu * (1 + - (2 * (g2 / (2 * (1 + v' * g2))) * v'))))%Re by field.
  by rewrite -B; field.
have -> : v = ((1 + v' * g2) * (v * (1 + - (2 * (g2 / (2 * (1 + v' * g2))) * v'))))%Re by field.
by rewrite -A; ring.
Qed.

Section Pep.
Variables (d : nat) (ker : sde_kernel Rr d) (emission : R -> 'M[R]_(1, d)).
Hypothesis Hker : markov_kernel ker.
Hypothesis Hm0 : k_mean0 ker = 0.
Variables (n : nat) (z : nat -> R).
Hypothesis Hz : increasing n.+1 z.
Hypothesis Hn : (0 < n)%N.
Let H (k : nat) := emission (z k).


Lemma moments led grads y alpha s k : (k <= n)%N -> 0 <= alpha <= 1 ->
  (forall j, (j <= n)%N -> st_nat2 (pe_sites s) j <= 0) ->
  exists2 f, pep_cavity ker emission n z alpha (pe_sites s) = Some f &
  let g := grads alpha (f k).1 (f k).2 (y k) in g.2 < 0 -> 0 < 1 + (f k).2 * g.2 ->
  exists s' q', [/\ pep_update_sites ker emission led grads n z y alpha 1 (Some [:: k]) s = Some s',
    forall j, j != k -> st_nat1 (pe_sites s') j = st_nat1 (pe_sites s) j /\ st_nat2 (pe_sites s') j = st_nat2 (pe_sites s) j,
    cvi_dist_q ker emission n z (pe_sites s') = Some q' &
    forall m K, has_law n.+1 n.+1 (ssm_path q') m K ->
      (H k *m m k) 0 0 = (f k).1 + (f k).2 * g.1 /\
      (H k *m K k k *m (H k)^T) 0 0 = (f k).2 + (f k).2 ^+ 2 * g.2].
Proof.
move=> Hk Ha Hs.
have [s' [q [f [F1 [F2 F3] F4 F5 F6]]]] := update_some emission Hker Hm0 Hz Hn led grads y 1 (l := [:: k]) isT Ha Hs.
exists f => // g H2 H1.
have := F6 k; rewrite inE eqxx; cbv zeta; rewrite !subrr !mul0r !add0r !mul1r => -[G1 G2 _].
have Off j : j != k -> st_nat1 (pe_sites s') j = st_nat1 (pe_sites s) j /\ st_nat2 (pe_sites s') j = st_nat2 (pe_sites s) j.
  by move=> Hj; have := F6 j; rewrite inE (negbTE Hj) => -[-> -> _].
have Hs1 j : (j <= n)%N -> st_nat2 (pe_sites s') j <= 0.
  move=> Hj; case: (eqVneq j k) => [->|/Off [_ ->]]; last exact: Hs.
  rewrite G2; apply: add_le0; last exact: gc_le0.
  by apply: mulr_ge0_le0; [rewrite subr_ge0; case/andP: Ha | exact: Hs].
have Hs0 := scaled_le0 k Ha Hs.
have [q' Eq' Nq'] := dist_q_exists emission Hker Hm0 Hz Hn Hs1.
have [q0 Eq0 Nq0] := dist_q_exists emission Hker Hm0 Hz Hn Hs0.
exists s', q'; split=> // m K L.
have L0 := ssm_has_law n q0.
have [|P P0 T1 T2] := sites_tilt Hker Hm0 Hz Hn Hk Hs1 Hs0 _ Eq' Eq0 L L0.
  move=> j _ Hj; have [-> ->] := Off j Hj; exact: scale_same.
have [U1 U2] := f_tilt (C := H k) P P0 T1 T2.
have [_ Ef] := cavity Hker Hm0 Hz Hn Hk Ha Hs F2 Eq0 F3 L0.
move: F4; rewrite /pep_cavity F2 /Option.map /Option.bind /Option.apply => /Some_inj F4.
have Efk : f k = ((H k *m ssm_marginal_means n q0 k) 0 0, (H k *m ssm_cov q0 k k *m (H k)^T) 0 0) by rewrite -F4 -Ef.
have D1 : st_nat1 (pe_sites s') k - st_nat1 (scale_site (pe_sites s) k (1 - alpha)) k = (pep_gradients grads y alpha (f k) k).1.
  by rewrite G1 /= eqxx addrC addKr.
have D2 : st_nat2 (pe_sites s') k - st_nat2 (scale_site (pe_sites s) k (1 - alpha)) k = (pep_gradients grads y alpha (f k) k).2.
  by rewrite G2 /= eqxx addrC addKr.
move: U1 U2; rewrite D1 D2 /pep_gradients; cbv zeta; rewrite -/g.
move: (congr1 fst Efk) (congr1 snd Efk); rewrite [(_, _).1]/= [(_, _).2]/= => <- <- U1 U2.
exact: gc_moments U1 U2.
Qed.

(* likelihoods whose corrected gradients do not depend on the cavity *)
Section Const.
Variables (led : R -> R -> R -> R -> R) (grads : R -> R -> R -> R -> R * R) (y : nat -> R) (alpha lr s2 : R).
Hypothesis s2_gt0 : 0 < s2.
Hypothesis Ha : 0 < alpha <= 1.
Hypothesis Hlr : 0 <= lr <= 1.
Hypothesis Hgc : forall mu v yk, 0 <= v -> let g := grads alpha mu v yk in
  gradient_correction mu v g.1 g.2 = (yk / s2, - (2%:R * s2)^-1).
Notation upd := (pep_update_sites ker emission led grads n z y alpha lr).

Lemma schedule sched s : all uniq sched -> (forall j, (j <= n)%N -> st_nat2 (pe_sites s) j <= 0) ->
  exists s', [/\ foldl (fun os l => obind (upd (Some l)) os) (Some s) sched = Some s',
    forall k, (k <= n)%N -> st_nat1 (pe_sites s') k - y k / (alpha * s2) =
      (1 - lr * alpha) ^+ count (fun l => k \in l) sched * (st_nat1 (pe_sites s) k - y k / (alpha * s2)),
    forall k, (k <= n)%N -> st_nat2 (pe_sites s') k - - (2%:R * (alpha * s2))^-1 =
      (1 - lr * alpha) ^+ count (fun l => k \in l) sched * (st_nat2 (pe_sites s) k - - (2%:R * (alpha * s2))^-1) &
    forall k, (k <= n)%N -> st_nat2 (pe_sites s') k <= 0].
Proof.
have a0 : alpha != 0 by apply: lt0r_neq0; case/andP: Ha.
have s0 : s2 != 0 by apply: lt0r_neq0.
elim: sched s => [|l sched IH] s; first by move=> _ Hs; exists s; split=> // k Hk; rewrite expr0 mul1r.
rewrite [all _ _]/= => /andP [Hl Hu] Hs.
have Ha' : 0 <= alpha <= 1 by case/andP: Ha => /ltW -> ->.
have [s1 [q [f [F1 [F2 F3] F4 F5 F6]]]] := update_some emission Hker Hm0 Hz Hn led grads y lr Hl Ha' Hs.
have U k : (k <= n)%N ->
  st_nat1 (pe_sites s1) k - y k / (alpha * s2) = (1 - lr * alpha) ^+ (k \in l) * (st_nat1 (pe_sites s) k - y k / (alpha * s2)) /\
  st_nat2 (pe_sites s1) k - - (2%:R * (alpha * s2))^-1 =
    (1 - lr * alpha) ^+ (k \in l) * (st_nat2 (pe_sites s) k - - (2%:R * (alpha * s2))^-1).
  move=> Hk; have := F6 k; rewrite /pep_gradients Hgc ?F5 //; cbv zeta; case: (k \in l) => -[-> -> _]; last by rewrite expr0 !mul1r.
  rewrite expr1 [(_, _).1]/= [(_, _).2]/=; move: (st_nat1 _ _) (st_nat2 _ _) (y k) => a b c.
  have a0' : alpha <> 0%Re by apply/eqP.
  have s0' : s2 <> 0%Re by apply/eqP.
  by split; asR; toF; field.
have Hs1 k : (k <= n)%N -> st_nat2 (pe_sites s1) k <= 0.
  move=> Hk; have := F6 k; rewrite /pep_gradients Hgc ?F5 //; cbv zeta; case: (k \in l) => -[_ -> _]; last exact: Hs.
  case/andP: Hlr => l0 l1; case/andP: Ha' => a0' a1.
  apply: add_le0; first by apply: mulr_ge0_le0; [rewrite subr_ge0 | exact: Hs].
  apply: mulr_ge0_le0 => //; apply: add_le0; first by apply: mulr_ge0_le0; [rewrite subr_ge0 | exact: Hs].
  by rewrite oppr_le0 invr_ge0 mulr_ge0 ?ler0n // ltW.
have [s' [G1 G2 G3 G4]] := IH s1 Hu Hs1.
exists s'; split=> //.
- by rewrite /foldl -/(foldl _ _ _) /obind /oapp F1.
- by move=> k Hk; rewrite G2 // (U k Hk).1 mulrA -exprD addnC.
- by move=> k Hk; rewrite G3 // (U k Hk).2 mulrA -exprD addnC.
Qed.

End Const.

(* the Gaussian likelihood with power one *)
Lemma gc_gauss (s2 mu v yk : R) : 0 < s2 -> 0 <= v ->
  gradient_correction mu v ((yk - mu) / (s2 + v)) (- 1 / (s2 + v)) = (yk / s2, - (2%:R * s2)^-1).
Proof.
move=> /RltP Hs /RleP Hv; rewrite /gradient_correction.
have n1 : s2 <> 0%Re by move: Hs; toF; lra.
have n2 : (s2 + v)%Re <> 0%Re by move: Hs Hv; toF; lra.
have E : (v + R1 * / (- R1 * / (s2 + v)))%Re = (- s2)%Re by field.
by congr pair; toF; rewrite E; field.
Qed.

Lemma gc_pep_gauss (s2 mu v yk : R) : 0 < s2 -> 0 <= v -> let g := pep_gaussian_grads s2 1 mu v yk in
  gradient_correction mu v g.1 g.2 = (yk / s2, - (2%:R * s2)^-1).
Proof. by move=> Hs Hv; rewrite /pep_gaussian_grads [(_, _).1]/= [(_, _).2]/= mul1r mulr1; exact: gc_gauss. Qed.

Section Gauss.
Variables (y : nat -> R) (s2 : R).
Hypothesis s2_gt0 : 0 < s2.
Let Y := flat n.+1 (fun k => const_mx (y k) : 'cV[R]_1).
Let Hd := dense n.+1 n.+1 (rdiag H).
Let evidence := gauss_logpdf 0 (f_gram ker emission n.+1 n.+1 z z + s2%:M) Y.
Notation upd alpha lr := (pep_update_sites ker emission (pep_gaussian_led s2) (pep_gaussian_grads s2) n z y alpha lr).

Lemma gauss_schedule lr sched s : 0 <= lr <= 1 -> all uniq sched ->
  (forall j, (j <= n)%N -> st_nat2 (pe_sites s) j <= 0) ->
  exists s', [/\ foldl (fun os l => obind (upd 1 lr (Some l)) os) (Some s) sched = Some s',
    forall k, (k <= n)%N -> st_nat1 (pe_sites s') k - y k / s2 =
      (1 - lr) ^+ count (fun l => k \in l) sched * (st_nat1 (pe_sites s) k - y k / s2),
    forall k, (k <= n)%N -> st_nat2 (pe_sites s') k - - (2%:R * s2)^-1 =
      (1 - lr) ^+ count (fun l => k \in l) sched * (st_nat2 (pe_sites s) k - - (2%:R * s2)^-1) &
    forall k, (k <= n)%N -> st_nat2 (pe_sites s') k <= 0].
Proof.
move=> Hlr Hu Hs.
have Ha : 0 < (1 : R) <= 1 by rewrite ltr01 lexx.
have [s' [G1 G2 G3 G4]] := schedule (pep_gaussian_led s2) y s2_gt0 Ha Hlr (fun mu v yk Hv => gc_pep_gauss mu yk s2_gt0 Hv) Hu Hs.
by exists s'; split=> // k Hk; [have := G2 k Hk | have := G3 k Hk]; rewrite mul1r mulr1.
Qed.

Lemma gauss_exact sched s : all uniq sched -> (forall k, (k <= n)%N -> has (fun l => k \in l) sched) ->
  (forall j, (j <= n)%N -> st_nat2 (pe_sites s) j <= 0) ->
  exists s' q, [/\ foldl (fun os l => obind (upd 1 1 (Some l)) os) (Some s) sched = Some s',
    forall k, (k <= n)%N -> st_nat1 (pe_sites s') k = y k / s2 /\ st_nat2 (pe_sites s') k = - (2%:R * s2)^-1,
    cvi_dist_q ker emission n z (pe_sites s') = Some q,
    forall m K, has_law n.+1 n.+1 (ssm_path q) m K ->
      flat n.+1 m = cond_mean 0 (x_gram ker n.+1 z) Hd s2%:M Y /\
      dense n.+1 n.+1 K = cond_cov (x_gram ker n.+1 z) Hd s2%:M &
    cvi_elbo ker emission n z (pe_sites s') = Some evidence].
Proof.
move=> Hu Hv Hs.
have Hlr : 0 <= (1 : R) <= 1 by rewrite ler01 lexx.
have [s' [G1 G2 G3 G4]] := gauss_schedule Hlr Hu Hs.
have E1 k : (k <= n)%N -> st_nat1 (pe_sites s') k = y k / s2.
  move=> Hk; apply/eqP; rewrite -subr_eq0 G2 // subrr expr0n -leqn0 leqNgt -has_count Hv //= mul0r; exact: eqxx.
have E2 k : (k <= n)%N -> st_nat2 (pe_sites s') k = - (2%:R * s2)^-1.
  move=> Hk; apply/eqP; rewrite -subr_eq0 G3 // subrr expr0n -leqn0 leqNgt -has_count Hv //= mul0r; exact: eqxx.
have [q [Q1 _ Q2]] := exact_posterior emission Hker Hz Hn s2_gt0 Hm0 E1 E2.
exists s', q; split=> //; first by move=> k Hk; split; [exact: E1 | exact: E2].
exact: exact_elbo.
Qed.

(* the marginal and the cavity of an exact site *)
Section ExactSite.
Variables (s : sites Rr) (k : nat) (q : ssm Rr d).
Hypothesis Hk : (k <= n)%N.
Hypothesis Hs : forall j, (j <= n)%N -> st_nat2 s j <= 0.
Hypothesis E1 : st_nat1 s k = y k / s2.
Hypothesis E2 : st_nat2 s k = - (2%:R * s2)^-1.
Hypothesis Eq : cvi_dist_q ker emission n z s = Some q.
Hypothesis Nq : ssm_nonsing n q.
Let c := pep_cavity_from_marginals emission z 1 (pep_marginals n q) s k.
Let f := pep_f_marginals emission n z q k.

Lemma exact_rel : [/\ 0 <= c.2, (H k != 0 -> 0 < c.2),
  c.2 = f.2 * (1 + c.2 / s2) & c.1 + y k / s2 * c.2 = f.1 * (1 + c.2 / s2)].
Proof.
have Ha : 0 <= (1 : R) <= 1 by rewrite ler01 lexx.
have Hs0 := scaled_le0 k Ha Hs.
have [q0 Eq0 Nq0] := dist_q_exists emission Hker Hm0 Hz Hn Hs0.
have L := ssm_has_law n q; have L0 := ssm_has_law n q0.
have [P P0 T1 T2] := sites_tilt Hker Hm0 Hz Hn Hk Hs Hs0 (fun j _ => @scale_same s k _ j) Eq Eq0 L L0.
have [U1 U2] := f_tilt (C := H k) P P0 T1 T2.
have [_ Ec] := cavity Hker Hm0 Hz Hn Hk Ha Hs Eq Eq0 Nq L0.
have [M1 M2 _ _] := ssm_covariances Nq L.
have Ef : f = ((H k *m ssm_marginal_means n q k) 0 0, (H k *m ssm_cov q k k *m (H k)^T) 0 0).
  rewrite /f /pep_f_marginals /project_marginals_diag; cbv zeta; congr pair.
  by rewrite [(_, _).2]/= cov_diagE M2.
rewrite /c Ec Ef ![(_, _).1]/= ![(_, _).2]/=.
move: U1 U2; rewrite [st_nat1 (scale_site _ _ _) _]/= [st_nat2 (scale_site _ _ _) _]/= eqxx subrr !mul0r !subr0 E1 E2.
have -> v : 1 - 2%:R * - (2%:R * s2)^-1 * v = 1 + v / s2.
  by rewrite mulrN mulNr opprK invfM mulrA divff ?two_neq0 // mul1r mulrC.
move=> U1 U2; split=> //; first exact: cov_ge0.
move=> HH; have -> : (H k *m ssm_cov q0 k k *m (H k)^T) 0 0 = qf (ssm_cov q0 k k) (H k)^T by rewrite /qf trmxK.
by case: P0 => _; apply; rewrite -(trmx0 R_ringType 1 d) (inj_eq trmx_inj).
Qed.

End ExactSite.
End Gauss.
End Pep.
