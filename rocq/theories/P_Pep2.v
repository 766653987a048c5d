(* Proofs for M_Pep.v: the cavity, the updates and the moments. *)
From Coq Require Import Reals Lra FunctionalExtensionality.
From mathcomp Require Import all_ssreflect all_algebra.
From Verif Require Import MCalc RealStruct Nat Alg Lin Ent Spd Log M_Block S_Block P_Block M_SSM S_SSM P_SSM M_SSMLog P_SSMLog S_Gauss P_Gauss
  M_Trans S_Trans P_Trans S_Kalman M_Kalman P_Kalman M_Kernel S_Kernel P_Kernel M_Cond P_Cond P_Cond4
  M_Emission P_Emission M_Sort P_Sort M_Models S_GP P_Models P_Models2 M_Cvi S_Cvi P_Cvi P_Cvi3 M_Pep S_Pep P_Block2 P_Pep.
Set Implicit Arguments.
Unset Strict Implicit.
Unset Printing Implicit Defensive.
Import GRing.Theory Num.Theory Order.TTheory.
Local Open Scope ring_scope.


Lemma spdZ N (c : R) (A : 'M[R]_N) : 0 < c -> spd A -> spd (c *: A).
Proof.
by move=> Hc [sA pA]; split; [rewrite trmxZ sA | move=> x Hx; rewrite (@qfZ Rr) mulr_gt0 // pA].
Qed.

Lemma invZ N (c : R) (A : 'M[R]_N) : c != 0 -> A \in unitmx -> invmx (c *: A) = c^-1 *: invmx A.
Proof.
move=> Hc uA; apply: mulmx1_inv.
by rewrite -scalemxAl -scalemxAr scalerA mulmxV // divff // scale1r.
Qed.

Section Pep.
Variables (d : nat) (ker : sde_kernel Rr d) (emission : R -> 'M[R]_(1, d)).
Hypothesis Hker : markov_kernel ker.
Hypothesis Hm0 : k_mean0 ker = 0.
Variables (n : nat) (z : nat -> R).
Hypothesis Hz : increasing n.+1 z.
Hypothesis Hn : (0 < n)%N.
Let H (k : nat) := emission (z k).

Lemma dist_q_exists s : (forall j, (j <= n)%N -> st_nat2 s j <= 0) ->
  exists2 q, cvi_dist_q ker emission n z s = Some q & ssm_nonsing n q.
Proof.
move=> Hs; have [q [c [F1 F2 _]]] := cvi_posterior_density emission Hker Hz Hn Hs Hm0.
by exists q => //; exact: ssm_chol_nonsing.
Qed.

Section Cavity.
Variables (alpha : R) (s : sites Rr) (k : nat).
Hypothesis Hk : (k <= n)%N.
Hypothesis Ha : 0 <= alpha <= 1.
Hypothesis Hs : forall j, (j <= n)%N -> st_nat2 s j <= 0.

Lemma scaled_le0 : forall j, (j <= n)%N -> st_nat2 (scale_site s k (1 - alpha)) j <= 0.
Proof. by apply: scale_le0 => //; rewrite subr_ge0; case/andP: Ha. Qed.

Lemma cavity_nats q q' m' K' :
  cvi_dist_q ker emission n z s = Some q -> cvi_dist_q ker emission n z (scale_site s k (1 - alpha)) = Some q' ->
  ssm_nonsing n q -> has_law n.+1 n.+1 (ssm_path q') m' K' ->
  spd (K' k k) /\ pep_cavity_nats emission z alpha (pep_marginals n q) s k =
    (invmx (K' k k) *m m' k, - 2%:R^-1 *: invmx (K' k k)).
Proof.
move=> Eq Eq' Nq L'.
have L := ssm_has_law n q.
have [P P' F1 F2] := sites_tilt Hker Hm0 Hz Hn Hk Hs scaled_le0 (fun j _ => @scale_same s k (1 - alpha) j) Eq Eq' L L'.
have [M1 M2 _ _] := ssm_covariances Nq L.
have D (a : R) : a - (if k == k then (1 - alpha) * a else a) = alpha * a by rewrite eqxx; crng.
move: F1 F2; rewrite /scale_site [st_nat1 (Sites _ _) _]/= [st_nat2 (Sites _ _) _]/= !D => F1 F2.
split=> //; rewrite /pep_cavity_nats; cbv zeta.
change (pep_marginals n q).1 with (ssm_marginal_means n q); change (pep_marginals n q).2 with (ssm_marginal_covariances n q).
rewrite (M2 _ Hk) !chol_solve_spd // mulmx1 bp_quad bp1; congr pair.
  by rewrite F2 scalerA addrK.
rewrite F1 !scalerA; move: ((H k)^T *m H k) => W.
rewrite scalerDr scalerN scalerA mulrA mulNr mulVf ?two_neq0 // mulN1r scaleNr opprK addrK.
reflexivity.
Qed.

Lemma cavity q q' m' K' :
  cvi_dist_q ker emission n z s = Some q -> cvi_dist_q ker emission n z (scale_site s k (1 - alpha)) = Some q' ->
  ssm_nonsing n q -> has_law n.+1 n.+1 (ssm_path q') m' K' ->
  spd (- (pep_cavity_nats emission z alpha (pep_marginals n q) s k).2) /\
  pep_cavity_from_marginals emission z alpha (pep_marginals n q) s k =
  ((H k *m m' k) 0 0, (H k *m K' k k *m (H k)^T) 0 0).
Proof.
move=> Eq Eq' Nq L'; have [P E] := cavity_nats Eq Eq' Nq L'.
have P2 : spd (2%:R^-1 *: invmx (K' k k)).
  by apply: spdZ; [rewrite invr_gt0 ltr0n | exact: (@spd_inv Rr)].
have EN : - (- 2%:R^-1 *: invmx (K' k k)) = 2%:R^-1 *: invmx (K' k k) by rewrite scaleNr opprK.
split; first by rewrite E EN.
have EI : 2%:R^-1 *: invmx (2%:R^-1 *: invmx (K' k k)) = K' k k.
  by rewrite invZ ?unitmx_inv ?(@spd_unit Rr) // ?invr_neq0 ?two_neq0 // invmxK scalerA divff ?scale1r // invr_neq0 // two_neq0.
rewrite /pep_cavity_from_marginals /project_marginals_diag; cbv zeta beta.
congr pair.
  rewrite /fst /project_state_to_f E EN chol_solve_spd //.
  by rewrite scalemxAl EI mulKVmx // (@spd_unit Rr).
rewrite /snd cov_diagE E EN chol_solve_spd // mulmx1 EI.
reflexivity.
Qed.

Lemma cavity_thm : exists q', [/\ cvi_dist_q ker emission n z (scale_site s k (1 - alpha)) = Some q', ssm_nonsing n q' &
  forall m' K', has_law n.+1 n.+1 (ssm_path q') m' K' ->
  omap (fun f => f k) (pep_cavity ker emission n z alpha s) = Some ((H k *m m' k) 0 0, (H k *m K' k k *m (H k)^T) 0 0)].
Proof.
have [q Eq Nq] := dist_q_exists Hs; have [q' Eq' Nq'] := dist_q_exists scaled_le0.
exists q'; split=> // m' K' L'; rewrite /pep_cavity Eq /Option.map /Option.bind /Option.apply.
by have [_ ->] := cavity Eq Eq' Nq L'.
Qed.
End Cavity.

Lemma f_tilt (K K' : 'M[R]_d) (m m' : 'cV[R]_d) (C : 'M[R]_(1, d)) (a b : R) : spd K -> spd K' ->
  invmx K = invmx K' - 2%:R *: (b *: (C^T *m C)) -> invmx K *m m = invmx K' *m m' + a *: C^T ->
  let v := (C *m K *m C^T) 0 0 in let v' := (C *m K' *m C^T) 0 0 in
  v' = v * (1 - 2%:R * b * v') /\ (C *m m') 0 0 + a * v' = (C *m m) 0 0 * (1 - 2%:R * b * v').
Proof.
move=> /(@spd_unit Rr) uK /(@spd_unit Rr) uK' F1 F2 v v'.
have E1 : K' *m invmx K = 1%:M - (2%:R * b) *: (K' *m C^T *m C).
  by rewrite F1 mulmxBr mulmxV // scalerA -scalemxAr mulmxA.
split.
  have E2 : K' = K - (2%:R * b) *: (K' *m C^T *m C *m K).
    by rewrite -{1}(mulmxKV uK K') E1 mulmxBl mul1mx -scalemxAl.
  have E3 : C *m K' *m C^T = C *m K *m C^T - (2%:R * b) *: ((C *m K' *m C^T) *m (C *m K *m C^T)).
    by rewrite {1}E2 mulmxBr mulmxBl -scalemxAr -scalemxAl !mulmxA.
  have := congr1 (fun M : 'M[R]_1 => M 0 0) E3.
  rewrite sub00 scale00 [((C *m K' *m C^T) *m _) 0 0]mxE big_ord1 -/v -/v' => E4.
  rewrite [LHS]E4; crng.
have E4 : m' = m - (2%:R * b) *: (K' *m C^T *m (C *m m)) - a *: (K' *m C^T).
  have -> : m' = K' *m (invmx K *m m - a *: C^T) by rewrite F2 addrK mulKVmx.
  by rewrite (mulmxBr K') (mulmxA K' (invmx K)) E1 mulmxBl mul1mx -scalemxAl -scalemxAr !mulmxA.
have E5 : C *m m' = C *m m - (2%:R * b) *: ((C *m K' *m C^T) *m (C *m m)) - a *: (C *m K' *m C^T).
  by rewrite E4 !mulmxBr -!scalemxAr !mulmxA.
have := congr1 (fun M : 'M[R]_1 => M 0 0) E5.
rewrite sub00 sub00 !scale00 [((C *m K' *m C^T) *m _) 0 0]mxE big_ord1 -/v' => ->; crng.
Qed.

Lemma mask_uniq l k : uniq l -> mask_indices (Some l) k = (if k \in l then 1 else 0).
Proof.
rewrite /mask_indices; elim: l => [|i l IH]; first by rewrite big_nil.
rewrite cons_uniq big_cons in_cons => /andP [Hi /IH ->]; rewrite (eq_sym k); case: (eqVneq i k) => [E|] /=.
  by rewrite -E (negbTE Hi) addr0.
by rewrite add0r.
Qed.

Lemma cov_ge0 (K : 'M[R]_d) (C : 'M[R]_(1, d)) : spd K -> 0 <= (C *m K *m C^T) 0 0.
Proof.
move=> PK; have -> : (C *m K *m C^T) 0 0 = qf K C^T by rewrite /qf trmxK.
exact: qf_spd_ge0.
Qed.

(* one update of the sites *)
Section Update.
Variables (led : R -> R -> R -> R -> R) (grads : R -> R -> R -> R -> R * R) (y : nat -> R) (alpha lr : R).
Notation upd := (pep_update_sites ker emission led grads n z y alpha lr).

Lemma update_none s : (forall j, (j <= n)%N -> st_nat2 (pe_sites s) j <= 0) -> exists s', [/\ upd None s = Some s',
  forall k, st_nat1 (pe_sites s') k = st_nat1 (pe_sites s) k, forall k, st_nat2 (pe_sites s') k = st_nat2 (pe_sites s) k &
  forall k, pe_log_norm s' k = pe_log_norm s k].
Proof.
move=> Hs; have [q Eq Nq] := dist_q_exists Hs; eexists; split.
- by rewrite /pep_update_sites Eq /Option.map /Option.bind /Option.apply; reflexivity.
- by move=> k; cbn [pe_sites st_nat1]; rewrite /mask_indices subr0 mulr1 mulr0 addr0.
- by move=> k; cbn [pe_sites st_nat2]; rewrite /mask_indices subr0 mulr1 mulr0 addr0.
- by move=> k; cbn [pe_log_norm]; rewrite /mask_indices subr0 mulr1 mulr0 addr0.
Qed.

Lemma update_some l s : uniq l -> 0 <= alpha <= 1 -> (forall j, (j <= n)%N -> st_nat2 (pe_sites s) j <= 0) ->
  exists s' q f, [/\ upd (Some l) s = Some s', cvi_dist_q ker emission n z (pe_sites s) = Some q /\ ssm_nonsing n q,
   pep_cavity ker emission n z alpha (pe_sites s) = Some f,
   forall k, (k <= n)%N -> 0 <= (f k).2 &
   forall k, let g := pep_gradients grads y alpha (f k) k in
    if k \in l then
      [/\ st_nat1 (pe_sites s') k = (1 - lr) * st_nat1 (pe_sites s) k + lr * ((1 - alpha) * st_nat1 (pe_sites s) k + g.1),
          st_nat2 (pe_sites s') k = (1 - lr) * st_nat2 (pe_sites s) k + lr * ((1 - alpha) * st_nat2 (pe_sites s) k + g.2) &
          pe_log_norm s' k = (1 - lr) * pe_log_norm s k + lr * ((1 - alpha) * pe_log_norm s k +
            (pep_objective led y alpha (f k) k + pep_log_norm_of (f k) -
             pep_log_norm_of (pep_f_marginals emission n z q k)))]
    else [/\ st_nat1 (pe_sites s') k = st_nat1 (pe_sites s) k, st_nat2 (pe_sites s') k = st_nat2 (pe_sites s) k &
             pe_log_norm s' k = pe_log_norm s k]].
Proof.
move=> Hl Ha Hs; have [q Eq Nq] := dist_q_exists Hs.
eexists; exists q, (fun k => pep_cavity_from_marginals emission z alpha (pep_marginals n q) (pe_sites s) k); split=> //.
- by rewrite /pep_update_sites Eq /Option.map /Option.bind /Option.apply; reflexivity.
- by rewrite /pep_cavity Eq.
- move=> k Hk; have Hs' := scaled_le0 k Ha Hs; have [q' Eq' Nq'] := dist_q_exists Hs'.
  have L' := ssm_has_law n q'; have [_ ->] := cavity Hk Ha Hs Eq Eq' Nq L'.
  have [P _] := cavity_nats Hk Ha Hs Eq Eq' Nq L'.
  exact: cov_ge0.
- move=> k; cbn [pe_sites st_nat1 st_nat2 pe_log_norm]; rewrite (mask_uniq k Hl); case: (k \in l).
    by rewrite subrr !mulr1 !mulr0 !add0r.
  by rewrite subr0 !mulr1 !mulr0 !addr0.
Qed.
End Update.
End Pep.
