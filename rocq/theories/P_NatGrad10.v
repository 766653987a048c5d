(* Proofs for natural gradients, part 10: the steps on a sparse variational model are the updates
   of sparse CVI. *)
From Coq Require Import Reals Lra FunctionalExtensionality.
From Coquelicot Require Import Derive_2d.
From mathcomp Require Import all_ssreflect all_algebra.
From Verif Require Import RealStruct Log Nat Alg Lin Ent Spd MCalc MCont M_Block S_Block P_Block P_Block2
  M_SSM S_SSM P_SSM M_SSMLog S_Gauss P_Gauss P_SSMLog M_Trans S_Trans P_Trans P_TransLog P_Elbo
  S_Kalman M_Kalman P_Kalman M_Kernel S_Kernel P_Kernel M_Cond P_Cond P_Cond2 P_Cond3 P_Cond4 M_Emission P_Emission M_Sort P_Sort M_Models S_GP P_Models P_Models2
  M_Cvi S_Cvi P_Cvi P_Cvi3 M_NatGrad S_NatGrad P_NatGrad P_NatGrad2 P_NatGrad3 P_NatGrad4 P_NatGrad5 P_NatGrad6 P_SparseDense P_PredSpd P_PredSpd2 P_NatGrad9.
Set Implicit Arguments.
Unset Strict Implicit.
Unset Printing Implicit Defensive.
Import Order.Theory GRing.Theory Num.Theory.
Local Open Scope ring_scope.

Section Sparse.
Variables (d : nat) (ker : sde_kernel Rr d) (emission : R -> 'M[R]_(1, d)).
Hypothesis Hker : markov_kernel ker.
Hypothesis Hm0 : k_mean0 ker = 0.
Variables (n : nat) (z : nat -> R).
Hypothesis Hz : increasing n.+1 z.
Hypothesis Hn : (0 < n)%N.
Let p := kssm ker z.
Let Np : ssm_nonsing n p := kssm_nonsing Hker Hz.
Let Kzz := x_gram ker n.+1 z.

Definition sites_at N (X : nat -> R) (a b : nat -> R) : pair_sites d :=
  PairSites (fun m => \sum_(k < N | ext_searchsorted n.+1 z (X k) == m)
               (back_project_nats (a k) (b k) (emission (X k) *m (conditional_statistics ker n.+1 z (X k)).1.1)).1)
            (fun m => \sum_(k < N | ext_searchsorted n.+1 z (X k) == m)
               (back_project_nats (a k) (b k) (emission (X k) *m (conditional_statistics ker n.+1 z (X k)).1.1)).2).
Notation one1 t := (sites_at 1 (fun _ => t) (fun _ => 1) (fun _ => 0)).
Notation one2 t := (sites_at 1 (fun _ => t) (fun _ => 0) (fun _ => 1)).

Lemma one_sym t a b m : (ps_nat2 (sites_at 1 (fun _ => t) a b) m)^T = ps_nat2 (sites_at 1 (fun _ => t) a b) m.
Proof. exact: (contrib_sym ker emission n z 1 (fun _ => t) a b m). Qed.

Lemma one1E t u : covered n z t -> nat_exponent n (trip (one1 t)) u = projected ker emission n z t u.
Proof.
move=> Hc; rewrite trip_exponent; last by move=> m _; exact: one_sym.
apply: (etrans (contrib_exponent emission Hker Hz (fun _ => 1) (fun _ => 0) u (fun _ _ => Hc))).
by rewrite big_ord1 mul1r mul0r addr0.
Qed.

Lemma one2E t u : covered n z t -> nat_exponent n (trip (one2 t)) u = projected ker emission n z t u ^+ 2.
Proof.
move=> Hc; rewrite trip_exponent; last by move=> m _; exact: one_sym.
apply: (etrans (contrib_exponent emission Hker Hz (fun _ => 0) (fun _ => 1) u (fun _ _ => Hc))).
by rewrite big_ord1 mul1r mul0r add0r.
Qed.

Lemma bp1E e a b (C : 'M[R]_(1, e)) : (back_project_nats a b C).1 = a *: C^T.
Proof. by apply/matrixP => i j; rewrite !mxE big_ord1 mulrC ord1. Qed.

Lemma one1_lin t m : ps_nat2 (one1 t) m = 0.
Proof. by apply: big1 => k _; rewrite bp_quad scale0r. Qed.
Lemma one2_lin t m : ps_nat1 (one2 t) m = 0.
Proof. by apply: big1 => k _; rewrite bp1E scale0r. Qed.

Lemma one1_quad t u : quad_part n (trip (one1 t)) u = 0.
Proof.
have E1 k : t_diag (trip (one1 t)) k = 0.
  change (ulsubmx (ps_nat2 (one1 t) k.+1) + drsubmx (ps_nat2 (one1 t) k) = 0); rewrite !one1_lin.
  by apply/matrixP => i j; rewrite !mxE addr0.
have E2 k : t_sub (trip (one1 t)) k = 0.
  change (2%:R *: dlsubmx (ps_nat2 (one1 t) k.+1) = 0); rewrite !one1_lin.
  by apply/matrixP => i j; rewrite !mxE mulr0.
rewrite /quad_part big1 ?big1 ?addr0 // => k _; last by rewrite E1 /qf mulmx0 mul0mx mxE.
by rewrite E2 mulmx0 mul0mx mxE.
Qed.

Lemma one2_quad t u : quad_part n (trip (one2 t)) u = nat_exponent n (trip (one2 t)) u.
Proof.
have E1 k : t_lin (trip (one2 t)) k = 0.
  change (usubmx (ps_nat1 (one2 t) k.+1) + dsubmx (ps_nat1 (one2 t) k) = 0); rewrite !one2_lin.
  by apply/matrixP => i j; rewrite !mxE addr0.
rewrite /quad_part /nat_exponent [X in _ = X + _ + _]big1; last by move=> k _; rewrite E1 trmx0 mul0mx mxE.
by rewrite add0r.
Qed.

Lemma sites_rec1 N X a b m : ps_nat1 (sites_at N.+1 X a b) m =
  ps_nat1 (ps_lin 1 (sites_at N X a b) 1 (ps_lin (a N) (one1 (X N)) (b N) (one2 (X N)))) m.
Proof.
have -> : ps_nat1 (ps_lin 1 (sites_at N X a b) 1 (ps_lin (a N) (one1 (X N)) (b N) (one2 (X N)))) m =
  1 *: ps_nat1 (sites_at N X a b) m + 1 *: (a N *: ps_nat1 (one1 (X N)) m + b N *: ps_nat1 (one2 (X N)) m) by [].
rewrite one2_lin scaler0 addr0 !scale1r /ps_nat1 /sites_at big_mkcond big_ord_recr -big_mkcond.
congr (_ + _); rewrite [X in _ = _ *: X]big_mkcond big_ord1; case: ifP => _; last by rewrite scaler0.
by rewrite !bp1E scale1r.
Qed.

Lemma sites_rec2 N X a b m : ps_nat2 (sites_at N.+1 X a b) m =
  ps_nat2 (ps_lin 1 (sites_at N X a b) 1 (ps_lin (a N) (one1 (X N)) (b N) (one2 (X N)))) m.
Proof.
have -> : ps_nat2 (ps_lin 1 (sites_at N X a b) 1 (ps_lin (a N) (one1 (X N)) (b N) (one2 (X N)))) m =
  1 *: ps_nat2 (sites_at N X a b) m + 1 *: (a N *: ps_nat2 (one1 (X N)) m + b N *: ps_nat2 (one2 (X N)) m) by [].
rewrite one1_lin scaler0 add0r !scale1r /ps_nat2 /sites_at big_mkcond big_ord_recr -big_mkcond.
congr (_ + _); rewrite [X in _ = _ *: X]big_mkcond big_ord1; case: ifP => _; last by rewrite scaler0.
by rewrite !bp_quad scale1r.
Qed.

Lemma tdot_trip_lin (a : R) (s : pair_sites d) (b : R) (s' : pair_sites d) (delta : triple Rr d) : tdot n (trip (ps_lin a s b s')) delta = a * tdot n (trip s) delta + b * tdot n (trip s') delta.
Proof. by rewrite (same_tdot _ (trip_lin n a s b s')) tdot_lincomb. Qed.

Lemma tdot_sites N X a b (delta : triple Rr d) : tdot n (trip (sites_at N X a b)) delta =
  \sum_(k < N) (a k * tdot n (trip (one1 (X k))) delta + b k * tdot n (trip (one2 (X k))) delta).
Proof.
elim: N => [|N IH].
  have E : same_triple n (trip (sites_at 0 X a b)) (trip (ps_lin 0 (sites_at 0 X a b) 0 (sites_at 0 X a b))).
    apply: trip_same => m _.
      change (ps_nat1 (sites_at 0 X a b) m = 0 *: ps_nat1 (sites_at 0 X a b) m + 0 *: ps_nat1 (sites_at 0 X a b) m).
      by rewrite !scale0r addr0 /ps_nat1 /sites_at big_ord0.
    change (ps_nat2 (sites_at 0 X a b) m = 0 *: ps_nat2 (sites_at 0 X a b) m + 0 *: ps_nat2 (sites_at 0 X a b) m).
    by rewrite !scale0r addr0 /ps_nat2 /sites_at big_ord0.
  by rewrite big_ord0 (same_tdot _ E) tdot_trip_lin !mul0r addr0.
have E := trip_same (fun m _ => sites_rec1 N X a b m) (fun m _ => sites_rec2 N X a b m).
by rewrite big_ord_recr (same_tdot _ (E n)) tdot_trip_lin tdot_trip_lin !mul1r IH.
Qed.

Lemma sites_sym N X a b : tsym n (trip (sites_at N X a b)).
Proof. by move=> k Hk; apply: (@D_sym d n) => // m _; exact: (contrib_sym ker emission n z N X a b m). Qed.

(* the predictions at the data *)
Variables (N : nat) (X : nat -> R).
Hypothesis Hinf : - APPROX_INF Rr < z 0%N.
Hypothesis Hsup : z n < APPROX_INF Rr.
Hypothesis HX : forall k, (k < N)%N -> z 0%N <= X k <= z n.
Let pred q k := cvi_predict_f ker emission n q z X k.
Let B k := brow n.+1 (fun j => state_cov ker (X k) (z j)) *m invmx Kzz.
Let c k := (emission (X k) *m (k_P0 ker (X k) - B k *m Kzz *m (B k)^T) *m (emission (X k))^T) 0 0.

Lemma X_covered k : (k < N)%N -> covered n z (X k).
Proof. by move=> /HX /andP [h1 h2]; apply: covered_range. Qed.

Lemma pred_law q m K k : (k < N)%N -> ssm_nonsing n q -> has_law n.+1 n.+1 (ssm_path q) m K ->
  (pred q k).1 = projected ker emission n z (X k) m /\
  (pred q k).2 = c k + (emission (X k) *m B k *m dense n.+1 n.+1 K *m (emission (X k) *m B k)^T) 0 0.
Proof.
move=> Hk Nq Lq.
have [_ E] := @predict_f_covered Rr _ _ ker (fun i => emission (X i)) (fun _ => 0) n z X k q m K Hker Hm0 Hz (X_covered Hk) Nq Lq.
rewrite /pred /cvi_predict_f E; split.
  by rewrite [LHS]/= addr0 /projected !mulmxA.
rewrite [LHS]mxE -/(B k) /c -add00; apply: (congr1 (fun M : 'M[R]_1 => M 0 0)).
rewrite [in LHS]mulmxDr [in LHS]mulmxDl.
have key (a : nat) (C : 'M[R]_(1, d)) (G : 'M[R]_(d, a)) (M : 'M[R]_a) : C *m (G *m M *m G^T) *m C^T = C *m G *m M *m (C *m G)^T by rewrite trmx_mul !mulmxA.
by apply: (congr1 (fun u => _ + u)); exact: key.
Qed.

Lemma sparse_moments q k : ssm_nonsing n q -> (k < N)%N ->
  (pred q k).1 = tdot n (trip (one1 (X k))) (ssm_to_expectations n q) /\
  (pred q k).2 = c k + tdot n (trip (one2 (X k))) (ssm_to_expectations n q) - (pred q k).1 ^+ 2.
Proof.
move=> Nq Hk; have Lq := ssm_has_law n q; have Hc := X_covered Hk.
have [e [A EA]] := @cov_factor d n q.
have [-> ->] := pred_law Hk Nq Lq.
rewrite (tdot_moments (trip (one1 (X k))) Nq Lq EA) (tdot_moments (trip (one2 (X k))) Nq Lq EA).
rewrite (one1E _ Hc) (one2E _ Hc) big1 ?addr0; last by move=> c' _; exact: one1_quad.
split=> //.
have -> : \sum_c' quad_part n (trip (one2 (X k))) (fun k0 => col c' (A k0)) =
    (emission (X k) *m B k *m dense n.+1 n.+1 (ssm_cov q) *m (emission (X k) *m B k)^T) 0 0.
  rewrite (@dense_cols_sq Rr d e n.+1 (ssm_cov q) A EA) (@sum_sq_cols Rr d e n).
  apply: eq_bigr => c' _; rewrite one2_quad (one2E _ Hc) /projected /B.
  by rewrite !mulmxA.
have key (x y w : R) : x + y = x + (w + y) - w by zmod.
exact: key.
Qed.

Lemma scvi_naturalsE s : same_triple n (scvi_naturals n p s) (triple_lincomb 1 (ssm_to_naturals n p) 1 (trip s)).
Proof.
split=> k Hk.
- change (t_lin (trip s) k = 1 *: t_lin (ssm_to_naturals n p) k + 1 *: t_lin (trip s) k).
  by rewrite (prior_lin_zero Hker Hm0 Hz Hk) scaler0 add0r scale1r.
- change (- 2%:R^-1 *: bt_diag (ssm_precision n p) k + t_diag (trip s) k =
    1 *: t_diag (ssm_to_naturals n p) k + 1 *: t_diag (trip s) k).
  by rewrite !scale1r (naturals_diag Np Hk).
- change (- osub (bt_sub (ssm_precision n p)) k + t_sub (trip s) k = 1 *: t_sub (ssm_to_naturals n p) k + 1 *: t_sub (trip s) k).
  by rewrite !scale1r (naturals_sub Np Hk).
Qed.

Let naturals s := scvi_naturals n p s.

Lemma scvi_valid s : valid_pairs n s -> nat_valid n (naturals s).
Proof.
move=> Vs; have sS m : (m <= n.+1)%N -> (ps_nat2 s m)^T = ps_nat2 s m by move=> /Vs [].
apply: (@core_valid d n p (t_lin (trip s)) (t_diag (trip s)) (t_sub (trip s)) Np).
- by move=> k Hk; exact: (D_sym sS).
- move=> x; rewrite -(pairs_quad sS) -oppr_ge0 -sumrN; apply: sumr_ge0 => m _; rewrite oppr_ge0.
  by have [_] := Vs m (ltn_ord m); apply.
Qed.

Lemma scvi_dist s : valid_pairs n s -> exists q, [/\ scvi_dist_q ker n z s = Some q, ssm_chol n q &
  same_triple n (ssm_to_naturals n q) (naturals s)].
Proof.
move=> Hs; have [q [E1 E2 E3]] := naturals_of_ssm_of Hn (scvi_valid Hs); exists q; split=> //.
by rewrite /scvi_dist_q (kernel_ssmE ker Hz) /obind /oapp -E1.
Qed.

Lemma spred_same q q' k : (k < N)%N -> ssm_nonsing n q -> ssm_nonsing n q' ->
  same_triple n (ssm_to_naturals n q) (ssm_to_naturals n q') -> pred q k = pred q' k.
Proof.
move=> Hk Nq Nq' E; have L := ssm_has_law n q'.
exact: (predict_same emission Hker Hm0 Hz (X_covered Hk) Nq Nq' (proj2 (same_naturals_law Nq Nq' E _ _) L) L).
Qed.

Variables (ve gm gv : R -> R -> R -> R) (y : nat -> R).
Let elbo := svgp_elbo ker emission (fun _ => 0) (fun fmu fvar v => ve (fmu 0 0) (fvar 0 0) (v 0 0)) n z None N X (fun k => const_mx (y k)).

Lemma selboE q : elbo q = Some (1 * (\sum_(k < N) ve (pred q k).1 (pred q k).2 (y k)) - ssm_kl_divergence n q p).
Proof.
rewrite /elbo /svgp_elbo (kernel_ssmE ker Hz) mul1r; apply: (congr1 Some); apply: (congr1 (fun u => u - _)).
apply: (etrans (mulr1 _)); apply: eq_bigr => k _; have Ey : (const_mx (y k) : 'cV[R]_1) 0 0 = y k by rewrite mxE.
exact: (congr1 (ve _ _) Ey).
Qed.

Hypothesis Hve : forall mu v k, 0 < v -> (k < N)%N ->
  differentiable_pt_lim (fun m v => ve m v (y k)) mu v (gm mu v (y k)) (gv mu v (y k)).
Hypothesis HH : forall k, (k < N)%N -> emission (X k) != 0.

Lemma spred_var_gt0 q k : (k < N)%N -> ssm_nonsing n q -> 0 < (pred q k).2.
Proof.
move=> Hk Nq; have /andP [h1 h2] := HX Hk.
apply: (@var_gt0 d ker Hker n z Hz 1 (fun i => emission (X i)) (fun _ => 0) q X k 0 Nq).
- exact: (lt_le_trans Hinf h1).
- exact: (le_lt_trans h2 Hsup).
- by apply: contraNneq (HH Hk) => E; apply/eqP/rowP => j; move: E => /rowP/(_ j); rewrite !mxE.
Qed.

Variables (gamma beta1 beta2 epsilon : R).

Lemma supdateE s s' q0 : scvi_dist_q ker n z s = Some q0 -> scvi_update_sites ker emission gm gv n z gamma N X y s = Some s' ->
  s' = ps_lin (1 - gamma) s gamma (sites_at N X (fun k => (cvi_gradients gm gv (pred q0 k) (y k)).1)
    (fun k => (cvi_gradients gm gv (pred q0 k) (y k)).2)).
Proof. by move=> E Eu; rewrite -(omap_some E Eu). Qed.

Lemma sites_ext a b a' b' : (forall k, (k < N)%N -> a k = a' k) -> (forall k, (k < N)%N -> b k = b' k) ->
  sites_at N X a b = sites_at N X a' b'.
Proof.
move=> Ea Eb; rewrite /sites_at; congr PairSites; apply: functional_extensionality => m; apply: eq_bigr => k _;
  by rewrite (Ea _ (ltn_ord k)) (Eb _ (ltn_ord k)).
Qed.

Lemma scvi_natgrad_step s s' q g g' st : valid_pairs n s -> valid_pairs n s' ->
  ssm_chol n q -> same_triple n (ssm_to_naturals n q) (naturals s) ->
  scvi_update_sites ker emission gm gv n z gamma N X y s = Some s' ->
  exp_gradient n (loss_of elbo) q g ->
  exists q', [/\ natgrad_step n gamma beta1 beta2 epsilon false g g' q st = Some (q', st), ssm_chol n q' &
    same_triple n (ssm_to_naturals n q') (naturals s')].
Proof.
move=> Hs Hs' Cq Eq Eu Hg; have Nq := ssm_chol_nonsing Cq.
have [q0 [F1 F2 F3]] := scvi_dist Hs.
pose a k := (cvi_gradients gm gv (pred q k) (y k)).1; pose b k := (cvi_gradients gm gv (pred q k) (y k)).2.
have Es' : s' = ps_lin (1 - gamma) s gamma (sites_at N X a b).
  rewrite (supdateE F1 Eu); apply: (congr1 (ps_lin (1 - gamma) s gamma)); apply: sites_ext => k Hk.
    exact: (congr1 (fun f => (cvi_gradients gm gv f (y k)).1) (spred_same Hk (ssm_chol_nonsing F2) Nq (same_trans F3 (same_sym Eq)))).
  exact: (congr1 (fun f => (cvi_gradients gm gv f (y k)).2) (spred_same Hk (ssm_chol_nonsing F2) Nq (same_trans F3 (same_sym Eq)))).
have E : same_triple n (triple_lincomb 1 (ssm_to_naturals n p) 1
    (triple_lincomb (1 - gamma) (trip s) gamma (trip (sites_at N X a b)))) (naturals s').
  apply: (same_trans _ (same_sym (scvi_naturalsE s'))).
  apply: same_lincomb; first exact: same_refl.
  by rewrite Es'; exact: (same_sym (trip_lin n (1 - gamma) s gamma (sites_at N X a b))).
have [|||q' [G1 G2 G3]] := @step_sites d n N pred (fun k => trip (one1 (X k))) (fun k => trip (one2 (X k))) c ve gm gv y sparse_moments elbo p q 1 gamma beta1 beta2 epsilon
  (trip (sites_at N X a b)) g g' st (trip s) Hn Cq Np (fun q' _ => selboE q') _ (sites_sym N X a b) _ (same_trans Eq (scvi_naturalsE s)) Hg.
- by move=> k Hk; apply: Hve => //; apply: spred_var_gt0.
- by move=> delta sd g0; exact: (etrans (tdot_sites N X a b delta) (esym (mul1r _))).
- exact: (nat_valid_same (same_sym E) (scvi_valid Hs')).
by exists q'; split=> //; apply: (same_trans G3 E).
Qed.

Lemma sparse_grads : exists grads : ssm Rr d -> triple Rr d * triple Rr d,
  forall q', ssm_chol n q' -> exp_gradient n (loss_of elbo) q' (grads q').1.
Proof.
exists (fun q => (triple_lincomb 1 (triple_lincomb 1 (ssm_to_naturals n q) (-1) (ssm_to_naturals n p)) (-1)
  (trip (sites_at N X (fun k => (cvi_gradients gm gv (pred q k) (y k)).1) (fun k => (cvi_gradients gm gv (pred q k) (y k)).2))),
  ssm_to_naturals n q)) => q Cq.
have Nq := ssm_chol_nonsing Cq.
refine (@elbo_gradient d n N pred (fun k => trip (one1 (X k))) (fun k => trip (one2 (X k))) c ve gm gv y sparse_moments elbo p q 1 _ Cq Np (fun q' _ => selboE q') _ _ _).
- by move=> k Hk; apply: Hve => //; apply: spred_var_gt0.
- exact: sites_sym.
- by move=> delta sd g0; exact: (etrans (tdot_sites N X _ _ delta) (esym (mul1r _))).
Qed.

Lemma scvi_natgrad_run s q st grads : 0 <= gamma <= 1 -> (forall mu v u, gv mu v u <= 0) -> valid_pairs n s ->
  scvi_dist_q ker n z s = Some q ->
  (forall q', ssm_chol n q' -> exp_gradient n (loss_of elbo) q' (grads q').1) ->
  forall r, exists s' q' q'', [/\ iter r (obind (scvi_update_sites ker emission gm gv n z gamma N X y)) (Some s) = Some s',
    scvi_dist_q ker n z s' = Some q'', natgrad_run n gamma beta1 beta2 epsilon false grads r q st = Some (q', st) &
    forall m K, has_law n.+1 n.+1 (ssm_path q') m K <-> has_law n.+1 n.+1 (ssm_path q'') m K].
Proof.
move=> Hlr Hgv Hs Eq Hg r.
have [q0 [F1 F2 F3]] := scvi_dist Hs; move: F1; rewrite Eq => -[F1]; subst q0.
suff : exists s' q', [/\ valid_pairs n s', iter r (obind (scvi_update_sites ker emission gm gv n z gamma N X y)) (Some s) = Some s',
    natgrad_run n gamma beta1 beta2 epsilon false grads r q st = Some (q', st), ssm_chol n q' &
    same_triple n (ssm_to_naturals n q') (naturals s')].
  move=> [s' [q' [h0 h1' h2' h3 h4]]]; have [q'' [G1 G2 G3]] := scvi_dist h0; exists s', q', q''; split=> //.
  by apply: same_naturals_law; [exact: ssm_chol_nonsing|exact: ssm_chol_nonsing|apply: (same_trans h4 (same_sym G3))].
move: Hs F2 F3 {Eq}; elim: r s q => [|r IH] s0 q1 Hs0 C1 T1; first by exists s0, q1.
have [q2 [s1 [_ Eu Hs1 _]]] := scvi_update emission Hker Hm0 Hz Hn gm y Hlr Hgv Hs0 X_covered.
have [q3 [L1 L2 L3]] := scvi_natgrad_step (grads q1).2 st Hs0 Hs1 C1 T1 Eu (Hg _ C1).
have [s2 [q4 [M0 M1 M2 M3 M4]]] := IH s1 q3 Hs1 L2 L3; exists s2, q4; split=> //; last by rewrite /= L1.
by rewrite iterSr /= Eu.
Qed.
End Sparse.
