(* Proofs for natural gradients, part 6: the gradient of a variational bound whose data term
   depends on means and variances of linear functions of the states, and the correspondence
   with the updates of CVI. *)
From Coq Require Import Reals Lra FunctionalExtensionality.
From Coquelicot Require Import Derive_2d.
From mathcomp Require Import all_ssreflect all_algebra.
From Verif Require Import RealStruct Log Nat Alg Lin Ent Spd MCalc MCont M_Block S_Block P_Block P_Block2
  M_SSM S_SSM P_SSM M_SSMLog S_Gauss P_Gauss P_SSMLog M_Trans S_Trans P_Trans P_TransLog P_Elbo
  S_Kalman M_Kalman P_Kalman M_Kernel S_Kernel P_Kernel M_Cond P_Cond P_Cond2 P_Cond3 P_Cond4 M_Emission P_Emission M_Sort P_Sort M_Models S_GP P_Models P_Models2
  M_Cvi S_Cvi P_Cvi P_Cvi3 M_NatGrad S_NatGrad P_NatGrad P_NatGrad2 P_NatGrad3 P_NatGrad4 P_NatGrad5.
Set Implicit Arguments.
Unset Strict Implicit.
Unset Printing Implicit Defensive.
Import Order.Theory GRing.Theory Num.Theory.
Local Open Scope ring_scope.

Lemma deriv_sum m (f : 'I_m -> R -> R) (l : 'I_m -> R) x : (forall k, derivable_pt_lim (f k) x (l k)) ->
  derivable_pt_lim (fun s => \sum_k f k s) x (\sum_k l k).
Proof.
elim: m f l => [|m IH] f l H.
  rewrite big_ord0; have -> : (fun s => \sum_(k < 0) f k s) = (fct_cte 0).
    by apply: functional_extensionality => s; rewrite big_ord0.
  exact: derivable_pt_lim_const.
rewrite big_ord_recl; have -> : (fun s => \sum_(k < m.+1) f k s) = plus_fct (f ord0) (fun s => \sum_(k < m) f (lift ord0 k) s).
  by apply: functional_extensionality => s; rewrite big_ord_recl.
by apply: derivable_pt_lim_plus; [exact: H|apply: IH => k; exact: H].
Qed.

(* the derivative along a line in the expectation parameters e1 + s a, e2 + s b of a function
   of the mean and the variance *)
Lemma line_deriv (ve : R -> R -> R) (mu v g1 g2 a b : R) : differentiable_pt_lim ve mu v g1 g2 ->
  let r := gradient_mean_var_to_expectation mu (g1, g2) in
  derivable_pt_lim (fun s => ve (mu + s * a) (v + mu ^+ 2 + s * b - (mu + s * a) ^+ 2)) 0 (r.1 * a + r.2 * b).
Proof.
move=> H r.
have := @derivable_pt_lim_comp_2d ve (fun s => mu + s * a) (fun s => v + mu ^+ 2 + s * b - (mu + s * a) ^+ 2) 0
  g1 g2 a (b - 2%:R * mu * a).
rewrite (_ : mu + 0 * a = mu); last by rewrite mul0r addr0.
rewrite (_ : v + mu ^+ 2 + 0 * b - mu ^+ 2 = v); last by rewrite mul0r addr0 addrK.
move=> /(_ H) K.
rewrite (_ : r.1 * a + r.2 * b = (g1 * a + g2 * (b - 2%:R * mu * a))%Re); last first.
  by rewrite /r /=; eqR; toR_ops; rewrite natrR /=; ring.
apply: K.
  have -> : (fun s : R => mu + s * a) = (fun s : R => (mu + a * s)%Re).
    by apply: functional_extensionality => s; eqR; toR_ops; ring.
  exact: lin_deriv.
have -> : (fun s : R => v + mu ^+ 2 + s * b - (mu + s * a) ^+ 2) =
    plus_fct (fun s : R => (v + (b - 2 * mu * a) * s)%Re) (fun s : R => (0 + (- (a * a)) * ((0 - s) * (0 - s)))%Re).
  by apply: functional_extensionality => s; rewrite /plus_fct; eqR; toR_ops; rewrite !exprR /=; ring.
rewrite (_ : b - 2%:R * mu * a = (b - 2 * mu * a + - (2 * - (a * a) * (0 - 0)))%Re); last first.
  by eqR; toR_ops; rewrite natrR /=; ring.
by apply: derivable_pt_lim_plus; [exact: lin_deriv|exact: quad_deriv].
Qed.

Section Data.
Variables (d n N : nat) (pred : ssm Rr d -> nat -> R * R) (h1 h2 : nat -> triple Rr d) (c : nat -> R).
Variables (ve gm gv : R -> R -> R -> R) (y : nat -> R).
Implicit Types (q p : ssm Rr d) (delta : triple Rr d).

(* the first two moments are affine in the expectation parameters *)
Hypothesis moments : forall q k, ssm_nonsing n q -> (k < N)%N ->
  (pred q k).1 = tdot n (h1 k) (ssm_to_expectations n q) /\
  (pred q k).2 = c k + tdot n (h2 k) (ssm_to_expectations n q) - (pred q k).1 ^+ 2.

Lemma data_deriv q delta : ssm_chol n q -> tsym n delta ->
  (forall k, (k < N)%N -> differentiable_pt_lim (fun m v => ve m v (y k)) (pred q k).1 (pred q k).2
     (gm (pred q k).1 (pred q k).2 (y k)) (gv (pred q k).1 (pred q k).2 (y k))) ->
  let g k := cvi_gradients gm gv (pred q k) (y k) in
  derivable_pt_lim (fun s => let q' := expectations_to_ssm (along (ssm_to_expectations n q) delta s) in
      \sum_(k < N) ve (pred q' k).1 (pred q' k).2 (y k)) 0
    (\sum_(k < N) ((g k).1 * tdot n (h1 k) delta + (g k).2 * tdot n (h2 k) delta)).
Proof.
move=> Cq sd Hd g; have Nq := ssm_chol_nonsing Cq; have Vq := expectations_valid Nq.
pose F (k : nat) s := ve ((pred q k).1 + s * tdot n (h1 k) delta)
  ((pred q k).2 + (pred q k).1 ^+ 2 + s * tdot n (h2 k) delta - ((pred q k).1 + s * tdot n (h1 k) delta) ^+ 2) (y k).
apply: (@deriv_local (fun s => \sum_(k < N) F k s)); last first.
  by apply: deriv_sum => k; exact: (line_deriv _ _ (Hd _ (ltn_ord k))).
apply: near0_imp (near_valid Vq sd) => s Vs; have [Cs Es] := expectations_of_ssm_of Vs; have Ns := ssm_chol_nonsing Cs.
apply: eq_bigr => k _; have [M1 M2] := moments Ns (ltn_ord k); have [P1 P2] := moments Nq (ltn_ord k).
rewrite (same_tdotr _ Es) tdot_along in M1; rewrite (same_tdotr _ Es) tdot_along in M2.
rewrite /F M2 M1 P2 -P1 subrK; congr (ve _ _ _); congr (_ - _); exact: (esym (addrA _ _ _)).
Qed.

(* the gradient of a bound with this data term *)
Lemma elbo_gradient (elbo : ssm Rr d -> option R) p q (scale : R) h : ssm_chol n q -> ssm_nonsing n p ->
  (forall q', ssm_nonsing n q' -> elbo q' = Some (scale * (\sum_(k < N) ve (pred q' k).1 (pred q' k).2 (y k)) - ssm_kl_divergence n q' p)) ->
  (forall k, (k < N)%N -> differentiable_pt_lim (fun m v => ve m v (y k)) (pred q k).1 (pred q k).2
     (gm (pred q k).1 (pred q k).2 (y k)) (gv (pred q k).1 (pred q k).2 (y k))) ->
  tsym n h ->
  (forall delta, tsym n delta ->
     let g k := cvi_gradients gm gv (pred q k) (y k) in
     tdot n h delta = scale * \sum_(k < N) ((g k).1 * tdot n (h1 k) delta + (g k).2 * tdot n (h2 k) delta)) ->
  exp_gradient n (loss_of elbo) q
    (triple_lincomb 1 (triple_lincomb 1 (ssm_to_naturals n q) (-1) (ssm_to_naturals n p)) (-1) h).
Proof.
move=> Cq Np He Hd sh Hh; have Nq := ssm_chol_nonsing Cq; have Vq := expectations_valid Nq.
have [skl dkl] := kl_is_gradient Cq Np.
split=> [|delta sd]; first exact: tsym_lincomb.
have D1 := derivable_pt_lim_scal _ scale _ _ (data_deriv Cq sd Hd).
have D2 := derivable_pt_lim_minus _ _ _ _ _ (dkl _ sd) D1.
have E : tdot n (triple_lincomb 1 (triple_lincomb 1 (ssm_to_naturals n q) (-1) (ssm_to_naturals n p)) (-1) h) delta =
  tdot n (triple_lincomb 1 (ssm_to_naturals n q) (-1) (ssm_to_naturals n p)) delta - tdot n h delta.
  by move: (triple_lincomb 1 (ssm_to_naturals n q) (-1) (ssm_to_naturals n p)) => t; rewrite tdot_lincomb mul1r mulN1r.
rewrite E (Hh _ sd); apply: deriv_local D2.
apply: near0_imp (near_valid Vq sd) => s Vs; have [Cs Es] := expectations_of_ssm_of Vs; have Ns := ssm_chol_nonsing Cs.
rewrite /minus_fct /mult_real_fct /loss_of (He _ Ns); cbv zeta.
have key (a b : R) : (b - scale * a)%Re = - (scale * a - b) by rewrite opprB.
exact: key.
Qed.

(* the step: sites and gradient are mixed with the learning rate *)
Lemma step_sites (elbo : ssm Rr d -> option R) p q (scale gamma beta1 beta2 epsilon : R) h g g' st lam : (0 < n)%N ->
  ssm_chol n q -> ssm_nonsing n p ->
  (forall q', ssm_nonsing n q' -> elbo q' = Some (scale * (\sum_(k < N) ve (pred q' k).1 (pred q' k).2 (y k)) - ssm_kl_divergence n q' p)) ->
  (forall k, (k < N)%N -> differentiable_pt_lim (fun m v => ve m v (y k)) (pred q k).1 (pred q k).2
     (gm (pred q k).1 (pred q k).2 (y k)) (gv (pred q k).1 (pred q k).2 (y k))) ->
  tsym n h ->
  (forall delta, tsym n delta ->
     let g k := cvi_gradients gm gv (pred q k) (y k) in
     tdot n h delta = scale * \sum_(k < N) ((g k).1 * tdot n (h1 k) delta + (g k).2 * tdot n (h2 k) delta)) ->
  same_triple n (ssm_to_naturals n q) (triple_lincomb 1 (ssm_to_naturals n p) 1 lam) ->
  exp_gradient n (loss_of elbo) q g ->
  let t := triple_lincomb 1 (ssm_to_naturals n p) 1 (triple_lincomb (1 - gamma) lam gamma h) in
  nat_valid n t ->
  exists q', [/\ natgrad_step n gamma beta1 beta2 epsilon false g g' q st = Some (q', st), ssm_chol n q' &
    same_triple n (ssm_to_naturals n q') t].
Proof.
move=> n0 Cq Np He Hd sh Hh Eq Hg t Vt.
have Eg := gradient_unique Hg (elbo_gradient Cq Np He Hd sh Hh).
have E : same_triple n (triple_lincomb 1 (ssm_to_naturals n q) (- gamma) g) t.
  apply: (same_trans (same_lincomb 1 (- gamma) (same_refl n _) Eg)).
  apply: (same_trans (same_lincomb 1 (- gamma) Eq (same_lincomb 1 (-1) (same_lincomb 1 (-1) Eq (same_refl n _)) (same_refl n _)))).
  rewrite /t; move: (ssm_to_naturals n p) => y1.
  have lin a b (P L H : 'M[R]_(a, b)) : 1 *: (1 *: P + 1 *: L) + - gamma *: (1 *: (1 *: (1 *: P + 1 *: L) + -1 *: P) + -1 *: H) =
    1 *: P + 1 *: ((1 - gamma) *: L + gamma *: H).
    rewrite !scale1r !scaleN1r [P + L - P]addrAC subrr add0r scalerBl scale1r scaleNr scalerBr opprB -!addrA.
    by congr (_ + (_ + _)); rewrite addrC.
  by split=> k Hk; rewrite /triple_lincomb /= lin.
have [q' [E1 E2 E3]] := step_plain beta1 beta2 epsilon n0 g' st (nat_valid_same (same_sym E) Vt).
by exists q'; split=> //; apply: (same_trans E3 E).
Qed.
End Data.

(* two models with the same natural parameters have the same law *)
Lemma same_naturals_law d n (q q' : ssm Rr d) : ssm_nonsing n q -> ssm_nonsing n q' ->
  same_triple n (ssm_to_naturals n q) (ssm_to_naturals n q') ->
  forall m K, has_law n.+1 n.+1 (ssm_path q) m K <-> has_law n.+1 n.+1 (ssm_path q') m K.
Proof.
move=> Nq Nq' E.
have H x : ssm_log_pdf n q x = ssm_log_pdf n q' x + (ssm_normalizer n q' - ssm_normalizer n q).
  rewrite (log_pdf_naturals x Nq) (log_pdf_naturals x Nq') (same_triple_exponent x E).
  by move: (nat_exponent n _ x) (ssm_normalizer n q) (ssm_normalizer n q') => a b c; zmod.
have H' x : ssm_log_pdf n q' x = ssm_log_pdf n q x + (ssm_normalizer n q - ssm_normalizer n q').
  by rewrite H; move: (ssm_log_pdf n q' x) (ssm_normalizer n q) (ssm_normalizer n q') => a b c; zmod.
by move=> m K; split; [apply: (same_density_has_law Nq Nq' H)|apply: (same_density_has_law Nq' Nq H')].
Qed.

(* predictions at the conditioning times *)
Lemma predict_state_at d (ker : sde_kernel Rr d) n z t0 (q : ssm Rr d) m K k : markov_kernel ker -> increasing n.+1 z ->
  - APPROX_INF Rr < z 0%N -> (k <= n)%N -> ssm_nonsing n q -> has_law n.+1 n.+1 (ssm_path q) m K ->
  predict_state ker n q z t0 (z k) = (m k, K k k).
Proof.
move=> Hk Hz Hinf Hkn Nq Lq; case: k Hkn => [|k] Hkn.
  apply: predict_at_first => //; rewrite ?(mk_trans0 Hk) ?(mk_cov0 Hk) //.
  by apply: mk_cov_spd => //; rewrite -ltr_subl_addr sub0r.
apply: predict_at_train => //; rewrite ?(mk_trans0 Hk) ?(mk_cov0 Hk) //.
by apply: mk_cov_spd => //; rewrite subr_gt0; apply: Hz.
Qed.

Lemma tr11 (A : 'M[R]_1) : \tr A = A 0 0.
Proof. by rewrite /mxtrace big_ord1. Qed.
Lemma mulmx11 (A B : 'M[R]_1) : (A *m B) 0 0 = A 0 0 * B 0 0.
Proof. by rewrite mxE big_ord1. Qed.

Lemma tr_outer a (C : 'M[R]_(1, a)) (D : 'M[R]_a) : \tr ((C^T *m C)^T *m D) = (C *m D *m C^T) 0 0.
Proof. by rewrite -tr11 -[in RHS]mxtrace_mulC trmx_mul trmxK mulmxA. Qed.

Lemma omap_some A B (f : A -> B) o x y : o = Some x -> omap f o = Some y -> f x = y.
Proof. by move=> -> []. Qed.
Lemma omap_none A B (f : A -> B) o x : o = Some x -> omap f o = None -> False.
Proof. by move=> ->. Qed.

Section Dense.
Variables (d : nat) (ker : sde_kernel Rr d) (emission : R -> 'M[R]_(1, d)).
Hypothesis Hker : markov_kernel ker.
Hypothesis Hm0 : k_mean0 ker = 0.
Variables (n : nat) (z : nat -> R).
Hypothesis Hz : increasing n.+1 z.
Hypothesis Hn : (0 < n)%N.
Hypothesis Hinf : - APPROX_INF Rr < z 0%N.
Variables (ve gm gv : R -> R -> R -> R) (y : nat -> R).
Let H (k : nat) := emission (z k).
Let p := kssm ker z.
Let Np : ssm_nonsing n p := kssm_nonsing Hker Hz.
Let pred q k := cvi_predict_f ker emission n q z z k.
Let h1 k : triple Rr d := Triple (fun j => if j == k then (H k)^T else 0) (fun _ => 0) (fun _ => 0).
Let h2 k : triple Rr d := Triple (fun _ => 0) (fun j => if j == k then (H k)^T *m H k else 0) (fun _ => 0).

Lemma pred_at q m K k : (k <= n)%N -> ssm_nonsing n q -> has_law n.+1 n.+1 (ssm_path q) m K ->
  pred q k = ((H k *m m k) 0 0, (H k *m K k k *m (H k)^T) 0 0).
Proof.
move=> Hk Nq Lq; have E := predict_state_at (z 0%N) Hker Hz Hinf Hk Nq Lq.
rewrite /pred /cvi_predict_f /predict_f_diag /project_state_to_f E; congr pair; first by rewrite addr0.
by rewrite cov_diagE E.
Qed.

Lemma tdot_h1 k delta : (k <= n)%N -> tdot n (h1 k) delta = (H k *m t_lin delta k) 0 0.
Proof.
move=> Hk; rewrite /tdot [X in _ + X + _]big1; last by move=> j _; rewrite trmx0 mul0mx mxtrace0.
rewrite [X in _ + _ + X]big1; last by move=> j _; rewrite trmx0 mul0mx mxtrace0.
rewrite !addr0 (bigD1 (Ordinal (Hk : (k < n.+1)%N))) //= eqxx trmxK big1 ?addr0 //.
by move=> j; rewrite -val_eqE /= => /negbTE ->; rewrite trmx0 mul0mx mxE.
Qed.

Lemma tdot_h2 k delta : (k <= n)%N -> tdot n (h2 k) delta = (H k *m t_diag delta k *m (H k)^T) 0 0.
Proof.
move=> Hk; rewrite /tdot [X in X + _ + _]big1; last by move=> j _; rewrite trmx0 mul0mx mxE.
rewrite [X in _ + _ + X]big1; last by move=> j _; rewrite trmx0 mul0mx mxtrace0.
rewrite add0r addr0 (bigD1 (Ordinal (Hk : (k < n.+1)%N))) //= eqxx big1 ?addr0; last first.
  by move=> j; rewrite -val_eqE /= => /negbTE ->; rewrite trmx0 mul0mx mxtrace0.
exact: tr_outer.
Qed.

Lemma dense_moments q k : ssm_nonsing n q -> (k < n.+1)%N ->
  (pred q k).1 = tdot n (h1 k) (ssm_to_expectations n q) /\
  (pred q k).2 = 0 + tdot n (h2 k) (ssm_to_expectations n q) - (pred q k).1 ^+ 2.
Proof.
move=> Nq Hk; have Lq := ssm_has_law n q; have [E1 E2 _] := expectations_law Nq Lq.
rewrite (pred_at Hk Nq Lq) tdot_h1 // tdot_h2 // (E1 _ Hk) (E2 _ Hk); split=> //.
have key (C : 'M[R]_(1, d)) (V : 'M[R]_d) (m : 'cV[R]_d) :
    (C *m V *m C^T) 0 0 = 0 + (C *m (V + m *m m^T) *m C^T) 0 0 - (C *m m) 0 0 ^+ 2.
  rewrite add0r mulmxDr mulmxDl add00 [C *m (m *m m^T)]mulmxA -[C *m m *m m^T *m C^T]mulmxA -trmx_mul mulmx11.
  by rewrite [(_ ^T) 0 0]mxE -expr2 addrK.
exact: key.
Qed.

(* the sites as a triple of natural parameters *)
Let lam (a b : nat -> R) : triple Rr d :=
  Triple (fun k => (back_project_nats (a k) (b k) (H k)).1) (fun k => (back_project_nats (a k) (b k) (H k)).2) (fun _ => 0).

Lemma lam_sym a b : tsym n (lam a b).
Proof. move=> k Hk; have -> : t_diag (lam a b) k = (back_project_nats (a k) (b k) (H k)).2 by [].
by rewrite bp_quad trmxZ trmx_mul trmxK. Qed.

Lemma tdot_lam a b delta : tdot n (lam a b) delta =
  \sum_(k < n.+1) (a k * tdot n (h1 k) delta + b k * tdot n (h2 k) delta).
Proof.
rewrite [LHS]/tdot [X in _ + X = _]big1 ?addr0; last by move=> k _; rewrite trmx0 mul0mx mxtrace0.
rewrite -[LHS]big_split; apply: eq_bigr => k _; have Hk := ltn_ord k.
have -> : t_lin (lam a b) k = (back_project_nats (a k) (b k) (H k)).1 by [].
have -> : t_diag (lam a b) k = (back_project_nats (a k) (b k) (H k)).2 by [].
rewrite tdot_h1 // tdot_h2 // bp_lin bp_quad.
by congr (_ + _); rewrite trmxZ -scalemxAl mxtraceZ tr_outer.
Qed.

Lemma prior_lin_zero k : (k <= n)%N -> t_lin (ssm_to_naturals n p) k = 0.
Proof.
move=> Hk; have E := naturals_lin Np.
have E0 : flat n.+1 (ssm_marginal_means n p) = 0.
  by rewrite -(flat_mean0 Hm0); apply: eq_flat => j Hj; rewrite (kssm_mean Hker Hz Hj).
rewrite E0 mulmx0 in E.
by rewrite -(@unflat_bcol _ _ _ n.+1 (t_lin (ssm_to_naturals n p)) k Hk) -/(flat _ _) E unflat0.
Qed.

Lemma cvi_naturalsE s : same_triple n (cvi_naturals emission n z p s)
  (triple_lincomb 1 (ssm_to_naturals n p) 1 (lam (st_nat1 s) (st_nat2 s))).
Proof.
split=> k Hk.
- change ((back_project_nats (st_nat1 s k) (st_nat2 s k) (H k)).1 =
    1 *: t_lin (ssm_to_naturals n p) k + 1 *: (back_project_nats (st_nat1 s k) (st_nat2 s k) (H k)).1).
  by rewrite prior_lin_zero // scaler0 add0r scale1r.
- change (- 2%:R^-1 *: bt_diag (ssm_precision n p) k + (back_project_nats (st_nat1 s k) (st_nat2 s k) (H k)).2 =
    1 *: t_diag (ssm_to_naturals n p) k + 1 *: (back_project_nats (st_nat1 s k) (st_nat2 s k) (H k)).2).
  by rewrite !scale1r (naturals_diag Np Hk).
- change (- osub (bt_sub (ssm_precision n p)) k = 1 *: t_sub (ssm_to_naturals n p) k + 1 *: (0 : 'M[R]_d)).
  by rewrite !scale1r addr0 (naturals_sub Np Hk).
Qed.

Let naturals s := cvi_naturals emission n z p s.
Let nonpos (s : sites Rr) := forall k, (k <= n)%N -> st_nat2 s k <= 0.

Lemma cvi_valid s : nonpos s -> nat_valid n (naturals s).
Proof.
move=> Hs; pose bp k := back_project_nats (st_nat1 s k) (st_nat2 s k) (H k).
have V := @core_valid d n p (fun k => (bp k).1) (fun k => (bp k).2) (fun _ => 0) Np.
have {}V := V (fun k Hk => lam_sym (st_nat1 s) (st_nat2 s) Hk).
apply: (nat_valid_same _ (V _)).
  by split=> k Hk //=; rewrite addr0.
move=> x; rewrite [X in _ + X]big1 ?addr0; last by move=> k _; rewrite mulmx0 mul0mx mxE.
rewrite -oppr_ge0 -sumrN; apply: sumr_ge0 => k _.
by rewrite /bp bp_qf -mulNr; apply: mulr_ge0; [rewrite oppr_ge0 Hs // -ltnS|exact: sqr_ge0].
Qed.

Lemma cvi_dist s : nonpos s -> exists q, [/\ cvi_dist_q ker emission n z s = Some q, ssm_chol n q &
  same_triple n (ssm_to_naturals n q) (naturals s)].
Proof.
move=> Hs; have [q [E1 E2 E3]] := naturals_of_ssm_of Hn (cvi_valid Hs); exists q; split=> //.
by rewrite /cvi_dist_q (kernel_ssmE ker Hz) /obind /oapp -E1.
Qed.

Lemma pred_same q q' k : (k <= n)%N -> ssm_nonsing n q -> ssm_nonsing n q' ->
  same_triple n (ssm_to_naturals n q) (ssm_to_naturals n q') -> pred q k = pred q' k.
Proof.
move=> Hk Nq Nq' E; have L := ssm_has_law n q'.
by rewrite (pred_at Hk Nq' L) (pred_at Hk Nq (proj2 (same_naturals_law Nq Nq' E _ _) L)).
Qed.

Let elbo := vgp_elbo ker emission (fun _ => 0) (fun fmu fvar v => ve (fmu 0 0) (fvar 0 0) (v 0 0)) n z (fun k => const_mx (y k)).

Lemma elboE q : elbo q = Some (1 * (\sum_(k < n.+1) ve (pred q k).1 (pred q k).2 (y k)) - ssm_kl_divergence n q p).
Proof.
rewrite /elbo /vgp_elbo (kernel_ssmE ker Hz) mul1r; apply: (congr1 Some); apply: (congr1 (fun u => u - _)).
apply: eq_bigr => k _; have Ey : (const_mx (y k) : 'cV[R]_1) 0 0 = y k by rewrite mxE.
exact: (congr1 (ve _ _) Ey).
Qed.

(* ve is differentiable, with these derivatives, where the variance is positive *)
Hypothesis Hve : forall mu v k, 0 < v -> (k <= n)%N ->
  differentiable_pt_lim (fun m v => ve m v (y k)) mu v (gm mu v (y k)) (gv mu v (y k)).
Hypothesis HH : forall k, (k <= n)%N -> H k != 0.

Lemma pred_var_gt0 q k : (k <= n)%N -> ssm_nonsing n q -> 0 < (pred q k).2.
Proof.
move=> Hk Nq; have L := ssm_has_law n q; rewrite (pred_at Hk Nq L) [X in 0 < X]/=.
have HK : spd (ssm_cov q k k) by rewrite /ssm_cov chain_cov_diag; apply: chain_var_spd => l Hl; apply: (ssm_Qc_spd Nq); exact: (leq_ltn_trans Hl).
have [_ P] := HK; have := P (H k)^T.
by rewrite /qf trmxK; apply; rewrite -trmx0; apply/eqP => /trmx_inj E; move: (HH Hk); rewrite E eqxx.
Qed.

Variables (gamma beta1 beta2 epsilon : R).

Lemma updateE s s' q0 k : cvi_dist_q ker emission n z s = Some q0 -> cvi_update_sites ker emission gm gv n z y gamma s = Some s' ->
  st_nat1 s' k = (1 - gamma) * st_nat1 s k + gamma * (cvi_gradients gm gv (pred q0 k) (y k)).1 /\
  st_nat2 s' k = (1 - gamma) * st_nat2 s k + gamma * (cvi_gradients gm gv (pred q0 k) (y k)).2.
Proof. by move=> E Eu; have <- := omap_some E Eu; split; reflexivity. Qed.

(* one step from a model with the natural parameters of the sites s *)
Lemma cvi_natgrad_step s s' q g g' st : nonpos s -> nonpos s' ->
  ssm_chol n q -> same_triple n (ssm_to_naturals n q) (naturals s) ->
  cvi_update_sites ker emission gm gv n z y gamma s = Some s' ->
  exp_gradient n (loss_of elbo) q g ->
  exists q', [/\ natgrad_step n gamma beta1 beta2 epsilon false g g' q st = Some (q', st), ssm_chol n q' &
    same_triple n (ssm_to_naturals n q') (naturals s')].
Proof.
move=> Hs Hs' Cq Eq Eu Hg; have Nq := ssm_chol_nonsing Cq.
have [q0 [F1 F2 F3]] := cvi_dist Hs.
pose a k := (cvi_gradients gm gv (pred q k) (y k)).1; pose b k := (cvi_gradients gm gv (pred q k) (y k)).2.
have Es' k : (k <= n)%N -> st_nat1 s' k = (1 - gamma) * st_nat1 s k + gamma * a k /\
    st_nat2 s' k = (1 - gamma) * st_nat2 s k + gamma * b k.
  move=> Hk; have Ep := pred_same Hk (ssm_chol_nonsing F2) Nq (same_trans F3 (same_sym Eq)).
  have [-> ->] := updateE k F1 Eu; split.
    exact: (congr1 (fun f => (1 - gamma) * st_nat1 s k + gamma * (cvi_gradients gm gv f (y k)).1) Ep).
  exact: (congr1 (fun f => (1 - gamma) * st_nat2 s k + gamma * (cvi_gradients gm gv f (y k)).2) Ep).
have E : same_triple n (triple_lincomb 1 (ssm_to_naturals n p) 1
    (triple_lincomb (1 - gamma) (lam (st_nat1 s) (st_nat2 s)) gamma (lam a b))) (naturals s').
  apply: (same_trans _ (same_sym (cvi_naturalsE s'))).
  apply: same_lincomb; first exact: same_refl.
  split=> k Hk.
  - have [e1 e2] := Es' k Hk.
    change ((1 - gamma) *: (back_project_nats (st_nat1 s k) (st_nat2 s k) (H k)).1 +
      gamma *: (back_project_nats (a k) (b k) (H k)).1 = (back_project_nats (st_nat1 s' k) (st_nat2 s' k) (H k)).1).
    by rewrite e1; apply/colP => j; rewrite !mxE !big_ord1; move: (H k 0 j) => c; crng.
  - have [e1 e2] := Es' k Hk.
    change ((1 - gamma) *: (back_project_nats (st_nat1 s k) (st_nat2 s k) (H k)).2 +
      gamma *: (back_project_nats (a k) (b k) (H k)).2 = (back_project_nats (st_nat1 s' k) (st_nat2 s' k) (H k)).2).
    by rewrite !bp_quad !scalerA -scalerDl e2.
  - change ((1 - gamma) *: (0 : 'M[R]_d) + gamma *: 0 = 0); by rewrite !scaler0 addr0.
have [|||q' [G1 G2 G3]] := @step_sites d n n.+1 pred h1 h2 (fun _ => 0) ve gm gv y dense_moments elbo p q 1 gamma beta1 beta2 epsilon
  (lam a b) g g' st (lam (st_nat1 s) (st_nat2 s)) Hn Cq Np (fun q' _ => elboE q') _ (lam_sym a b) _ (same_trans Eq (cvi_naturalsE s)) Hg.
- by move=> k Hk; apply: Hve => //; apply: pred_var_gt0.
- by move=> delta sd g0; exact: (etrans (tdot_lam a b delta) (esym (mul1r _))).
- exact: (nat_valid_same (same_sym E) (cvi_valid Hs')).
by exists q'; split=> //; apply: (same_trans G3 E).
Qed.

(* every step, for a likelihood whose derivative in the variance is not positive *)
(* the gradient exists *)
Lemma dense_grads : exists grads : ssm Rr d -> triple Rr d * triple Rr d,
  forall q', ssm_chol n q' -> exp_gradient n (loss_of elbo) q' (grads q').1.
Proof.
exists (fun q => (triple_lincomb 1 (triple_lincomb 1 (ssm_to_naturals n q) (-1) (ssm_to_naturals n p)) (-1)
  (lam (fun k => (cvi_gradients gm gv (pred q k) (y k)).1) (fun k => (cvi_gradients gm gv (pred q k) (y k)).2)),
  ssm_to_naturals n q)) => q Cq.
have Nq := ssm_chol_nonsing Cq.
refine (@elbo_gradient d n n.+1 pred h1 h2 (fun _ => 0) ve gm gv y dense_moments elbo p q 1 _ Cq Np (fun q' _ => elboE q') _ _ _).
- by move=> k Hk; apply: Hve => //; apply: pred_var_gt0.
- exact: lam_sym.
- by move=> delta sd g0; exact: (etrans (tdot_lam _ _ delta) (esym (mul1r _))).
Qed.

Lemma cvi_natgrad_run s q st grads : 0 <= gamma <= 1 -> (forall mu v u, gv mu v u <= 0) -> nonpos s ->
  cvi_dist_q ker emission n z s = Some q ->
  (forall q', ssm_chol n q' -> exp_gradient n (loss_of elbo) q' (grads q').1) ->
  forall r, exists s' q' q'', [/\ iter r (obind (cvi_update_sites ker emission gm gv n z y gamma)) (Some s) = Some s',
    cvi_dist_q ker emission n z s' = Some q'', natgrad_run n gamma beta1 beta2 epsilon false grads r q st = Some (q', st) &
    forall m K, has_law n.+1 n.+1 (ssm_path q') m K <-> has_law n.+1 n.+1 (ssm_path q'') m K].
Proof.
move=> /andP[g0 g1] Hgv Hs Eq Hg r.
have [q0 [F1 F2 F3]] := cvi_dist Hs; move: F1; rewrite Eq => -[F1]; subst q0.
suff : exists s' q', [/\ nonpos s', iter r (obind (cvi_update_sites ker emission gm gv n z y gamma)) (Some s) = Some s',
    natgrad_run n gamma beta1 beta2 epsilon false grads r q st = Some (q', st), ssm_chol n q' &
    same_triple n (ssm_to_naturals n q') (naturals s')].
  move=> [s' [q' [h0 h1' h2' h3 h4]]]; have [q'' [G1 G2 G3]] := cvi_dist h0; exists s', q', q''; split=> //.
  by apply: same_naturals_law; [exact: ssm_chol_nonsing|exact: ssm_chol_nonsing|apply: (same_trans h4 (same_sym G3))].
move: Hs F2 F3 {Eq}; elim: r s q => [|r IH] s0 q1 Hs0 C1 T1; first by exists s0, q1.
have [q2 [K1 K2 K3]] := cvi_dist Hs0.
case Eu : (cvi_update_sites ker emission gm gv n z y gamma s0) => [s1|]; last by case: (omap_none K1 Eu).
have Hs1 : nonpos s1.
  move=> k Hk; have [_ ->] := updateE k K1 Eu.
  rewrite -[0]addr0; apply: ler_add; first by rewrite mulr_ge0_le0 ?subr_ge0 ?Hs0.
  by rewrite mulr_ge0_le0 // Hgv.
have [q3 [L1 L2 L3]] := cvi_natgrad_step (grads q1).2 st Hs0 Hs1 C1 T1 Eu (Hg _ C1).
have [s2 [q4 [M0 M1 M2 M3 M4]]] := IH s1 q3 Hs1 L2 L3; exists s2, q4; split=> //; last by rewrite /= L1.
by rewrite iterSr /= Eu.
Qed.
End Dense.
