(* Proofs for natural gradients, part 4: uniqueness of the gradient, the update without
   momentum, and its exact convergence when the bound is a divergence. *)
From Coq Require Import Reals Lra FunctionalExtensionality.
From mathcomp Require Import all_ssreflect all_algebra.
From Verif Require Import RealStruct Log Nat Alg Lin Ent Spd MCalc MCont M_Block S_Block P_Block P_Block2
  M_SSM S_SSM P_SSM M_SSMLog S_Gauss P_Gauss P_SSMLog M_Trans S_Trans P_Trans P_TransLog P_Elbo M_NatGrad S_NatGrad P_NatGrad P_NatGrad2 P_NatGrad3.
Set Implicit Arguments.
Unset Strict Implicit.
Unset Printing Implicit Defensive.
Import Order.Theory GRing.Theory Num.Theory.
Local Open Scope ring_scope.

Section Gen.
Variable F : rcfType.
Variables (d n : nat).
Implicit Types (t u : triple F d).

Lemma same_sym t u : same_triple n t u -> same_triple n u t.
Proof. by case=> H1 H2 H3; split=> k Hk; rewrite ?H1 ?H2 ?H3. Qed.
Lemma same_refl t : same_triple n t t. Proof. by []. Qed.
Lemma same_trans t u v : same_triple n t u -> same_triple n u v -> same_triple n t v.
Proof. by case=> H1 H2 H3 [G1 G2 G3]; split=> k Hk; rewrite ?H1 ?H2 ?H3 ?G1 ?G2 ?G3. Qed.

Lemma nat_precision_same t u : same_triple n t u -> nat_precision n t = nat_precision n u.
Proof.
case=> _ E2 E3; rewrite /nat_precision; apply: eq_dense => i j Hi Hj; rewrite /sym_blocks.
case: ifP => [/eqP e|_]; first by rewrite E2.
case: ifP => [/eqP e|_]; first by rewrite E3 // -ltnS -e.
by case: ifP => [/eqP e|_] //; rewrite E3 // -ltnS -e.
Qed.

Lemma nat_valid_same t u : same_triple n t u -> nat_valid n t -> nat_valid n u.
Proof.
move=> E [H1 H2]; split; last by rewrite -(nat_precision_same E).
by have [_ E2 _] := E => k Hk; rewrite -E2 // H1.
Qed.

Lemma nat_precision_lin t u v (a b : F) :
  (forall k, t_diag v k = a *: t_diag t k + b *: t_diag u k) ->
  (forall k, t_sub v k = a *: t_sub t k + b *: t_sub u k) ->
  nat_precision n v = a *: nat_precision n t + b *: nat_precision n u.
Proof.
move=> E1 E2; rewrite /nat_precision !denseZ denseD; apply: eq_dense => i j _ _; rewrite /sym_blocks.
case: ifP => _; first by rewrite E1 scalerDr !scalerA [a * _]mulrC [b * _]mulrC.
case: ifP => _; first by rewrite E2 opprD !scalerN.
case: ifP => _; first by rewrite E2 opprD linearD !linearN !linearZ.
by rewrite !scaler0 addr0.
Qed.

Lemma spd_conv m (A B : 'M[F]_m) (a b : F) : spd A -> spd B -> 0 <= a -> 0 <= b -> 0 < a + b -> spd (a *: A + b *: B).
Proof.
case=> sA pA [sB pB] a0 b0 ab; split; first by rewrite linearD !linearZ /= sA sB.
move=> x x0.
have -> : qf (a *: A + b *: B) x = a * qf A x + b * qf B x.
  by rewrite /qf mulmxDr mulmxDl -!scalemxAr -!scalemxAl mxE; congr (_ + _); rewrite mxE.
have := pA x x0; have := pB x x0; move: (qf A x) (qf B x) => v u u0 v0.
case: (eqVneq a 0) ab => [->|an]; first by rewrite add0r mul0r add0r => b0'; rewrite mulr_gt0.
by move=> _; rewrite ltr_paddr ?mulr_ge0 ?mulr_gt0 ?(ltW v0) ?(ltW u0) // lt_neqAle eq_sym an.
Qed.

Lemma nat_valid_conv t u v (a b : F) :
  (forall k, t_diag v k = a *: t_diag t k + b *: t_diag u k) ->
  (forall k, t_sub v k = a *: t_sub t k + b *: t_sub u k) ->
  0 <= a -> 0 <= b -> 0 < a + b -> nat_valid n t -> nat_valid n u -> nat_valid n v.
Proof.
move=> E1 E2 a0 b0 ab [s1 p1] [s2 p2]; split; first by move=> k Hk; rewrite E1 linearD !linearZ /= s1 ?s2.
by rewrite (nat_precision_lin E1 E2); apply: spd_conv.
Qed.
End Gen.

Section Unique.
Variables (d n : nat).
Implicit Types (t g delta : triple Rr d) (q p : ssm Rr d).

Lemma same_lincomb a b t t' u u' : same_triple n t t' -> same_triple n u u' ->
  same_triple n (triple_lincomb a t b u) (triple_lincomb a t' b u').
Proof. by case=> H1 H2 H3 [G1 G2 G3]; split=> k Hk; rewrite /triple_lincomb /= ?H1 ?H2 ?H3 ?G1 ?G2 ?G3. Qed.

Lemma tsym_lincomb a b t u : tsym n t -> tsym n u -> tsym n (triple_lincomb a t b u).
Proof. by move=> H1 H2 k Hk; rewrite /triple_lincomb /= linearD !linearZ /= H1 ?H2. Qed.

Lemma sum_sq_eq0 m (f : 'I_m -> R) : (forall k, 0 <= f k) -> \sum_k f k = 0 -> forall k, f k = 0.
Proof. by move=> H E k; apply: (psumr_eq0P _ E). Qed.

Lemma reduce_prod_ge0 num a b (g : nat -> 'M[R]_(a, b)) : 0 <= reduce_prod num g g.
Proof. by do 3!(apply: sumr_ge0 => ? _); rewrite -expr2 sqr_ge0. Qed.

Lemma reduce_prod_eq0 num a b (g : nat -> 'M[R]_(a, b)) : reduce_prod num g g = 0 -> forall k, (k < num)%N -> g k = 0.
Proof.
move=> E k Hk; apply/matrixP => i j; rewrite mxE.
have H1 := @sum_sq_eq0 _ _ _ E (Ordinal Hk).
have {}/H1 H1 : forall k : 'I_num, 0 <= \sum_(i < a) \sum_(j < b) g k i j * g k i j.
  by move=> l; do 2!(apply: sumr_ge0 => ? _); rewrite -expr2 sqr_ge0.
have H2 := @sum_sq_eq0 _ _ _ H1 i.
have {}/H2 H2 : forall i : 'I_a, 0 <= \sum_(j < b) g k i j * g k i j.
  by move=> l; apply: sumr_ge0 => ? _; rewrite -expr2 sqr_ge0.
have H3 := @sum_sq_eq0 _ _ _ H2 j.
have {}/H3 H3 : forall j : 'I_b, 0 <= g k i j * g k i j by move=> l; rewrite -expr2 sqr_ge0.
by move/eqP: H3; rewrite mulf_eq0 orbb => /eqP.
Qed.

Lemma tdot_self_eq0 g : tdot n g g = 0 ->
  [/\ forall k, (k <= n)%N -> t_lin g k = 0, forall k, (k <= n)%N -> t_diag g k = 0 & forall k, (k < n)%N -> t_sub g k = 0].
Proof.
rewrite tdotE => E.
have h1 := reduce_prod_ge0 n.+1 (t_lin g); have h2 := reduce_prod_ge0 n.+1 (t_diag g); have h3 := reduce_prod_ge0 n (t_sub g).
have /eqP := E; rewrite paddr_eq0 ?addr_ge0 // paddr_eq0 // => /andP[/andP[/eqP e1 /eqP e2] /eqP e3].
by split; [exact: (reduce_prod_eq0 e1)|exact: (reduce_prod_eq0 e2)|exact: (reduce_prod_eq0 e3)].
Qed.

Lemma gradient_unique (loss : ssm Rr d -> R) q g g' : exp_gradient n loss q g -> exp_gradient n loss q g' -> same_triple n g g'.
Proof.
case=> s1 H1 [s2 H2].
have sd : tsym n (triple_lincomb 1 g (-1) g') by apply: tsym_lincomb.
have E := uniqueness_limite _ _ _ _ (H1 _ sd) (H2 _ sd).
have Z : tdot n (triple_lincomb 1 g (-1) g') (triple_lincomb 1 g (-1) g') = 0.
  by rewrite tdot_lincomb mul1r mulN1r E subrr.
have [e1 e2 e3] := tdot_self_eq0 Z.
split=> k Hk; apply/eqP; rewrite -subr_eq0; apply/eqP.
- by rewrite -(e1 k Hk) /triple_lincomb /= scale1r scaleN1r.
- by rewrite -(e2 k Hk) /triple_lincomb /= scale1r scaleN1r.
- by rewrite -(e3 k Hk) /triple_lincomb /= scale1r scaleN1r.
Qed.

Lemma deriv_local (f g : R -> R) (l : R) : near0 (fun s => f s = g s) -> derivable_pt_lim f 0 l -> derivable_pt_lim g 0 l.
Proof.
case=> e /RltP e0 He H eps Heps; have [[a a0] Ha] := H eps Heps.
have m0 : (0 < Rmin a e)%Re by apply: Rmin_pos.
exists (mkposreal _ m0) => h h0 /= Hh.
have h1 : (Rabs h < a)%Re by apply: Rlt_le_trans Hh (Rmin_l _ _).
have h2 : (Rabs h < e)%Re by apply: Rlt_le_trans Hh (Rmin_r _ _).
have := Ha h h0 h1; rewrite !He //; first by apply/RltP; rewrite normr0.
by apply/RltP; move: h2; rewrite Rplus_0_l.
Qed.

(* changing the loss by a constant, on models with a Cholesky factor *)
Lemma gradient_shift (loss loss' : ssm Rr d -> R) c q g : ssm_chol n q -> (forall q', ssm_chol n q' -> loss' q' = loss q' + c) ->
  exp_gradient n loss q g -> exp_gradient n loss' q g.
Proof.
move=> Cq Hl [sg Hg]; split=> // delta sd; have Vq := expectations_valid (ssm_chol_nonsing Cq).
apply: (@deriv_local (fun s => loss (expectations_to_ssm (along (ssm_to_expectations n q) delta s)) + c)).
  by apply: near0_imp (near_valid Vq sd) => s Vs; have [Cs _] := expectations_of_ssm_of Vs; rewrite Hl.
have := derivable_pt_lim_plus _ _ _ _ _ (Hg _ sd) (derivable_pt_lim_const c 0).
by rewrite Rplus_0_r.
Qed.

Lemma kl_is_gradient q p : ssm_chol n q -> ssm_nonsing n p ->
  exp_gradient n (fun q' => ssm_kl_divergence n q' p) q (triple_lincomb 1 (ssm_to_naturals n q) (-1) (ssm_to_naturals n p)).
Proof.
move=> Cq Np; split=> [|delta sd]; last exact: kl_deriv.
have [s1 _] := naturals_valid (ssm_chol_nonsing Cq); have [s2 _] := naturals_valid Np.
exact: tsym_lincomb.
Qed.

Lemma kl_gradient q p g : ssm_chol n q -> ssm_nonsing n p ->
  exp_gradient n (fun q' => ssm_kl_divergence n q' p) q g ->
  same_triple n g (triple_lincomb 1 (ssm_to_naturals n q) (-1) (ssm_to_naturals n p)).
Proof. by move=> Cq Np Hg; exact: (gradient_unique Hg (kl_is_gradient Cq Np)). Qed.
End Unique.

(* the update without momentum *)
Section Step.
Variables (d n : nat).
Implicit Types (t g delta : triple Rr d) (q p : ssm Rr d).
Variables (gamma beta1 beta2 epsilon : R).
Hypothesis n0 : (0 < n)%N.

Lemma step_plain g g' q st : nat_valid n (triple_lincomb 1 (ssm_to_naturals n q) (- gamma) g) ->
  exists q', [/\ natgrad_step n gamma beta1 beta2 epsilon false g g' q st = Some (q', st), ssm_chol n q' &
    same_triple n (ssm_to_naturals n q') (triple_lincomb 1 (ssm_to_naturals n q) (- gamma) g)].
Proof.
move=> V; have [q' [E1 E2 E3]] := naturals_of_ssm_of n0 V; exists q'; split=> //.
by rewrite /natgrad_step /ng_thetas /obind /= E1.
Qed.

Hypothesis g01 : 0 <= gamma <= 1.

(* one step on a loss that is the divergence to a fixed model, up to a constant *)
Lemma step_kl (loss : ssm Rr d -> R) c p q g g' st : ssm_chol n q -> ssm_nonsing n p ->
  (forall q', ssm_chol n q' -> ssm_kl_divergence n q' p = loss q' + c) -> exp_gradient n loss q g ->
  exists q', [/\ natgrad_step n gamma beta1 beta2 epsilon false g g' q st = Some (q', st), ssm_chol n q' &
    same_triple n (ssm_to_naturals n q') (triple_lincomb (1 - gamma) (ssm_to_naturals n q) gamma (ssm_to_naturals n p))].
Proof.
move=> Cq Np Hl Hg.
have {Hl Hg} Eg := kl_gradient Cq Np (gradient_shift Cq Hl Hg).
have V1 := naturals_valid (ssm_chol_nonsing Cq); have V2 := naturals_valid Np.
have E : same_triple n (triple_lincomb 1 (ssm_to_naturals n q) (- gamma) g)
                       (triple_lincomb (1 - gamma) (ssm_to_naturals n q) gamma (ssm_to_naturals n p)).
  apply: (same_trans (same_lincomb 1 (- gamma) (same_refl n _) Eg)).
  move: (ssm_to_naturals n q) (ssm_to_naturals n p) => y1 y2.
  have lin a b (X Y : 'M[R]_(a, b)) : 1 *: X + - gamma *: (1 *: X + -1 *: Y) = (1 - gamma) *: X + gamma *: Y.
    by rewrite !scale1r scaleN1r scalerBl scale1r scaleNr scalerBr opprB addrA addrAC.
  by split=> k Hk; rewrite /triple_lincomb /= lin.
have V : nat_valid n (triple_lincomb (1 - gamma) (ssm_to_naturals n q) gamma (ssm_to_naturals n p)).
  case/andP: g01 => g0 g1; apply: (@nat_valid_conv Rr d n _ _ _ (1 - gamma) gamma _ _ _ _ _ V1 V2) => //.
    by rewrite subr_ge0.
  by rewrite subrK ltr01.
have [q' [E1 E2 E3]] := step_plain g' st (nat_valid_same (same_sym E) V).
by exists q'; split=> //; apply: (same_trans E3 E).
Qed.

Lemma run_kl (loss : ssm Rr d -> R) c p grads : ssm_nonsing n p ->
  (forall q', ssm_chol n q' -> ssm_kl_divergence n q' p = loss q' + c) ->
  (forall q', ssm_chol n q' -> exp_gradient n loss q' (grads q').1) ->
  forall r q st, ssm_chol n q ->
  exists q', [/\ natgrad_run n gamma beta1 beta2 epsilon false grads r q st = Some (q', st), ssm_chol n q' &
    same_triple n (ssm_to_naturals n q')
      (triple_lincomb ((1 - gamma) ^+ r) (ssm_to_naturals n q) (1 - (1 - gamma) ^+ r) (ssm_to_naturals n p))].
Proof.
move=> Np Hl Hg; elim=> [|r IH] q st Cq.
  exists q; split=> //; move: (ssm_to_naturals n q) (ssm_to_naturals n p) => y1 y2.
  by split=> k Hk; rewrite /triple_lincomb /= expr0 subrr scale1r scale0r addr0.
have [q1 [E1 C1 T1]] := step_kl (grads q).2 st Cq Np Hl (Hg _ Cq).
have [q2 [E2 C2 T2]] := IH q1 st C1.
exists q2; split=> //; first by rewrite /= E1 /=.
apply: (same_trans T2).
apply: (same_trans (same_lincomb _ _ T1 (same_refl n _))).
move: (ssm_to_naturals n q) (ssm_to_naturals n p) => y1 y2.
have lin a b (X Y : 'M[R]_(a, b)) (u : R) : u *: ((1 - gamma) *: X + gamma *: Y) + (1 - u) *: Y =
    (1 - gamma) * u *: X + (1 - (1 - gamma) * u) *: Y.
  rewrite scalerDr !scalerA [u * (1 - gamma)]mulrC -addrA -scalerDl; congr (_ + _ *: _); by crng.
by split=> k Hk; rewrite /triple_lincomb /= lin exprS.
Qed.
End Step.

(* divergences between models with given naturals *)
Section Div.
Variables (d n : nat).
Implicit Types (q p : ssm Rr d).

Lemma kl_same q p : ssm_nonsing n q -> ssm_nonsing n p -> same_triple n (ssm_to_naturals n q) (ssm_to_naturals n p) ->
  ssm_kl_divergence n q p = 0.
Proof.
move=> Nq Np E; have := kl_self Nq; have := kl_self Np; have := kl_ge0 Nq Np; have := kl_ge0 Np Nq.
rewrite (kl_bregman Nq Np) (kl_bregman Np Nq) (kl_bregman Nq Nq) (kl_bregman Np Np).
move: (ssm_to_naturals n q) (ssm_to_naturals n p) (ssm_to_expectations n q) (ssm_to_expectations n p) E => y1 y2 x1 x2 E.
rewrite (same_tdot x1 E) (same_tdot x2 E).
move: (ssm_normalizer n q) (ssm_normalizer n p) (tdot n _ _) (tdot n _ _) (entropy n q) (entropy n p) => a b u v e f.
move=> h1 h2 h3 h4; apply/eqP; rewrite eq_le h2 andbT.
have -> : b - u - e = - (a - v - f); last by rewrite oppr_le0.
have -> : e = a - u by rewrite -[RHS]subr0 -h4; crng.
have -> : f = b - v by rewrite -[RHS]subr0 -h3; crng.
by crng.
Qed.

Lemma kl_same_left q q' p : ssm_nonsing n q -> ssm_nonsing n q' -> ssm_nonsing n p ->
  same_triple n (ssm_to_naturals n q) (ssm_to_naturals n q') -> ssm_kl_divergence n q p = ssm_kl_divergence n q' p.
Proof.
move=> Nq Nq' Np E.
have Z1 := kl_same Nq Nq' E; have Z2 := kl_same Nq' Nq (same_sym E).
have [E1 E2] : flat n.+1 (ssm_marginal_means n q) = flat n.+1 (ssm_marginal_means n q') /\ dense n.+1 n.+1 (ssm_cov q) = dense n.+1 n.+1 (ssm_cov q').
  by move: Z1; rewrite (kl_divergenceE Nq Nq') => /(proj2 (gauss_kl_ge0 _ _ (cov_spd Nq) (cov_spd Nq'))).
by rewrite (kl_divergenceE Nq Np) (kl_divergenceE Nq' Np) E1 E2.
Qed.

(* the divergence does not increase *)
Lemma kl_decrease q q' p (gamma : R) : ssm_nonsing n q -> ssm_nonsing n q' -> ssm_nonsing n p -> 0 <= gamma <= 1 ->
  same_triple n (ssm_to_naturals n q') (triple_lincomb (1 - gamma) (ssm_to_naturals n q) gamma (ssm_to_naturals n p)) ->
  gamma * ssm_kl_divergence n q' p + gamma * ssm_kl_divergence n q q' <= gamma * ssm_kl_divergence n q p.
Proof.
move=> Nq Nq' Np /andP[g0 g1] E.
have h1 := kl_ge0 Nq' Nq; have h2 := kl_ge0 Nq Nq'.
have := kl_self Nq; have := kl_self Nq'; have := h1; have := h2.
rewrite (kl_bregman Nq Nq') (kl_bregman Nq' Nq) (kl_bregman Nq Np) (kl_bregman Nq' Np) (kl_bregman Nq Nq) (kl_bregman Nq' Nq').
move: (ssm_to_naturals n q) (ssm_to_naturals n q') (ssm_to_naturals n p) (ssm_to_expectations n q) (ssm_to_expectations n q') E => y1 y2 y3 x1 x2 E.
have e1 := same_tdot x1 E; have e2 := same_tdot x2 E.
rewrite !tdot_lincomb in e1 e2; rewrite e1 e2.
move: (ssm_normalizer n q) (ssm_normalizer n p) (ssm_normalizer n q') (tdot n _ _) (tdot n _ _) (tdot n _ _) (tdot n _ _) (entropy n q) (entropy n q').
move=> a b a' u v w x e f k1 k2 k3 k4.
rewrite -subr_ge0.
have -> : gamma * (b - w - e) - (gamma * (b - u - f) + gamma * (a' - ((1 - gamma) * x + gamma * w) - e)) =
    (1 - gamma) * ((a' - ((1 - gamma) * x + gamma * w) - e) + (a - v - f)).
  have -> : e = a - x by rewrite -[RHS]subr0 -k4; crng.
  have -> : f = a' - ((1 - gamma) * v + gamma * u) by rewrite -[RHS]subr0 -k3; crng.
  by crng.
by rewrite mulr_ge0 ?subr_ge0 // addr_ge0.
Qed.
End Div.
