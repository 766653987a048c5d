(* Proofs for M_Cvi.v: the posterior is the prior times the sites. *)
From Coq Require Import Reals Lra FunctionalExtensionality.
From mathcomp Require Import all_ssreflect all_algebra.
From Verif Require Import MCalc RealStruct Nat Alg Lin Ent Spd Log M_Block S_Block P_Block P_Block2 M_SSM S_SSM P_SSM M_SSMLog P_SSMLog S_Gauss P_Gauss
  M_Trans S_Trans P_Trans P_TransLog S_Kalman M_Kalman P_Kalman P_KalmanLog P_Kalman2 M_Kernel S_Kernel P_Kernel M_Cond P_Cond P_Cond2 P_Cond3 P_Cond4
  M_Emission P_Emission M_Sort P_Sort M_Models S_GP P_Elbo P_Models P_Models2 M_Cvi S_Cvi.
Set Implicit Arguments.
Unset Strict Implicit.
Unset Printing Implicit Defensive.
Import GRing.Theory Num.Theory Order.TTheory.
Local Open Scope ring_scope.

Lemma unflat0 (F : rcfType) d N k : unflat (0 : 'cV[F]_(N * d)) k = 0.
Proof. by elim: N k => [|N IH] [|k] //=; rewrite linear0. Qed.

Lemma trmxD (F : rcfType) m n (A B : 'M[F]_(m, n)) : (A + B)^T = A^T + B^T.
Proof. by rewrite linearD. Qed.
Lemma trmxZ (F : rcfType) m n a (A : 'M[F]_(m, n)) : (a *: A)^T = a *: A^T.
Proof. by rewrite linearZ. Qed.

(* a Gaussian density determines its mean and covariance *)
Lemma qf_eq0 (F : rcfType) n (M : 'M[F]_n) : M^T = M -> (forall x, qf M x = 0) -> M = 0.
Proof.
move=> sM H.
have E (x y : 'cV[F]_n) : ((M *m x)^T *m y) 0 0 = 0.
  by have := qf_add x y sM; rewrite !H add0r addr0 => /esym/eqP; rewrite mulf_eq0 pnatr_eq0 /= => /eqP.
apply/matrixP => i j; have := E (delta_mx i 0) (delta_mx j 0); rewrite trmx_mul sM -mulmxA -colE trmx_delta -rowE.
by rewrite !mxE.
Qed.

Lemma quad_zero n c b (M : 'M[R]_n) : M^T = M -> (forall x, quad_fun c b M x = 0) -> [/\ c = 0, b = 0 & M = 0].
Proof.
move=> sM H.
have E0 : c = 0 by have := H 0; rewrite /quad_fun mulmx0 qf0 mxE !addr0.
have H' x : (b^T *m x) 0 0 + qf M x = 0 by have := H x; rewrite /quad_fun E0 add0r.
have E1 x : (b^T *m x) 0 0 = 0 /\ qf M x = 0.
  have := H' (- x); have := H' x.
  have -> : (b^T *m - x) 0 0 = - (b^T *m x) 0 0 by rewrite mulmxN mxE.
  rewrite qfNx; move: (qf M x) ((b^T *m x) 0 0) => u v.
  by toR_ops => U V; split; lra.
split=> //; last by apply: (@qf_eq0 Rr _ _ sM) => x; case: (E1 x).
apply/matrixP => i j; rewrite (ord1 j) -[b]trmxK mxE.
by have [] := E1 (delta_mx i 0); rewrite -colE !mxE.
Qed.

Lemma gauss_logpdf_inj n (m m' : 'cV[R]_n) (K K' : 'M[R]_n) c : spd K -> spd K' ->
  (forall x, gauss_logpdf m K x = gauss_logpdf m' K' x + c) -> m = m' /\ K = K'.
Proof.
move=> PK PK' H.
have S A : spd A -> (- 2%:R^-1 *: invmx A)^T = - 2%:R^-1 *: invmx A :> 'M[R]_n.
  by move=> /(@spd_sym Rr) E; rewrite trmxZ trmx_inv E.
pose c1 := - 2%:R^-1 * (n%:R * ln (2%:R * PI) + ln (\det K) + qf (invmx K) m).
pose c2 := - 2%:R^-1 * (n%:R * ln (2%:R * PI) + ln (\det K') + qf (invmx K') m').
have [||_ /subr0_eq Eb /subr0_eq EM] := @quad_zero n (c1 - c2 - c) (invmx K *m m - invmx K' *m m') (- 2%:R^-1 *: invmx K - - 2%:R^-1 *: invmx K').
- by rewrite linearB /= (S _ PK) (S _ PK').
- move=> x; have := H x; rewrite !quad_logpdf // -/c1 -/c2 /quad_fun linearB mulmxBl !(@qfB Rr) !mxE.
  move: (qf _ _) (qf _ _) (\sum_j _) (\sum_j _) => u v w s; toR_ops => E; lra.
have EV : invmx K = invmx K'.
  have E : - 2%:R^-1 != 0 :> R by rewrite oppr_eq0 invr_eq0 two_neq0.
  exact: (scalerI E EM).
have EK : K = K' by rewrite -[K]invmxK EV invmxK.
split=> //; move: Eb; rewrite EV => /(congr1 (mulmx K')).
by rewrite !mulKVmx // (@spd_unit Rr).
Qed.

Lemma same_density_law d n (S S' : ssm Rr d) c m K m' K' : ssm_nonsing n S -> ssm_nonsing n S' ->
  (forall x, ssm_log_pdf n S x = ssm_log_pdf n S' x + c) ->
  has_law n.+1 n.+1 (ssm_path S) m K -> has_law n.+1 n.+1 (ssm_path S') m' K' ->
  flat n.+1 m = flat n.+1 m' /\ dense n.+1 n.+1 K = dense n.+1 n.+1 K'.
Proof.
move=> HS HS' H L L'.
have E x := log_pdf_law x HS L; have E' x := log_pdf_law x HS' L'.
apply: (gauss_logpdf_inj (c := c)).
- by have [_ ->] := ssm_lawE L; exact: cov_spd.
- by have [_ ->] := ssm_lawE L'; exact: cov_spd.
- by move=> v; have := H (unflat v); rewrite E E' flat_unflat.
Qed.

Lemma same_density_has_law d n (S S' : ssm Rr d) c m K : ssm_nonsing n S -> ssm_nonsing n S' ->
  (forall x, ssm_log_pdf n S x = ssm_log_pdf n S' x + c) ->
  has_law n.+1 n.+1 (ssm_path S) m K -> has_law n.+1 n.+1 (ssm_path S') m K.
Proof.
move=> HS HS' H L; have L' := ssm_has_law n S'.
have [Em EK] := same_density_law HS HS' H L L'.
case: L' => G [X1 X2]; exists G; split.
  move=> eps k Hk; rewrite X1 //; congr (_ + _).
  by have := congr1 (fun v => unflat v k) Em; rewrite !unflat_bcol.
move=> i j Hi Hj; rewrite -X2 //.
by have := congr1 (fun M => blk M i j) EK; rewrite !blk_dense.
Qed.

(* adding a concave quadratic to the exponent of the prior *)
Section Core.
Variables (d n : nat) (p : ssm Rr d) (lin : nat -> 'cV[R]_d) (D E : nat -> 'M[R]_d).
Hypothesis Np : ssm_nonsing n p.
Hypothesis sD : forall k, (k <= n)%N -> (D k)^T = D k.
Let added (x : nat -> 'cV[R]_d) := \sum_(k < n.+1) qf (D k) (x k) + \sum_(k < n) ((x k.+1)^T *m E k *m x k) 0 0.
Hypothesis neg : forall x, added x <= 0.
Let prec := ssm_precision n p.
Let t := Triple lin (fun k => - 2%:R^-1 *: bt_diag prec k + D k) (fun k => - osub (bt_sub prec) k + E k).

Let plin := t_lin (ssm_to_naturals n p).

Lemma core_exponent x :
  nat_exponent n t x = nat_exponent n (ssm_to_naturals n p) x +
    (\sum_(k < n.+1) ((lin k - plin k)^T *m x k) 0 0 + added x).
Proof.
have E1 : \sum_(k < n.+1) ((lin k - plin k)^T *m x k) 0 0 =
  \sum_(k < n.+1) ((lin k)^T *m x k) 0 0 - \sum_(k < n.+1) ((plin k)^T *m x k) 0 0.
  rewrite -sumrB; apply: eq_bigr => k _.
  by rewrite linearB mulmxBl mxE [in X in _ + X]mxE.
have E2 : \sum_(k < n.+1) qf (t_diag t k) (x k) =
          \sum_(k < n.+1) qf (t_diag (ssm_to_naturals n p) k) (x k) + \sum_(k < n.+1) qf (D k) (x k).
  by rewrite -big_split; apply: eq_bigr => k _; rewrite (@qfD Rr) (naturals_diag Np (ltn_ord k)).
have E3 : \sum_(k < n) ((x k.+1)^T *m t_sub t k *m x k) 0 0 =
    \sum_(k < n) ((x k.+1)^T *m t_sub (ssm_to_naturals n p) k *m x k) 0 0 + \sum_(k < n) ((x k.+1)^T *m E k *m x k) 0 0.
  by rewrite -big_split; apply: eq_bigr => k _; rewrite (naturals_sub Np (ltn_ord k)) mulmxDr mulmxDl mxE.
rewrite /nat_exponent E1 E2 E3 /added -/plin.
move: (\sum_(k < n.+1) ((plin k)^T *m x k) 0 0) => pl; rewrite [\sum_(k < n.+1) ((t_lin t k)^T *m x k) 0 0]/=.
move: (\sum_(k < n.+1) ((lin k)^T *m x k) 0 0) (\sum_(k < n.+1) qf (D k) (x k)) => l b.
by move: (\sum_(k < n.+1) _) (\sum_(k < n) _) (\sum_(k < n) _) => c e f; zmod.
Qed.

Lemma sub_half (a b e : R) : - 2%:R^-1 * a = - 2%:R^-1 * b + e -> 0 < b -> e <= 0 -> 0 < a.
Proof. toR_ops; rewrite !halfR => H /RltP Hb /RleP He; apply/RltP; toR_ops; lra. Qed.

Lemma core_valid : nat_valid n t.
Proof.
split; first by move=> k Hk; rewrite trmxD trmxZ (precision_diag_sym Np Hk) sD.
have [Vd [Vs Vp]] := naturals_valid Np.
split.
  by apply: sym_blocks_sym => k Hk; rewrite trmxZ trmxD trmxZ (precision_diag_sym Np Hk) (sD Hk).
move=> v Hv; rewrite -(flat_unflat v); set x := unflat v.
have HP : 0 < qf (nat_precision n (ssm_to_naturals n p)) (flat n.+1 x).
  by apply: Vp; rewrite flat_unflat.
have E1 := @qf_nat_precision Rr d n t x; have E2 := @qf_nat_precision Rr d n (ssm_to_naturals n p) x.
apply: (sub_half (etrans E1 (etrans _ (congr1 (fun u => u + added x) (esym E2)))) HP (neg x)) => {E1 E2}.
have := core_exponent x; rewrite /nat_exponent.
have -> : \sum_(k < n.+1) ((lin k - plin k)^T *m x k) 0 0 =
  \sum_(k < n.+1) ((lin k)^T *m x k) 0 0 - \sum_(k < n.+1) ((plin k)^T *m x k) 0 0.
  rewrite -sumrB; apply: eq_bigr => k _.
  by rewrite linearB mulmxBl mxE [in X in _ + X]mxE.
rewrite -/plin.
move: (\sum_(k < n.+1) ((plin k)^T *m x k) 0 0) => pl; rewrite [\sum_(k < n.+1) ((t_lin t k)^T *m x k) 0 0]/=.
move: (\sum_(k < n.+1) ((lin k)^T *m x k) 0 0) (added x) => l e.
move: (\sum_(k < n.+1) _) (\sum_(k < n.+1) _) (\sum_(k < n) _) (\sum_(k < n) _) => a a' b b'.
toR_ops => H; lra.
Qed.

Lemma core_density : (0 < n)%N -> exists q, [/\ naturals_to_ssm n t = Some q, ssm_chol n q &
  exists c, forall x, ssm_log_pdf n q x = ssm_log_pdf n p x + (\sum_(k < n.+1) ((lin k - plin k)^T *m x k) 0 0 + added x) + c].
Proof.
move=> n0; have [q [Eq Cq Sq]] := naturals_of_ssm_of n0 core_valid.
exists q; split=> //; exists (ssm_normalizer n p - ssm_normalizer n q) => x.
rewrite (log_pdf_naturals x Np) (log_pdf_naturals x (ssm_chol_nonsing Cq)) (same_triple_exponent x Sq) core_exponent.
move: (nat_exponent _ _ _) (\sum_(k < n.+1) _ + _) (ssm_normalizer n p) (ssm_normalizer n q) => a b c e; by zmod.
Qed.
End Core.

(* the gradients of the Gaussian variational expectation *)
Lemma quad_deriv (a b y t : R) : derivable_pt_lim (fun t => (a + b * ((y - t) * (y - t)))%Re) t (- (2 * b * (y - t)))%Re.
Proof.
have D : derivable_pt_lim (fun t => (y - t)%Re) t (0 - 1)%Re.
  exact: (derivable_pt_lim_minus (fun _ => y) (fun t => t) t _ _ (derivable_pt_lim_const _ _) (derivable_pt_lim_id _)).
have D2 := derivable_pt_lim_mult _ _ _ _ _ D D.
have D3 := derivable_pt_lim_plus _ _ _ _ _ (derivable_pt_lim_const a t) (derivable_pt_lim_scal _ b _ _ D2).
by replace (- (2 * b * (y - t)))%Re with (0 + b * ((0 - 1) * (y - t) + (y - t) * (0 - 1)))%Re; [exact: D3|lra].
Qed.

Lemma lin_deriv (a b t : R) : derivable_pt_lim (fun t => (a + b * t)%Re) t b.
Proof.
have D3 := derivable_pt_lim_plus _ _ _ _ _ (derivable_pt_lim_const a t) (derivable_pt_lim_scal _ b _ _ (derivable_pt_lim_id t)).
have E : (0 + b * 1)%Re = b by lra.
by rewrite -[X in derivable_pt_lim _ _ X]E; exact: D3.
Qed.

Lemma ve1E (s2 mu v y : R) : ext_gaussian_ve1 s2 mu v y =
  - 2%:R^-1 * ln (2%:R * PI) - 2%:R^-1 * ln s2 - 2%:R^-1 * ((y - mu) ^+ 2 + v) / s2.
Proof. by rewrite /ext_gaussian_ve1 /ext_gaussian_ve big_ord1 !mxE. Qed.

Lemma gauss_has_grad s2 : 0 < s2 ->
  gradients_of (ext_gaussian_ve1 s2) (fun mu _ y => (y - mu) / s2) (fun _ _ _ => - (2%:R * s2)^-1).
Proof.
move=> s0 mu v y; split.
  apply: (@dext (fun t => ((- 2%:R^-1 * ln (2%:R * PI) - 2%:R^-1 * ln s2 - 2%:R^-1 * v / s2) + (- 2%:R^-1 / s2) * ((y - t) * (y - t)))%R)).
    by move=> t; rewrite ve1E; move: (s2^-1) (2%:R^-1) (ln _) (ln _) => w h l1 l2; toR_ops; rewrite exprR; ring.
  have := @quad_deriv (- 2%:R^-1 * ln (2%:R * PI) - 2%:R^-1 * ln s2 - 2%:R^-1 * v / s2) (- 2%:R^-1 / s2) y mu.
  suff -> : (- (2 * (- 2%:R^-1 / s2)%R * (y - mu)))%Re = ((y - mu) / s2)%R by [].
  by move: (s2^-1) => w; rewrite halfR; toR_ops; field.
apply: (@dext (fun t => ((- 2%:R^-1 * ln (2%:R * PI) - 2%:R^-1 * ln s2 - 2%:R^-1 * (y - mu) ^+ 2 / s2) + (- 2%:R^-1 / s2) * t)%R)).
  by move=> t; rewrite ve1E; move: (s2^-1) (2%:R^-1) (ln _) (ln _) => w h l1 l2; toR_ops; rewrite exprR; ring.
have -> : - (2%:R * s2)^-1 = (- 2%:R^-1 / s2)%R by rewrite invfM mulNr.
exact: lin_deriv.
Qed.
Lemma gauss_grad s2 gm gv : 0 < s2 -> gradients_of (ext_gaussian_ve1 s2) gm gv -> forall mu v y,
  gm mu v y = (y - mu) / s2 /\ gv mu v y = - (2%:R * s2)^-1.
Proof.
move=> s0 Hg mu v y; have [H1 H2] := Hg mu v y; have [G1 G2] := gauss_has_grad s0 mu v y.
by split; [exact: (uniqueness_limite _ _ _ _ H1 G1)|exact: (uniqueness_limite _ _ _ _ H2 G2)].
Qed.

Section Dense.
Variables (d : nat) (ker : sde_kernel Rr d) (emission : R -> 'M[R]_(1, d)).
Hypothesis Hker : markov_kernel ker.
Variables (n : nat) (z : nat -> R).
Hypothesis Hz : increasing n.+1 z.
Hypothesis Hn : (0 < n)%N.
Let H (k : nat) := emission (z k).
Let p := kssm ker z.
Let Np : ssm_nonsing n p := kssm_nonsing Hker Hz.

Lemma bp_lin e a b (C : 'M[R]_(1, e)) (x : 'cV[R]_e) : ((back_project_nats a b C).1^T *m x) 0 0 = a * (C *m x) 0 0.
Proof.
rewrite !mxE mulr_sumr; apply: eq_bigr => j _; rewrite !mxE big_ord1 [C 0 j * a]mulrC mulrA //.
Qed.

Lemma bp_quad e a b (C : 'M[R]_(1, e)) : (back_project_nats a b C).2 = b *: (C^T *m C).
Proof. by apply/matrixP => i j; rewrite !mxE !big_ord1 !mxE mulrA. Qed.

Lemma bp_qf e a b (C : 'M[R]_(1, e)) x : qf (back_project_nats a b C).2 x = b * (C *m x) 0 0 ^+ 2.
Proof.
rewrite bp_quad qfZ; congr (_ * _).
rewrite /qf mulmxA -mulmxA -trmx_mul [LHS]mxE big_ord1 [(_^T) _ _]mxE; exact: expr2.
Qed.

Section Sites.
Variable s : sites Rr.
Hypothesis Hs : forall k, (k <= n)%N -> st_nat2 s k <= 0.

Lemma cvi_core : exists q, [/\ cvi_dist_q ker emission n z s = Some q, ssm_chol n q &
  exists c, forall x, ssm_log_pdf n q x = ssm_log_pdf n p x + sites_exponent n H s x -
    \sum_(k < n.+1) ((t_lin (ssm_to_naturals n p) k)^T *m x k) 0 0 + c].
Proof.
pose bp k := back_project_nats (st_nat1 s k) (st_nat2 s k) (H k).
have [||q [E1 E2 [c E3]]] := @core_density d n p (fun k => (bp k).1) (fun k => (bp k).2) (fun _ => 0) Np _ _ Hn.
- by move=> k Hk; rewrite /bp bp_quad trmxZ trmx_mul trmxK.
- move=> x; rewrite [X in _ + X]big1 ?addr0; last by move=> k _; rewrite mulmx0 mul0mx mxE.
  rewrite -oppr_ge0 -sumrN; apply: sumr_ge0 => k _.
  by rewrite /bp bp_qf -mulNr; apply: mulr_ge0; [rewrite oppr_ge0 Hs // -ltnS|exact: sqr_ge0].
exists q; split=> //.
  rewrite /cvi_dist_q (kernel_ssmE ker Hz) /obind /oapp -E1.
  rewrite /cvi_naturals; congr (naturals_to_ssm _ (Triple _ _ _)).
  by apply: functional_extensionality => k; rewrite addr0.
exists c => x; rewrite E3; congr (_ + _); rewrite -!addrA; congr (_ + _).
rewrite [X in _ + (_ + X)]big1 ?addr0; last by move=> k _; rewrite mulmx0 mul0mx mxE.
rewrite -sumrN /sites_exponent -!big_split; apply: eq_bigr => k _; rewrite -/(bp k).
cbv zeta beta.
have -> : (((bp k).1 - t_lin (ssm_to_naturals n p) k)^T *m x k) 0 0 =
  ((bp k).1^T *m x k) 0 0 - ((t_lin (ssm_to_naturals n p) k)^T *m x k) 0 0.
  by rewrite linearB mulmxBl mxE [in X in _ + X]mxE.
rewrite /bp bp_lin bp_qf.
exact: addrAC.
Qed.

Lemma prior_law : has_law n.+1 n.+1 (ssm_path p) (fun _ => k_mean0 ker) (fun i j => state_cov ker (z i) (z j)).
Proof. exact: kssm_law. Qed.

Let P := btd_to_dense n.+1 true (ssm_precision n p).

Lemma prior_lin (x : nat -> 'cV[R]_d) :
  \sum_(k < n.+1) ((t_lin (ssm_to_naturals n p) k)^T *m x k) 0 0 =
  ((P *m flat n.+1 (fun _ => k_mean0 ker))^T *m flat n.+1 x) 0 0.
Proof.
rewrite -flat_dot (naturals_lin Np); congr ((( _ *m _)^T *m _) _ _).
by apply: eq_flat => k Hk; rewrite (kssm_mean Hker Hz Hk).
Qed.

Lemma prior_lin0 (x : nat -> 'cV[R]_d) : k_mean0 ker = 0 ->
  \sum_(k < n.+1) ((t_lin (ssm_to_naturals n p) k)^T *m x k) 0 0 = 0.
Proof. by move=> E; rewrite prior_lin (flat_mean0 E) mulmx0 trmx0 mul0mx mxE. Qed.

Lemma cvi_density : k_mean0 ker = 0 -> exists q, [/\ cvi_dist_q ker emission n z s = Some q, ssm_chol n q &
  exists c, forall x, ssm_log_pdf n q x = ssm_log_pdf n p x + sites_exponent n H s x + c].
Proof.
move=> E; have [q [E1 E2 [c E3]]] := cvi_core; exists q; split=> //; exists c => x.
by rewrite E3 prior_lin0 // subr0.
Qed.

Lemma cvi_posterior_density : k_mean0 ker = 0 ->
  exists q c, [/\ cvi_dist_q ker emission n z s = Some q, ssm_chol n q &
  forall m K x, has_law n.+1 n.+1 (ssm_path q) m K ->
  gauss_logpdf (flat n.+1 m) (dense n.+1 n.+1 K) (flat n.+1 x) =
  gauss_logpdf 0 (x_gram ker n.+1 z) (flat n.+1 x) + sites_exponent n H s x + c].
Proof.
move=> E; have [q [E1 E2 [c E3]]] := cvi_density E; exists q, c; split=> // m K x L.
rewrite -(log_pdf_law x (ssm_chol_nonsing E2) L) E3 (log_pdf_law x Np prior_law).
by rewrite (flat_mean0 E).
Qed.

Section Neg.
Hypothesis Hs' : forall k, (k <= n)%N -> st_nat2 s k < 0.

Lemma cvi_kalman_same : k_mean0 ker = 0 -> exists q q', [/\ cvi_dist_q ker emission n z s = Some q,
  cvi_posterior_kalman ker emission n z s = Some q', ssm_nonsing n q, ssm_nonsing n q' &
  forall m K, has_law n.+1 n.+1 (ssm_path q) m K <-> has_law n.+1 n.+1 (ssm_path q') m K].
Proof.
move=> E; have [q [E1 E2 [c E3]]] := cvi_density E.
have [q' [c' [F1 F2 F3]]] := sites_factor H Np Hs' Hn.
have N1 := ssm_chol_nonsing E2.
exists q, q'; split=> //.
  by rewrite /cvi_posterior_kalman (kernel_ssmE ker Hz) /obind /oapp -F1.
move=> m K; split=> L.
  apply: (same_density_has_law (c := c - c') N1 F2 _ L) => x; rewrite E3 F3 -/(sites_exponent n H s x).
  by move: (ssm_log_pdf n p x + _) => a; zmod.
apply: (same_density_has_law (c := c' - c) F2 N1 _ L) => x; rewrite E3 F3 -/(sites_exponent n H s x).
by move: (ssm_log_pdf n p x + _) => a; zmod.
Qed.

Lemma cvi_kalman_mean : exists q q', [/\ cvi_dist_q ker emission n z s = Some q,
  cvi_posterior_kalman ker emission n z s = Some q' &
  (exists m K, has_law n.+1 n.+1 (ssm_path q) m K /\ has_law n.+1 n.+1 (ssm_path q') m K) <-> k_mean0 ker = 0].
Proof.
have [q [E1 E2 [c E3]]] := cvi_core.
have [q' [c' [F1 F2 F3]]] := sites_factor H Np Hs' Hn.
have N1 := ssm_chol_nonsing E2.
exists q, q'; split=> //.
  by rewrite /cvi_posterior_kalman (kernel_ssmE ker Hz) /obind /oapp -F1.
split; last first.
  move=> /cvi_kalman_same [a [b [G1 G2 _ _ G3]]].
  have Ea : a = q by apply: Some_inj; rewrite -G1 -E1.
  have Eb : b = q'.
    by apply: Some_inj; rewrite -G2 /cvi_posterior_kalman (kernel_ssmE ker Hz) /obind /oapp -F1.
  subst a b; have L := ssm_has_law n q.
  by do 2 eexists; split; [exact: L|apply/G3].
case=> m [K [L L']].
have E (x : nat -> 'cV[R]_d) : ((P *m flat n.+1 (fun _ => k_mean0 ker))^T *m flat n.+1 x) 0 0 = c - c'.
  have := E3 x; have := F3 x; rewrite (log_pdf_law x N1 L) (log_pdf_law x F2 L') => -> .
  rewrite -/(sites_exponent n H s x) prior_lin.
  move: (ssm_log_pdf n p x) (sites_exponent n H s x) (fun_of_matrix _ _ _) => a b u.
  toR_ops => Q; lra.
have E0 (v : 'cV[R]_(n.+1 * d)) : ((P *m flat n.+1 (fun _ => k_mean0 ker))^T *m v) 0 0 = 0.
  have C0 : c - c' = 0 by rewrite -(E (unflat (0 : 'cV[R]_(n.+1 * d)))) flat_unflat mulmx0 mxE.
  by rewrite -[v]flat_unflat E C0.
have Z : P *m flat n.+1 (fun _ => k_mean0 ker) = 0.
  apply/matrixP => i j; rewrite (ord1 j) -[P *m _]trmxK mxE; have := E0 (delta_mx i 0).
  by rewrite -colE !mxE.
have uP : P \in unitmx by apply: (@spd_unit Rr); exact: precision_spd.
have := congr1 (mulmx (invmx P)) Z; rewrite mulKmx // mulmx0 => /(congr1 (fun v => unflat v 0%N)).
by rewrite unflat_bcol // unflat0.
Qed.
End Neg.
End Sites.

Section Gauss.
Variables (gm gv : R -> R -> R -> R) (s2 : R) (y : nat -> R).
Hypothesis s2_gt0 : 0 < s2.
Hypothesis Hg : gradients_of (ext_gaussian_ve1 s2) gm gv.
Hypothesis Hm0 : k_mean0 ker = 0.

Lemma gauss_gradients f v : cvi_gradients gm gv f v = (v / s2, - (2%:R * s2)^-1).
Proof.
rewrite /cvi_gradients /gradient_mean_var_to_expectation.
have [-> ->] := gauss_grad s2_gt0 Hg f.1 f.2 v; congr pair.
rewrite invfM mulrN mulrA divff ?two_neq0 // mul1r mulNr opprK mulrBl [s2^-1 * _]mulrC; exact: subrK.
Qed.

Lemma cvi_update lr s : (forall k, (k <= n)%N -> st_nat2 s k <= 0) ->
  exists s', [/\ cvi_update_sites ker emission gm gv n z y lr s = Some s',
    forall k, st_nat1 s' k = (1 - lr) * st_nat1 s k + lr * (y k / s2) &
    forall k, st_nat2 s' k = (1 - lr) * st_nat2 s k + lr * - (2%:R * s2)^-1].
Proof.
move=> Hs; have [q [E1 _ _]] := cvi_density Hs Hm0.
rewrite /cvi_update_sites E1 /Option.map /Option.bind /Option.apply; cbv zeta beta.
exists (Sites (fun k => (1 - lr) * st_nat1 s k + lr * (y k / s2)) (fun k => (1 - lr) * st_nat2 s k + lr * - (2%:R * s2)^-1)).
by split=> //; congr (Some (Sites _ _)); apply: functional_extensionality => k; rewrite gauss_gradients.
Qed.

Let goal1 k := y k / s2.
Let goal2 := - (2%:R * s2)^-1.
Let step lr := obind (cvi_update_sites ker emission gm gv n z y lr).

Lemma goal2_lt0 : goal2 < 0.
Proof. by rewrite oppr_lt0 invr_gt0 mulr_gt0 // two_gt0. Qed.

Lemma cvi_iterates lr s r : 0 <= lr <= 1 -> (forall k, (k <= n)%N -> st_nat2 s k <= 0) ->
  exists s', [/\ iter r (step lr) (Some s) = Some s',
    forall k, st_nat1 s' k - goal1 k = (1 - lr) ^+ r * (st_nat1 s k - goal1 k),
    forall k, st_nat2 s' k - goal2 = (1 - lr) ^+ r * (st_nat2 s k - goal2) &
    forall k, (k <= n)%N -> st_nat2 s' k <= 0].
Proof.
move=> /andP [l0 l1] Hs; elim: r => [|r [s' [E1 E2 E3 E4]]].
  by exists s; split=> // k; rewrite expr0 mul1r.
have [s'' [F1 F2 F3]] := cvi_update lr E4.
exists s''; split.
- by rewrite iterS E1.
- by move=> k; rewrite F2 exprS -mulrA -E2 /goal1; crng.
- by move=> k; rewrite F3 exprS -mulrA -E3 -/goal2; crng.
- move=> k Hk; rewrite F3 -/goal2 -[0]addr0; apply: ler_add.
    by rewrite mulr_ge0_le0 ?subr_ge0 // E4.
  by rewrite mulr_ge0_le0 // ltW // goal2_lt0.
Qed.

(* the sites of the Gaussian likelihood *)
Section Exact.
Variable s : sites Rr.
Hypothesis E1 : forall k, (k <= n)%N -> st_nat1 s k = goal1 k.
Hypothesis E2 : forall k, (k <= n)%N -> st_nat2 s k = goal2.
Let Y := flat n.+1 (fun k => const_mx (y k) : 'cV[R]_1).
Let Hd := dense n.+1 n.+1 (rdiag H).

Lemma exact_le0 k : (k <= n)%N -> st_nat2 s k <= 0.
Proof. by move=> Hk; rewrite E2 // ltW // goal2_lt0. Qed.

Lemma loglik_exponent : exists c, forall x,
  gauss_logpdf (Hd *m flat n.+1 x) s2%:M Y = sites_exponent n H s x + c.
Proof.
exists (\sum_(k < n.+1) (- 2%:R^-1 * (ln (2%:R * PI) + ln s2 + y k ^+ 2 / s2))) => x.
rewrite (@rdiag_flat R_comRingType) -(@dense_scalar Rr n.+1 1 s2) gauss_logpdf_rdiag; last first.
  by move=> k _; apply: spd_scalar.
rewrite /sites_exponent -big_split; apply: eq_bigr => k _; cbv zeta.
rewrite [RHS]/=.
rewrite gauss_logpdf_scalar // big_ord1 (E1 (ltn_ord k)) (E2 (ltn_ord k)) [const_mx _ _ _]mxE /goal1 /goal2 invfM.
move: ((H k *m x k) 0 0) (s2^-1) (ln _) (ln _) => f w l1 l2; toR_ops; rewrite !exprR halfR; field.
Qed.

Lemma exact_posterior : exists q, [/\ cvi_dist_q ker emission n z s = Some q, ssm_nonsing n q &
  forall m K, has_law n.+1 n.+1 (ssm_path q) m K ->
  flat n.+1 m = cond_mean 0 (x_gram ker n.+1 z) Hd s2%:M Y /\
  dense n.+1 n.+1 K = cond_cov (x_gram ker n.+1 z) Hd s2%:M].
Proof.
have [q [c [F1 F2 F3]]] := cvi_posterior_density exact_le0 Hm0.
have Nq := ssm_chol_nonsing F2.
exists q; split=> // m K L.
have [c' E] := loglik_exponent.
have PK : spd (x_gram ker n.+1 z) by exact: Kzz_spd.
have PS : spd (s2%:M : 'M[R]_(n.+1 * 1)) by apply: spd_scalar.
pose l := gauss_logpdf (Hd *m 0) (Hd *m x_gram ker n.+1 z *m Hd^T + s2%:M) Y.
apply: (gauss_logpdf_inj (c := c - c' + l)).
- by have [_ ->] := ssm_lawE L; exact: cov_spd.
- by rewrite (@cond_cov_info Rr) //; apply: (@spd_inv Rr); exact: info_spd.
- move=> v; have := F3 m K (unflat v) L; have := @gauss_bayes _ _ 0 (x_gram ker n.+1 z) s2%:M Hd v Y PK PS.
  have := E (unflat v); rewrite flat_unflat -/l => ->.
  move: (gauss_logpdf _ _ v) (gauss_logpdf _ _ v) (gauss_logpdf _ _ v) (sites_exponent _ _ _ _) l.
  move=> a1 a2 a3 a4 a5; toR_ops => U V; lra.
Qed.

Lemma exact_elbo : cvi_elbo ker emission n z s = Some (gauss_logpdf 0 (f_gram ker emission n.+1 n.+1 z z + s2%:M) Y).
Proof.
have Hs' k : (k <= n)%N -> st_nat2 s k < 0 by move=> Hk; rewrite E2 // goal2_lt0.
rewrite /cvi_elbo (kernel_ssmE ker Hz) /Option.map /Option.bind /Option.apply; congr Some.
have EA : flat n.+1 (fun k => H k *m k_mean0 ker) = 0.
  by rewrite -(@rdiag_flat R_comRingType) (flat_mean0 Hm0) mulmx0.
have EB : dense n.+1 n.+1 (fun i j => H i *m state_cov ker (z i) (z j) *m (H j)^T +
    (if i == j then ((- 2%:R * st_nat2 s i)^-1)%:M else 0)) = f_gram ker emission n.+1 n.+1 z z + s2%:M.
  rewrite -(@dense_scalar Rr n.+1 1 s2) denseD; apply: eq_dense => i j Hi Hj.
  rewrite /rdiag; case: eqP => // _; congr (_ + _%:M).
  by rewrite E2 // /goal2 mulrNN invfM invrK mulKf ?two_neq0.
have EC : flat n.+1 (fun k => (- st_nat1 s k / (2%:R * st_nat2 s k))%:M) = Y.
  apply: eq_flat => k Hk; apply/matrixP => i j; rewrite (ord1 i) (ord1 j) !mxE eqxx mulr1n E1 // E2 // /goal1 /goal2.
  have -> : 2%:R * - (2%:R * s2)^-1 = - s2^-1 by rewrite invfM mulrN mulrA divff ?two_neq0 // mul1r.
  rewrite invrN invrK mulrNN divfK //.
  by apply: lt0r_neq0.
by rewrite -EA -EB -EC; exact: (sites_log_likelihood_law H Np Hs' prior_law).
Qed.

Lemma ve1_ve (f : 'cV[R]_1 * 'cV[R]_1) v :
  ext_gaussian_ve1 s2 (f.1 0 0) (f.2 0 0) v = ext_gaussian_ve s2 f.1 f.2 (const_mx v).
Proof. by rewrite ve1E /ext_gaussian_ve big_ord1 !mxE. Qed.

Lemma classic_vgp (q : ssm Rr d) (s' : sites Rr) : cvi_dist_q ker emission n z s' = Some q ->
  cvi_classic_elbo ker emission n z y (ext_gaussian_ve1 s2) s' =
  vgp_elbo ker emission (fun _ => 0) (ext_gaussian_ve s2) n z (fun k => const_mx (y k)) q.
Proof.
move=> Eq; rewrite /cvi_classic_elbo Eq /vgp_elbo (kernel_ssmE ker Hz) /obind /oapp /Option.map /Option.bind /Option.apply.
cbv zeta beta; congr (Some (_ - _)); apply: eq_bigr => k _; exact: ve1_ve.
Qed.

Lemma exact_classic : - APPROX_INF Rr < z 0%N ->
  cvi_classic_elbo ker emission n z y (ext_gaussian_ve1 s2) s =
  Some (gauss_logpdf 0 (f_gram ker emission n.+1 n.+1 z z + s2%:M) Y).
Proof.
move=> Hinf; have [q [Eq Nq Lq]] := exact_posterior.
rewrite (classic_vgp Eq).
have L := ssm_has_law n q.
have [e [l [F1 F2 _ F3]]] := vgp_bound emission (fun _ => 0) (fun k => const_mx (y k)) Hker Hm0 Hz s2_gt0 Hn Hinf Nq L.
rewrite F1; congr Some.
have -> : e = l.
  apply/F3; cbv zeta; have [Em EK] := Lq _ _ L; rewrite -/H -/Hd Em EK; split=> //.
  by congr cond_mean; apply: eq_flat => k _; rewrite subr0.
have EA : flat n.+1 (fun k : nat => (fun _ : R => 0 : 'cV[R]_1) (z k)) = 0 by exact: bcol0.
by rewrite F2 EA.
Qed.
End Exact.
End Gauss.
End Dense.
