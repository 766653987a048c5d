(* Proofs for M_SPep.v: the energy, Gaussian likelihood. *)
From Coq Require Import Reals Lra FunctionalExtensionality.
From mathcomp Require Import all_ssreflect all_algebra.
From Verif Require Import MCalc RealStruct Nat Alg Lin Ent Spd Log M_Block S_Block P_Block M_SSM S_SSM P_SSM M_SSMLog P_SSMLog S_Gauss P_Gauss
  M_Trans S_Trans P_Trans S_Kalman M_Kalman P_Kalman P_KalmanLog M_Kernel S_Kernel P_Kernel M_Cond P_Cond P_Cond2 P_Cond3 P_Cond4
  M_Emission P_Emission M_Sort P_Sort M_Models S_GP P_Elbo P_Models P_Models2 M_Cvi S_Cvi P_Cvi P_Cvi3 P_Cvi4 M_Pep S_Pep P_Block2 P_Pep P_Pep2 P_Pep3 P_Pep4
  M_SPep S_SPep P_SPep P_SPep2 P_SPep3.
Set Implicit Arguments.
Unset Strict Implicit.
Unset Printing Implicit Defensive.
Import GRing.Theory Num.Theory Order.TTheory.
Local Open Scope ring_scope.

Lemma logpdf_const n (m m' : 'cV[R]_n) (K K' : 'M[R]_n) c : spd K -> spd K' ->
  (forall x, gauss_logpdf m K x = gauss_logpdf m' K' x + c) -> c = 0.
Proof.
move=> H H' E; have [Em EK] := gauss_logpdf_inj H H' E.
have := E 0; rewrite Em EK; move: (gauss_logpdf _ _ _) => a; toR_ops => U; lra.
Qed.

(* the density of a scalar Gaussian *)
Lemma logpdf1 (mu v y : R) : 0 < v -> gauss_logpdf (const_mx mu) (v%:M : 'M[R]_1) (const_mx y) =
  ext_logdensity_gaussian y mu v.
Proof.
move=> Hv; rewrite gauss_logpdf_scalar // big_ord1 !mxE /ext_logdensity_gaussian -[in RHS]opprB sqrrN; reflexivity.
Qed.

Section SPep.
Variables (d : nat) (ker : sde_kernel Rr d) (emission : R -> 'M[R]_(1, d)).
Hypothesis Hker : markov_kernel ker.
Hypothesis Hm0 : k_mean0 ker = 0.
Variables (n : nat) (z : nat -> R).
Hypothesis Hz : increasing n.+1 z.
Hypothesis Hn : (0 < n)%N.
Let Kzz := x_gram ker n.+1 z.

(* the row of the projection at t *)
Let g t : 'M[R]_(1, n.+1 * d) := emission t *m brow n.+1 (fun j => state_cov ker t (z j)) *m invmx Kzz.

Lemma g_proj t u : g t *m flat n.+1 u = const_mx (projected ker emission n z t u).
Proof. by apply/matrixP => i j; rewrite (ord1 i) (ord1 j) [RHS]mxE. Qed.

Lemma predict_split q m K (X : nat -> R) k : covered n z (X k) -> ssm_nonsing n q -> has_law n.+1 n.+1 (ssm_path q) m K ->
  cvi_predict_f ker emission n q z X k =
  ((g (X k) *m flat n.+1 m) 0 0, unexplained ker emission n z (X k) + (g (X k) *m dense n.+1 n.+1 K *m (g (X k))^T) 0 0).
Proof.
move=> Hc Nq L.
have [_ E] := predict_f_covered (fun i => emission (X i)) (fun _ => 0) Hker Hm0 Hz Hc Nq L.
rewrite /cvi_predict_f; cbv zeta; rewrite E /fst /snd addr0 [X in (_, X)]mxE; congr (_, _); first by rewrite /g !mulmxA.
have PK : spd Kzz by exact: Kzz_spd.
rewrite -[dense n.+1 n.+1 (fun i j => state_cov ker (z i) (z j))]/Kzz /unexplained /f_cov (@state_cov_diag Rr d ker (X k) Hker) -/Kzz /g.
set H := emission (X k); set B := brow _ _.
rewrite mulmxDr mulmxDl mulmxBr mulmxBl [X in X = _]mxE; congr (_ + _); last by rewrite !trmx_mul !mulmxA.
congr (fun_of_matrix _ 0 0); congr (_ - _); rewrite !trmx_mul tr_invmx (spd_sym PK) !mulmxA mulmxKV ?spd_unit //.
Qed.

(* removing the factor of one observation *)
Section Remove.
Variables (s s' : pair_sites d) (t b s2 : R).
Hypothesis s2_gt0 : 0 < s2.
Hypothesis Hs : valid_pairs n s.
Hypothesis Hs' : valid_pairs n s'.
Hypothesis E : forall u, pairs_exponent n s u = pairs_exponent n s' u +
  (let p := projected ker emission n z t u in b / s2 * p + - (2%:R * s2)^-1 * p ^+ 2).

Lemma law_spd (q : ssm Rr d) m K : ssm_nonsing n q -> has_law n.+1 n.+1 (ssm_path q) m K -> spd (dense n.+1 n.+1 K).
Proof. by move=> Nq L; have [_ ->] := ssm_lawE L; exact: cov_spd. Qed.

Lemma pair_at0 m : pair_at n (fun _ => 0 : 'cV[R]_d) m = 0.
Proof.
rewrite /pair_at /inside; case: m => [|m]; rewrite ?if_same col_mx0; reflexivity.
Qed.
Lemma exponent0 (s0 : pair_sites d) : pairs_exponent n s0 (fun _ => 0) = 0.
Proof. by rewrite /pairs_exponent big1 // => m _; rewrite pair_at0 mulmx0 (@qf0 Rr) mxE addr0. Qed.

Lemma flat0 N e : flat N (fun _ => 0 : 'cV[R]_e) = 0.
Proof. by rewrite -[RHS]flat_unflat; apply: eq_flat => k _; rewrite (@unflat0 Rr). Qed.

Lemma normalizer_density s0 q m K : valid_pairs n s0 -> scvi_dist_q ker n z s0 = Some q -> ssm_nonsing n q ->
  has_law n.+1 n.+1 (ssm_path q) m K -> forall u,
  gauss_logpdf (flat n.+1 m) (dense n.+1 n.+1 K) (flat n.+1 u) =
  gauss_logpdf 0 Kzz (flat n.+1 u) + pairs_exponent n s0 u + (ssm_normalizer n (kssm ker z) - ssm_normalizer n q).
Proof.
move=> Hs0 Eq Nq L u.
have [||q0 [c [F1 F2 F3]]] := @scvi_posterior_density d ker Hker Hm0 n z Hz Hn s0; [by move=> j /Hs0 [] | by move=> j v /Hs0 [] |].
move: F1; rewrite Eq => -[Q]; rewrite -Q in F2 F3.
rewrite (F3 m K u L); congr (_ + _).
have := F3 m K (fun _ => 0) L; rewrite exponent0 flat0 addr0.
have Np : ssm_nonsing n (kssm ker z) by exact: kssm_nonsing.
have -> : gauss_logpdf 0 Kzz 0 = - ssm_normalizer n (kssm ker z).
  rewrite (normalizerE Np) opprK; have [<- <-] := ssm_lawE (prior_law Hker Hz).
  by rewrite (flat_mean0 Hm0).
have -> : gauss_logpdf (flat n.+1 m) (dense n.+1 n.+1 K) 0 = - ssm_normalizer n q.
  by rewrite (normalizerE Nq) opprK; have [<- <-] := ssm_lawE L.
move: (ssm_normalizer _ _) (ssm_normalizer _ _) => x y; toR_ops => U; lra.
Qed.

Lemma remove q q' m K : scvi_dist_q ker n z s = Some q -> scvi_dist_q ker n z s' = Some q' -> ssm_nonsing n q -> ssm_nonsing n q' ->
  has_law n.+1 n.+1 (ssm_path q') m K ->
  ssm_normalizer n q' - ssm_normalizer n q =
  ext_logdensity_gaussian b 0 s2 -
  ext_logdensity_gaussian b ((g t *m flat n.+1 m) 0 0) (s2 + (g t *m dense n.+1 n.+1 K *m (g t)^T) 0 0).
Proof.
move=> Eq Eq' Nq Nq' L'; have L := ssm_has_law n q.
have D := normalizer_density Hs Eq Nq L; have D' := normalizer_density Hs' Eq' Nq' L'.
have PK := law_spd Nq L; have PK' := law_spd Nq' L'.
have PS : spd (s2%:M : 'M[R]_1) by apply: spd_scalar.
have v0 : 0 <= (g t *m dense n.+1 n.+1 K *m (g t)^T) 0 0.
  have [_ Q] := @psd_congr' Rr _ _ _ (g t) (@spd_psd Rr _ _ PK'); have := Q 1%:M; rewrite /qf trmx1 mul1mx mulmx1; exact.
have Ev : g t *m dense n.+1 n.+1 K *m (g t)^T + s2%:M = (s2 + (g t *m dense n.+1 n.+1 K *m (g t)^T) 0 0)%:M.
  by rewrite addrC [X in _ + X = _]mx11_scalar -raddfD.
have Em : g t *m flat n.+1 m = const_mx ((g t *m flat n.+1 m) 0 0).
  by apply/matrixP => i j; rewrite (ord1 i) (ord1 j) [RHS]mxE.
set l := ext_logdensity_gaussian b _ (s2 + _).
set l0 := ext_logdensity_gaussian b 0 s2.
have Q : forall v, gauss_logpdf (flat n.+1 (ssm_marginal_means n q)) (dense n.+1 n.+1 (ssm_cov q)) v =
  gauss_logpdf (cond_mean (flat n.+1 m) (dense n.+1 n.+1 K) (g t) s2%:M (const_mx b)) (cond_cov (dense n.+1 n.+1 K) (g t) s2%:M) v +
  (ssm_normalizer n q' - ssm_normalizer n q - l0 + l).
  move=> v; have := @gauss_bayes _ _ (flat n.+1 m) (dense n.+1 n.+1 K) s2%:M (g t) v (const_mx b) PK' PS.
  rewrite Ev Em logpdf1; last by apply: ltr_paddr.
  rewrite -/l -(flat_unflat v) g_proj logpdf1 // D D' E.
  have -> : ext_logdensity_gaussian b (projected ker emission n z t (unflat v)) s2 =
    l0 + (b / s2 * projected ker emission n z t (unflat v) + - (2%:R * s2)^-1 * projected ker emission n z t (unflat v) ^+ 2).
    rewrite /l0 /ext_logdensity_gaussian invfM.
    move: (projected _ _ _ _ _ _) (s2^-1) (ln _) (ln _) => f w l1 l2; toR_ops; rewrite !exprR halfR; field.
  cbv zeta.
  move: (gauss_logpdf _ _ _) (gauss_logpdf _ _ _) (pairs_exponent _ _ _) (_ / s2 * _ + _) (ssm_normalizer _ _) (ssm_normalizer _ _) (ssm_normalizer _ _) l0 l.
  move=> a1 a2 a3 a4 a5 a6 a7 a8 a9; toR_ops => U; lra.
have PC : spd (cond_cov (dense n.+1 n.+1 K) (g t) s2%:M).
  by rewrite (@cond_cov_info Rr) //; apply: (@spd_inv Rr); exact: info_spd.
have := logpdf_const PK PC Q; clear Q.
move: (ssm_normalizer _ _) (ssm_normalizer _ _) l0 l => x y u v; toR_ops => U; lra.
Qed.
End Remove.
End SPep.
