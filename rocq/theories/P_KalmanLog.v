From Coq Require Import Reals.
From mathcomp Require Import all_ssreflect all_algebra.
From Verif Require Import RealStruct Log Nat Alg Lin Ent Spd M_Block S_Block P_Block P_Block2
  M_BlockLog P_BlockLog M_SSM S_SSM P_SSM M_SSMLog S_Gauss P_Gauss P_SSMLog S_Kalman M_Kalman P_Kalman.
Set Implicit Arguments.
Unset Strict Implicit.
Unset Printing Implicit Defensive.
Import GRing.Theory Num.Theory Order.TTheory.
Local Open Scope ring_scope.

Section Quad.
Variable F : rcfType.

Lemma scal_tr (M : 'M[F]_1) : M^T 0 0 = M 0 0. Proof. by rewrite mxE. Qed.

Lemma qf_add n (K : 'M[F]_n) (x y : 'cV[F]_n) : K^T = K ->
  qf K (x + y) = qf K x + 2%:R * ((K *m x)^T *m y) 0 0 + qf K y.
Proof.
move=> HK; have E : (y^T *m K *m x) 0 0 = (x^T *m K *m y) 0 0.
  by rewrite -scal_tr !trmx_mul HK trmxK mulmxA.
rewrite /qf trmxD !mulmxDl !mulmxDr !mxDE E trmx_mul HK.
move: ((x^T *m K *m x) 0 0) ((x^T *m K *m y) 0 0) ((y^T *m K *m y) 0 0) => a b c; crng.
Qed.

(* the quadratic forms of Bayes' rule *)
Lemma bayes_quad n p (P : 'M[F]_n) (Si : 'M[F]_p) (G : 'M[F]_(p, n)) m x y :
  P^T = P -> Si^T = Si -> let L := P + G^T *m Si *m G in L \in unitmx ->
  qf P (x - m) + qf Si (y - G *m x) =
  qf L (x - invmx L *m (G^T *m Si *m y + P *m m)) +
  (qf Si (y - G *m m) - qf (invmx L) (G^T *m Si *m (y - G *m m))).
Proof.
move=> HP HS L uL; have HL : L^T = L by rewrite /L trmxD HP !trmx_mul trmxK HS mulmxA.
have HLi : (invmx L)^T = invmx L by rewrite tr_invmx HL.
pose r := y - G *m m; pose z := x - m; pose w := G^T *m Si *m r.
have Ey : y - G *m x = r - G *m z by rewrite /r /z mulmxBr; mxring.
have Ev : x - invmx L *m (G^T *m Si *m y + P *m m) = z - invmx L *m w.
  have -> : G^T *m Si *m y + P *m m = w + L *m m by rewrite /w /r /L; mxring.
  rewrite mulmxDr mulKmx // /z; mxring.
rewrite Ey Ev -/r -/w -/z {Ey Ev}; clearbody z r.
rewrite !qf_sub // mulKVmx //.
have -> : qf L (invmx L *m w) = qf (invmx L) w.
  by rewrite -qf_congr HLi mulVmx // mul1mx.
have -> : qf L z = qf P z + qf Si (G *m z) by rewrite /L qfD qf_congr.
have -> : ((Si *m (G *m z))^T *m r) 0 0 = (w^T *m z) 0 0.
  by rewrite -scal_tr trmx_mul trmxK /w !trmx_mul trmxK HS !mulmxA.
move: (qf P z) (qf Si r) (qf Si _) ((w^T *m z) 0 0) (qf _ w) => a b c g h; crng.
Qed.

Lemma obs_cov_inv n p (K : 'M[F]_n) (S : 'M[F]_p) (G : 'M[F]_(p, n)) : spd K -> spd S ->
  invmx (G *m K *m G^T + S) =
  invmx S - invmx S *m G *m invmx (invmx K + G^T *m invmx S *m G) *m G^T *m invmx S.
Proof.
move=> HK HS; apply: mulmx1_inv; apply: woodbury_obs; try exact: spd_unit.
by apply: spd_unit; apply: spdD; [exact: spd_inv|apply/psd_congr/spd_psd/spd_inv].
Qed.

Lemma qf_obs_cov n p (K : 'M[F]_n) (S : 'M[F]_p) (G : 'M[F]_(p, n)) r : spd K -> spd S ->
  qf (invmx (G *m K *m G^T + S)) r =
  qf (invmx S) r - qf (invmx (invmx K + G^T *m invmx S *m G)) (G^T *m invmx S *m r).
Proof.
move=> HK HS; rewrite obs_cov_inv // qfB; congr (_ - _).
rewrite -qf_congr trmx_mul trmxK tr_invmx (spd_sym HS); congr (qf _ _).
by rewrite !mulmxA.
Qed.

Lemma obs_cov_spd n p (K : 'M[F]_n) (S : 'M[F]_p) (G : 'M[F]_(p, n)) : spd K -> spd S ->
  spd (G *m K *m G^T + S).
Proof. by move=> HK HS; rewrite addrC; apply: spdD => //; apply/psd_congr'/spd_psd. Qed.

Lemma info_spd n p (K : 'M[F]_n) (S : 'M[F]_p) (G : 'M[F]_(p, n)) : spd K -> spd S ->
  spd (invmx K + G^T *m invmx S *m G).
Proof. by move=> HK HS; apply: spdD; [exact: spd_inv|apply/psd_congr/spd_psd/spd_inv]. Qed.

End Quad.

(* log evidence of a linear Gaussian model in information form *)
Lemma ln_det_obs n p (K : 'M[R]_n) (S : 'M[R]_p) (G : 'M[R]_(p, n)) : spd K -> spd S ->
  ln (\det (G *m K *m G^T + S)) =
  ln (\det S) + ln (\det K) + ln (\det (invmx K + G^T *m invmx S *m G)).
Proof.
move=> HK HS; rewrite det_lemma; try exact: spd_unit.
have HL := @info_spd [rcfType of R] _ _ K S G HK HS.
rewrite lnM; [|by apply: mulr_gt0; apply: spd_det_gt0|exact: spd_det_gt0].
by rewrite lnM; [|exact: spd_det_gt0|exact: spd_det_gt0].
Qed.

Lemma gauss_evidence n p m (K : 'M[R]_n) (S : 'M[R]_p) (G : 'M[R]_(p, n)) y : spd K -> spd S ->
  let L := invmx K + G^T *m invmx S *m G in
  gauss_logpdf (G *m m) (G *m K *m G^T + S) y =
  - 2%:R^-1 * (p%:R * ln (2%:R * PI) + (ln (\det S) + ln (\det K) + ln (\det L)) +
     (qf (invmx S) (y - G *m m) - qf (invmx L) (G^T *m invmx S *m (y - G *m m)))).
Proof.
move=> HK HS L; rewrite /gauss_logpdf ln_det_obs //.
by rewrite (@qf_obs_cov [rcfType of R] _ _ K S G (y - G *m m) HK HS).
Qed.

(* Bayes' rule for Gaussians *)
Lemma gauss_bayes n p m (K : 'M[R]_n) (S : 'M[R]_p) (G : 'M[R]_(p, n)) x y : spd K -> spd S ->
  gauss_logpdf m K x + gauss_logpdf (G *m x) S y =
  gauss_logpdf (cond_mean m K G S y) (cond_cov K G S) x +
  gauss_logpdf (G *m m) (G *m K *m G^T + S) y.
Proof.
move=> HK HS; have HL := @info_spd [rcfType of R] _ _ K S G HK HS.
rewrite gauss_evidence //.
rewrite (@cond_mean_info [rcfType of R] _ _ m K G S y HK HS) (@cond_cov_info [rcfType of R] _ _ K G S HK HS).
rewrite /gauss_logpdf invmxK ln_det_inv //.
have := @bayes_quad [rcfType of R] _ _ (invmx K) (invmx S) G m x y (spd_sym (spd_inv HK)) (spd_sym (spd_inv HS)) (spd_unit HL).
rewrite /=; set L := (invmx K + _).
move: (qf (invmx K) _) (qf (invmx S) (y - G *m x)) (qf L _) (qf (invmx S) (y - G *m m)) (qf (invmx L) _) => a b c g h.
move: (ln (\det K)) (ln (\det S)) (ln (\det L)) (_ * ln _) (_ * ln _) => i j k l o E.
have -> : a = c + (g - h) - b by rewrite -E; zmod.
rlra.
Qed.

Lemma logdetE d (M : 'M[R]_d) : spd M -> ext_logdet M = ln (\det M).
Proof.
move=> HM; have [tl pl] := @chol_lowpos [rcfType of R] _ M HM.
rewrite /ext_logdet -{2}(@chol_mul [rcfType of R] _ M HM) ln_det_low; last first.
  by split=> // i; rewrite gt_eqF.
rewrite big_distrr /=; apply: eq_bigr => i _; rewrite ln_sqr ?gt_eqF //.
by rewrite gtr0_norm.
Qed.

Lemma ln_det_rdiag d N (V : nat -> 'M[R]_d) : (forall k, (k < N)%N -> spd (V k)) ->
  ln (\det (dense N N (rdiag V))) = \sum_(k < N) ln (\det (V k)).
Proof.
move=> HV; rewrite det_dense_ltrig; last first.
  by move=> i j Hij _; rewrite /rdiag (ltn_eqF Hij).
rewrite -(ln_prod (F := fun k : 'I_N => \det (V k))); last by move=> k; apply/spd_det_gt0/HV.
by congr (ln _); apply: eq_bigr => k _; rewrite /rdiag eqxx.
Qed.

Lemma quad_sumE e N (r : nat -> 'M[R]_e) (x : nat -> 'cV[R]_e) :
  quad_sum N r x = qf (dense N N (rdiag r)) (flat N x).
Proof.
rewrite (@qf_rdiag [rcfType of R]); apply: eq_bigr => k _; rewrite /qf -mulmxA mxE; apply: eq_bigr => o _.
by rewrite !mxE mulrC; congr (_ * _); apply: eq_bigr => p _.
Qed.

Section Lik.
Variables (d e n : nat).
Implicit Types f : kf Rr d e.

Lemma sum_sq_flat N (x : nat -> 'cV[R]_d) :
  \sum_(k < N) \sum_(i < d) (x k i 0) ^+ 2 = qf 1%:M (flat N x).
Proof. by rewrite -reduce_sum_sqE; apply: eq_bigr => k _; apply: eq_bigr => i _; rewrite expr2. Qed.

(* |L^-1 w|^2 for the Cholesky factor of the posterior precision *)
Lemma solve_chol_sq f w (H : spd (btd_to_dense n.+1 true (kf_k_inv_post n f))) :
  \sum_(k < n.+1) \sum_(i < d) (btd_solve n.+1 (btd_cholesky n.+1 (kf_k_inv_post n f)) false w k i 0) ^+ 2 =
  qf (invmx (btd_to_dense n.+1 true (kf_k_inv_post n f))) (flat n.+1 w).
Proof.
rewrite sum_sq_flat solveE; have [HLp <- _] := cholesky_spec H.
by rewrite qf1 qf_mul_tr //; apply: lowpos_unit.
Qed.

Lemma abs_log_det_chol f (H : spd (btd_to_dense n.+1 true (kf_k_inv_post n f))) :
  btd_abs_log_det n.+1 (btd_cholesky n.+1 (kf_k_inv_post n f)) =
  2%:R^-1 * ln (\det (btd_to_dense n.+1 true (kf_k_inv_post n f))).
Proof.
rewrite abs_log_detE; last first.
  by move=> k Hk r; have [_ p] := cholesky_diag H Hk; rewrite gt_eqF.
have [HLp <- _] := cholesky_spec H; rewrite det_mul_tr ln_sqr ?half2 //.
by have := lowpos_unit HLp; rewrite unitmxE unitfE.
Qed.

Lemma kf_log_likelihoodE f (V : nat -> 'M[R]_e) (ldr : R) m K :
  ssm_nonsing n (kf_ssm f) -> (forall k, (k < n.+1)%N -> spd (V k)) ->
  (forall k, (k < n.+1)%N -> kf_rinv f k = invmx (V k)) ->
  ldr = - (\sum_(k < n.+1) ln (\det (V k))) ->
  has_law n.+1 n.+1 (ssm_path (kf_ssm f)) m K ->
  kf_log_likelihood n ldr f =
  gauss_logpdf (dense n.+1 n.+1 (rdiag (kf_H f)) *m flat n.+1 m)
    (dense n.+1 n.+1 (rdiag (kf_H f)) *m dense n.+1 n.+1 K *m (dense n.+1 n.+1 (rdiag (kf_H f)))^T
      + dense n.+1 n.+1 (rdiag V))
    (flat n.+1 (kf_obs f)).
Proof.
move=> HS HV Er Eld HL; have [-> ->] := ssm_lawE HL.
have Hr k : (k < n.+1)%N -> psd (kf_rinv f k) by move=> Hk; rewrite Er //; apply/spd_psd/spd_inv/HV.
have HK := cov_spd HS; have HSg : spd (dense n.+1 n.+1 (rdiag V)) by apply: spd_rdiag.
have ES : kf_Si n f = invmx (dense n.+1 n.+1 (rdiag V)).
  rewrite rdiag_inv; first by apply: eq_dense => i j Hi Hj; rewrite /rdiag; have [_|//] := eqVneq i j; apply: Er.
  by move=> k Hk; apply/spd_unit/HV.
have EL := k_inv_post_dense Hr.
have HLs : spd (btd_to_dense n.+1 true (kf_k_inv_post n f)) by rewrite EL; apply: kf_L_spd.
rewrite gauss_evidence // /kf_log_likelihood.
rewrite (solve_chol_sq _ HLs) (abs_log_det_chol HLs) quad_sumE.
rewrite -inv_precision // invmxK -ES.
rewrite EL /kf_L -/(kf_Si n f) back_project_flat //.
have -> : flat n.+1 (fun k => kf_obs f k - kf_H f k *m ssm_marginal_means n (kf_ssm f) k) =
   flat n.+1 (kf_obs f) - dense n.+1 n.+1 (rdiag (kf_H f)) *m flat n.+1 (ssm_marginal_means n (kf_ssm f)).
  by rewrite rdiag_flat flatB.
rewrite inv_precision // ln_det_cov // (ln_det_rdiag HV) Eld addn1 mulnC.
rewrite /kf_G; move: (qf (kf_Si n f) _) (qf (invmx _) _) (ln (\det (_ + _))) => a b c.
move: (ssm_log_det_precision n (kf_ssm f)) (\sum_(k < n.+1) ln (\det (V k))) ((n.+1 * e)%:R : R) (ln (2%:R * PI)) => g h i j.
rlra.
Qed.
End Lik.

Lemma gauss_logpdf_rdiag e N (m y : nat -> 'cV[R]_e) (V : nat -> 'M[R]_e) :
  (forall k, (k < N)%N -> spd (V k)) ->
  gauss_logpdf (flat N m) (dense N N (rdiag V)) (flat N y) = \sum_(k < N) gauss_logpdf (m k) (V k) (y k).
Proof.
move=> HV; rewrite /gauss_logpdf ln_det_rdiag // rdiag_inv; last by move=> k Hk; apply/spd_unit/HV.
rewrite flatB (@qf_rdiag [rcfType of R]) -big_distrr /= 2!big_split /= sumr_const card_ord.
congr (_ * (_ + _ + _)).
by move: (ln _) => l; rewrite (natrM _ N e) -mulrA !mulr_natl.
Qed.

Section Bayes.
Variables (d e n : nat).

Lemma kf_bayes (f : kf Rr d e) (V : nat -> 'M[R]_e) (ldr : R) : (0 < n)%N ->
  ssm_nonsing n (kf_ssm f) -> (forall k, (k < n.+1)%N -> spd (V k)) ->
  (forall k, (k < n.+1)%N -> kf_rinv f k = invmx (V k)) ->
  ldr = - (\sum_(k < n.+1) ln (\det (V k))) ->
  exists post,
  [/\ kf_posterior n f = Some post, ssm_nonsing n post &
      forall x, ssm_log_pdf n post x + kf_log_likelihood n ldr f =
        ssm_log_pdf n (kf_ssm f) x + \sum_(k < n.+1) gauss_logpdf (kf_H f k *m x k) (V k) (kf_obs f k)].
Proof.
move=> Hn HS HV Er Eld; have HL := ssm_has_law n (kf_ssm f).
have [post [E1 E2 E3]] := kf_posterior_cond Hn HS HV Er HL.
exists post; split=> // x; have HL' := ssm_has_law n post.
have [Em EK] := E3 _ _ HL'.
rewrite (log_pdf_law _ E2 HL') (log_pdf_law _ HS HL) (kf_log_likelihoodE HS HV Er Eld HL) Em EK.
rewrite -(gauss_logpdf_rdiag (fun k => kf_H f k *m x k) (kf_obs f) HV) -rdiag_flat.
have HK := cov_spd HS; have HSg : spd (dense n.+1 n.+1 (rdiag V)) by apply: spd_rdiag.
exact: (esym (gauss_bayes _ _ _ _ HK HSg)).
Qed.

Variables (S : ssm Rr d) (H : nat -> 'M[R]_(e, d)) (obs : nat -> 'cV[R]_e) (cR : 'M[R]_e).
Hypothesis HR : lownz cR.

Lemma plain_rinv : kf_rinv (kf_plain (F := Rr) S H obs cR) 0%N = invmx (cR *m cR^T).
Proof. by rewrite /= chol_solveE // mulmx1. Qed.

Lemma plain_ldr : (n + 1)%:R * ext_logdet (kf_rinv (kf_plain (F := Rr) S H obs cR) 0%N) =
  - (\sum_(k < n.+1) ln (\det (cR *m cR^T))).
Proof.
rewrite plain_rinv logdetE; last exact/spd_inv/lownz_spd.
rewrite ln_det_inv; last exact: lownz_spd.
by rewrite sumr_const card_ord addn1 mulr_natl mulNrn.
Qed.

Lemma plain_log_likelihood m K : ssm_nonsing n S -> has_law n.+1 n.+1 (ssm_path S) m K ->
  kf_plain_log_likelihood n S H obs cR =
  gauss_logpdf (dense n.+1 n.+1 (rdiag H) *m flat n.+1 m)
    (dense n.+1 n.+1 (rdiag H) *m dense n.+1 n.+1 K *m (dense n.+1 n.+1 (rdiag H))^T
      + dense n.+1 n.+1 (rdiag (fun _ => cR *m cR^T)))
    (flat n.+1 obs).
Proof.
move=> HS HL; apply: (@kf_log_likelihoodE d e n (kf_plain (F := Rr) S H obs cR) (fun _ => cR *m cR^T)) => //.
- by move=> k _; apply: lownz_spd.
- by move=> k _; exact: plain_rinv.
- exact: plain_ldr.
Qed.

Lemma plain_posterior m K : (0 < n)%N -> ssm_nonsing n S -> has_law n.+1 n.+1 (ssm_path S) m K ->
  exists post,
  [/\ kf_posterior n (kf_plain (F := Rr) S H obs cR) = Some post, ssm_nonsing n post &
      forall m' K', has_law n.+1 n.+1 (ssm_path post) m' K' ->
      let G := dense n.+1 n.+1 (rdiag H) in
      let Sg := dense n.+1 n.+1 (rdiag (fun _ => cR *m cR^T)) in
      flat n.+1 m' = cond_mean (flat n.+1 m) (dense n.+1 n.+1 K) G Sg (flat n.+1 obs) /\
      dense n.+1 n.+1 K' = cond_cov (dense n.+1 n.+1 K) G Sg].
Proof.
move=> Hn HS HL.
apply: (@kf_posterior_cond Rr d e n (kf_plain (F := Rr) S H obs cR) (fun _ => cR *m cR^T)) => //.
- by move=> k _; apply: lownz_spd.
- by move=> k _; exact: plain_rinv.
Qed.

Lemma plain_bayes : (0 < n)%N -> ssm_nonsing n S ->
  exists post,
  [/\ kf_posterior n (kf_plain (F := Rr) S H obs cR) = Some post, ssm_nonsing n post &
      forall x, ssm_log_pdf n post x + kf_plain_log_likelihood n S H obs cR =
        ssm_log_pdf n S x + \sum_(k < n.+1) gauss_logpdf (H k *m x k) (cR *m cR^T) (obs k)].
Proof.
move=> Hn HS.
apply: (@kf_bayes (kf_plain (F := Rr) S H obs cR) (fun _ => cR *m cR^T)) => //.
- by move=> k _; apply: lownz_spd.
- by move=> k _; exact: plain_rinv.
- exact: plain_ldr.
Qed.
End Bayes.

Section SitesLog.
Variables (d n : nat).
Variables (S : ssm Rr d) (H : nat -> 'M[R]_(1, d)) (s : sites Rr).

Lemma site_logdet k : st_nat2 s k < 0 -> ext_logdet (sites_precisions s k) = - ln (\det (site_var s k)).
Proof.
move=> Hk; have Hv := site_var_spd Hk; rewrite -site_var_inv logdetE; last exact: spd_inv.
by rewrite ln_det_inv.
Qed.

Lemma sites_ldr N : (forall k, (k < N)%N -> st_nat2 s k < 0) ->
  \sum_(k < N) ext_logdet (sites_precisions s k) = - (\sum_(k < N) ln (\det (site_var s k))).
Proof. by move=> Hs; rewrite -sumrN; apply: eq_bigr => k _; rewrite site_logdet ?Hs. Qed.

Lemma sites_log_likelihood m K : ssm_nonsing n S -> (forall k, (k < n.+1)%N -> st_nat2 s k < 0) ->
  has_law n.+1 n.+1 (ssm_path S) m K ->
  kf_sites_log_likelihood n S H s =
  gauss_logpdf (dense n.+1 n.+1 (rdiag H) *m flat n.+1 m)
    (dense n.+1 n.+1 (rdiag H) *m dense n.+1 n.+1 K *m (dense n.+1 n.+1 (rdiag H))^T
      + dense n.+1 n.+1 (rdiag (site_var s)))
    (flat n.+1 (sites_means s)).
Proof.
move=> HS Hs HL; apply: (@kf_log_likelihoodE d 1 n (kf_sites (F := Rr) S H s) (site_var s)) => //.
- by move=> k Hk; apply/site_var_spd/Hs.
- by move=> k _; rewrite site_var_inv.
- exact: sites_ldr.
Qed.

Lemma sites_bayes : (0 < n)%N -> ssm_nonsing n S -> (forall k, (k < n.+1)%N -> st_nat2 s k < 0) ->
  exists post,
  [/\ kf_posterior n (kf_sites (F := Rr) S H s) = Some post, ssm_nonsing n post &
      forall x, ssm_log_pdf n post x + kf_sites_log_likelihood n S H s =
        ssm_log_pdf n S x + \sum_(k < n.+1) gauss_logpdf (H k *m x k) (site_var s k) (sites_means s k)].
Proof.
move=> Hn HS Hs; apply: (@kf_bayes d 1 n (kf_sites (F := Rr) S H s) (site_var s)) => //.
- by move=> k Hk; apply/site_var_spd/Hs.
- by move=> k _; rewrite site_var_inv.
- exact: sites_ldr.
Qed.

(* a site is the exponential of nat1 f + nat2 f^2, up to its log normaliser *)
Lemma site_density k (g : R) : st_nat2 s k < 0 ->
  gauss_logpdf (g%:M) (site_var s k) (sites_means s k) =
  st_nat1 s k * g + st_nat2 s k * g ^+ 2 +
  (2%:R^-1 * (ln (- 2%:R * st_nat2 s k) - ln (2%:R * PI)) + st_nat1 s k ^+ 2 / (4%:R * st_nat2 s k)).
Proof.
move=> Hk; have p0 := site_prec_gt0 Hk; have n0 : st_nat2 s k != 0 by rewrite lt_eqF.
rewrite /gauss_logpdf site_var_inv det_scalar1 lnV // /sites_precisions /sites_means.
have -> : qf (- 2%:R * st_nat2 s k)%:M ((- 2%:R^-1 * st_nat1 s k / st_nat2 s k)%:M - g%:M) =
   (- 2%:R * st_nat2 s k) * (- 2%:R^-1 * st_nat1 s k / st_nat2 s k - g) ^+ 2.
  by rewrite /qf -raddfB tr_scalar_mx -!scalar_mxM mxE eqxx mulr1n expr2 mulrC mulrA; crng.
move: (ln _) (ln _) (st_nat1 s k) n0 => a b u; move: (st_nat2 s k) => v /eqP n0.
have -> : 4%:R = 2%:R * 2%:R :> R by rewrite -natrM.
rewrite mul1r.
rewrite !invfM (invrR n0); rfield.
Qed.
End SitesLog.

Section SparseLog.
Variables (d n m : nat).
Variables (S : ssm Rr d) (H : nat -> 'M[R]_(1, d)) (s : sites Rr) (idx : nat -> nat) (obs : nat -> 'cV[R]_1).
Hypothesis Hs : forall j, (j < m)%N -> st_nat2 s j < 0.
Hypothesis inj : forall i j, (i < m)%N -> (j < m)%N -> idx i = idx j -> i = j.
Hypothesis Hidx : forall j, (j < m)%N -> (idx j < n.+1)%N.

Lemma sparse_log_likelihood mu K : ssm_nonsing n S -> has_law n.+1 n.+1 (ssm_path S) mu K ->
  kf_sparse_log_likelihood n S H m s idx obs =
  gauss_logpdf (dense m n.+1 (pick_blocks H idx) *m flat n.+1 mu)
    (dense m n.+1 (pick_blocks H idx) *m dense n.+1 n.+1 K *m (dense m n.+1 (pick_blocks H idx))^T
      + dense m m (rdiag (site_var s)))
    (flat m obs).
Proof.
move=> HS HL; have [-> ->] := ssm_lawE HL; pose f := kf_sparse (F := Rr) S H m s idx obs.
have Hr k (Hk : (k < n.+1)%N) := @sparse_rinv_psd Rr d n m S H s idx obs Hs k Hk.
have HV j (Hj : (j < m)%N) := site_var_spd (Hs Hj).
have HK := cov_spd HS; have HSg : spd (dense m m (rdiag (site_var s))) by apply: sparse_Sg_spd.
have EL := @k_inv_post_dense Rr d 1 n f Hr.
have HLs : spd (btd_to_dense n.+1 true (kf_k_inv_post n f)) by rewrite EL; apply: (@kf_L_spd Rr d 1 n f HS Hr).
rewrite gauss_evidence // /kf_sparse_log_likelihood -/f.
rewrite (solve_chol_sq _ HLs) (abs_log_det_chol HLs) quad_sumE.
rewrite -(inv_precision HS) invmxK EL /kf_L.
rewrite (@sparse_info Rr d n m S H s idx obs Hs).
rewrite (@back_project_flat Rr d 1 n f _ Hr).
rewrite (@sparse_vec Rr d n m S H s idx obs Hs inj (fun k => H k *m ssm_marginal_means n S k)).
have -> : flat m (fun j => obs j - H (idx j) *m ssm_marginal_means n S (idx j)) =
   flat m obs - dense m n.+1 (pick_blocks H idx) *m flat n.+1 (ssm_marginal_means n S).
  by rewrite (pick_flat H _ Hidx) flatB.
rewrite (sites_ldr Hs) (inv_precision HS) (ln_det_cov HS) (ln_det_rdiag HV).
rewrite -(sparse_Sg_inv Hs); change (kf_ssm f) with S.
have -> : ((1 * m)%:R : R) = m%:R by rewrite mul1n.
have -> : ((m * 1)%:R : R) = m%:R by rewrite muln1.
move: (qf (invmx (dense m m _)) _) => a.
move: (qf (invmx _) _) => b.
move: (ln (\det (_ + _))) => c.
move: (ssm_log_det_precision n S) (\sum_(j < m) ln (\det (site_var s j))) (m%:R : R) (ln (2%:R * PI)) => g h i j.
rlra.
Qed.

End SparseLog.
