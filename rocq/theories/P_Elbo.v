(* Gaussian algebra for evidence lower bounds. *)
From Coq Require Import Reals Lra.
From mathcomp Require Import all_ssreflect all_algebra.
From Verif Require Import RealStruct Nat Alg Lin Ent Spd Log S_Gauss P_Gauss S_Kalman P_Kalman P_KalmanLog P_Cond4.
Set Implicit Arguments.
Unset Strict Implicit.
Unset Printing Implicit Defensive.
Import GRing.Theory Num.Theory Order.TTheory.
Local Open Scope ring_scope.

Section Order.
Variable F : rcfType.

(* the inverse reverses the order of positive definite matrices *)
Lemma inv_antitone n (A D : 'M[F]_n) : spd A -> psd D -> psd (invmx A - invmx (A + D)).
Proof.
move=> HA HD; have HS := spdD HA HD; split.
  by rewrite linearB /= !tr_invmx (spd_sym HA) (spd_sym HS).
move=> x; set w := invmx (A + D) *m x.
have Ex : x = (A + D) *m w by rewrite /w mulKVmx ?spd_unit.
have sD := psd_sym HD; have sA := spd_sym HA.
clearbody w; rewrite {}Ex.
have -> : qf (invmx A - invmx (A + D)) ((A + D) *m w) = qf D w + qf (invmx A) (D *m w).
  rewrite -!qf_congr (spd_sym HS) sD -qfD; congr qf.
  rewrite mulmxBr mulmxBl mulmxV ?spd_unit // mul1mx.
  rewrite mulmxDl mulmxV ?spd_unit // mulmxDl !mul1mx mulmxDr -[D *m _ *m A]mulmxA mulVmx ?spd_unit // mulmx1.
  by zmod.
by rewrite addr_ge0 ?(proj2 HD) // (proj2 (spd_psd (spd_inv HA))).
Qed.

(* the trace of a product of positive semidefinite matrices *)
Lemma psd_diag_ge0 n (M : 'M[F]_n) i : psd M -> 0 <= M i i.
Proof. by move=> [_ /(_ (delta_mx i 0))]; rewrite /qf quad_delta. Qed.

Lemma tr_spd_psd n (M D : 'M[F]_n) : psd M -> spd D -> 0 <= \tr (M *m D).
Proof.
move=> HM HD; rewrite -(chol_mul HD) mulmxA mxtrace_mulC mulmxA.
by apply: sumr_ge0 => i _; apply: psd_diag_ge0; apply: psd_congr.
Qed.

Lemma tr_psd_psd n (M D : 'M[F]_n) : psd M -> psd D -> 0 <= \tr (M *m D).
Proof.
move=> HM HD; rewrite leNgt; apply/negP => Hlt.
have Ht e : 0 < e -> 0 <= \tr (M *m D) + e * \tr M.
  move=> He; have := tr_spd_psd HM (spdD (spd_scalar n He) HD).
  by rewrite mulmxDr mul_mx_scalar mxtraceD mxtraceZ addrC.
have HtM : 0 <= \tr M by apply: sumr_ge0 => i _; apply: psd_diag_ge0.
have := Ht (- \tr (M *m D) / (2%:R * (1 + \tr M))).
have H1 : 0 < 1 + \tr M by apply: lt_le_trans ltr01 _; rewrite ler_addl.
have H0 : 0 < - \tr (M *m D) by rewrite oppr_gt0.
move=> /(_ (divr_gt0 H0 (mulr_gt0 (ltr0Sn _ 1) H1))); apply/negP; rewrite -ltNge.
set t := - _ in H0 *; have -> : \tr (M *m D) = - t by rewrite opprK.
rewrite addrC subr_lt0 -mulrA mulrC -[X in _ < X]mul1r ltr_pmul2r //.
rewrite mulrC ltr_pdivr_mulr ?mulr_gt0 ?ltr0Sn // mul1r -subr_gt0.
have -> : 2%:R * (1 + \tr M) - \tr M = 1 + (1 + \tr M) by rewrite mulr2n mulrDl !mul1r; zmod.
by apply: addr_gt0 => //; exact: ltr01.
Qed.
End Order.

Section Gauss.

Lemma qfNx n (K : 'M[R]_n) x : qf K (- x) = qf K x.
Proof. by rewrite /qf [(- x)^T]linearN !(mulNmx, mulmxN) opprK. Qed.

(* the evidence is at most the one with the larger noise plus half the trace *)
Lemma titsias n (mu y : 'cV[R]_n) (Q S D : 'M[R]_n) : psd Q -> spd S -> psd D ->
  gauss_logpdf mu (Q + S) y - 2%:R^-1 * \tr (invmx S *m D) <= gauss_logpdf mu (Q + D + S) y.
Proof.
move=> HQ HS HD.
have HA : spd (Q + S) by rewrite addrC; apply: spdD.
have -> : Q + D + S = (Q + S) + D by zmod.
have HB := spdD HA HD.
set A := Q + S in HA HB *; set B := A + D in HB *.
have H1 : qf (invmx B) (y - mu) <= qf (invmx A) (y - mu).
  by have [_ /(_ (y - mu))] := inv_antitone HA HD; rewrite qfB subr_ge0.
have H2 : ln (\det B) - ln (\det A) <= \tr (invmx A *m D).
  have [H _] := gauss_kl_ge0 0 0 HB HA.
  move: H; rewrite /gauss_kl subr0 qf0 addr0 /B mulmxDr mulVmx ?spd_unit // mxtraceD mxtrace1.
  move: (ln _) (ln _) (mxtrace _) (n%:R : R) => a b c e.
  by rewrite halfR => /RleP; toR_ops => H; apply/RleP; toR_ops; lra.
have H3 : \tr (invmx A *m D) <= \tr (invmx S *m D).
  rewrite -subr_ge0 -linearB /= -mulmxBl; apply: tr_psd_psd => //.
  by rewrite /A [Q + S]addrC; apply: inv_antitone.
move: H1 H2 H3 => /RleP + /RleP + /RleP.
rewrite /gauss_logpdf.
move: (ln _) (ln _) (qf _ _) (qf _ _) (mxtrace _) (mxtrace _) (_ * ln _) => a b c e f g h.
rewrite ?halfR ?twoR; toR_ops => H1 H2 H3; apply/RleP; toR_ops; lra.
Qed.

(* the expected log density of observations y of G x + b *)
Lemma expected_loglik n p m1 (K1 : 'M[R]_n) (S : 'M[R]_p) (G : 'M[R]_(p, n)) b y : spd S ->
  expects m1 K1 (fun x => gauss_logpdf (G *m x + b) S y)
    (gauss_logpdf (G *m m1 + b) S y - 2%:R^-1 * \tr (invmx S *m (G *m K1 *m G^T))).
Proof.
move=> HS; set r := y - b; set P := invmx S; have sP : P^T = P by apply: spd_sym; apply: spd_inv.
have E x : gauss_logpdf (G *m x + b) S y =
    quad_fun (- 2%:R^-1 * (p%:R * ln (2%:R * PI) + ln (\det S) + qf P r)) (G^T *m P *m r) (- 2%:R^-1 *: (G^T *m P *m G)) x.
  rewrite /gauss_logpdf /quad_fun qfZ qf_congr -/P.
  have -> : y - (G *m x + b) = r - G *m x by rewrite /r; zmod.
  have -> : qf P (r - G *m x) = qf P r - 2%:R * ((G^T *m P *m r)^T *m x) 0 0 + qf P (G *m x).
    rewrite -[r - _]opprB.
    rewrite qfNx qf_sub // !trmx_mul sP trmxK.
    have -> : (r^T *m P *m (G *m x)) 0 0 = (r^T *m (P *m G) *m x) 0 0 by rewrite !mulmxA.
    by rewrite mulmxA; crng.
  move: (_ 0 0) (qf _ _) (qf _ _) (_ + ln _) => a c e f; rewrite ?halfR ?twoR; toR_ops; field.
eexists; eexists; eexists; split; first exact: E.
rewrite (E m1); clearbody r; rewrite /quad_fun /quad_expect mulmxDr mxtraceD -qf_tr -!scalemxAl mxtraceZ.
have -> : \tr (G^T *m P *m G *m K1) = \tr (P *m (G *m K1 *m G^T)).
  by rewrite -!mulmxA mxtrace_mulC !mulmxA.
by crng.
Qed.

(* evidence = expected log likelihood - KL to the prior + KL to the posterior *)
Lemma gauss_elbo n p m1 (K1 : 'M[R]_n) m (K : 'M[R]_n) (S : 'M[R]_p) (G : 'M[R]_(p, n)) y :
  spd K1 -> spd K -> spd S ->
  gauss_logpdf (G *m m1) S y - 2%:R^-1 * \tr (invmx S *m (G *m K1 *m G^T)) - gauss_kl m1 K1 m K
  + gauss_kl m1 K1 (cond_mean m K G S y) (cond_cov K G S) = gauss_logpdf (G *m m) (G *m K *m G^T + S) y.
Proof.
move=> H1 HK HS; have := gauss_bayes m G m1 y HK HS.
have EC : invmx (cond_cov K G S) = invmx K + G^T *m invmx S *m G.
  by rewrite (cond_cov_info G HK HS) invmxK.
rewrite /gauss_kl EC mulmxDl mxtraceD.
have -> : \tr (G^T *m invmx S *m G *m K1) = \tr (invmx S *m (G *m K1 *m G^T)).
  by rewrite -!mulmxA mxtrace_mulC !mulmxA.
set l1 := gauss_logpdf m _ _; set l2 := gauss_logpdf (cond_mean _ _ _ _ _) _ _.
have E1 : l1 = - 2%:R^-1 * (n%:R * ln (2%:R * PI) + ln (\det K) + qf (invmx K) (m - m1)).
  by rewrite /l1 /gauss_logpdf -[m1 - m]opprB qfNx.
have E2 : l2 = - 2%:R^-1 * (n%:R * ln (2%:R * PI) + ln (\det (cond_cov K G S)) +
                  qf (invmx K + G^T *m invmx S *m G) (cond_mean m K G S y - m1)).
  by rewrite /l2 /gauss_logpdf EC -[m1 - _]opprB qfNx.
clearbody l1 l2; rewrite E1 E2; clear.
set a := gauss_logpdf _ _ _; set b := gauss_logpdf _ _ _; clearbody a b.
move: (n%:R : R) (ln _) (ln _) (ln _) (qf _ _) (qf _ _) (\tr _) (\tr _) (_ * ln _) => c1 c2 c3 c4 c5 c6 c7 c8 c9.
rewrite ?halfR; toR_ops => H; lra.
Qed.
End Gauss.
