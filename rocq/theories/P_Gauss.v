From Coq Require Import Reals.
From mathcomp Require Import all_ssreflect all_algebra.
From Verif Require Import RealStruct Log Nat Alg Lin Ent Spd S_Gauss.
Set Implicit Arguments.
Unset Strict Implicit.
Unset Printing Implicit Defensive.
Import GRing.Theory Num.Theory Order.TTheory.
Local Open Scope ring_scope.

Section Generic.
Variable F : rcfType.

Lemma qfN n (K : 'M[F]_n) x : qf (- K) x = - qf K x.
Proof. by rewrite /qf mulmxN mulNmx mxE. Qed.
Lemma qfB n (K L : 'M[F]_n) x : qf (K - L) x = qf K x - qf L x.
Proof. by rewrite qfD qfN. Qed.
Lemma qfZ n (c : F) (K : 'M[F]_n) x : qf (c *: K) x = c * qf K x.
Proof. by rewrite /qf -scalemxAr -scalemxAl mxE. Qed.

Lemma qf_tr n (K : 'M[F]_n) x : qf K x = \tr (K *m (x *m x^T)).
Proof. by rewrite /qf mulmxA mxtrace_mulC mulmxA trace_mx11. Qed.

Lemma spd_det_gt0 n (K : 'M[F]_n) : spd K -> 0 < \det K.
Proof.
move=> H; rewrite -(chol_mul H) det_mul_tr exprn_even_gt0 //=.
by rewrite -unitfE -unitmxE chol_unit.
Qed.

Lemma tr_mul_tr n m (L : 'M[F]_(n, m)) : \tr (L *m L^T) = \sum_i \sum_j L i j ^+ 2.
Proof.
rewrite /mxtrace; apply: eq_bigr => i _; rewrite mxE; apply: eq_bigr => j _.
by rewrite mxE expr2.
Qed.

Lemma det_low_sqr n (L : 'M[F]_n) : is_trig_mx L -> \det (L *m L^T) = \prod_i L i i ^+ 2.
Proof. by move=> tL; rewrite det_mul_tr det_trig // -prodrXl. Qed.

(* quadratic form at a difference *)
Lemma qf_sub n (K : 'M[F]_n) (x m : 'cV[F]_n) : K^T = K ->
  qf K (x - m) = qf K x - 2%:R * ((K *m m)^T *m x) 0 0 + qf K m.
Proof.
move=> HK; rewrite /qf; have -> : (x - m)^T = x^T - m^T by apply/matrixP=> i j; rewrite !mxE.
rewrite mulmxBl mulmxBl !mulmxBr.
have E : (x^T *m K *m m) 0 0 = (m^T *m K *m x) 0 0.
  by rewrite -[in LHS](trmxK (x^T *m K *m m)) [LHS]mxE !trmx_mul trmxK HK mulmxA.
rewrite !(mxDE, mxNE) E trmx_mul HK.
rewrite -[2%:R]/(1 + 1) mulrDl mul1r; set a := (x^T *m K *m x) 0 0; set b := _ 0 0; set c := (m^T *m K *m m) 0 0.
by zmod.
Qed.

End Generic.

Lemma two_neq0 : (2%:R : R) != 0. Proof. by rewrite pnatr_eq0. Qed.
Lemma two_gt0 : 0 < (2%:R : R). Proof. by rewrite ltr0n. Qed.

Lemma half2 (x : R) : 2%:R^-1 * (2%:R * x) = x.
Proof. by rewrite mulrA mulVf ?mul1r // two_neq0. Qed.

(* log determinant of a product L L^T *)
Lemma ln_det_low n (L : 'M[R]_n) : lownz L ->
  ln (\det (L *m L^T)) = \sum_i ln (L i i ^+ 2).
Proof.
move=> [tL nL]; rewrite det_low_sqr // ln_prod // => i.
by rewrite exprn_even_gt0 //= nL.
Qed.

Lemma ln_det_inv n (K : 'M[R]_n) : spd K -> ln (\det (invmx K)) = - ln (\det K).
Proof. by move=> H; rewrite det_inv lnV // spd_det_gt0. Qed.

Lemma ln_det_mul n (K L : 'M[R]_n) : spd K -> spd L -> ln (\det (K *m L)) = ln (\det K) + ln (\det L).
Proof. by move=> HK HL; rewrite det_mulmx lnM ?spd_det_gt0. Qed.

(* trace minus log determinant *)
Lemma tr_sub_lndet n (M : 'M[R]_n) : spd M ->
  0 <= \tr M - n%:R - ln (\det M) /\ (\tr M - n%:R - ln (\det M) = 0 -> M = 1%:M).
Proof.
move=> H; have [tL pL] := chol_lowpos H; have EM := chol_mul H; set L := chol M in tL pL EM.
have nL : lownz L by apply: lowpos_nz.
have E : \tr M - n%:R - ln (\det M) =
   \sum_i (\sum_(j | j != i) L i j ^+ 2 + (L i i ^+ 2 - 1 - ln (L i i ^+ 2))).
  rewrite -{1 2}EM tr_mul_tr ln_det_low //.
  have -> : (n%:R : R) = \sum_(i < n) 1 by rewrite sumr_const card_ord.
  rewrite -!sumrB; apply: eq_bigr => i _.
  by rewrite (bigD1 i) //=; zmod.
have G1 i : 0 <= \sum_(j | j != i) L i j ^+ 2 by apply: sumr_ge0 => j _; apply: sqr_ge0.
have P2 i : 0 < L i i ^+ 2 by rewrite exprn_gt0.
have G2 i : 0 <= L i i ^+ 2 - 1 - ln (L i i ^+ 2) by rewrite subr_ge0 ln_le_sub1.
rewrite E; split; first by apply: sumr_ge0 => i _; apply: addr_ge0.
move=> /eqP; rewrite psumr_eq0; last by move=> i _; apply: addr_ge0.
move=> /allP H0.
have H0' i : \sum_(j | j != i) L i j ^+ 2 = 0 /\ L i i ^+ 2 - 1 - ln (L i i ^+ 2) = 0.
  have := H0 i; rewrite mem_index_enum => /(_ isT) /=.
  by rewrite paddr_eq0 // => /andP [/eqP -> /eqP ->].
have EL : L = 1%:M.
  apply/matrixP=> i j; rewrite mxE; have [Z1 Z2] := H0' i.
  have [Eij|nij] := eqVneq i j.
    subst j; rewrite mulr1n.
    have : L i i ^+ 2 = 1.
      apply/eqP; apply: contraT => ne; have := ln_lt_sub1 (P2 i) ne.
      by rewrite -subr_gt0 Z2 ltxx.
    move/eqP; rewrite sqrf_eq1 => /orP [/eqP -> //|/eqP E1].
    by have := pL i; rewrite E1 oppr_gt0 ltr10.
  rewrite mulr0n; move/eqP: Z1; rewrite psumr_eq0; last by move=> l _; apply: sqr_ge0.
  move=> /allP /(_ j); rewrite mem_index_enum => /(_ isT).
  by rewrite eq_sym nij /= sqrf_eq0 => /eqP.
by rewrite -EM EL mul1mx trmx1.
Qed.

Lemma qf_spd_ge0 n (K : 'M[R]_n) x : spd K -> 0 <= qf K x.
Proof. by move=> /spd_psd [_]; apply. Qed.

Lemma qf_spd_eq0 n (K : 'M[R]_n) x : spd K -> qf K x = 0 -> x = 0.
Proof.
move=> [_ H] E; apply/eqP; apply: contraT => nx.
by have := H x nx; rewrite E ltxx.
Qed.

Lemma gauss_kl_ge0 n (m1 m2 : 'cV[R]_n) (K1 K2 : 'M[R]_n) : spd K1 -> spd K2 ->
  0 <= gauss_kl m1 K1 m2 K2 /\
  (gauss_kl m1 K1 m2 K2 = 0 <-> m1 = m2 /\ K1 = K2).
Proof.
move=> H1 H2; have H2i := spd_inv H2.
pose C := chol (invmx K2); have EC := chol_mul H2i; have uC := chol_unit H2i; rewrite -/C in EC uC.
pose M := C^T *m K1 *m C.
have HM : spd M by apply: spd_congr.
have Et : \tr (invmx K2 *m K1) = \tr M.
  rewrite -EC -[in LHS]mulmxA mxtrace_mulC; reflexivity.
have Ed : ln (\det M) = ln (\det K1) - ln (\det K2).
  have -> : \det M = \det (K1 *m invmx K2).
    rewrite -EC /M !det_mulmx det_tr; crng.
  by rewrite ln_det_mul // ln_det_inv.
have EK : gauss_kl m1 K1 m2 K2 =
   2%:R^-1 * ((\tr M - n%:R - ln (\det M)) + qf (invmx K2) (m2 - m1)).
  rewrite /gauss_kl Et Ed; congr (_ * _).
  move: (\tr M) (qf _ _) (n%:R : R) (ln _) (ln _) => a b c e f; zmod.
have [G1 Z1] := tr_sub_lndet HM.
have G2 := qf_spd_ge0 (m2 - m1) H2i.
split; first by rewrite EK; apply: mulr_ge0; [rewrite invr_ge0 ler0n|apply: addr_ge0].
split; last first.
  move=> [-> ->]; rewrite /gauss_kl mulVmx ?spd_unit // mxtrace1 subrr qf0 addr0 subrr add0r subrr.
  by rewrite mulr0.
rewrite EK => /eqP; rewrite mulf_eq0 invr_eq0 (negbTE two_neq0) /= paddr_eq0 // => /andP [/eqP E1 /eqP E2].
split.
  by have := qf_spd_eq0 H2i E2; move/eqP; rewrite subr_eq0 => /eqP.
have EM := Z1 E1.
apply: (@mulmx_cancel_l _ _ _ (invmx K2)); first exact: spd_unit.
rewrite mulVmx; last exact: spd_unit.
have : C *m M *m invmx C = C *m 1%:M *m invmx C by rewrite EM.
by rewrite mulmx1 mulmxV // /M !mulmxA EC -[LHS]mulmxA mulmxV // mulmx1.
Qed.

(* the divergence is the expectation of the log ratio *)
Lemma quad_logpdf n (m : 'cV[R]_n) (K : 'M[R]_n) x : spd K ->
  gauss_logpdf m K x =
  quad_fun (- 2%:R^-1 * (n%:R * ln (2%:R * PI) + ln (\det K) + qf (invmx K) m))
           (invmx K *m m) (- 2%:R^-1 *: invmx K) x.
Proof.
move=> H; have Hi := spd_sym (spd_inv H); rewrite /gauss_logpdf /quad_fun qf_sub // qfZ.
move: (qf _ x) (qf _ m) (ln (\det K)) (n%:R * _) (((invmx K *m m)^T *m x) 0 0) => a b c e f.
rlra.
Qed.

Lemma quad_funB n c1 b1 M1 c2 b2 M2 (x : 'cV[R]_n) :
  quad_fun c1 b1 M1 x - quad_fun c2 b2 M2 x = quad_fun (c1 - c2) (b1 - b2) (M1 - M2) x.
Proof.
rewrite /quad_fun qfB; have -> : ((b1 - b2)^T *m x) 0 0 = (b1^T *m x) 0 0 - (b2^T *m x) 0 0.
  by rewrite trmxB mulmxBl mxDE mxNE.
by zmod.
Qed.

Lemma gauss_kl_expects n (m1 m2 : 'cV[R]_n) (K1 K2 : 'M[R]_n) : spd K1 -> spd K2 ->
  expects m1 K1 (fun x => gauss_logpdf m1 K1 x - gauss_logpdf m2 K2 x) (gauss_kl m1 K1 m2 K2).
Proof.
move=> H1 H2.
exists ((- 2%:R^-1 * (n%:R * ln (2%:R * PI) + ln (\det K1) + qf (invmx K1) m1)) -
        (- 2%:R^-1 * (n%:R * ln (2%:R * PI) + ln (\det K2) + qf (invmx K2) m2))),
       (invmx K1 *m m1 - invmx K2 *m m2), (- 2%:R^-1 *: invmx K1 - - 2%:R^-1 *: invmx K2); split.
  by move=> x; rewrite (quad_logpdf m1 x H1) (quad_logpdf m2 x H2); exact: quad_funB.
rewrite /quad_expect /gauss_kl.
have s1 := spd_sym (spd_inv H1); have s2 := spd_sym (spd_inv H2).
have -> : \tr ((- 2%:R^-1 *: invmx K1 - - 2%:R^-1 *: invmx K2) *m (K1 + m1 *m m1^T)) =
   - 2%:R^-1 * (n%:R + qf (invmx K1) m1) + 2%:R^-1 * (\tr (invmx K2 *m K1) + qf (invmx K2) m1).
  rewrite !scaleNr opprK mulmxDl mulNmx -!scalemxAl !mulmxDr mulVmx ?spd_unit //.
  rewrite mxtraceD raddfN /= !mxtraceZ !mxtraceD mxtrace1 -!qf_tr.
  by move: (qf _ _) (qf _ _) (n%:R : R) (\tr _) => a b c e; rlra.
rewrite qf_sub //.
have -> : ((invmx K1 *m m1 - invmx K2 *m m2)^T *m m1) 0 0 =
   qf (invmx K1) m1 - ((invmx K2 *m m2)^T *m m1) 0 0.
  by rewrite trmxB mulmxBl mxDE mxNE /qf trmx_mul s1.
have -> : qf (invmx K2) m2 - 2%:R * ((invmx K2 *m m1)^T *m m2) 0 0 =
          qf (invmx K2) m2 - 2%:R * ((invmx K2 *m m2)^T *m m1) 0 0.
  congr (_ - _ * _); rewrite -[in LHS](trmxK ((invmx K2 *m m1)^T *m m2)) [LHS]mxE.
  by rewrite !trmx_mul !trmxK ?s2 !mulmxA.
move: (qf (invmx K1) m1) (qf (invmx K2) m1) (qf (invmx K2) m2) (n%:R * ln (2%:R * PI)) (n%:R : R) (\tr _)
  (ln (\det K1)) (ln (\det K2)) (((invmx K2 *m m2)^T *m m1) 0 0) => a1 a2 a3 a4 a5 a6 a7 a8 a9.
rlra.
Qed.
