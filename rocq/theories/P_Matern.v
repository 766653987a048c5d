(* Algebra of the small matrices of the Matern kernels, over any real closed field. *)
From mathcomp Require Import all_ssreflect all_algebra.
From Verif Require Import Nat Alg Lin Ent Spd M_KernelR.
Set Implicit Arguments.
Unset Strict Implicit.
Unset Printing Implicit Defensive.
Import Order.Theory GRing.Theory Num.Theory.
Local Open Scope ring_scope.

Section Small.
Variable F : rcfType.

(* entries of small matrices *)
Lemma qf1E (K : 'M[F]_1) x : qf K x = K 0 0 * x 0 0 ^+ 2.
Proof. by rewrite /qf !mxE big_ord1 !mxE big_ord1 !mxE; crng. Qed.

Local Notation o1 := (lift ord0 ord0 : 'I_2).
Local Notation q1 := (lift ord0 ord0 : 'I_3).
Local Notation q2 := (lift ord0 (lift ord0 ord0) : 'I_3).

Lemma qf2E (K : 'M[F]_2) x : qf K x = K 0 0 * x 0 0 ^+ 2 + (K 0 o1 + K o1 0) * x 0 0 * x o1 0 + K o1 o1 * x o1 0 ^+ 2.
Proof.
rewrite /qf !mxE !big_ord_recl !big_ord0 !mxE !big_ord_recl !big_ord0 !mxE.
by crng.
Qed.

Lemma qf3E (K : 'M[F]_3) x : qf K x =
  K 0 0 * x 0 0 ^+ 2 + K q1 q1 * x q1 0 ^+ 2 + K q2 q2 * x q2 0 ^+ 2
  + (K 0 q1 + K q1 0) * x 0 0 * x q1 0 + (K 0 q2 + K q2 0) * x 0 0 * x q2 0 + (K q1 q2 + K q2 q1) * x q1 0 * x q2 0.
Proof.
rewrite /qf !mxE !big_ord_recl !big_ord0 !mxE !big_ord_recl !big_ord0 !mxE.
by crng.
Qed.

Lemma col2_eq0 (x : 'cV[F]_2) : x 0 0 = 0 -> x o1 0 = 0 -> x = 0.
Proof.
move=> H0 H1; apply/matrixP => i j; rewrite ord1 [RHS]mxE.
by case: i => -[|[|//]] Hi; [rewrite -[RHS]H0|rewrite -[RHS]H1]; congr (x _ _); apply/val_inj.
Qed.

Lemma col3_eq0 (x : 'cV[F]_3) : x 0 0 = 0 -> x q1 0 = 0 -> x q2 0 = 0 -> x = 0.
Proof.
move=> H0 H1 H2; apply/matrixP => i j; rewrite ord1 [RHS]mxE.
by case: i => -[|[|[|//]]] Hi; [rewrite -[RHS]H0|rewrite -[RHS]H1|rewrite -[RHS]H2]; congr (x _ _); apply/val_inj.
Qed.

Lemma spd_mx1 (K : 'M[F]_1) : 0 < K 0 0 -> spd K.
Proof. by move=> H; rewrite (mx11_scalar K); apply: spd11. Qed.

(* entrywise proof of an equation between 2 x 2 or 3 x 3 matrices *)
Ltac mxcases := apply/matrixP; case=> -[|[|[|?]]] // ?; case=> -[|[|[|?]]] // ?;
  rewrite ?(mxE, big_ord_recl, big_ord0) /=.


Lemma mx_rows1 (a : F) : mx_rows 1 [:: [:: a]] = a%:M.
Proof. by mxcases. Qed.

Section K32.
Variables (l s2 : F).
Hypotheses (Hl : 0 < l) (Hs : 0 < s2).

Lemma m32_nilp : (feedback32 l + l *: 1%:M) *m (feedback32 l + l *: 1%:M) = 0.
Proof. by mxcases; crng. Qed.

Lemma m32_spd : spd (steady32 l s2).
Proof.
split=> [|x]; first by mxcases; crng.
apply: contraNT; rewrite -leNgt qf2E !mxE /= !mulr0 addr0 !mul0r addr0 mulr1 => H.
have H1 : 0 <= s2 * x 0 0 ^+ 2 by rewrite mulr_ge0 ?sqr_ge0 ?ltW.
have H2 : 0 <= s2 * l ^+ 2 * x o1 0 ^+ 2 := mulr_ge0 (mulr_ge0 (ltW Hs) (sqr_ge0 _)) (sqr_ge0 _).
have /eqP : s2 * x 0 0 ^+ 2 + s2 * l ^+ 2 * x o1 0 ^+ 2 = 0 by apply/eqP; rewrite eq_le H addr_ge0.
rewrite paddr_eq0 // => /andP [].
rewrite mulf_eq0 (gt_eqF Hs) sqrf_eq0 /= => /eqP E1.
rewrite mulf_eq0 (gt_eqF (mulr_gt0 Hs (exprn_gt0 2 Hl))) sqrf_eq0 /= => /eqP E2.
by apply/eqP/col2_eq0.
Qed.

Definition B32 : 'cV[F]_2 := \matrix_(i, j) nth 0 [:: 0; Num.sqrt (4%:R * l ^+ 3 * s2)] i.

Lemma c32_gt0 : 0 < 4%:R * l ^+ 3 * s2.
Proof.
apply: mulr_gt0 => //; apply: mulr_gt0; first exact: ltr0n.
exact: exprn_gt0.
Qed.

Lemma m32_lyap : feedback32 l *m steady32 l s2 + steady32 l s2 *m (feedback32 l)^T = - (B32 *m B32^T).
Proof.
have Hb : Num.sqrt (4%:R * l ^+ 3 * s2) * Num.sqrt (4%:R * l ^+ 3 * s2) = 4%:R * l ^+ 3 * s2.
  by rewrite -expr2 sqr_sqrtr // ltW // c32_gt0.
by mxcases; rewrite ?Hb; crng.
Qed.

Lemma m32_controllable (y : 'cV[F]_2) : y^T *m B32 = 0 -> y^T *m feedback32 l *m B32 = 0 -> y = 0.
Proof.
have Hb : Num.sqrt (4%:R * l ^+ 3 * s2) != 0 by rewrite sqrtr_eq0 -ltNge c32_gt0.
move=> /matrixP /(_ 0 0) + /matrixP /(_ 0 0); rewrite ?(mxE, big_ord_recl, big_ord0) /= ?(mxE, big_ord_recl, big_ord0) /=.
rewrite !mulr0 !add0r !addr0 => H2 H1.
have y1 : y o1 0 = 0 by move/eqP: H2; rewrite mulf_eq0 (negbTE Hb) orbF => /eqP.
move: H1; rewrite y1 mul0r addr0 mulr1 => /eqP; rewrite mulf_eq0 (negbTE Hb) orbF => /eqP y0.
exact: col2_eq0.
Qed.
End K32.

Section K52.
Variables (l s2 : F).
Hypotheses (Hl : 0 < l) (Hs : 0 < s2).

Lemma m52_nilp : (feedback52 l + l *: 1%:M) *m (feedback52 l + l *: 1%:M) *m (feedback52 l + l *: 1%:M) = 0.
Proof.
have -> : (feedback52 l + l *: 1%:M) *m (feedback52 l + l *: 1%:M) =
    mx_rows 3 [:: [:: l ^+ 2; 2%:R * l; 1]; [:: - l ^+ 3; - 2%:R * l ^+ 2; - l]; [:: l ^+ 4; 2%:R * l ^+ 3; l ^+ 2]].
  by mxcases; crng.
by mxcases; crng.
Qed.

Lemma m52_spd : spd (steady52 l s2).
Proof.
split=> [|x]; first by mxcases; crng.
apply: contraNT; rewrite -leNgt qf3E !mxE /= => H.
set a := x 0 0; set b := x q1 0; set c := x q2 0.
pose kp := l ^+ 2 / 3%:R; have kp0 : 0 < kp by rewrite divr_gt0 ?exprn_gt0 ?ltr0n.
have E : s2 * 1 * a ^+ 2 + s2 * kp * b ^+ 2 + s2 * l ^+ 4 * c ^+ 2 + (s2 * 0 + s2 * 0) * a * b
  + (s2 * - kp + s2 * - kp) * a * c + (s2 * 0 + s2 * 0) * b * c
  = s2 * ((a - kp * c) ^+ 2 + kp * b ^+ 2 + (8%:R / 9%:R) * l ^+ 4 * c ^+ 2).
  rewrite (_ : (8%:R / 9%:R) * l ^+ 4 = l ^+ 4 - kp ^+ 2); first by crng.
  rewrite /kp; have N3 : (3%:R : F) != 0 by rewrite pnatr_eq0.
  have -> : (9%:R : F) = 3%:R * 3%:R by rewrite -natrM.
  have -> : (8%:R : F) = 3%:R * 3%:R - 1 by rewrite -natrM -(natrB _ (isT : (1 <= 9)%N)).
  rewrite invfM; transitivity (((3%:R / 3%:R) ^+ 2 - 3%:R^-1 ^+ 2) * l ^+ 4); first by crng.
  by rewrite divff //; crng.
move: H; rewrite -/a -/b -/c -/kp E.
have H1 : 0 <= (a - kp * c) ^+ 2 := sqr_ge0 _.
have H2 : 0 <= kp * b ^+ 2 := mulr_ge0 (ltW kp0) (sqr_ge0 _).
have l4 : 0 < 8%:R / 9%:R * l ^+ 4 by rewrite mulr_gt0 ?exprn_gt0 // divr_gt0 ?ltr0n.
have H3 : 0 <= 8%:R / 9%:R * l ^+ 4 * c ^+ 2 := mulr_ge0 (ltW l4) (sqr_ge0 _).
rewrite pmulr_rle0 // => H.
have /eqP : (a - kp * c) ^+ 2 + kp * b ^+ 2 + 8%:R / 9%:R * l ^+ 4 * c ^+ 2 = 0.
  by apply/eqP; rewrite eq_le H !addr_ge0.
rewrite paddr_eq0 ?addr_ge0 // paddr_eq0 // => /andP [/andP [/eqP E1 E2] E3].
move: E3; rewrite mulf_eq0 (gt_eqF l4) sqrf_eq0 /= => /eqP E3.
move: E2; rewrite mulf_eq0 (gt_eqF kp0) sqrf_eq0 /= => /eqP E2.
move/eqP: E1; rewrite E3 mulr0 subr0 sqrf_eq0 => /eqP E1.
by apply/eqP/col3_eq0.
Qed.

Definition B52 : 'cV[F]_3 := \matrix_(i, j) nth 0 [:: 0; 0; Num.sqrt (16%:R / 3%:R * l ^+ 5 * s2)] i.

Lemma c52_gt0 : 0 < 16%:R / 3%:R * l ^+ 5 * s2.
Proof.
apply: mulr_gt0 => //; apply: mulr_gt0; last exact: exprn_gt0.
by apply: divr_gt0; apply: ltr0n.
Qed.

Lemma m52_lyap : feedback52 l *m steady52 l s2 + steady52 l s2 *m (feedback52 l)^T = - (B52 *m B52^T).
Proof.
have Hb : Num.sqrt (16%:R / 3%:R * l ^+ 5 * s2) * Num.sqrt (16%:R / 3%:R * l ^+ 5 * s2) = 16%:R / 3%:R * l ^+ 5 * s2.
  by rewrite -expr2 sqr_sqrtr // ltW // c52_gt0.
have N3 : (3%:R : F) != 0 by rewrite pnatr_eq0.
pose w := l / 3%:R; have El : l = 3%:R * w by rewrite /w mulrCA divff // mulr1.
have Ek : l ^+ 2 / 3%:R = 3%:R * w ^+ 2.
  transitivity ((3%:R / 3%:R) * (3%:R * w ^+ 2)); first by rewrite El; crng.
  by rewrite divff // mul1r.
have E16 : 16%:R / 3%:R * l ^+ 5 = 16%:R * 3%:R ^+ 4 * w ^+ 5.
  transitivity ((3%:R / 3%:R) * (16%:R * 3%:R ^+ 4 * w ^+ 5)); first by rewrite El; crng.
  by rewrite divff // mul1r.
rewrite E16 in Hb; rewrite /B52 E16 /steady52 Ek.
mxcases; rewrite ?Hb ?El; crng.
Qed.

Lemma m52_controllable (y : 'cV[F]_3) : y^T *m B52 = 0 -> y^T *m feedback52 l *m B52 = 0 ->
  y^T *m (feedback52 l *m feedback52 l) *m B52 = 0 -> y = 0.
Proof.
have Hb : Num.sqrt (16%:R / 3%:R * l ^+ 5 * s2) != 0 by rewrite sqrtr_eq0 -ltNge c52_gt0.
rewrite /B52; set b := Num.sqrt _ in Hb *.
move=> /matrixP /(_ 0 0) + /matrixP /(_ 0 0) + /matrixP /(_ 0 0).
rewrite ?(mxE, big_ord_recl, big_ord0) /= ?(mxE, big_ord_recl, big_ord0) /=.
rewrite !mulr0 !add0r !addr0 => H1.
have y2 : y q2 0 = 0 by move/eqP: H1; rewrite mulf_eq0 (negbTE Hb) orbF => /eqP.
rewrite y2 !mul0r ?(mul0r, addr0, mulr0, add0r, mulr1) => /eqP; rewrite mulf_eq0 (negbTE Hb) orbF => /eqP y1.
rewrite y1 ?(mul0r, addr0, mulr0, add0r, mulr1) => /eqP; rewrite mulf_eq0 (negbTE Hb) orbF => /eqP y0.
apply: col3_eq0 => //.
Qed.
End K52.
End Small.
