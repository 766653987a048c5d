(* Proofs: the error of predictions outside the range of the data. *)
From mathcomp Require Import all_ssreflect all_algebra.
From Verif Require Import Nat Alg Lin Ent Spd M_SSM S_SSM P_SSM M_Kernel S_Kernel P_Kernel S_Gauss P_Gauss P_Kron
  P_Kalman M_Cond P_Cond P_Cond3 P_Cond4.
Set Implicit Arguments.
Unset Strict Implicit.
Unset Printing Implicit Defensive.
Import GRing.Theory Num.Theory Order.TTheory.
Local Open Scope ring_scope.

(* ---------- bounds for matrices as operators and as quadratic forms ---------- *)
Section Op.
Variable F : rcfType.
Notation sq x := (qf 1%:M x).
Implicit Types s c r v : F.

Definition bnd m n s (M : 'M[F]_(m, n)) := forall x : 'cV[F]_n, sq (M *m x) <= s ^+ 2 * sq x.
Definition qb n s (M : 'M[F]_n) := forall x : 'cV[F]_n, `|qf M x| <= s * sq x.

Lemma sqE n (x : 'cV[F]_n) : sq x = (x^T *m x) 0 0. Proof. by rewrite /qf mulmx1. Qed.

Lemma ip_sym n (x y : 'cV[F]_n) : x^T *m y = y^T *m x.
Proof.
have -> : x^T *m y = (y^T *m x)^T by rewrite trmx_mul trmxK.
by apply/matrixP => i j; rewrite !ord1 mxE.
Qed.

Lemma sq_sub n (x y : 'cV[F]_n) s : sq (y - s *: x) = sq y - 2%:R * s * (x^T *m y) 0 0 + s ^+ 2 * sq x.
Proof.
have -> : sq (y - s *: x) = ((y^T - s *: x^T) *m (y - s *: x)) 0 0 by rewrite sqE; congr ((_ *m _) _ _); rewrite linearB /= linearZ.
rewrite !sqE mulmxBl !mulmxBr -!scalemxAl -!scalemxAr (ip_sym y x).
by move: (y^T *m y) (x^T *m y) (x^T *m x) => a b c; rewrite !mxE !expr2 mulr_natl; crng.
Qed.

Lemma cs n (x y : 'cV[F]_n) s : 2%:R * s * (x^T *m y) 0 0 <= sq y + s ^+ 2 * sq x.
Proof. by have := qf1_ge0 (y - s *: x); rewrite sq_sub addrAC subr_ge0. Qed.

Lemma bnd_mul m n p s s' (M : 'M[F]_(m, n)) (N : 'M[F]_(n, p)) : bnd s M -> bnd s' N -> bnd (s * s') (M *m N).
Proof.
move=> H H' x; rewrite -mulmxA; apply: le_trans (H _) _; rewrite exprMn -[X in _ <= X]mulrA.
by rewrite ler_wpmul2l ?sqr_ge0.
Qed.

Lemma bnd_opp m n s (M : 'M[F]_(m, n)) : bnd s M -> bnd s (- M).
Proof. 
move=> H x; have -> : sq (- M *m x) = sq (M *m x); last exact: H.
by have := sq_sub (M *m x) 0 1; rewrite scale1r sub0r mulmx0 mxE mulr0 subr0 expr1n mul1r qf0 add0r mulNmx.
 Qed.

Lemma bnd_le m n s s' (M : 'M[F]_(m, n)) : 0 <= s -> s <= s' -> bnd s M -> bnd s' M.
Proof.
move=> s0 ss H x; apply: le_trans (H x) _; rewrite ler_wpmul2r ?qf1_ge0 //.
by rewrite ler_expn2r // nnegrE // (le_trans s0).
Qed.

Lemma bnd_tr m n s (M : 'M[F]_(m, n)) : 0 < s -> bnd s M -> bnd s M^T.
Proof.
move=> s0 H x; set w := M^T *m x.
have E : (x^T *m (M *m w)) 0 0 = sq w by rewrite sqE mulmxA /w trmx_mul trmxK.
have := cs x (M *m w) (s ^+ 2); rewrite E => C.
have {}C := le_trans C (ler_add (H w) (lexx _)).
have : s ^+ 2 * sq w <= s ^+ 2 * (s ^+ 2 * sq x).
  have -> : s ^+ 2 * (s ^+ 2 * sq x) = (s ^+ 2) ^+ 2 * sq x by rewrite mulrA -expr2.
  by rewrite -(ler_add2l (s ^+ 2 * sq w)) -mulr2n -mulr_natl mulrA.
by rewrite ler_pmul2l // exprn_gt0.
Qed.

Lemma bnd_add m n s s' (M N : 'M[F]_(m, n)) : 0 < s -> 0 < s' -> bnd s M -> bnd s' N -> bnd (s + s') (M + N).
Proof.
move=> s0 s0' H H' x; rewrite mulmxDl; set a := M *m x; set b := N *m x.
have Ea : sq a <= s ^+ 2 * sq x := H x; have Eb : sq b <= s' ^+ 2 * sq x := H' x.
have -> : sq (a + b) = sq a + 2%:R * (a^T *m b) 0 0 + sq b.
  have := sq_sub a b (-1); rewrite scaleN1r opprK addrC => ->.
  by rewrite sqrrN expr1n mul1r mulrN1 mulNr opprK; zmod.
have C : s * s' * (2%:R * (a^T *m b) 0 0) <= s ^+ 2 * sq b + s' ^+ 2 * sq a.
  have Eb2 : sq (s *: b) = s ^+ 2 * sq b.
    have Et : (s *: b)^T = s *: b^T by rewrite linearZ.
    rewrite !sqE Et -scalemxAl -scalemxAr; move: (b^T *m b) => c.
    by rewrite !mxE mulrA expr2.
  have := cs a (s *: b) s'; rewrite Eb2 -scalemxAr; move: (a^T *m b) => c; rewrite mxE => C.
  by have -> : s * s' * (2%:R * c 0 0) = 2%:R * s' * (s * c 0 0) by rewrite mulr_natl mulr_natl; crng.
have {C} C : 2%:R * (a^T *m b) 0 0 <= s * s' * sq x *+ 2.
  have s2 : 0 < s * s' by rewrite mulr_gt0.
  rewrite -(ler_pmul2l s2); apply: le_trans C _.
  have -> : s * s' * (s * s' * sq x *+ 2) = s ^+ 2 * (s' ^+ 2 * sq x) + s' ^+ 2 * (s ^+ 2 * sq x) by rewrite !expr2; crng.
  by apply: ler_add; rewrite ler_wpmul2l ?sqr_ge0.
have -> : (s + s') ^+ 2 * sq x = s ^+ 2 * sq x + s * s' * sq x *+ 2 + s' ^+ 2 * sq x by rewrite !expr2; crng.
by apply: ler_add => //; apply: ler_add.
Qed.

Lemma qb_bnd n s (M : 'M[F]_n) : 0 < s -> bnd s M -> qb s M.
Proof.
move=> s0 H x; rewrite /qf -mulmxA; have s2 : 0 < 2%:R * s by rewrite mulr_gt0 ?ltr0n.
have E : s ^+ 2 * sq x + s ^+ 2 * sq x = 2%:R * s * (s * sq x) by rewrite expr2 mulr_natl; crng.
rewrite ler_norml; apply/andP; split.
  rewrite ler_oppl -(ler_pmul2l s2) -E.
  have := cs x (- (M *m x)) s; rewrite mulmxN mxE => C; apply: le_trans C _.
  by apply: ler_add => //; have := bnd_opp H x; rewrite mulNmx.
by rewrite -(ler_pmul2l s2) -E; apply: le_trans (cs _ _ _) _; apply: ler_add.
Qed.

Lemma qb_add n s s' (M N : 'M[F]_n) : qb s M -> qb s' N -> qb (s + s') (M + N).
Proof.
move=> H H' x; rewrite qfD mulrDl; apply: le_trans (ler_norm_add _ _) _.
by apply: ler_add.
Qed.

Lemma qb_opp n s (M : 'M[F]_n) : qb s M -> qb s (- M).
Proof. by move=> H x; rewrite qfN normrN. Qed.

Lemma qb_psd n s (M : 'M[F]_n) : M^T = M -> qb s M -> psd (s *: 1%:M + M) /\ psd (s *: 1%:M - M).
Proof.
move=> sM H; split; split.
- by rewrite linearD /= linearZ /= trmx1 sM.
- by move=> x; rewrite qfD qfZ; have := H x; rewrite ler_norml => /andP [C _]; rewrite -ler_subl_addl sub0r.
- by rewrite linearB /= linearZ /= trmx1 sM.
- by move=> x; rewrite qfB qfZ subr_ge0; have := H x; rewrite ler_norml => /andP [].
Qed.

Lemma psd_bnd n v (V : 'M[F]_n) : 0 < v -> psd V -> psd (v *: 1%:M - V) -> bnd v V.
Proof.
move=> v0 HV HvV x.
have E : v *: (v *: V - V *m V) = (v *: 1%:M - V) *m V *m (v *: 1%:M - V)^T + V *m (v *: 1%:M - V) *m V^T.
  rewrite (psd_sym HvV) (psd_sym HV); set W := v *: 1%:M - V.
  have E1 : V *m W = v *: V - V *m V by rewrite /W mulmxBr -scalemxAr mulmx1.
  have -> : W *m V = V *m W by rewrite E1 /W mulmxBl -scalemxAl mul1mx.
  by rewrite -mulmxDr /W subrK -E1 -scalemxAr mulmx1.
have P1 : psd (v *: (v *: V - V *m V)) by rewrite E; apply: psdD; apply: psd_congr'.
have := proj2 P1 x; rewrite qfZ pmulr_rge0 // qfB qfZ subr_ge0 => L.
have -> : sq (V *m x) = qf (V *m V) x by rewrite -qf_congr mulmx1 (psd_sym HV).
apply: le_trans L _; rewrite expr2 -mulrA (ler_wpmul2l (ltW v0)) //.
by have := proj2 HvV x; rewrite qfB qfZ subr_ge0.
Qed.

Lemma inv_bnd n c (S : 'M[F]_n) : 0 < c -> psd (S - c *: 1%:M) -> bnd c^-1 (invmx S) /\ S \in unitmx.
Proof.
move=> c0 H.
have HS : spd S.
  rewrite -[S](subrK (c *: 1%:M)) addrC; apply: spdD => //.
  by rewrite scalemx1; apply: spd_scalar.
have uS := spd_unit HS; split=> // x; set w := invmx S *m x.
have Ex : x = S *m w by rewrite /w mulKVmx.
have L : c * sq w <= (w^T *m x) 0 0.
  by have := proj2 H w; rewrite qfB qfZ subr_ge0 [qf S w]/qf -mulmxA -Ex.
have C := cs w x c.
rewrite exprVn -(ler_pmul2l (exprn_gt0 2 c0)) mulrA mulfV ?expf_neq0 ?gt_eqF // mul1r.
rewrite -(ler_add2r (c ^+ 2 * sq w)) -mulr2n -mulr_natl; apply: le_trans C.
by rewrite -mulrA ler_pmul2l ?ltr0n // expr2 -mulrA (ler_wpmul2l (ltW c0)).
Qed.

Lemma tr_bnd m n r (M : 'M[F]_(m, n)) : 0 < r -> psd (r *: 1%:M - M *m M^T) -> bnd (Num.sqrt r) M /\ bnd (Num.sqrt r) M^T.
Proof.
move=> r0 H; have s0 : 0 < Num.sqrt r by rewrite sqrtr_gt0.
have B : bnd (Num.sqrt r) M^T.
  move=> x; rewrite (sqr_sqrtr (ltW r0)); have := proj2 H x; rewrite qfB qfZ subr_ge0.
  have -> // : sq (M^T *m x) = qf (M *m M^T) x by rewrite -qf_congr mulmx1 trmxK.
by split=> //; have := bnd_tr s0 B; rewrite trmxK.
Qed.
End Op.

(* ---------- standardised states: the error to the right and to the left ---------- *)
Section Alg.
Variables (F : fieldType) (d : nat).
Implicit Types A B Q V E : 'M[F]_d.
Lemma trmxD' A B : (A + B)^T = A^T + B^T. Proof. exact: linearD. Qed.
Lemma trmxB' A B : (A - B)^T = A^T - B^T. Proof. exact: linearB. Qed.
Lemma right_alg B Q V E : (1%:M - B) *m Q + (1%:M - B) *m V *m (1%:M - B)^T + E *m E^T - (V + Q) =
  - (B *m Q) - (B *m V) - (V *m B^T) + B *m V *m B^T + E *m E^T.
Proof.
rewrite [(1%:M - B)^T]linearB /= trmx1 mulmxBl mul1mx (mulmxBl 1%:M B V) mul1mx mulmxBr mulmx1 mulmxBl.
by move: (B *m Q) (B *m V *m B^T) (B *m V) (V *m B^T) (E *m E^T) => x1 x2 x3 x4 x5; zmod.
Qed.

Lemma left_alg A1 A2 K DD Dl Q : Q = 1%:M - A1 *m A1^T ->
  Q - (A2^T + Dl) *m A2 *m Q + DD + (A2^T + Dl) *m K *m (A2^T + Dl)^T - (1%:M - A2^T *m A2 + A2^T *m K *m A2) =
  - ((1%:M - A2^T *m A2) *m (A1 *m A1^T)) - Dl *m A2 *m Q + DD + (Dl *m K *m A2 + A2^T *m K *m Dl^T + Dl *m K *m Dl^T).
Proof.
move=> EQ; rewrite (mulmxBl 1%:M) mul1mx [(_ + _)^T]linearD /= trmxK !(mulmxDl A2^T Dl) !(mulmxDl (_ *m _)) !mulmxDr.
have -> : A2^T *m A2 *m (A1 *m A1^T) = A2^T *m A2 - A2^T *m A2 *m Q by rewrite EQ mulmxBr mulmx1 opprB addrC subrK.
have -> : A1 *m A1^T = 1%:M - Q by rewrite EQ opprB addrC subrK.
move: (A2^T *m A2 *m Q) (A2^T *m A2) (Dl *m A2 *m Q) (A2^T *m K *m A2) (Dl *m K *m A2) (A2^T *m K *m Dl^T) (Dl *m K *m Dl^T) => x1 x2 x3 x4 x5 x6 x7.
by zmod.
Qed.

Lemma dE_alg A1 A2 : (1%:M - A1 *m A1^T) *m A2^T - A2^T *m (1%:M - A2 *m A2^T + A2 *m (1%:M - A1 *m A1^T) *m A2^T) =
  - ((1%:M - A2^T *m A2) *m (A1 *m A1^T) *m A2^T).
Proof.
set W := A1 *m A1^T.
rewrite mulmxBl mul1mx mulmxDr mulmxBr mulmx1 (mulmxBr A2) mulmx1 (mulmxBl A2) (mulmxBr A2^T) !(mulmxBl 1%:M) !mul1mx mulmxBl !mulmxA.
by move: (W *m A2^T) (A2^T *m A2 *m W *m A2^T) (A2^T *m A2 *m A2^T) => x1 x2 x3; zmod.
Qed.

Lemma D_alg A1 A2 Dl : A1 - (A2^T + Dl) *m A2 *m A1 = (1%:M - A2^T *m A2 - Dl *m A2) *m A1.
Proof. by rewrite (mulmxDl A2^T) (mulmxDl (A2^T *m A2)) mulmxBl (mulmxBl 1%:M) mul1mx; zmod. Qed.
End Alg.

Section White.
Variable F : rcfType.
Notation sq x := (qf 1%:M x).
Variables (d : nat) (r v : F).
Hypothesis r0 : 0 < r.
Hypothesis r1 : r < 1.
Hypothesis v0 : 0 < v.

Definition rel_err := r / (1 - r).
Definition cov_err := r + rel_err + r / (1 - r) ^+ 2 + (2%:R * rel_err + rel_err ^+ 2) * v.
Notation b := rel_err.
Let b0 : 0 < b. Proof. by rewrite divr_gt0 // subr_gt0. Qed.
Let c0 : 0 < 1 - r. Proof. by rewrite subr_gt0. Qed.
Let s0 : 0 < Num.sqrt r. Proof. by rewrite sqrtr_gt0. Qed.

Lemma one_bnd : bnd 1 (1%:M : 'M[F]_d).
Proof. by move=> x; rewrite mul1mx expr1n mul1r. Qed.

Lemma le1_bnd (Q : 'M[F]_d) : psd Q -> psd (1%:M - Q) -> bnd 1 Q.
Proof. by move=> H H'; apply: (psd_bnd ltr01 H); rewrite scale1r. Qed.

Lemma compl_psd n (A : 'M[F]_(n, d)) : psd (1%:M - A *m A^T) -> psd (1%:M - A^T *m A).
Proof.
move=> H; split; first by rewrite linearB /= trmx1 trmx_mul trmxK.
have /(tr_bnd ltr01) [B _] : psd (1 *: 1%:M - A *m A^T) by rewrite scale1r.
move=> x; rewrite qfB subr_ge0; have := B x; rewrite sqrtr1 expr1n mul1r.
by have -> // : qf (A^T *m A) x = sq (A *m x) by rewrite -qf_congr mulmx1.
Qed.

Section Right.
Variables (A' Q V : 'M[F]_d).
Hypotheses (HQ : psd Q) (HQ1 : psd (1%:M - Q)) (HA : psd (r *: 1%:M - A' *m A'^T)) (HV : psd V) (HV1 : psd (v *: 1%:M - V)).
Let S := 1%:M - A' *m A'^T + A' *m Q *m A'^T.
Let E := Q *m A'^T *m invmx S.
Let B := E *m A'.

Lemma right_S : psd (S - (1 - r) *: 1%:M).
Proof.
have -> : S - (1 - r) *: 1%:M = (r *: 1%:M - A' *m A'^T) + A' *m Q *m A'^T by rewrite /S scalerBl scale1r; zmod.
by apply: psdD => //; apply: psd_congr'.
Qed.

Lemma right_E : bnd (Num.sqrt r / (1 - r)) E.
Proof.
have [_ BA] := tr_bnd r0 HA; have [BS _] := inv_bnd c0 right_S.
by rewrite -[Num.sqrt r]mul1r; apply: bnd_mul BS; apply: bnd_mul BA; apply: le1_bnd.
Qed.

Lemma right_B : bnd b B.
Proof.
have [BA _] := tr_bnd r0 HA; have := bnd_mul right_E BA.
by rewrite mulrAC -expr2 (sqr_sqrtr (ltW r0)).
Qed.

Lemma right_cov : let C := (1%:M - B) *m Q + (1%:M - B) *m V *m (1%:M - B)^T + E *m E^T in
  psd (cov_err *: 1%:M + (C - (V + Q))) /\ psd (cov_err *: 1%:M - (C - (V + Q))).
Proof.
move=> C.
have sS : S^T = S.
  by rewrite /S linearD /= linearB /= trmx1 !trmx_mul !trmxK (psd_sym HQ) !mulmxA.
have sBQ : (B *m Q)^T = B *m Q.
  by rewrite /B /E !trmx_mul !trmxK tr_invmx sS (psd_sym HQ) !mulmxA.
have EC : C - (V + Q) = - (B *m Q) - (B *m V) - (V *m B^T) + B *m V *m B^T + E *m E^T.
  exact: right_alg.
have sE : (C - (V + Q))^T = C - (V + Q).
  rewrite EC linearD /= linearD /= linearB /= linearB /= linearN /= sBQ !trmx_mul !trmxK (psd_sym HV) !mulmxA.
  by zmod.
apply: qb_psd => //; rewrite EC.
have BB := right_B; have BQ := le1_bnd HQ HQ1; have BV := psd_bnd v0 HV HV1.
have BBt := bnd_tr b0 BB; have BE := right_E.
have e0 : 0 < Num.sqrt r / (1 - r) by rewrite divr_gt0.
have BEt := bnd_tr e0 BE.
have -> : cov_err = r + (b + b * v + v * b + b * v * b + (Num.sqrt r / (1 - r)) * (Num.sqrt r / (1 - r))).
  rewrite /cov_err; have -> : (Num.sqrt r / (1 - r)) * (Num.sqrt r / (1 - r)) = r / (1 - r) ^+ 2.
    by rewrite mulrACA -expr2 (sqr_sqrtr (ltW r0)) -invfM -expr2.
  move: b (r / (1 - r) ^+ 2) => p q; rewrite expr2 mulr_natl; crng.
move=> x; apply: (@le_trans _ _ ((b + b * v + v * b + b * v * b + (Num.sqrt r / (1 - r)) * (Num.sqrt r / (1 - r))) * sq x)); last first.
  by rewrite [X in _ <= X]mulrDl ler_addr mulr_ge0 ?qf1_ge0 // ltW.
have bv0 : 0 < b * v by rewrite mulr_gt0.
have vb0 : 0 < v * b by rewrite mulr_gt0.
have bvb0 : 0 < b * v * b by rewrite mulr_gt0.
have ee0 : 0 < Num.sqrt r / (1 - r) * (Num.sqrt r / (1 - r)) by rewrite mulr_gt0.
have H1 : qb b (B *m Q) by apply: (qb_bnd b0); rewrite -[b]mulr1; exact: bnd_mul BB BQ.
have H2 : qb (b * v) (B *m V) := qb_bnd bv0 (bnd_mul BB BV).
have H3 : qb (v * b) (V *m B^T) := qb_bnd vb0 (bnd_mul BV BBt).
have H4 : qb (b * v * b) (B *m V *m B^T) := qb_bnd bvb0 (bnd_mul (bnd_mul BB BV) BBt).
have H5 := qb_bnd ee0 (bnd_mul BE BEt).
exact: (qb_add (qb_add (qb_add (qb_add (qb_opp H1) (qb_opp H2)) (qb_opp H3)) H4) H5 x).
Qed.
End Right.

Section Left.
Variables (A1 A2 K : 'M[F]_d).
Hypotheses (HA : psd (r *: 1%:M - A1 *m A1^T)) (HA2 : psd (1%:M - A2 *m A2^T)) (HK : psd K) (HK1 : psd (v *: 1%:M - K)).
Let Q1 := 1%:M - A1 *m A1^T.
Let S := 1%:M - A2 *m A2^T + A2 *m Q1 *m A2^T.
Let E := Q1 *m A2^T *m invmx S.
Let D := A1 - E *m A2 *m A1.

Lemma left_bnd2 : bnd 1 A2 /\ bnd 1 A2^T.
Proof. by have := @tr_bnd F d d 1 A2 ltr01; rewrite scale1r sqrtr1; apply. Qed.

Lemma left_Q1 : psd Q1 /\ psd (1%:M - Q1).
Proof.
split; last by rewrite /Q1 opprB addrC subrK; exact: psd_mul_tr.
have -> : Q1 = (r *: 1%:M - A1 *m A1^T) + (1 - r) *: 1%:M by rewrite /Q1 scalerBl scale1r; zmod.
apply: psdD => //; rewrite scalemx1; by apply/spd_psd/spd_scalar.
Qed.

Lemma left_S : psd (S - (1 - r) *: 1%:M).
Proof.
have -> : S - (1 - r) *: 1%:M = A2 *m (r *: 1%:M - A1 *m A1^T) *m A2^T + r *: (1%:M - A2 *m A2^T).
  rewrite /S /Q1 !mulmxBr !mulmxBl !mulmx1 -!scalemxAr -!scalemxAl mulmx1 scalerBl scale1r scalerBr; by zmod.
apply: psdD; first exact: psd_congr'.
split; first by rewrite linearZ /= (psd_sym HA2).
by move=> x; rewrite qfZ mulr_ge0 ?(ltW r0) //; case: HA2.
Qed.

Let G := 1%:M - A2^T *m A2.
Lemma left_G : bnd 1 G.
Proof.
apply: le1_bnd; first exact: compl_psd.
by rewrite /G opprB addrC subrK -[A2 in _ *m A2]trmxK; exact: psd_mul_tr.
Qed.

Lemma left_AA : bnd r (A1 *m A1^T).
Proof. by apply: psd_bnd => //; exact: psd_mul_tr. Qed.

Lemma left_dE : E - A2^T = - (G *m (A1 *m A1^T) *m A2^T *m invmx S).
Proof.
have [_ uS] := inv_bnd c0 left_S.
apply: (mulmx_cancel_r uS); rewrite mulmxBl mulNmx /E !mulmxKV //.
exact: dE_alg.
Qed.

Lemma left_E : bnd b (E - A2^T).
Proof.
rewrite left_dE; apply: bnd_opp; have [BS _] := inv_bnd c0 left_S; have [_ B2] := left_bnd2.
rewrite /rel_err -[r in r / _]mulr1 -[r in r * 1]mul1r; apply: bnd_mul BS; apply: bnd_mul B2.
apply: bnd_mul left_AA; exact: left_G.
Qed.

Lemma left_cov : let C := Q1 - E *m A2 *m Q1 + D *m D^T + E *m K *m E^T in
  let X := 1%:M - A2^T *m A2 + A2^T *m K *m A2 in
  psd (cov_err *: 1%:M + (C - X)) /\ psd (cov_err *: 1%:M - (C - X)).
Proof.
move=> C X; pose Dl := E - A2^T; have BD : bnd b Dl := left_E.
have [Q1p Q1q] := left_Q1; have BQ := le1_bnd Q1p Q1q.
have sS : S^T = S.
  by rewrite /S linearD /= linearB /= trmx1 !trmx_mul !trmxK (psd_sym Q1p) !mulmxA.
have sEQ : (E *m A2 *m Q1)^T = E *m A2 *m Q1.
  by rewrite /E !trmx_mul !trmxK tr_invmx sS (psd_sym Q1p) !mulmxA.
have EE : E = A2^T + Dl by rewrite /Dl addrC subrK.
have EC : C - X = - (G *m (A1 *m A1^T)) - Dl *m A2 *m Q1 + D *m D^T + (Dl *m K *m A2 + A2^T *m K *m Dl^T + Dl *m K *m Dl^T).
  by rewrite /C /X EE; apply: left_alg.
have sE : (C - X)^T = C - X.
  have sC : C^T = C.
    rewrite /C trmxD' trmxD' trmxB' sEQ (psd_sym Q1p) !trmx_mul !trmxK (psd_sym HK); by rewrite !mulmxA.
  have sX : X^T = X.
    rewrite /X trmxD' trmxB' trmx1 !trmx_mul !trmxK (psd_sym HK); by rewrite !mulmxA.
  by rewrite trmxB' sC sX.
apply: qb_psd => //; rewrite EC.
have [B2 B2t] := left_bnd2; have BK := psd_bnd v0 HK HK1; have BDt := bnd_tr b0 BD.
have [BA BAt] := tr_bnd r0 HA.
have BDD : bnd ((1 + b) * Num.sqrt r) D.
  have -> : D = (G - Dl *m A2) *m A1.
    by rewrite /D EE; exact: D_alg.
  have BX : bnd b (Dl *m A2) by rewrite -[b]mulr1; exact: bnd_mul BD B2.
  exact: bnd_mul (bnd_add ltr01 b0 left_G (bnd_opp BX)) BA.
have d0 : 0 < (1 + b) * Num.sqrt r by rewrite mulr_gt0 //; exact: addr_gt0 ltr01 b0.
have BDDt := bnd_tr d0 BDD.
have Eb : 1 + b = (1 - r)^-1.
  have n0 : 1 - r != 0 by rewrite gt_eqF.
  by rewrite /rel_err -[X in X + _](mulfV n0) -mulrDl subrK mul1r.
have -> : cov_err = r + b + ((1 + b) * Num.sqrt r) * ((1 + b) * Num.sqrt r) + (b * v + v * b + b * v * b).
  rewrite /cov_err; have -> : (1 + b) * Num.sqrt r * ((1 + b) * Num.sqrt r) = r / (1 - r) ^+ 2.
    by rewrite mulrACA -expr2 -expr2 (sqr_sqrtr (ltW r0)) Eb exprVn mulrC.
  move: b (r / (1 - r) ^+ 2) => p q; rewrite expr2 mulr_natl; crng.
have bv0 : 0 < b * v by rewrite mulr_gt0.
have vb0 : 0 < v * b by rewrite mulr_gt0.
have bvb0 : 0 < b * v * b by rewrite mulr_gt0.
have dd0 : 0 < (1 + b) * Num.sqrt r * ((1 + b) * Num.sqrt r) by rewrite mulr_gt0.
have H1 : qb r (G *m (A1 *m A1^T)) by apply: (qb_bnd r0); rewrite -[r]mul1r; exact: bnd_mul left_G left_AA.
have H2 : qb b (Dl *m A2 *m Q1).
  by apply: (qb_bnd b0); rewrite -[b]mulr1 -[b]mulr1; exact: bnd_mul (bnd_mul BD B2) BQ.
have H3 := qb_bnd dd0 (bnd_mul BDD BDDt).
have H4 : qb (b * v) (Dl *m K *m A2).
  by apply: (qb_bnd bv0); rewrite -[b * v]mulr1; exact: bnd_mul (bnd_mul BD BK) B2.
have H5 : qb (v * b) (A2^T *m K *m Dl^T).
  by apply: (qb_bnd vb0); rewrite -[v]mul1r; exact: bnd_mul (bnd_mul B2t BK) BDt.
have H6 : qb (b * v * b) (Dl *m K *m Dl^T) := qb_bnd bvb0 (bnd_mul (bnd_mul BD BK) BDt).
exact: (qb_add (qb_add (qb_add (qb_opp H1) (qb_opp H2)) H3) (qb_add (qb_add H4 H5) H6)).
Qed.
End Left.
End White.

(* ---------- any stationary kernel ---------- *)
Section Stationary.
Variable F : rcfType.
Variables (d : nat) (P : 'M[F]_d).
Hypothesis HP : spd P.

Lemma white_factor : exists2 L : 'M[F]_d, L \in unitmx & P = L *m L^T.
Proof.
have [L E] := psd_factor (spd_psd HP); exists L => //.
have := spd_unit HP; rewrite E unitmxE det_mulmx unitrM => /andP [H _].
by rewrite unitmxE.
Qed.

Variable L : 'M[F]_d.
Hypotheses (uL : L \in unitmx) (EL : P = L *m L^T).
Let g (X : 'M[F]_d) := invmx L *m X *m L.
Let w (X : 'M[F]_d) := invmx L *m X *m (invmx L)^T.

Lemma LtV : (invmx L)^T *m L^T = 1%:M. Proof. by rewrite -trmx_mul mulmxV // trmx1. Qed.
Lemma g_mul X Y : g (X *m Y) = g X *m g Y.
Proof. by rewrite /g !mulmxA (mulmxK uL). Qed.
Lemma g_1 : g 1%:M = 1%:M. Proof. by rewrite /g mulmx1 mulVmx. Qed.
Lemma g_sub X Y : g (X - Y) = g X - g Y. Proof. by rewrite /g mulmxBr mulmxBl. Qed.
Lemma gw X Y : w (X *m Y) = g X *m w Y.
Proof. by rewrite /g /w !mulmxA (mulmxK uL). Qed.
Lemma wg X Y : w (X *m Y^T) = w X *m (g Y)^T.
Proof.
rewrite /g /w !trmx_mul.
have -> : invmx L *m X *m (invmx L)^T *m (L^T *m (Y^T *m (invmx L)^T)) = invmx L *m X *m ((invmx L)^T *m L^T) *m Y^T *m (invmx L)^T by rewrite !mulmxA.
by rewrite LtV mulmx1 !mulmxA.
Qed.
Lemma w_add X Y : w (X + Y) = w X + w Y. Proof. by rewrite /w mulmxDr mulmxDl. Qed.
Lemma w_sub X Y : w (X - Y) = w X - w Y. Proof. by rewrite /w mulmxBr mulmxBl. Qed.
Lemma w_scale c X : w (c *: X) = c *: w X. Proof. by rewrite /w -scalemxAr -scalemxAl. Qed.
Lemma w_P : w P = 1%:M.
Proof. by rewrite /w EL mulmxA mulVmx // mul1mx -trmx_mul mulVmx // trmx1. Qed.
Lemma w_psd X : psd X -> psd (w X). Proof. exact: psd_congr'. Qed.
Lemma psd_w X : psd (w X) -> psd X.
Proof.
move=> H; have -> : X = L *m w X *m L^T; last exact: psd_congr'.
by rewrite /w !mulmxA mulmxV // mul1mx -mulmxA LtV mulmx1.
Qed.
Lemma w_inv S : S \in unitmx -> invmx (w S) = L^T *m invmx S *m L.
Proof.
move=> uS; apply: mulmx1_inv; rewrite /w !mulmxA.
rewrite -(mulmxA (invmx L *m S)) LtV mulmx1 -(mulmxA (invmx L)) mulmxV // mulmx1.
by rewrite mulVmx.
Qed.
Lemma wg_inv X S : S \in unitmx -> g (X *m invmx S) = w X *m invmx (w S).
Proof.
move=> uS; rewrite w_inv // /g /w.
have -> : invmx L *m X *m (invmx L)^T *m (L^T *m invmx S *m L) = invmx L *m X *m ((invmx L)^T *m L^T) *m invmx S *m L by rewrite !mulmxA.
by rewrite LtV mulmx1 !mulmxA.
Qed.
Lemma qf_w x : qf (invmx P) x = qf 1%:M (invmx L *m x).
Proof. by rewrite EL invmx_mul ?unitmx_tr // -tr_invmx -qf_congr mulmx1. Qed.
Lemma qf_g X x : qf (invmx P) (X *m x) = qf 1%:M (g X *m (invmx L *m x)).
Proof. by rewrite qf_w /g !mulmxA mulmxK. Qed.

Lemma w_C (B Q V E : 'M[F]_d) : w (B *m Q + B *m V *m B^T + E *m P *m E^T) = g B *m w Q + g B *m w V *m (g B)^T + g E *m (g E)^T.
Proof. by rewrite !w_add !wg !gw w_P mulmx1. Qed.
Lemma w_C' (Q B D E K : 'M[F]_d) : w (Q - B *m Q + D *m P *m D^T + E *m K *m E^T) =
  w Q - g B *m w Q + g D *m (g D)^T + g E *m w K *m (g E)^T.
Proof. by rewrite w_add w_add w_sub !wg !gw w_P mulmx1. Qed.
Lemma w_X (B A K : 'M[F]_d) : w (P - B *m (A *m P) + B *m K *m B^T) = 1%:M - g B *m g A + g B *m w K *m (g B)^T.
Proof. by rewrite w_add w_sub !wg !gw w_P mulmx1. Qed.

Variables (r v : F).
Hypotheses (r0 : 0 < r) (r1 : r < 1) (v0 : 0 < v).

Let c0r : 0 < 1 - r. Proof. by rewrite subr_gt0. Qed.
Lemma right_gen (A A' K : 'M[F]_d) : psd (P - A *m P *m A^T) -> psd (r *: P - A' *m P *m A'^T) -> psd K -> psd (v *: P - K) ->
  let Q := P - A *m P *m A^T in
  let E := Q *m A'^T *m invmx (P - A' *m P *m A'^T + A' *m Q *m A'^T) in
  let V := A *m K *m A^T in
  let C := (1%:M - E *m A') *m Q + (1%:M - E *m A') *m V *m (1%:M - E *m A')^T + E *m P *m E^T in
  [/\ forall u, qf (invmx P) (E *m A' *m u) <= rel_err r ^+ 2 * qf (invmx P) u,
      psd (cov_err r v *: P + (C - (V + Q))) & psd (cov_err r v *: P - (C - (V + Q)))].
Proof.
move=> HQ HA HK HvK Q E V C; set S := P - A' *m P *m A'^T + _ in E C *.
have EQ : w Q = 1%:M - g A *m (g A)^T by rewrite /Q w_sub w_P wg gw w_P mulmx1.
have HQw : psd (w Q) by apply: w_psd.
have HQ1 : psd (1%:M - w Q) by rewrite EQ opprB addrC subrK; exact: psd_mul_tr.
have HAw : psd (r *: 1%:M - g A' *m (g A')^T).
  by have := w_psd HA; rewrite w_sub w_scale w_P wg gw w_P mulmx1.
have ES : w S = 1%:M - g A' *m (g A')^T + g A' *m w Q *m (g A')^T.
  by rewrite /S w_add w_sub w_P !wg !gw w_P mulmx1.
have uS : S \in unitmx.
  have [_ uw] := inv_bnd c0r (right_S HQw HAw).
  by rewrite -ES in uw; move: uw; rewrite /w !unitmx_mul unitmx_tr !unitmx_inv uL !andbT.
have EE : g E = w Q *m (g A')^T *m invmx (w S) by rewrite /E wg_inv // wg.
have HV : psd (w V) by apply/w_psd/psd_congr'.
have HV1 : psd (v *: 1%:M - w V).
  rewrite -w_P -w_scale -w_sub; apply: w_psd.
  have -> : v *: P - V = A *m (v *: P - K) *m A^T + v *: Q.
    by rewrite /Q /V mulmxBr mulmxBl scalerBr -scalemxAr -scalemxAl; zmod.
  apply: psdD; first exact: psd_congr'.
  split; first by rewrite linearZ /= (psd_sym HQ).
  by move=> x; rewrite qfZ mulr_ge0 ?(ltW v0) //; case: HQ.
have RB := right_B r0 r1 HQw HQ1 HAw; have [R1 R2] := right_cov r0 r1 v0 HQw HQ1 HAw HV HV1.
rewrite -ES -EE in RB R1 R2.
have EC : w C = (1%:M - g E *m g A') *m w Q + (1%:M - g E *m g A') *m w V *m (1%:M - g E *m g A')^T + g E *m (g E)^T.
  by rewrite /C w_C g_sub g_1 g_mul.
split.
- by move=> u; rewrite qf_g g_mul qf_w.
- by apply: psd_w; rewrite w_add w_scale w_P w_sub EC (w_add V Q).
- by apply: psd_w; rewrite w_sub w_scale w_P w_sub EC (w_add V Q).
Qed.

Lemma left_gen (A1 A2 K : 'M[F]_d) : psd (r *: P - A1 *m P *m A1^T) -> psd (P - A2 *m P *m A2^T) -> psd K -> psd (v *: P - K) ->
  let Q1 := P - A1 *m P *m A1^T in
  let E := Q1 *m A2^T *m invmx (P - A2 *m P *m A2^T + A2 *m Q1 *m A2^T) in
  let D := A1 - E *m A2 *m A1 in
  let B := P *m A2^T *m invmx P in
  let C := Q1 - E *m A2 *m Q1 + D *m P *m D^T + E *m K *m E^T in
  let X := P - B *m (A2 *m P) + B *m K *m B^T in
  [/\ forall u, qf (invmx P) (E *m u - B *m u) <= rel_err r ^+ 2 * qf (invmx P) u,
      psd (cov_err r v *: P + (C - X)) & psd (cov_err r v *: P - (C - X))].
Proof.
move=> HA HA2 HK HvK Q1 E D B C X; set S := P - A2 *m P *m A2^T + _ in E D C *.
have EQ : w Q1 = 1%:M - g A1 *m (g A1)^T by rewrite /Q1 w_sub w_P wg gw w_P mulmx1.
have HAw : psd (r *: 1%:M - g A1 *m (g A1)^T).
  by have := w_psd HA; rewrite w_sub w_scale w_P wg gw w_P mulmx1.
have HA2w : psd (1%:M - g A2 *m (g A2)^T).
  by have := w_psd HA2; rewrite w_sub w_P wg gw w_P mulmx1.
have ES : w S = 1%:M - g A2 *m (g A2)^T + g A2 *m w Q1 *m (g A2)^T.
  by rewrite /S w_add w_sub w_P !wg !gw w_P mulmx1.
rewrite EQ in ES.
have uS : S \in unitmx.
  have [_ uw] := inv_bnd c0r (left_S r0 HAw HA2w).
  by rewrite -ES in uw; move: uw; rewrite /w !unitmx_mul unitmx_tr !unitmx_inv uL !andbT.
have uP := spd_unit HP.
have EB : g B = (g A2)^T by rewrite /B wg_inv // wg w_P mul1mx invmx1 mulmx1.
have EE : g E = (1%:M - g A1 *m (g A1)^T) *m (g A2)^T *m invmx (w S) by rewrite /E wg_inv // wg EQ.
have HKw : psd (w K) by apply: w_psd.
have HK1 : psd (v *: 1%:M - w K) by rewrite -w_P -w_scale -w_sub; apply: w_psd.
have RE := left_E r0 r1 HAw HA2w; have [R1 R2] := left_cov r0 r1 v0 HAw HA2w HKw HK1.
rewrite -ES -EE in RE R1 R2; rewrite -EQ in R1 R2.
have EC : w C = w Q1 - g E *m g A2 *m w Q1 + (g A1 - g E *m g A2 *m g A1) *m (g A1 - g E *m g A2 *m g A1)^T + g E *m w K *m (g E)^T.
  by rewrite /C w_C' /D g_sub !g_mul.
have EX : w X = 1%:M - (g A2)^T *m g A2 + (g A2)^T *m w K *m g A2.
  by rewrite /X w_X EB trmxK.
split.
- move=> u; rewrite -mulmxBl qf_g g_sub EB qf_w; exact: RE.
- by apply: psd_w; rewrite w_add w_scale w_P w_sub EC EX.
- by apply: psd_w; rewrite w_sub w_scale w_P w_sub EC EX.
Qed.
End Stationary.

(* ---------- predictions outside the range ---------- *)
Section Predict.
Variable F : rcfType.
Variables (d : nat) (ker : sde_kernel F d) (n : nat) (z : nat -> F) (P : 'M[F]_d).
Hypothesis Hker : markov_kernel ker.
Hypothesis Hm0 : k_mean0 ker = 0.
Hypothesis HP : forall s, k_P0 ker s = P.
Hypothesis Hz : increasing n.+1 z.
Variables (post : ssm F d) (m : nat -> 'cV[F]_d) (K : nat -> nat -> 'M[F]_d).
Hypothesis NP : ssm_nonsing n post.
Hypothesis LP : has_law n.+1 n.+1 (ssm_path post) m K.
Variables (r v t t0 : F).
Hypotheses (r0 : 0 < r) (r1 : r < 1) (v0 : 0 < v).
Notation INF := (APPROX_INF F).

Lemma law_psd i : (i < n.+1)%N -> psd (K i i).
Proof.
have [G [_ E]] := LP; move=> Hi; rewrite (E i i Hi Hi) /wn_cov.
by apply: psd_sum => l; exact: psd_mul_tr.
Qed.

Lemma cov_stat s a : 0 <= a -> k_cov ker s a = P - k_trans ker s a *m P *m (k_trans ker s a)^T.
Proof. by move=> Ha; have := mk_P0 Hker s Ha; rewrite !HP => E; apply/eqP; rewrite eq_sym subr_eq addrC -E. Qed.

Lemma P_spd : spd P. Proof. by have := mk_P0_spd Hker 0; rewrite HP. Qed.

Lemma cov_psd s a : 0 < a -> psd (P - k_trans ker s a *m P *m (k_trans ker s a)^T).
Proof. by move=> Ha; rewrite -cov_stat ?(ltW Ha) //; apply/spd_psd/mk_cov_spd. Qed.

Lemma right_error : z n < t -> t < INF ->
  let A := k_trans ker (z n) (t - z n) in let A' := k_trans ker t (INF - t) in
  psd (r *: P - A' *m P *m A'^T) -> psd (v *: P - K n n) ->
  let p := predict_state ker n post z t0 t in let X := A *m K n n *m A^T + k_cov ker (z n) (t - z n) in
  [/\ qf (invmx P) (p.1 - A *m m n) <= rel_err r ^+ 2 * qf (invmx P) (A *m m n),
      psd (cov_err r v *: P + (p.2 - X)) & psd (cov_err r v *: P - (p.2 - X))].
Proof.
move=> H1 H2 A A' HA Hv p X.
have T1 : 0 < t - z n by rewrite subr_gt0.
have T2 : 0 < INF - t by rewrite subr_gt0.
have [L uL EL] := white_factor P_spd.
have [G1 G2 G3] := right_gen uL EL r0 r1 v0 (cov_psd (z n) T1) HA (law_psd (ltnSn n)) Hv.
have Ep := predict_right Hker Hz t0 H1 H2 NP LP.
rewrite /p /X Ep /= HP (cov_stat _ (ltW T1)) (cov_stat _ (ltW T2)) Hm0 sub0r.
split; [|exact: G2|exact: G3].
rewrite addrC addKr mulmxN; have -> : forall y, qf (invmx P) (- y) = qf (invmx P) y.
  by move=> y; rewrite /qf; have -> : (- y)^T = - y^T; [by rewrite linearN|rewrite !mulNmx mulmxN opprK].
by rewrite mulmxA; exact: G1.
Qed.

Lemma left_error : - INF < t -> t < z 0%N ->
  let A1 := k_trans ker (- INF) (t + INF) in
  psd (r *: P - A1 *m P *m A1^T) -> psd (v *: P - K 0%N 0%N) ->
  let p := predict_state ker n post z t0 t in
  let B := state_cov ker t (z 0%N) *m invmx P in
  let X := P - B *m state_cov ker (z 0%N) t + B *m K 0%N 0%N *m B^T in
  [/\ qf (invmx P) (p.1 - B *m m 0%N) <= rel_err r ^+ 2 * qf (invmx P) (m 0%N),
      psd (cov_err r v *: P + (p.2 - X)) & psd (cov_err r v *: P - (p.2 - X))].
Proof.
move=> H1 H2 A1 HA Hv p B X.
have T1 : 0 < t + INF by rewrite -[INF]opprK subr_gt0.
have T2 : 0 < z 0%N - t by rewrite subr_gt0.
have [L uL EL] := white_factor P_spd.
set A2 := k_trans ker t (z 0%N - t).
have HA2 : psd (P - A2 *m P *m A2^T) := cov_psd t T2.
have [G1 G2 G3] := left_gen P_spd uL EL r0 r1 v0 HA HA2 (law_psd (ltn0Sn n)) Hv.
have E1 : state_cov ker (z 0%N) t = A2 *m P by rewrite /state_cov (ltW H2) HP.
have E2 : state_cov ker t (z 0%N) = P *m A2^T.
  by rewrite -state_cov_tr // E1 trmx_mul (spd_sym P_spd).
have HQ := spd_sym (mk_cov_spd Hker (- INF) T1).
have HS : spd (k_cov ker t (z 0%N - t) + A2 *m k_cov ker (- INF) (t + INF) *m A2^T).
  apply: spdD; first exact: (mk_cov_spd Hker).
  by apply/psd_congr'/spd_psd/(mk_cov_spd Hker).
have EST : conditional_statistics ker n.+1 z t =
   (row_mx (A1 - (k_cov ker (- INF) (t + INF) *m A2^T *m invmx (k_cov ker t (z 0%N - t) + A2 *m k_cov ker (- INF) (t + INF) *m A2^T)) *m A2 *m A1)
     (k_cov ker (- INF) (t + INF) *m A2^T *m invmx (k_cov ker t (z 0%N - t) + A2 *m k_cov ker (- INF) (t + INF) *m A2^T)),
    k_cov ker (- INF) (t + INF) - k_cov ker (- INF) (t + INF) *m A2^T *m invmx (k_cov ker t (z 0%N - t) + A2 *m k_cov ker (- INF) (t + INF) *m A2^T) *m A2 *m k_cov ker (- INF) (t + INF), 0%N).
  rewrite /conditional_statistics (searchsorted_left Hz (ltW H2)) /augment_times ltn0Sn opprK.
  by rewrite (cond_statsE _ HQ).
rewrite (cov_stat _ (ltW T1)) (cov_stat _ (ltW T2)) in EST.
rewrite /p /X /B (predict_stateE _ _ EST) E1 E2 {EST}.
have [-> ->] := pairwise_first NP LP (k_mean0 ker) (k_P0 ker t0).
rewrite Hm0 HP /= tr_row_mx mul_row_block !mul_row_col !mulmx0 addr0 !add0r [in X in psd (_ + (X - _))]addrA.
rewrite [in X in psd (_ - (X - _))]addrA.
by split; [exact: G1|exact: G2|exact: G3].
Qed.
End Predict.

(* transitions e (1 + h N + h^2 N^2 / 2) *)
Section Fade.
Variable F : rcfType.
Variables (d : nat) (P N : 'M[F]_d) (s e h : F).
Hypotheses (HP : spd P) (s0 : 0 < s) (e0 : 0 < e) (h0 : 0 < h).
Hypothesis HN : psd (s ^+ 2 *: P - N *m P *m N^T).

Lemma bnd_psd n c (M : 'M[F]_n) : 0 < c -> bnd c M -> psd (c ^+ 2 *: 1%:M - M *m M^T).
Proof.
move=> c0 H; have Ht := bnd_tr c0 H; split.
  by rewrite trmxB' linearZ /= trmx1 trmx_mul trmxK.
move=> x; rewrite qfB qfZ subr_ge0; have -> : qf (M *m M^T) x = qf 1%:M (M^T *m x) by rewrite -qf_congr trmxK mulmx1.
exact: Ht.
Qed.

Lemma bnd_scale n c (M : 'M[F]_n) a : bnd c M -> bnd (a * c) (a *: M).
Proof.
move=> H; have -> : a *: M = (a *: 1%:M) *m M by rewrite -scalemxAl mul1mx.
apply: bnd_mul H => x; rewrite -scalemxAl mul1mx /qf.
have -> : (a *: x)^T = a *: x^T by rewrite linearZ.
rewrite !mulmx1 -scalemxAl -scalemxAr scalerA; move: (x^T *m x) => y.
by rewrite mxE expr2.
Qed.

Lemma fade_gen : let A := e *: (1%:M + h *: N + (h ^+ 2 / 2%:R) *: (N *m N)) in
  psd ((e * (1 + h * s + h ^+ 2 / 2%:R * (s * s))) ^+ 2 *: P - A *m P *m A^T).
Proof.
move=> A; have [L uL EL] := white_factor HP.
have BN : bnd s (invmx L *m N *m L).
  have := w_psd L HN; rewrite w_sub w_scale (w_P uL EL) (wg uL) (gw uL) (w_P uL EL) mulmx1 => H.
  have s20 : 0 < s ^+ 2 by rewrite exprn_gt0.
  by have [B _] := tr_bnd s20 H; move: B; rewrite sqrtr_sqr (gtr0_norm s0).
have h20 : 0 < h ^+ 2 / 2%:R by rewrite divr_gt0 ?exprn_gt0 ?ltr0n.
have g1 : 0 < h * s by rewrite mulr_gt0.
have g2 : 0 < h ^+ 2 / 2%:R * (s * s) := mulr_gt0 h20 (mulr_gt0 s0 s0).
have g3 : 0 < 1 + h * s by rewrite addr_gt0 ?ltr01.
have g4 : 0 < 1 + h * s + h ^+ 2 / 2%:R * (s * s) by rewrite addr_gt0.
have BA : bnd (e * (1 + h * s + h ^+ 2 / 2%:R * (s * s))) (invmx L *m A *m L).
  have -> : invmx L *m A *m L = e *: (1%:M + h *: (invmx L *m N *m L) + (h ^+ 2 / 2%:R) *: ((invmx L *m N *m L) *m (invmx L *m N *m L))).
    rewrite -(g_mul uL) /A -scalemxAr -scalemxAl !mulmxDr !mulmxDl mulmx1 mulVmx //.
    by rewrite -!scalemxAr -!scalemxAl.
  apply: bnd_scale; apply: (bnd_add g3 g2); last by apply: bnd_scale; apply: bnd_mul.
  by apply: (bnd_add ltr01 g1); [exact: one_bnd|apply: bnd_scale].
have e4 : 0 < e * (1 + h * s + h ^+ 2 / 2%:R * (s * s)) by rewrite mulr_gt0.
apply: (psd_w uL); rewrite w_sub w_scale (w_P uL EL) (wg uL) (gw uL) (w_P uL EL) mulmx1.
exact: bnd_psd.
Qed.

Lemma psd_more a b (M : 'M[F]_d) : a <= b -> psd (a *: P - M) -> psd (b *: P - M).
Proof.
move=> ab H; have -> : b *: P - M = (b - a) *: P + (a *: P - M) by rewrite scalerBl; zmod.
apply: psdD => //; split; first by rewrite linearZ /= (spd_sym HP).
by move=> x; rewrite qfZ mulr_ge0 ?subr_ge0 //; case: (spd_psd HP).
Qed.
End Fade.

(* ---------- the bounds in a simple form ---------- *)
Section Simple.
Variable F : rcfType.
Implicit Types (r v : F).

Lemma rel_half r : 0 < r -> r <= 2%:R^-1 -> rel_err r <= 2%:R * r.
Proof.
move=> r0 r2; have h0 : 0 < 2%:R^-1 :> F by rewrite invr_gt0 ltr0n.
have E2 : 2%:R^-1 + 2%:R^-1 = 1 :> F by rewrite -mulr2n -[_ *+ 2]mulr_natr mulVf ?pnatr_eq0.
have H : 2%:R^-1 <= 1 - r by rewrite -[X in X - r]E2 -addrA ler_addl subr_ge0.
have p0 := lt_le_trans h0 H.
rewrite /rel_err mulrC; apply: ler_pmul; rewrite ?lexx ?(ltW r0) ?invr_ge0 ?(ltW p0) //.
by rewrite -[X in _ <= X]invrK lef_pinv.
Qed.

Lemma cov_half r v : 0 < r -> r <= 2%:R^-1 -> 0 <= v -> cov_err r v <= 8%:R * r * (1 + v).
Proof.
move=> r0 r2 v0; have H := rel_half r0 r2.
have h0 : 0 < 2%:R^-1 :> F by rewrite invr_gt0 ltr0n.
have E2 : 2%:R^-1 + 2%:R^-1 = 1 :> F by rewrite -mulr2n -[_ *+ 2]mulr_natr mulVf ?pnatr_eq0.
have H1 : 2%:R^-1 <= 1 - r by rewrite -[X in X - r]E2 -addrA ler_addl subr_ge0.
have p0 := lt_le_trans h0 H1.
have q0 : 0 <= rel_err r by rewrite /rel_err mulr_ge0 ?(ltW r0) ?invr_ge0 ?(ltW p0).
have Hi : (1 - r)^-1 <= 2%:R by rewrite -[X in _ <= X]invrK lef_pinv.
have H2 : r / (1 - r) ^+ 2 <= 4%:R * r.
  have -> : r / (1 - r) ^+ 2 = (1 - r)^-1 * rel_err r by rewrite /rel_err expr2 invfM mulrA mulrC.
  have -> : 4%:R * r = 2%:R * (2%:R * r) by rewrite mulrA -natrM.
  by apply: ler_pmul => //; rewrite invr_ge0 (ltW p0).
have H3 : rel_err r ^+ 2 <= 2%:R * r.
  have q1 : rel_err r <= 1.
    apply: le_trans H _; apply: (@le_trans _ _ (2%:R * 2%:R^-1)); last by rewrite divff ?pnatr_eq0.
    by apply: ler_wpmul2l; rewrite ?ler0n.
  by rewrite expr2; apply: le_trans _ H; rewrite -[X in _ <= X]mul1r; apply: ler_wpmul2r.
have H4 : 2%:R * rel_err r + rel_err r ^+ 2 <= 8%:R * r.
  apply: (@le_trans _ _ (2%:R * (2%:R * r) + 2%:R * r)); first by apply: ler_add => //; apply: ler_wpmul2l; rewrite ?ler0n.
  by rewrite mulrA -mulrDl -natrM -natrD; apply: ler_wpmul2r; rewrite ?(ltW r0) ?ler_nat.
rewrite /cov_err mulrDr mulr1; apply: ler_add; last by apply: ler_wpmul2r.
apply: (@le_trans _ _ (r + 2%:R * r + 4%:R * r)); first by apply: ler_add => //; apply: ler_add.
by rewrite -[X in X + _ + _]mul1r -!mulrDl -(natrD F 1 2) -natrD; apply: ler_wpmul2r; rewrite ?(ltW r0) ?ler_nat.
Qed.
End Simple.

Section Simple2.
Variable F : rcfType.
Variables (d : nat) (ker : sde_kernel F d) (n : nat) (z : nat -> F) (P : 'M[F]_d).
Hypothesis Hker : markov_kernel ker.
Hypothesis Hm0 : k_mean0 ker = 0.
Hypothesis HP : forall s, k_P0 ker s = P.
Hypothesis Hz : increasing n.+1 z.
Variables (post : ssm F d) (m : nat -> 'cV[F]_d) (K : nat -> nat -> 'M[F]_d).
Hypothesis NP : ssm_nonsing n post.
Hypothesis LP : has_law n.+1 n.+1 (ssm_path post) m K.
Variables (r v t t0 : F).
Hypotheses (r0 : 0 < r) (r2 : r <= 2%:R^-1) (v0 : 0 < v).
Notation INF := (APPROX_INF F).

Let r1 : r < 1.
Proof. by apply: le_lt_trans r2 _; rewrite invf_lt1 ?ltr0n // ltr1n. Qed.

Let SP : spd P := P_spd Hker HP.
Let Hc : cov_err r v <= 8%:R * r * (1 + v) := cov_half r0 r2 (ltW v0).
Let Hr (y : F) : 0 <= y -> rel_err r ^+ 2 * y <= (2%:R * r) ^+ 2 * y.
Proof.
move=> y0; apply: ler_wpmul2r => //; rewrite ler_pexpn2r ?rel_half // nnegrE.
  by rewrite /rel_err mulr_ge0 ?(ltW r0) // invr_ge0 subr_ge0 (ltW r1).
by rewrite mulr_ge0 ?ler0n ?(ltW r0).
Qed.

Lemma psd_more' a b (M : 'M[F]_d) : a <= b -> psd (a *: P + M) -> psd (b *: P + M).
Proof. by move=> ab; rewrite -[M]opprK; exact: psd_more. Qed.

Lemma right_bound : z n < t -> t < INF ->
  let A := k_trans ker (z n) (t - z n) in let A' := k_trans ker t (INF - t) in
  psd (r *: P - A' *m P *m A'^T) -> psd (v *: P - K n n) ->
  let p := predict_state ker n post z t0 t in let X := A *m K n n *m A^T + k_cov ker (z n) (t - z n) in
  [/\ qf (invmx P) (p.1 - A *m m n) <= (2%:R * r) ^+ 2 * qf (invmx P) (A *m m n),
      psd ((8%:R * r * (1 + v)) *: P + (p.2 - X)) & psd ((8%:R * r * (1 + v)) *: P - (p.2 - X))].
Proof.
move=> H1 H2 A A' HA Hv p X.
have [G1 G2 G3] := right_error Hker Hm0 HP Hz NP LP t0 r0 r1 v0 H1 H2 HA Hv.
split; [|exact: psd_more' G2|exact: psd_more G3].
by apply: le_trans G1 _; apply: Hr; case: (spd_psd (spd_inv SP)).
Qed.

Lemma left_bound : - INF < t -> t < z 0%N ->
  let A1 := k_trans ker (- INF) (t + INF) in
  psd (r *: P - A1 *m P *m A1^T) -> psd (v *: P - K 0%N 0%N) ->
  let p := predict_state ker n post z t0 t in
  let B := state_cov ker t (z 0%N) *m invmx P in
  let X := P - B *m state_cov ker (z 0%N) t + B *m K 0%N 0%N *m B^T in
  [/\ qf (invmx P) (p.1 - B *m m 0%N) <= (2%:R * r) ^+ 2 * qf (invmx P) (m 0%N),
      psd ((8%:R * r * (1 + v)) *: P + (p.2 - X)) & psd ((8%:R * r * (1 + v)) *: P - (p.2 - X))].
Proof.
move=> H1 H2 A1 HA Hv p B X.
have [G1 G2 G3] := left_error Hker Hm0 HP Hz NP LP t0 r0 r1 v0 H1 H2 HA Hv.
split; [|exact: psd_more' G2|exact: psd_more G3].
by apply: le_trans G1 _; apply: Hr; case: (spd_psd (spd_inv SP)).
Qed.
End Simple2.
