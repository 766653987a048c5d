(* Symmetric positive (semi)definite matrices, Cholesky factors, Schur
   complements, the Woodbury identity and the matrix determinant lemma.
   Library file; independent of the model. *)
From mathcomp Require Import all_ssreflect all_algebra.
From Verif Require Import Alg.
Set Implicit Arguments.
Unset Strict Implicit.
Unset Printing Implicit Defensive.
Import GRing.Theory Num.Theory Order.TTheory.
Local Open Scope ring_scope.

Section Inverse.
Variable F : fieldType.

Lemma mulmx1_inv n (A B : 'M[F]_n) : A *m B = 1%:M -> invmx A = B.
Proof.
move=> H; have [uA _] := mulmx1_unit H.
by rewrite -[RHS]mul1mx -(mulVmx uA) -mulmxA H mulmx1.
Qed.

Lemma invmx_mul n (A B : 'M[F]_n) :
  A \in unitmx -> B \in unitmx -> invmx (A *m B) = invmx B *m invmx A.
Proof.
move=> uA uB; apply: mulmx1_inv.
by rewrite mulmxA -(mulmxA A) mulmxV // mulmx1 mulmxV.
Qed.

Lemma mulmx_cancel_l n m (A : 'M[F]_n) (X Y : 'M[F]_(n, m)) :
  A \in unitmx -> A *m X = A *m Y -> X = Y.
Proof. by move=> uA H; rewrite -(mulKmx uA X) H mulKmx. Qed.

Lemma mulmx_cancel_r n m (A : 'M[F]_n) (X Y : 'M[F]_(m, n)) :
  A \in unitmx -> X *m A = Y *m A -> X = Y.
Proof. by move=> uA H; rewrite -(mulmxK uA X) H mulmxK. Qed.

Lemma tr_invmx n (A : 'M[F]_n) : (invmx A)^T = invmx A^T.
Proof. exact: trmx_inv. Qed.

(* Woodbury *)
Lemma woodbury n m (K : 'M[F]_n) (S : 'M[F]_m) (G : 'M[F]_(m, n)) (G' : 'M[F]_(n, m)) :
  K \in unitmx -> S \in unitmx -> G *m K *m G' + S \in unitmx ->
  (invmx K + G' *m invmx S *m G) *m (K - K *m G' *m invmx (G *m K *m G' + S) *m G *m K) = 1%:M.
Proof.
move=> uK uS uW; set W := invmx (G *m K *m G' + S).
have HW : (G *m K *m G' + S) *m W = 1%:M by rewrite mulmxV.
rewrite mulmxBr mulmxDl mulVmx //.
have -> : (invmx K + G' *m invmx S *m G) *m (K *m G' *m W *m G *m K) =
          G' *m invmx S *m ((G *m K *m G' + S) *m W) *m G *m K.
  rewrite !(mulmxDl, mulmxDr) !mulmxA mulVmx // mul1mx.
  rewrite -(mulmxA G' (invmx S) S) mulVmx // mulmx1 ?mulmxA addrC.
  by [].
by rewrite HW mulmx1 addrK.
Qed.

Lemma woodbury_inv n m (K : 'M[F]_n) (S : 'M[F]_m) (G : 'M[F]_(m, n)) (G' : 'M[F]_(n, m)) :
  K \in unitmx -> S \in unitmx -> G *m K *m G' + S \in unitmx ->
  invmx (invmx K + G' *m invmx S *m G) = K - K *m G' *m invmx (G *m K *m G' + S) *m G *m K.
Proof. by move=> uK uS uW; apply: mulmx1_inv; apply: woodbury. Qed.

(* push-through: gain in the two forms *)
Lemma woodbury_gain n m (K : 'M[F]_n) (S : 'M[F]_m) (G : 'M[F]_(m, n)) (G' : 'M[F]_(n, m)) :
  K \in unitmx -> S \in unitmx -> G *m K *m G' + S \in unitmx ->
  invmx (invmx K + G' *m invmx S *m G) *m G' *m invmx S =
  K *m G' *m invmx (G *m K *m G' + S).
Proof.
move=> uK uS uW; rewrite woodbury_inv //; set W := invmx (G *m K *m G' + S).
rewrite !mulmxBl -!mulmxA.
have -> : K *m (G' *m (W *m (G *m (K *m (G' *m invmx S))))) =
          K *m (G' *m (W *m ((G *m K *m G' + S) *m invmx S))) - K *m (G' *m W).
  rewrite mulmxDl mulmxV // !mulmxDr mulmx1 !mulmxA; exact: esym (addrK _ _).
by rewrite (mulmxA W) mulVmx // mul1mx opprB addrC subrK.
Qed.

(* covariance-space inverse in information form *)
Lemma woodbury_obs n m (K : 'M[F]_n) (S : 'M[F]_m) (G : 'M[F]_(m, n)) (G' : 'M[F]_(n, m)) :
  K \in unitmx -> S \in unitmx -> invmx K + G' *m invmx S *m G \in unitmx ->
  (G *m K *m G' + S) *m (invmx S - invmx S *m G *m invmx (invmx K + G' *m invmx S *m G) *m G' *m invmx S)
   = 1%:M.
Proof.
move=> uK uS uP; have := @woodbury _ _ (invmx S) (invmx K) G' G.
rewrite !unitmx_inv !invmxK => /(_ uS uK).
by rewrite (addrC S) (addrC _ (invmx K)) => /(_ uP).
Qed.

Lemma det_lemma n m (K : 'M[F]_n) (S : 'M[F]_m) (G : 'M[F]_(m, n)) (G' : 'M[F]_(n, m)) :
  K \in unitmx -> S \in unitmx ->
  \det (G *m K *m G' + S) = \det S * \det K * \det (invmx K + G' *m invmx S *m G).
Proof.
move=> uK uS.
have H1 : block_mx S (- G) G' (invmx K) =
  block_mx 1%:M 0 (G' *m invmx S) 1%:M *m block_mx S (- G) 0 (invmx K + G' *m invmx S *m G).
  rewrite mulmx_block !mul1mx !mul0mx !addr0 mulmxN mulmxKV //.
  by rewrite addrC addrK.
have H2 : block_mx S (- G) G' (invmx K) =
  block_mx 1%:M (- (G *m K)) 0 1%:M *m block_mx (G *m K *m G' + S) 0 G' (invmx K).
  rewrite mulmx_block !mul1mx !mul0mx !add0r mulNmx addrC addKr.
  by rewrite mulNmx mulmxK.
have : \det (block_mx S (- G) G' (invmx K)) = \det (block_mx S (- G) G' (invmx K)) by [].
rewrite {1}H1 H2 !det_mulmx det_lblock det_ublock det_lblock det_ublock !det1 !mul1r.
move=> E; rewrite mulrAC E -mulrA det_inv mulVf ?mulr1 //.
by rewrite -unitfE -unitmxE.
Qed.

End Inverse.

Section Spd.
Variable R : realFieldType.

(* quadratic form x^T K x *)
Definition qf n (K : 'M[R]_n) (x : 'cV[R]_n) : R := (x^T *m K *m x) 0 0.

Definition psd n (K : 'M[R]_n) := K^T = K /\ forall x : 'cV[R]_n, 0 <= qf K x.
Definition spd n (K : 'M[R]_n) := K^T = K /\ forall x : 'cV[R]_n, x != 0 -> 0 < qf K x.

Lemma qfD n (K L : 'M[R]_n) x : qf (K + L) x = qf K x + qf L x.
Proof. by rewrite /qf mulmxDr mulmxDl mxE. Qed.

Lemma qf0 n (K : 'M[R]_n) : qf K 0 = 0.
Proof. by rewrite /qf mulmx0 mxE. Qed.

Lemma qf_congr n m (K : 'M[R]_n) (B : 'M[R]_(n, m)) x :
  qf (B^T *m K *m B) x = qf K (B *m x).
Proof. by rewrite /qf trmx_mul !mulmxA. Qed.

Lemma qf1 n (x : 'cV[R]_n) : qf 1%:M x = \sum_i x i 0 ^+ 2.
Proof.
rewrite /qf mulmx1 !mxE; apply: eq_bigr => i _.
by rewrite !mxE expr2.
Qed.

Lemma qf1_ge0 n (x : 'cV[R]_n) : 0 <= qf 1%:M x.
Proof. by rewrite qf1 sumr_ge0 // => i _; rewrite sqr_ge0. Qed.

Lemma qf1_eq0 n (x : 'cV[R]_n) : qf 1%:M x = 0 -> x = 0.
Proof.
rewrite qf1 => /eqP; rewrite psumr_eq0; last by move=> i _; rewrite sqr_ge0.
move=> /allP H; apply/matrixP=> i j; rewrite ord1 mxE.
by have := H i (mem_index_enum i); rewrite /= sqrf_eq0 => /eqP.
Qed.

Lemma spd1 n : spd (1%:M : 'M[R]_n).
Proof.
split; first by rewrite trmx1.
move=> x nx; rewrite lt_neqAle qf1_ge0 andbT eq_sym.
by apply: contra nx => /eqP/qf1_eq0 ->.
Qed.

Lemma spd_psd n (K : 'M[R]_n) : spd K -> psd K.
Proof.
move=> [Ks Kp]; split=> // x; have [->|nx] := eqVneq x 0; first by rewrite qf0.
exact/ltW/Kp.
Qed.

Lemma spd_sym n (K : 'M[R]_n) : spd K -> K^T = K. Proof. by case. Qed.
Lemma psd_sym n (K : 'M[R]_n) : psd K -> K^T = K. Proof. by case. Qed.

Lemma psd0 n : psd (0 : 'M[R]_n).
Proof. by split=> [|x]; rewrite ?trmx0 // /qf mulmx0 mul0mx mxE. Qed.

Lemma psdD n (K L : 'M[R]_n) : psd K -> psd L -> psd (K + L).
Proof.
move=> [Ks Kp] [Ls Lp]; split; first by rewrite linearD /= Ks Ls.
by move=> x; rewrite qfD addr_ge0.
Qed.

Lemma spdD n (K L : 'M[R]_n) : spd K -> psd L -> spd (K + L).
Proof.
move=> [Ks Kp] [Ls Lp]; split; first by rewrite linearD /= Ks Ls.
by move=> x nx; rewrite qfD ltr_paddr // Kp.
Qed.

Lemma psd_congr n m (K : 'M[R]_n) (B : 'M[R]_(n, m)) : psd K -> psd (B^T *m K *m B).
Proof.
move=> [Ks Kp]; split; first by rewrite !trmx_mul trmxK Ks mulmxA.
by move=> x; rewrite qf_congr.
Qed.

Lemma psd_congr' n m (K : 'M[R]_n) (B : 'M[R]_(m, n)) : psd K -> psd (B *m K *m B^T).
Proof. by move=> H; have := psd_congr B^T H; rewrite trmxK. Qed.

Lemma psd_mul_tr n m (B : 'M[R]_(n, m)) : psd (B *m B^T).
Proof. by have := psd_congr' B (spd_psd (spd1 m)); rewrite mulmx1. Qed.

Lemma spd_congr n (K : 'M[R]_n) (B : 'M[R]_n) :
  B \in unitmx -> spd K -> spd (B^T *m K *m B).
Proof.
move=> uB [Ks Kp]; split; first by rewrite !trmx_mul trmxK Ks mulmxA.
move=> x nx; rewrite qf_congr Kp //.
by apply: contra nx => /eqP H; rewrite -(mulKmx uB x) H mulmx0.
Qed.

Lemma spd_congr' n (K : 'M[R]_n) (B : 'M[R]_n) :
  B \in unitmx -> spd K -> spd (B *m K *m B^T).
Proof. by move=> uB H; have := @spd_congr _ K B^T; rewrite trmxK unitmx_tr; apply. Qed.

Lemma spd_mul_tr n (B : 'M[R]_n) : B \in unitmx -> spd (B *m B^T).
Proof. by move=> uB; have := spd_congr' uB (spd1 n); rewrite mulmx1. Qed.

Lemma spd_unit n (K : 'M[R]_n) : spd K -> K \in unitmx.
Proof.
move=> [Ks Kp]; rewrite unitmxE unitfE; apply/negP => /det0P [v nv Hv].
have := Kp v^T; rewrite /qf trmxK Hv mul0mx mxE ltxx.
rewrite -(inj_eq (@trmx_inj _ _ _)) trmxK trmx0 nv; by move/(_ isT).
Qed.

Lemma spd_inv n (K : 'M[R]_n) : spd K -> spd (invmx K).
Proof.
move=> H; have uK := spd_unit H; have Ks := spd_sym H.
have -> : invmx K = (invmx K)^T *m K *m invmx K.
  by rewrite tr_invmx Ks mulVmx // mul1mx.
by apply: spd_congr => //; rewrite unitmx_inv.
Qed.

(* block structure *)
Lemma qf_block m n (A : 'M[R]_m) (B : 'M[R]_(m, n)) (B' : 'M[R]_(n, m)) (D : 'M[R]_n) x y :
  qf (block_mx A B B' D) (col_mx x y) =
  qf A x + (x^T *m B *m y) 0 0 + (y^T *m B' *m x) 0 0 + qf D y.
Proof.
rewrite /qf tr_col_mx mul_row_block mul_row_col !mulmxDl !mxlin; crng.
Qed.

Lemma spd_ul m n (M : 'M[R]_(m + n)) : spd M -> spd (ulsubmx M).
Proof.
move=> [Ms Mp]; split.
  by rewrite trmx_ulsub Ms.
move=> x nx; have := Mp (col_mx x 0).
have -> : qf M (col_mx x 0) =
   qf (block_mx (ulsubmx M) (ursubmx M) (dlsubmx M) (drsubmx M)) (col_mx x 0).
  by rewrite submxK.
rewrite qf_block !mulmx0 trmx0 !mul0mx qf0 !mxE !addr0; apply.
by apply: contra nx => /eqP; rewrite -col_mx0 => /eq_col_mx [-> _].
Qed.

Lemma spd_dr m n (M : 'M[R]_(m + n)) : spd M -> spd (drsubmx M).
Proof.
move=> [Ms Mp]; split.
  by rewrite trmx_drsub Ms.
move=> x nx; have := Mp (col_mx 0 x).
have -> : qf M (col_mx 0 x) =
   qf (block_mx (ulsubmx M) (ursubmx M) (dlsubmx M) (drsubmx M)) (col_mx 0 x).
  by rewrite submxK.
rewrite qf_block !mulmx0 trmx0 !mul0mx qf0 !mxE !add0r; apply.
by apply: contra nx => /eqP; rewrite -col_mx0 => /eq_col_mx [_ ->].
Qed.

Lemma spd_ur m n (M : 'M[R]_(m + n)) : spd M -> ursubmx M = (dlsubmx M)^T.
Proof. by move=> [Ms _]; rewrite -{1}Ms -trmx_dlsub. Qed.

(* Schur complement of the upper left block *)
Definition schur m n (M : 'M[R]_(m + n)) : 'M[R]_n :=
  drsubmx M - dlsubmx M *m invmx (ulsubmx M) *m (dlsubmx M)^T.

Lemma spd_schur m n (M : 'M[R]_(m + n)) : spd M -> spd (schur M).
Proof.
move=> H; have Hul := spd_ul H; have Hdr := spd_dr H; have Hur := spd_ur H.
have u := spd_unit Hul; have su := spd_sym Hul.
case: (H) => Ms Mp; split.
  rewrite /schur linearB /= (spd_sym Hdr) !trmx_mul trmxK tr_invmx su.
  by rewrite mulmxA.
move=> y ny; set x := - invmx (ulsubmx M) *m (dlsubmx M)^T *m y.
have nxy : col_mx x y != 0.
  by apply: contra ny => /eqP; rewrite -col_mx0 => /eq_col_mx [_ ->].
have := Mp _ nxy.
have -> : qf M (col_mx x y) =
   qf (block_mx (ulsubmx M) (dlsubmx M)^T (dlsubmx M) (drsubmx M)) (col_mx x y).
  by rewrite -Hur submxK.
rewrite qf_block.
suff -> : qf (ulsubmx M) x + (x^T *m (dlsubmx M)^T *m y) 0 0 +
  (y^T *m dlsubmx M *m x) 0 0 + qf (drsubmx M) y = qf (schur M) y by [].
rewrite /qf /schur; set U := ulsubmx M; set L := dlsubmx M; set D := drsubmx M.
have -> : x^T = - y^T *m L *m invmx U.
  by rewrite /x !mulNmx linearN /= !trmx_mul trmxK tr_invmx su mulmxA.
have -> : x = - (invmx U *m L^T *m y) by rewrite /x !mulNmx.
repeat (progress mxexp).
rewrite -(mulmxA _ (invmx U) U) mulVmx // mulmx1.
rewrite !mxlin; crng.
Qed.

Lemma spd_block m n (A : 'M[R]_m) (B : 'M[R]_(n, m)) (D : 'M[R]_n) :
  spd A -> spd (D - B *m invmx A *m B^T) -> spd (block_mx A B^T B D).
Proof.
move=> HA HS; have uA := spd_unit HA; have sA := spd_sym HA.
have HD : D^T = D.
  have := spd_sym HS; rewrite linearB /= !trmx_mul trmxK tr_invmx sA mulmxA.
  by move/(congr1 (fun X => X + B *m invmx A *m B^T)); rewrite !subrK.
split; first by rewrite tr_block_mx trmxK sA HD.
move=> z nz; rewrite -[z]vsubmxK; set x := usubmx z; set y := dsubmx z.
have E : qf (block_mx A B^T B D) (col_mx x y) =
   qf A (x + invmx A *m B^T *m y) + qf (D - B *m invmx A *m B^T) y.
  rewrite qf_block /qf.
  have -> : (x + invmx A *m B^T *m y)^T = x^T + y^T *m B *m invmx A.
    by rewrite linearD /= !trmx_mul trmxK tr_invmx sA mulmxA.
  repeat (progress mxexp).
  rewrite -(mulmxA _ (invmx A) A) mulVmx // mulmx1 -(mulmxA _ A (invmx A)) mulmxV // mulmx1.
  rewrite !mxlin; crng.
rewrite E; have [y0|ny] := eqVneq y 0.
  rewrite y0 qf0 mulmx0 !addr0; apply (proj2 HA).
  by apply: contra nz => /eqP x0; rewrite -[z]vsubmxK -/x -/y x0 y0 col_mx0.
by rewrite ltr_paddl // ?(proj2 HS) // (proj2 (spd_psd HA)).
Qed.

Lemma spd11 (a : R) : 0 < a -> spd (a%:M : 'M[R]_1).
Proof.
move=> Ha; split; first by rewrite tr_scalar_mx.
move=> x nx; rewrite /qf !mxE big_ord1 !mxE big_ord1 !mxE mulr1n.
have : x 0 0 != 0.
  by apply: contra nx => /eqP H; apply/eqP/matrixP=> i j; rewrite !ord1 H mxE.
move=> H; rewrite mulrC mulrA -expr2 mulr_gt0 //.
by rewrite exprn_even_gt0.
Qed.

Lemma spd11_gt0 (M : 'M[R]_1) : spd M -> 0 < M 0 0.
Proof.
move=> [_ /(_ 1%:M)]; rewrite /qf trmx1 mulmx1 mul1mx; apply.
by apply/negP => /eqP/matrixP /(_ 0 0); rewrite !mxE eqxx => /eqP; rewrite oner_eq0.
Qed.

Lemma quad_delta (A : ringType) n (M : 'M[A]_n) i :
  ((delta_mx i 0 : 'cV[A]_n)^T *m M *m (delta_mx i 0 : 'cV[A]_n)) 0 0 = M i i.
Proof.
rewrite mxE (bigD1 i) //= big1 ?addr0 => [|k nk]; last first.
  by rewrite [X in _ * X]mxE (negbTE nk) mulr0.
rewrite [X in _ * X]mxE !eqxx mulr1 mxE (bigD1 i) //= big1 ?addr0 => [|k nk].
  by rewrite !mxE !eqxx mul1r.
by rewrite !mxE (negbTE nk) mul0r.
Qed.

Lemma spd_diag_gt0 n (M : 'M[R]_n) i : spd M -> 0 < M i i.
Proof.
move=> [_ H]; have := H (delta_mx i 0); rewrite /qf.
rewrite quad_delta; apply; apply/negP => /eqP/matrixP /(_ i 0); rewrite !mxE !eqxx => /eqP.
by rewrite oner_eq0.
Qed.

End Spd.

(* lower triangular with positive diagonal *)
Definition lowpos (R : realFieldType) n (L : 'M[R]_n) :=
  is_trig_mx L /\ forall i, 0 < L i i.
(* lower triangular with non-zero diagonal *)
Definition lownz (R : realFieldType) n (L : 'M[R]_n) :=
  is_trig_mx L /\ forall i, L i i != 0.

Section Tri.
Variable R : realFieldType.

Lemma lowpos_nz n (L : 'M[R]_n) : lowpos L -> lownz L.
Proof. by case=> t p; split=> // i; rewrite gt_eqF. Qed.

Lemma lownz_unit n (L : 'M[R]_n) : lownz L -> L \in unitmx.
Proof.
case=> t p; rewrite unitmxE det_trig // unitfE.
by apply/prodf_neq0 => i _; exact: p.
Qed.

Lemma lowpos_unit n (L : 'M[R]_n) : lowpos L -> L \in unitmx.
Proof. by move/lowpos_nz/lownz_unit. Qed.

Lemma lownz_spd n (L : 'M[R]_n) : lownz L -> spd (L *m L^T).
Proof. by move/lownz_unit/spd_mul_tr. Qed.

Lemma lowpos_spd n (L : 'M[R]_n) : lowpos L -> spd (L *m L^T).
Proof. by move/lowpos_unit/spd_mul_tr. Qed.

Lemma det_mul_tr n (L : 'M[R]_n) : \det (L *m L^T) = \det L ^+ 2.
Proof. by rewrite det_mulmx det_tr expr2. Qed.

Lemma lowpos_block m n (A : 'M[R]_m) (B : 'M[R]_(n, m)) (D : 'M[R]_n) :
  lowpos A -> lowpos D -> lowpos (block_mx A 0 B D).
Proof.
move=> [tA pA] [tD pD]; split.
  by rewrite is_trig_block_mx // eqxx tA tD.
move=> i; case: (splitP i) => j Hj.
  have -> : i = lshift n j by exact: val_inj.
  by rewrite block_mxEul.
have -> : i = rshift m j by exact: val_inj.
by rewrite block_mxEdr.
Qed.

Lemma lowpos_blockP m n (A : 'M[R]_m) (C : 'M[R]_(m, n)) (B : 'M[R]_(n, m)) (D : 'M[R]_n) :
  lowpos (block_mx A C B D) -> [/\ C = 0, lowpos A & lowpos D].
Proof.
move=> [t p]; move: t; rewrite is_trig_block_mx // => /and3P [/eqP c tA tD].
split=> //; split=> // i.
  by have := p (lshift n i); rewrite block_mxEul.
by have := p (rshift m i); rewrite block_mxEdr.
Qed.

(* uniqueness of the Cholesky factor *)
Lemma chol_unique n (L L' : 'M[R]_n) :
  lowpos L -> lowpos L' -> L *m L^T = L' *m L'^T -> L = L'.
Proof.
elim: n L L' => [|n IH] L L'; first by move=> *; apply/matrixP=> -[].
rewrite -[n.+1]/(1 + n)%N in L L' *.
rewrite -[L]submxK -[L']submxK.
set a := ulsubmx L; set b := ursubmx L; set c := dlsubmx L; set d := drsubmx L.
set a' := ulsubmx L'; set b' := ursubmx L'; set c' := dlsubmx L'; set d' := drsubmx L'.
move=> /lowpos_blockP [-> Ha Hd] /lowpos_blockP [-> Ha' Hd'].
rewrite !tr_block_mx !trmx0 !mulmx_block !mulmx0 !mul0mx !addr0.
move=> /eq_block_mx [Eul _ Edl Edr].
have Ea : a = a'.
  have p1 := proj2 Ha 0; have p2 := proj2 Ha' 0.
  clearbody a a'; apply/matrixP=> i j; rewrite !ord1.
  move/matrixP: Eul => /(_ 0 0); rewrite !mxE !big_ord1 !mxE -!expr2 => /eqP.
  by rewrite eqr_expn2 // ?ltW // => /eqP.
have uat : a^T \in unitmx by rewrite unitmx_tr lowpos_unit.
have Ec : c = c' by apply: (mulmx_cancel_r uat); rewrite Edl -Ea.
have Ed : d = d'.
  apply: IH => //; move: Edr; rewrite Ec.
  exact: addrI.
by rewrite Ea Ec Ed.
Qed.

End Tri.

Section Chol.
Variable R : rcfType.

(* outer product Cholesky; reads the lower triangle only *)
Fixpoint chol n : 'M[R]_n -> 'M[R]_n :=
  match n return 'M[R]_n -> 'M[R]_n with
  | 0 => fun M => M
  | n'.+1 => fun M =>
      let a := @ulsubmx R 1 n' 1 n' M 0 0 in
      let v := @dlsubmx R 1 n' 1 n' M in
      let D := @drsubmx R 1 n' 1 n' M in
      @block_mx R 1 n' 1 n' (Num.sqrt a)%:M 0 ((Num.sqrt a)^-1 *: v) (chol (D - a^-1 *: (v *m v^T)))
  end.

Lemma chol_spec n (M : 'M[R]_n) : spd M -> lowpos (chol M) /\ chol M *m (chol M)^T = M.
Proof.
elim: n M => [|n IH] M HM.
  split; last by apply/matrixP=> -[].
  split; last by case.
  by apply/is_trig_mxP => -[].
rewrite -[n.+1]/(1 + n)%N in M HM *.
rewrite /chol -/chol; set a := ulsubmx M 0 0; set v := dlsubmx M; set D := drsubmx M.
have a0 : 0 < a by apply: spd11_gt0; apply: spd_ul.
have s0 : 0 < Num.sqrt a by rewrite sqrtr_gt0.
have Eu : ulsubmx M = a%:M by apply/matrixP=> i j; rewrite !ord1 [RHS]mxE eqxx mulr1n.
have Es : schur M = D - a^-1 *: (v *m v^T).
  by rewrite /schur Eu invmx_scalar mul_mx_scalar -scalemxAl.
have := spd_schur HM; rewrite Es => /IH [H1 H2]; split.
  apply: lowpos_block => //; split; first exact: scalar_mx_is_trig.
  by move=> i; rewrite mxE eqxx mulr1n.
have Hs : Num.sqrt a * Num.sqrt a = a by rewrite -expr2 sqr_sqrtr // ltW.
rewrite tr_block_mx !trmx0 mulmx_block !mulmx0 !mul0mx !addr0 H2.
rewrite tr_scalar_mx -scalar_mxM Hs mul_scalar_mx linearZ /= scalerA divff ?scale1r ?gt_eqF //.
rewrite mul_mx_scalar scalerA divff ?scale1r ?gt_eqF //.
rewrite -scalemxAl -scalemxAr scalerA -invfM Hs addrC subrK.
by rewrite -[RHS]submxK Eu (spd_ur HM).
Qed.

Lemma chol_lowpos n (M : 'M[R]_n) : spd M -> lowpos (chol M).
Proof. by move/chol_spec => []. Qed.
Lemma chol_mul n (M : 'M[R]_n) : spd M -> chol M *m (chol M)^T = M.
Proof. by move/chol_spec => []. Qed.
Lemma chol_unit n (M : 'M[R]_n) : spd M -> chol M \in unitmx.
Proof. by move/chol_lowpos/lowpos_unit. Qed.

Lemma chol_eq n (L : 'M[R]_n) : lowpos L -> chol (L *m L^T) = L.
Proof.
move=> HL; have [H1 H2] := chol_spec (lowpos_spd HL).
exact: chol_unique.
Qed.

Lemma chol_block m n (A : 'M[R]_m) (B : 'M[R]_(n, m)) (D : 'M[R]_n) :
  spd A -> spd (D - B *m invmx A *m B^T) ->
  chol (block_mx A B^T B D) =
  block_mx (chol A) 0 (B *m invmx (chol A)^T) (chol (D - B *m invmx A *m B^T)).
Proof.
move=> HA HS; have HM := spd_block HA HS.
have [lA mA] := chol_spec HA; have [lS mS] := chol_spec HS.
apply: chol_unique; [exact: chol_lowpos|exact: lowpos_block|].
rewrite chol_mul // tr_block_mx !trmx0 mulmx_block !mulmx0 !mul0mx !addr0 mA mS.
have uA := lowpos_unit lA; have uAt : (chol A)^T \in unitmx by rewrite unitmx_tr.
rewrite trmx_mul tr_invmx trmxK mulKVmx // mulmxKV //.
have -> : B *m invmx (chol A)^T *m (invmx (chol A) *m B^T) = B *m invmx A *m B^T.
  by rewrite -{3}mA invmx_mul // !mulmxA.
by rewrite addrC subrK.
Qed.

End Chol.
