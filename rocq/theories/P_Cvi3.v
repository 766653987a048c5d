(* Proofs for the sparse CVI model of M_Cvi.v. *)
From Coq Require Import Reals Lra FunctionalExtensionality.
From mathcomp Require Import all_ssreflect all_algebra.
From Verif Require Import MCalc RealStruct Nat Alg Lin Ent Spd Log M_Block S_Block P_Block P_Block2 M_SSM S_SSM P_SSM M_SSMLog P_SSMLog S_Gauss P_Gauss
  M_Trans S_Trans P_Trans P_TransLog S_Kalman M_Kalman P_Kalman P_KalmanLog P_Kalman2 M_Kernel S_Kernel P_Kernel M_Cond P_Cond P_Cond2 P_Cond3 P_Cond4
  M_Emission P_Emission M_Sort P_Sort M_Models S_GP P_Elbo P_Models P_Models2 M_Cvi S_Cvi P_Cvi.
Set Implicit Arguments.
Unset Strict Implicit.
Unset Printing Implicit Defensive.
Import GRing.Theory Num.Theory Order.TTheory.
Local Open Scope ring_scope.

Section Pairs.
Variables (d n : nat).
Implicit Types (u : nat -> 'cV[R]_d).

Lemma qf_pair (M : 'M[R]_(d + d)) (a b : 'cV[R]_d) : M^T = M ->
  qf M (col_mx a b) = qf (ulsubmx M) a + 2%:R * (b^T *m dlsubmx M *m a) 0 0 + qf (drsubmx M) b.
Proof.
move=> sM; rewrite -[M in LHS]submxK (@qf_block Rr).
have -> : (a^T *m ursubmx M *m b) 0 0 = (b^T *m dlsubmx M *m a) 0 0.
  rewrite -[LHS](@scal_tr Rr) !trmx_mul trmxK mulmxA; congr ((_ *m _ *m _) _ _).
  by rewrite trmx_ursub sM.
by set w := (b^T *m _ *m a) 0 0; rewrite (_ : 2%:R * w = w + w) ?addrA //; rewrite mulr_natl mulr2n.
Qed.

Variable s : pair_sites d.
Hypothesis Hsym : forall m, (m <= n.+1)%N -> (ps_nat2 s m)^T = ps_nat2 s m.
Let lin k := usubmx (ps_nat1 s k.+1) + dsubmx (ps_nat1 s k).
Let D k := ulsubmx (ps_nat2 s k.+1) + drsubmx (ps_nat2 s k).
Let E k := 2%:R *: dlsubmx (ps_nat2 s k.+1).
Let prev u m := if m is m'.+1 then inside n u m' else 0.

Lemma inside_in u k : (k <= n)%N -> inside n u k = u k.
Proof. by rewrite /inside => ->. Qed.
Lemma inside_out u : inside n u n.+1 = 0.
Proof. by rewrite /inside ltnn. Qed.

(* sums over the pairs, by first and second members *)
Lemma sum_first (f : nat -> 'cV[R]_d -> R) u : (forall m, f m 0 = 0) ->
  \sum_(m < n.+2) f m (prev u m) = \sum_(k < n.+1) f k.+1 (u k).
Proof.
move=> H; rewrite big_ord_recl [prev u _]/= H add0r; apply: eq_bigr => k _.
by rewrite [prev u _]/= inside_in //; exact: ltn_ord k.
Qed.
Lemma sum_second (f : nat -> 'cV[R]_d -> R) u : (forall m, f m 0 = 0) ->
  \sum_(m < n.+2) f m (inside n u m) = \sum_(k < n.+1) f k (u k).
Proof.
move=> H; rewrite big_ord_recr /= inside_out H addr0; apply: eq_bigr => k _.
by rewrite inside_in //; exact: ltn_ord k.
Qed.
Lemma sum_cross (f : nat -> 'cV[R]_d -> 'cV[R]_d -> R) u : (forall m v, f m 0 v = 0) -> (forall m v, f m v 0 = 0) ->
  \sum_(m < n.+2) f m (prev u m) (inside n u m) = \sum_(k < n) f k.+1 (u k) (u k.+1).
Proof.
move=> H1 H2; rewrite big_ord_recl [prev u _]/= H1 add0r big_ord_recr /= inside_out H2 addr0; apply: eq_bigr => k _.
have Hk := ltn_ord k.
by rewrite !inside_in //; lia.
Qed.

Lemma pairs_lin u : \sum_(m < n.+2) ((ps_nat1 s m)^T *m pair_at n u m) 0 0 = \sum_(k < n.+1) ((lin k)^T *m u k) 0 0.
Proof.
have e1 m : ((ps_nat1 s m)^T *m pair_at n u m) 0 0 =
  ((usubmx (ps_nat1 s m))^T *m prev u m) 0 0 + ((dsubmx (ps_nat1 s m))^T *m inside n u m) 0 0.
  by rewrite -{1}[ps_nat1 s m]vsubmxK tr_col_mx mul_row_col mxE.
rewrite (eq_bigr _ (fun (m : 'I_n.+2) _ => e1 m)) big_split.
rewrite (sum_first (f := fun m v => ((usubmx (ps_nat1 s m))^T *m v) 0 0)); last by move=> m; rewrite mulmx0 mxE.
rewrite (sum_second (f := fun m v => ((dsubmx (ps_nat1 s m))^T *m v) 0 0)); last by move=> m; rewrite mulmx0 mxE.
rewrite -[LHS]big_split; apply: eq_bigr => k _; rewrite /lin trmxD mulmxDl [RHS]mxE.
by [].
Qed.

Lemma pairs_quad u : \sum_(m < n.+2) qf (ps_nat2 s m) (pair_at n u m) =
  \sum_(k < n.+1) qf (D k) (u k) + \sum_(k < n) ((u k.+1)^T *m E k *m u k) 0 0.
Proof.
have e1 (m : 'I_n.+2) : true -> qf (ps_nat2 s m) (pair_at n u m) = qf (ulsubmx (ps_nat2 s m)) (prev u m) +
  2%:R * ((inside n u m)^T *m dlsubmx (ps_nat2 s m) *m prev u m) 0 0 + qf (drsubmx (ps_nat2 s m)) (inside n u m).
  by move=> _; rewrite -(qf_pair _ _ (Hsym (ltn_ord m))).
rewrite (eq_bigr _ e1) !big_split.
rewrite (sum_first (f := fun m v => qf (ulsubmx (ps_nat2 s m)) v)); last by move=> m; rewrite (@qf0 Rr).
rewrite (sum_second (f := fun m v => qf (drsubmx (ps_nat2 s m)) v)); last by move=> m; rewrite (@qf0 Rr).
rewrite (sum_cross (f := fun m v w => 2%:R * (w^T *m dlsubmx (ps_nat2 s m) *m v) 0 0)); first last.
- by move=> m v; rewrite trmx0 !mul0mx mxE mulr0.
- by move=> m v; rewrite mulmx0 mxE mulr0.
have -> : \sum_(k < n.+1) qf (D k) (u k) = \sum_(k < n.+1) qf (ulsubmx (ps_nat2 s k.+1)) (u k) +
  \sum_(k < n.+1) qf (drsubmx (ps_nat2 s k)) (u k).
  by rewrite -big_split; apply: eq_bigr => k _; rewrite (@qfD Rr).
have -> : \sum_(k < n) ((u k.+1)^T *m E k *m u k) 0 0 =
  \sum_(k < n) 2%:R * ((u k.+1)^T *m dlsubmx (ps_nat2 s k.+1) *m u k) 0 0.
  by apply: eq_bigr => k _; rewrite /E -scalemxAr -scalemxAl [LHS]mxE.
move: (\sum_(k < n.+1) _) (\sum_(k < n.+1) _) (\sum_(k < n) _) => a b c; exact: addrAC.
Qed.

Lemma pairs_exponentE u : pairs_exponent n s u =
  \sum_(k < n.+1) ((lin k)^T *m u k) 0 0 + (\sum_(k < n.+1) qf (D k) (u k) + \sum_(k < n) ((u k.+1)^T *m E k *m u k) 0 0).
Proof. by rewrite /pairs_exponent big_split -pairs_quad -pairs_lin. Qed.

Lemma D_sym k : (k <= n)%N -> (D k)^T = D k.
Proof.
move=> Hk; rewrite /D trmxD trmx_ulsub trmx_drsub !Hsym //; lia.
Qed.
End Pairs.

Lemma add00 (A B : 'M[R]_1) : (A + B) 0 0 = A 0 0 + B 0 0.
Proof. by rewrite mxE. Qed.
Lemma sub00 (A B : 'M[R]_1) : (A - B) 0 0 = A 0 0 - B 0 0.
Proof. by rewrite mxE mxE. Qed.
Lemma scale00 a (A : 'M[R]_1) : (a *: A) 0 0 = a * A 0 0.
Proof. by rewrite mxE. Qed.

(* a combination of two families of sites *)
Lemma pairs_comb d n (s s1 s2 : pair_sites d) a b u :
  (forall m, (m <= n.+1)%N -> ps_nat1 s m = a *: ps_nat1 s1 m + b *: ps_nat1 s2 m) ->
  (forall m, (m <= n.+1)%N -> ps_nat2 s m = a *: ps_nat2 s1 m + b *: ps_nat2 s2 m) ->
  pairs_exponent n s u = a * pairs_exponent n s1 u + b * pairs_exponent n s2 u.
Proof.
move=> H1 H2; rewrite /pairs_exponent !mulr_sumr -big_split; apply: eq_bigr => m _.
rewrite (H1 _ (ltn_ord m)) (H2 _ (ltn_ord m)) trmxD !trmxZ mulmxDl -!scalemxAl (@qfD Rr) !(@qfZ Rr).
set v := pair_at n u m; move: ((ps_nat1 s1 m)^T *m v) ((ps_nat1 s2 m)^T *m v) (qf _ v) (qf _ v) => A B c e.
rewrite add00 !scale00 !mulrDr; exact: addrACA.
Qed.

Section Sparse.
Variables (d : nat) (ker : sde_kernel Rr d) (emission : R -> 'M[R]_(1, d)).
Hypothesis Hker : markov_kernel ker.
Hypothesis Hm0 : k_mean0 ker = 0.
Variables (n : nat) (z : nat -> R).
Hypothesis Hz : increasing n.+1 z.
Hypothesis Hn : (0 < n)%N.
Let p := kssm ker z.
Let Np : ssm_nonsing n p := kssm_nonsing Hker Hz.
Let Kzz := x_gram ker n.+1 z.

(* the conditional mean of f(t) given the inducing states u *)
Let proj t (u : nat -> 'cV[R]_d) : R :=
  (emission t *m brow n.+1 (fun j => state_cov ker t (z j)) *m invmx Kzz *m flat n.+1 u) 0 0.

Lemma scvi_density s : (forall m, (m <= n.+1)%N -> (ps_nat2 s m)^T = ps_nat2 s m) ->
  (forall m v, (m <= n.+1)%N -> qf (ps_nat2 s m) v <= 0) ->
  exists q, [/\ scvi_dist_q ker n z s = Some q, ssm_chol n q &
  exists c, forall u, ssm_log_pdf n q u = ssm_log_pdf n p u + pairs_exponent n s u + c].
Proof.
move=> sS nS.
pose lin k := usubmx (ps_nat1 s k.+1) + dsubmx (ps_nat1 s k).
pose D k := ulsubmx (ps_nat2 s k.+1) + drsubmx (ps_nat2 s k).
pose E k := 2%:R *: dlsubmx (ps_nat2 s k.+1).
have [||q [E1 E2 [c E3]]] := @core_density d n p lin D E Np _ _ Hn.
- by move=> k; apply: D_sym.
- move=> x; rewrite -(pairs_quad sS) -oppr_ge0 -sumrN; apply: sumr_ge0 => m _; rewrite oppr_ge0; apply: nS.
  exact: ltn_ord m.
exists q; split=> //.
  by rewrite /scvi_dist_q (kernel_ssmE ker Hz) /obind /oapp -E1.
exists c => u; rewrite E3 (pairs_exponentE sS) -/lin -/D -/E; congr (_ + (_ + _) + _).
have L0 := prior_lin0 Hker Hz u Hm0.
apply: (etrans _ (subr0 _)); rewrite -[X in _ = _ - X]L0 -sumrB; apply: eq_bigr => k _.
rewrite linearB mulmxBl; exact: sub00.
Qed.

Lemma scvi_posterior_density s : (forall m, (m <= n.+1)%N -> (ps_nat2 s m)^T = ps_nat2 s m) ->
  (forall m v, (m <= n.+1)%N -> qf (ps_nat2 s m) v <= 0) ->
  exists q c, [/\ scvi_dist_q ker n z s = Some q, ssm_chol n q &
  forall m K u, has_law n.+1 n.+1 (ssm_path q) m K ->
  gauss_logpdf (flat n.+1 m) (dense n.+1 n.+1 K) (flat n.+1 u) =
  gauss_logpdf 0 Kzz (flat n.+1 u) + pairs_exponent n s u + c].
Proof.
move=> sS nS; have [q [E1 E2 [c E3]]] := scvi_density sS nS; exists q, c; split=> // m K x L.
rewrite -(log_pdf_law x (ssm_chol_nonsing E2) L) E3 (log_pdf_law x Np (prior_law Hker Hz)).
by rewrite (flat_mean0 Hm0).
Qed.

(* the projection of the pair of neighbouring inducing states *)
Lemma project_pair t u : covered n z t ->
  ((conditional_statistics ker n.+1 z t).1.1 *m pair_at n u (ext_searchsorted n.+1 z t)) =
  brow n.+1 (fun j => state_cov ker t (z j)) *m invmx Kzz *m flat n.+1 u.
Proof.
move=> Hc.
have E1 := covered_sample Hker Hz 0 u (fun _ => 0) Hc.
have E2 : brow n.+1 (fun j => state_cov ker t (z j)) = brow n.+1 (cs_J ker n z t) *m Kzz.
  rewrite /Kzz /x_gram dense_cols mul_mx_brow; apply: eq_brow => j Hj.
  by rewrite mul_brow_bcol (covered_cov Hker Hz Hc Hj).
rewrite E2 mulmxK; last by apply: Kzz_unit.
have E3 : \sum_(l < n.+1) cs_J ker n z t l *m (u l - 0) = \sum_(l < n.+1) cs_J ker n z t l *m u l.
  by apply: eq_bigr => l _; rewrite subr0.
rewrite mul_brow_bcol -E3; apply: oppr_inj; rewrite -[RHS]sub0r -E1 /sample_state sub0r.
congr (- (_ *m _)); rewrite /pair_at /extend_pairs /inside.
have E0 k : u k = u k - 0 by rewrite subr0.
by case: (ext_searchsorted _ _ _) => [|m]; rewrite ?ltnS -?E0 //; (congr col_mx; case: ifP).
Qed.

Lemma searchsorted_le t : (ext_searchsorted n.+1 z t <= n.+1)%N.
Proof. by rewrite /ext_searchsorted -{2}(size_iota 0 n.+1) find_size. Qed.

Lemma qf_sum e N (P : pred 'I_N) (A : 'I_N -> 'M[R]_e) x : qf (\sum_(k | P k) A k) x = \sum_(k | P k) qf (A k) x.
Proof. by rewrite /qf mulmx_sumr mulmx_suml summxE. Qed.
Lemma lin_sum e N (P : pred 'I_N) (A : 'I_N -> 'cV[R]_e) (x : 'cV[R]_e) :
  ((\sum_(k | P k) A k)^T *m x) 0 0 = \sum_(k | P k) ((A k)^T *m x) 0 0.
Proof. by rewrite linear_sum mulmx_suml summxE. Qed.

Section Data.
Variables (N : nat) (X : nat -> R).
Let idx k := ext_searchsorted n.+1 z (X k).
Let HP k := emission (X k) *m (conditional_statistics ker n.+1 z (X k)).1.1.
Let contrib (a b : nat -> R) : pair_sites d :=
  PairSites (fun m => \sum_(k < N | idx k == m) (back_project_nats (a k) (b k) (HP k)).1)
            (fun m => \sum_(k < N | idx k == m) (back_project_nats (a k) (b k) (HP k)).2).

Lemma contrib_exponent a b u : (forall k, (k < N)%N -> covered n z (X k)) ->
  pairs_exponent n (contrib a b) u = \sum_(k < N) (a k * proj (X k) u + b k * proj (X k) u ^+ 2).
Proof.
move=> HX.
pose G m k := a k * (HP k *m pair_at n u m) 0 0 + b k * (HP k *m pair_at n u m) 0 0 ^+ 2.
transitivity (\sum_(m < n.+2) \sum_(k < N | idx k == m) G m k).
  rewrite /pairs_exponent; apply: eq_bigr => m _; rewrite lin_sum qf_sum -big_split; apply: eq_bigr => k _.
  rewrite bp_lin bp_qf; reflexivity.
rewrite (exchange_big_dep xpredT) //; apply: eq_bigr => k _.
have Hk : (idx k < n.+2)%N by rewrite ltnS; exact: searchsorted_le.
rewrite (big_pred1 (Ordinal Hk)); last by move=> m; rewrite /= eq_sym -val_eqE.
have E := project_pair u (HX k (ltn_ord k)).
have E' : HP k *m pair_at n u (idx k) =
    emission (X k) *m brow n.+1 (fun j => state_cov ker (X k) (z j)) *m invmx Kzz *m flat n.+1 u.
  by apply: (etrans (esym (mulmxA _ _ _))); rewrite /idx E !mulmxA.
change (G (idx k) k = a k * proj (X k) u + b k * proj (X k) u ^+ 2).
by rewrite /G E'.
Qed.

Lemma contrib_sym a b m : (ps_nat2 (contrib a b) m)^T = ps_nat2 (contrib a b) m.
Proof.
rewrite /contrib linear_sum; apply: eq_bigr => k _.
by rewrite bp_quad /= trmxZ trmx_mul trmxK.
Qed.
Lemma contrib_neg a b m v : (forall k, (k < N)%N -> b k <= 0) -> qf (ps_nat2 (contrib a b) m) v <= 0.
Proof.
move=> Hb; rewrite qf_sum -oppr_ge0 -sumrN; apply: sumr_ge0 => k _; rewrite oppr_ge0 bp_qf.
by apply: mulr_le0_ge0; [exact: (Hb k (ltn_ord k)) | rewrite sqr_ge0].
Qed.

Section Update.
Variables (gm gv : R -> R -> R -> R) (Y : nat -> R) (lr : R).
Hypothesis Hlr : 0 <= lr <= 1.
Hypothesis Hgv : forall mu v y, gv mu v y <= 0.
Let valid (s : pair_sites d) := forall m, (m <= n.+1)%N -> (ps_nat2 s m)^T = ps_nat2 s m /\ (forall v, qf (ps_nat2 s m) v <= 0).
Let step := scvi_update_sites ker emission gm gv n z lr N X Y.

Lemma scvi_update s : valid s -> (forall k, (k < N)%N -> covered n z (X k)) -> exists q s',
  [/\ scvi_dist_q ker n z s = Some q, step s = Some s', valid s' &
   let g k := cvi_gradients gm gv (cvi_predict_f ker emission n q z X k) (Y k) in
   forall u, pairs_exponent n s' u = (1 - lr) * pairs_exponent n s u +
     lr * \sum_(k < N) ((g k).1 * proj (X k) u + (g k).2 * proj (X k) u ^+ 2)].
Proof.
move=> Hs HX.
have [||q [E1 E2 _]] := @scvi_density s; [by move=> m /Hs [] | by move=> m v /Hs [] |].
pose g k := cvi_gradients gm gv (cvi_predict_f ker emission n q z X k) (Y k).
have Hg k : (g k).2 <= 0 by exact: Hgv.
pose c := contrib (fun k => (g k).1) (fun k => (g k).2).
pose s' := PairSites (fun m => (1 - lr) *: ps_nat1 s m + lr *: ps_nat1 c m)
  (fun m => (1 - lr) *: ps_nat2 s m + lr *: ps_nat2 c m).
exists q, s'; split=> //.
- by rewrite /step /scvi_update_sites E1.
- move=> m Hm; have [S1 S2] := Hs m Hm; split.
    have E : ps_nat2 s' m = (1 - lr) *: ps_nat2 s m + lr *: ps_nat2 c m by [].
    by rewrite E trmxD !trmxZ S1 contrib_sym.
  move=> v; have /andP [l0 l1] := Hlr.
  have E : ps_nat2 s' m = (1 - lr) *: ps_nat2 s m + lr *: ps_nat2 c m by [].
  rewrite E (@qfD Rr) !(@qfZ Rr) -[0]addr0; apply: ler_add.
    by rewrite mulr_ge0_le0 ?subr_ge0.
  by rewrite mulr_ge0_le0 // contrib_neg.
- move=> g' u.
  have E : pairs_exponent n s' u = (1 - lr) * pairs_exponent n s u + lr * pairs_exponent n c u by exact: pairs_comb.
  by rewrite E (contrib_exponent _ _ _ HX).
Qed.
End Update.

Section Gauss.
Variables (gm gv : R -> R -> R -> R) (Y : nat -> R) (s2 : R).
Hypothesis s2_gt0 : 0 < s2.
Hypothesis Hg : gradients_of (ext_gaussian_ve1 s2) gm gv.
Hypothesis HX : forall k, (k < N)%N -> covered n z (X k).
Let valid (s : pair_sites d) := forall m, (m <= n.+1)%N -> (ps_nat2 s m)^T = ps_nat2 s m /\ (forall v, qf (ps_nat2 s m) v <= 0).
Let target u := \sum_(k < N) (Y k / s2 * proj (X k) u + - (2%:R * s2)^-1 * proj (X k) u ^+ 2).

Lemma gauss_gv_le0 mu v y : gv mu v y <= 0.
Proof.
have [_ ->] := gauss_grad s2_gt0 Hg mu v y.
by rewrite oppr_le0 invr_ge0 mulr_ge0 ?ler0n // ltW.
Qed.

Lemma scvi_gauss_update lr s : 0 <= lr <= 1 -> valid s -> exists s',
  [/\ scvi_update_sites ker emission gm gv n z lr N X Y s = Some s', valid s' &
   forall u, pairs_exponent n s' u = (1 - lr) * pairs_exponent n s u + lr * target u].
Proof.
move=> Hlr Hs; have [q [s' [E1 E2 E3 E4]]] := scvi_update gm Y Hlr gauss_gv_le0 Hs HX.
exists s'; split=> // u; rewrite E4; congr (_ + _ * _); apply: eq_bigr => k _.
by rewrite (gauss_gradients s2_gt0 Hg).
Qed.

Lemma scvi_iterates lr s r : 0 <= lr <= 1 -> valid s -> exists s',
  [/\ iter r (obind (scvi_update_sites ker emission gm gv n z lr N X Y)) (Some s) = Some s', valid s' &
   forall u, pairs_exponent n s' u - target u = (1 - lr) ^+ r * (pairs_exponent n s u - target u)].
Proof.
move=> Hlr Hs; elim: r => [|r [s' [E1 E2 E3]]].
  by exists s; split=> // u; rewrite expr0 mul1r.
have [s'' [F1 F2 F3]] := scvi_gauss_update Hlr E2.
exists s''; split=> //; first by rewrite iterS E1.
by move=> u; rewrite F3 exprS -mulrA -E3; crng.
Qed.

Section Exact.
Variable s : pair_sites d.
Hypothesis Hs : valid s.
Hypothesis Es : forall u, pairs_exponent n s u = target u.
Let G := fx_gram ker emission N n.+1 X z *m invmx Kzz.
Let Yv := flat N (fun k => const_mx (Y k) : 'cV[R]_1).

Lemma G_flat u : G *m flat n.+1 u = flat N (fun k => (const_mx (proj (X k) u) : 'cV[R]_1)).
Proof.
rewrite /G /fx_gram /dense mul_bcol_mx mul_bcol_mx /flat; apply: eq_bcol => k _.
apply/matrixP => i j; rewrite [RHS]mxE (ord1 i) (ord1 j) /proj mul_mx_brow.
reflexivity.
Qed.

Lemma target_loglik : exists c, forall u, gauss_logpdf (G *m flat n.+1 u) s2%:M Yv = target u + c.
Proof.
exists (\sum_(k < N) (- 2%:R^-1 * (ln (2%:R * PI) + ln s2 + Y k ^+ 2 / s2))) => x.
rewrite G_flat -(@dense_scalar Rr N 1 s2) gauss_logpdf_rdiag; last first.
  by move=> k _; apply: spd_scalar.
rewrite /target -big_split; apply: eq_bigr => k _.
rewrite [RHS]/=.
rewrite gauss_logpdf_scalar // big_ord1 [const_mx _ _ _]mxE [const_mx _ _ _]mxE invfM.
move: (proj _ _) (s2^-1) (ln _) (ln _) => f w l1 l2; toR_ops; rewrite !exprR halfR; field.
Qed.

Lemma scvi_exact : exists q, [/\ scvi_dist_q ker n z s = Some q, ssm_nonsing n q &
  forall m K, has_law n.+1 n.+1 (ssm_path q) m K ->
  flat n.+1 m = cond_mean 0 Kzz G s2%:M Yv /\ dense n.+1 n.+1 K = cond_cov Kzz G s2%:M].
Proof.
have [||q [c [F1 F2 F3]]] := @scvi_posterior_density s; [by move=> m /Hs [] | by move=> m v /Hs [] |].
have Nq := ssm_chol_nonsing F2.
exists q; split=> // m K L.
have [c' E] := target_loglik.
have PK : spd Kzz by exact: Kzz_spd.
have PS : spd (s2%:M : 'M[R]_(N * 1)) by apply: spd_scalar.
pose l := gauss_logpdf (G *m 0) (G *m Kzz *m G^T + s2%:M) Yv.
apply: (gauss_logpdf_inj (c := c - c' + l)).
- by have [_ ->] := ssm_lawE L; exact: cov_spd.
- by rewrite (@cond_cov_info Rr) //; apply: (@spd_inv Rr); exact: info_spd.
- move=> v; have := F3 m K (unflat v) L; have := @gauss_bayes _ _ 0 Kzz s2%:M G v Yv PK PS.
  have := E (unflat v); rewrite -Es flat_unflat -/l => ->.
  move: (gauss_logpdf _ _ v) (gauss_logpdf _ _ v) (gauss_logpdf _ _ v) (pairs_exponent _ _ _) l.
  move=> a1 a2 a3 a4 a5; toR_ops => U V; lra.
Qed.

Lemma scvi_exact_elbo : - APPROX_INF Rr < z 0%N -> (forall k, (k < N)%N -> z 0%N <= X k <= z n) ->
  let Kfz := fx_gram ker emission N n.+1 X z in
  let Kff := f_gram ker emission N N X X in let Qff := Kfz *m invmx Kzz *m Kfz^T in
  scvi_classic_elbo ker emission n z (ext_gaussian_ve1 s2) N X Y s =
  Some (gauss_logpdf 0 (Qff + s2%:M) Yv - (2%:R * s2)^-1 * \tr (Kff - Qff)).
Proof.
move=> Hinf HX' Kfz Kff Qff; have [q [Eq Nq Lq]] := scvi_exact.
have L := ssm_has_law n q.
have [e [F1 F2 _]] := svgp_collapsed emission (fun _ => 0) (fun k => const_mx (Y k)) Hker Hm0 Hz s2_gt0 Hinf HX' Nq L.
have [Em EK] := Lq _ _ L.
have EY : flat N (fun k => (const_mx (Y k) : 'cV[R]_1) - 0) = Yv by apply: eq_flat => k _; rewrite subr0.
have Pq : spd (dense n.+1 n.+1 (ssm_cov q)).
  exact: cov_spd.
have KL0 : gauss_kl (flat n.+1 (ssm_marginal_means n q)) (dense n.+1 n.+1 (ssm_cov q)) (cond_mean 0 Kzz G s2%:M Yv) (cond_cov Kzz G s2%:M) = 0.
  by rewrite -Em -EK; have [_ ->] := gauss_kl_ge0 (flat n.+1 (ssm_marginal_means n q)) (flat n.+1 (ssm_marginal_means n q)) Pq Pq.
have E3 : scvi_classic_elbo ker emission n z (ext_gaussian_ve1 s2) N X Y s =
    svgp_elbo ker emission (fun _ => 0) (ext_gaussian_ve s2) n z None N X (fun k => const_mx (Y k)) q.
  rewrite /scvi_classic_elbo Eq /svgp_elbo (kernel_ssmE ker Hz) /obind /oapp /Option.map /Option.bind /Option.apply.
  cbv zeta beta; rewrite mulr1; congr (Some (_ - _)); apply: eq_bigr => k _; exact: ve1_ve.
rewrite E3 F1 F2 EY -/Kzz -/Kfz -/G KL0 subr0; reflexivity.
Qed.
End Exact.
End Gauss.
End Data.
End Sparse.
