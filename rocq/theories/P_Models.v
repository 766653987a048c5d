(* Proofs for M_Models.v: predictions at any covered time, and the evidence lower bounds. *)
From Coq Require Import Reals Lra.
From mathcomp Require Import all_ssreflect all_algebra.
From Verif Require Import RealStruct Nat Alg Lin Ent Spd Log M_Block M_SSM S_SSM P_SSM M_SSMLog P_SSMLog S_Gauss P_Gauss
  S_Kalman M_Kalman P_Kalman P_KalmanLog M_Kernel S_Kernel P_Kernel M_Cond P_Cond P_Cond2 P_Cond3 P_Cond4
  M_Emission P_Emission M_Sort P_Sort M_Models S_GP P_Elbo.
Set Implicit Arguments.
Unset Strict Implicit.
Unset Printing Implicit Defensive.
Import GRing.Theory Num.Theory Order.TTheory.
Local Open Scope ring_scope.

Section Covered.
Variable F : rcfType.

Lemma rdiag_l o d e N M (H : nat -> 'M[F]_(o, d)) (K : nat -> nat -> 'M[F]_(d, e)) :
  dense N N (rdiag H) *m dense N M K = dense N M (fun i j => H i *m K i j).
Proof.
rewrite mul_dense; apply: eq_dense => i j Hi Hj.
by rewrite (sum_rdiag_l H (fun k => K k j) Hi).
Qed.

Lemma rdiag_sandwich o d N (H : nat -> 'M[F]_(o, d)) (K : nat -> nat -> 'M[F]_d) :
  dense N N (rdiag H) *m dense N N K *m (dense N N (rdiag H))^T = dense N N (fun i j => H i *m K i j *m (H j)^T).
Proof.
rewrite rdiag_l; apply: trmx_inj; rewrite trmx_mul trmxK !tr_dense (rdiag_l N N H).
by apply: eq_dense => i j Hi Hj; rewrite !trmx_mul trmxK.
Qed.

(* an argsort exists for every list of keys *)
Lemma argsort_exists (T : eqType) (leT : rel T) (x0 : T) (keys : seq T) : total leT ->
  exists p, ext_argsort_ok leT x0 keys p.
Proof.
move=> Ht; exists (sort (relpre (nth x0 keys) leT) (iota 0 (size keys))).
rewrite /ext_argsort_ok perm_sort perm_refl sorted_map.
by apply: sort_sorted => i j; exact: Ht.
Qed.

(* covariances of the states at any times, in any order, are a Gram matrix *)
Lemma state_gram d (ker : sde_kernel F d) N (u : nat -> F) : markov_kernel ker ->
  exists G : nat -> nat -> 'M[F]_d, forall i j, (i < N)%N -> (j < N)%N -> state_cov ker (u i) (u j) = wn_cov N (G i) (G j).
Proof.
move=> Hk; case: N => [|N]; first by exists (fun _ _ => 0).
set z := mkseq u N.+1; have Ez : size z = N.+1 by rewrite size_mkseq.
have [p Hp] := argsort_exists 0 (z ++ [::]) (@le_total _ F).
have [q Hq] := argsort_exists 0%N p leq_total.
have [joint Ej] := joint_exists ker Hp.
have Hz : (0 < size z)%N by rewrite Ez.
have := joint_law Hk Hp Hq Hz Ej; rewrite Ez addn0 => [[G [_ H]]].
exists G => i j Hi Hj; rewrite -H // cats0 /z.
by rewrite !nth_mkseq.
Qed.

Lemma covered_range n (z : nat -> F) t : increasing n.+1 z -> - APPROX_INF F < z 0%N -> z 0%N <= t -> t <= z n ->
  covered n z t.
Proof.
move=> Hz Hi; elim: n Hz => [|n IH] Hz H0 Hn.
  by right; exists 0%N => //; split=> //; apply/eqP; rewrite eq_le Hn.
case: (ltP (z n) t) => Hlt; last first.
  case: (IH _ H0 Hlt) => [i Hi'|[k [Hk H1 H2]]|[k Hk Ht]].
  - by apply: Hz; lia.
  - by left; exists k; split=> //; lia.
  - by right; exists k => //; lia.
move: Hn; rewrite le_eqVlt => /orP [/eqP E|Hlt'].
  by right; exists n.+1.
by left; exists n; split=> //; lia.
Qed.

Lemma predict_covered d (ker : sde_kernel F d) n z t t0 post m' K' :
  markov_kernel ker -> k_mean0 ker = 0 -> increasing n.+1 z -> covered n z t ->
  ssm_nonsing n post -> has_law n.+1 n.+1 (ssm_path post) m' K' ->
  let Kzz := dense n.+1 n.+1 (fun i j => state_cov ker (z i) (z j)) in
  let Ktz := brow n.+1 (fun j => state_cov ker t (z j)) in
  let B := Ktz *m invmx Kzz in
  predict_state ker n post z t0 t =
    (B *m flat n.+1 m', k_P0 ker t - B *m Kzz *m B^T + B *m dense n.+1 n.+1 K' *m B^T).
Proof.
move=> Hk H0 Hz Hc NP LP.
case: Hc => [[k [Hkn H1 H2]]|[k Hkn [-> Hinf]]]; first exact: (predict_q t0 Hk H0 Hz Hkn H1 H2 NP LP).
move=> Kzz Ktz B.
have uK : Kzz \in unitmx by apply: Kzz_unit.
pose E := brow n.+1 (fun l => if l == k then 1%:M else 0 : 'M[F]_d).
have Emul q (c : nat -> 'M[F]_(d, q)) : E *m bcol n.+1 c = c k.
  by rewrite /E mul_brow_bcol -[RHS]mul1mx -(sum_pick 1%:M c Hkn).
have EB : B = E by rewrite /B -[RHS](mulmxK uK) /Kzz /dense Emul.
have -> : predict_state ker n post z t0 (z k) = (m' k, K' k k).
  case: k Hkn {Ktz B E Emul EB} => [|k] Hkn.
    apply: predict_at_first => //; rewrite ?(mk_trans0 Hk) ?(mk_cov0 Hk) //.
    by apply: mk_cov_spd => //; rewrite -ltr_subl_addr sub0r.
  apply: predict_at_train => //; rewrite ?(mk_trans0 Hk) ?(mk_cov0 Hk) //.
  by apply: mk_cov_spd => //; rewrite subr_gt0; apply: Hz.
have ET (K : nat -> nat -> 'M[F]_d) : E *m dense n.+1 n.+1 K *m E^T = K k k.
  apply: trmx_inj; rewrite trmx_mul trmxK /dense Emul tr_brow Emul.
  by [].
by rewrite EB ET /Kzz ET state_cov_diag // subrr add0r /flat Emul.
Qed.

Lemma predict_f_covered d o (ker : sde_kernel F d) (H : nat -> 'M[F]_(o, d)) mean n z new i post m' K' :
  markov_kernel ker -> k_mean0 ker = 0 -> increasing n.+1 z -> covered n z (new i) ->
  ssm_nonsing n post -> has_law n.+1 n.+1 (ssm_path post) m' K' ->
  let Kzz := dense n.+1 n.+1 (fun i j => state_cov ker (z i) (z j)) in
  let Ktz := brow n.+1 (fun j => state_cov ker (new i) (z j)) in
  let B := Ktz *m invmx Kzz in
  let V := k_P0 ker (new i) - B *m Kzz *m B^T + B *m dense n.+1 n.+1 K' *m B^T in
  predict_f_full ker H mean n post z new i =
    (H i *m (B *m flat n.+1 m') + mean i, H i *m V *m (H i)^T) /\
  predict_f_diag ker H mean n post z new i =
    (H i *m (B *m flat n.+1 m') + mean i, \col_r (H i *m V *m (H i)^T) r r).
Proof.
move=> Hker H0 Hz Hc NP LP Kzz Ktz B V.
have E := predict_covered (new 0%N) Hker H0 Hz Hc NP LP.
split; rewrite /predict_f_full /predict_f_diag /project_state_to_f.
  by rewrite cov_fullE E.
rewrite E; congr pair.
by apply/colP => r; rewrite cov_diagE E [RHS]mxE.
Qed.

(* the covariance of the states at x given those at z is positive semidefinite *)
Lemma cond_psd d (ker : sde_kernel F d) n N z (x : nat -> F) : markov_kernel ker -> increasing n.+1 z ->
  let Kzz := dense n.+1 n.+1 (fun i j => state_cov ker (z i) (z j)) in
  let Kxz := dense N n.+1 (fun i j => state_cov ker (x i) (z j)) in
  let Kxx := dense N N (fun i j => state_cov ker (x i) (x j)) in
  let B := Kxz *m invmx Kzz in
  psd (Kxx - B *m Kzz *m B^T).
Proof.
move=> Hk Hz Kzz Kxz Kxx B; have uK : Kzz \in unitmx by apply: Kzz_unit.
pose u i := if (i < n.+1)%N then z i else x (i - n.+1)%N.
have [G HG] := state_gram (n.+1 + N) u Hk.
pose M := (n.+1 + N)%N; pose Lz := dense n.+1 M G; pose Lx := dense N M (fun i => G (n.+1 + i)%N).
have gram p q a b : (forall i, (i < p)%N -> (a + i < M)%N) -> (forall i, (i < q)%N -> (b + i < M)%N) ->
   dense p M (fun i => G (a + i)%N) *m (dense q M (fun i => G (b + i)%N))^T =
   dense p q (fun i j => state_cov ker (u (a + i)%N) (u (b + j)%N)).
  move=> Ha Hb; rewrite tr_dense mul_dense; apply: eq_dense => i j Hi Hj.
  by rewrite HG ?Ha ?Hb.
have Hz0 i : (i < n.+1)%N -> (0 + i < M)%N by rewrite /M; lia.
have Hx0 i : (i < N)%N -> (n.+1 + i < M)%N by rewrite /M; lia.
have ux i : u (n.+1 + i)%N = x i by rewrite /u ltnNge leq_addr /= addKn.
have uz i : (i < n.+1)%N -> u (0 + i)%N = z i by rewrite /u add0n => ->.
have Ezz : Lz *m Lz^T = Kzz.
  by apply: etrans (gram n.+1 n.+1 0%N 0%N Hz0 Hz0) _; apply: eq_dense => i j Hi Hj; rewrite !uz.
have Exz : Lx *m Lz^T = Kxz.
  by apply: etrans (gram N n.+1 n.+1 0%N Hx0 Hz0) _; apply: eq_dense => i j Hi Hj; rewrite uz // ux.
have Exx : Lx *m Lx^T = Kxx.
  by apply: etrans (gram N N n.+1 n.+1 Hx0 Hx0) _; apply: eq_dense => i j Hi Hj; rewrite !ux.
have EB : B *m Kzz = Kxz by rewrite /B mulmxKV.
have -> : Kxx - B *m Kzz *m B^T = (Lx - B *m Lz) *m (Lx - B *m Lz)^T; last exact: psd_mul_tr.
have sK : Kzz^T = Kzz by rewrite -Ezz trmx_mul trmxK.
have Ezx : Lz *m Lx^T = Kxz^T by rewrite -Exz trmx_mul trmxK.
have E1 : B *m Lz *m Lx^T = Kxz *m B^T.
  by rewrite -mulmxA Ezx /B trmx_mul tr_invmx sK !mulmxA.
have E2 : B *m Lz *m (Lz^T *m B^T) = Kxz *m B^T by rewrite -mulmxA (mulmxA Lz) Ezz mulmxA EB.
have E3 : Lx *m (Lz^T *m B^T) = Kxz *m B^T by rewrite mulmxA Exz.
clearbody B; rewrite [(Lx - _)^T]linearB /= trmx_mul mulmxBl !mulmxBr Exx E1 E2 E3 EB.
by zmod.
Qed.
End Covered.

Section Ve.

Lemma gauss_logpdf_scalar n (s2 : R) (m y : 'cV[R]_n) : 0 < s2 ->
  gauss_logpdf m (s2%:M) y = \sum_(i < n) (- 2%:R^-1 * (ln (2%:R * PI) + ln s2 + (y i 0 - m i 0) ^+ 2 / s2)).
Proof.
move=> Hs; have Hs0 : s2 != 0 by apply: lt0r_neq0.
have Ei : invmx (s2%:M : 'M[R]_n) = s2^-1 *: 1%:M by rewrite invmx_scalar scalemx1.
rewrite /gauss_logpdf det_scalar lnX // Ei (@qfZ Rr) (@qf1 Rr).
rewrite -big_distrr /=; congr (_ * _).
rewrite !big_split /= !sumr_const card_ord !mulr_natl; congr (_ + _).
by rewrite mulrC big_distrl /=; apply: eq_bigr => i _; rewrite !mxE.
Qed.

Lemma ve_logpdf o (s2 : R) (fmu y : 'cV[R]_o) (M : 'M[R]_o) : 0 < s2 ->
  ext_gaussian_ve s2 fmu (\col_r M r r) y = gauss_logpdf fmu (s2%:M) y - 2%:R^-1 * \tr (invmx (s2%:M) *m M).
Proof.
move=> Hs; rewrite gauss_logpdf_scalar // invmx_scalar mul_scalar_mx mxtraceZ mulrA big_distrr /= -sumrB.
apply: eq_bigr => i _; rewrite mxE.
move: (ln _) (ln _) (_ ^+ 2) (M i i) (s2^-1) => a b c e f; crng.
Qed.

Lemma dense_scalar (F : rcfType) N p (c : F) : dense N N (rdiag (fun _ => c%:M : 'M[F]_p)) = c%:M.
Proof.
have -> : (c%:M : 'M[F]_(N * p)) = c%:M *m 1%:M by rewrite mulmx1.
rewrite -(@dense1 F p N) mul_scalar_mx denseZ; apply: eq_dense => i j Hi Hj.
by rewrite /rdiag /bdiag; case: eqP => _; rewrite ?scaler0 // scale_scalar_mx mulr1.
Qed.

(* the sum of the variational expectations over the data *)
Lemma ve_sum o N (s2 : R) (fmu y : nat -> 'cV[R]_o) (V : nat -> nat -> 'M[R]_o) : 0 < s2 ->
  \sum_(k < N) ext_gaussian_ve s2 (fmu k) (\col_r V k k r r) (y k) =
  gauss_logpdf (flat N fmu) (s2%:M) (flat N y) - 2%:R^-1 * \tr (invmx (s2%:M) *m dense N N V).
Proof.
move=> Hs; rewrite -(@dense_scalar Rr) gauss_logpdf_rdiag; last by move=> k _; apply: (@spd_scalar Rr).
rewrite (@dense_scalar Rr) invmx_scalar mul_scalar_mx mxtraceZ tr_dense_diag big_distrr /= big_distrr /= -sumrB.
apply: eq_bigr => k _; rewrite ve_logpdf // invmx_scalar mul_scalar_mx mxtraceZ.
by [].
Qed.
End Ve.

Section Elbo.
Variables (o d : nat) (ker : sde_kernel Rr d) (emission : R -> 'M[R]_(o, d)) (mean : R -> 'cV[R]_o).
Hypothesis Hker : markov_kernel ker.
Hypothesis Hm0 : k_mean0 ker = 0.
Variables (n : nat) (z : nat -> R).
Hypothesis Hz : increasing n.+1 z.

Let Kzz := x_gram ker n.+1 z.

Lemma Kzz_spd : spd Kzz.
Proof.
have [S [ES NS LS]] := kernel_law Hker Hz.
by have [_ E] := ssm_lawE LS; rewrite /Kzz /x_gram E; apply: cov_spd.
Qed.

Variables (N : nat) (X : nat -> R).
Hypothesis HX : forall i, (i < N)%N -> covered n z (X i).

(* maps inducing states to the conditional mean of f - mean at the data *)
Let G := fx_gram ker emission N n.+1 X z *m invmx Kzz.
Let Kff := f_gram ker emission N N X X.
Let D := Kff - G *m Kzz *m G^T.

Let g i := emission (X i) *m (brow n.+1 (fun j => state_cov ker (X i) (z j)) *m invmx Kzz).

Lemma G_bcol : G = bcol N g.
Proof.
rewrite /G /fx_gram /dense mul_bcol_mx; apply: eq_bcol => i Hi.
by rewrite /g mulmxA mul_mx_brow.
Qed.

Lemma G_congr M : G *m M *m G^T = dense N N (fun i j => g i *m M *m (g j)^T).
Proof.
rewrite G_bcol tr_bcol mul_bcol_mx mul_bcol_mx; apply: eq_bcol => i Hi.
by rewrite mul_mx_brow.
Qed.

Lemma D_psd : psd D.
Proof.
pose B := dense N n.+1 (fun i j => state_cov ker (X i) (z j)) *m invmx Kzz.
have HD : psd (dense N N (fun i j => state_cov ker (X i) (X j)) - B *m Kzz *m B^T) := cond_psd N X Hker Hz.
pose Hd := dense N N (rdiag (fun i => emission (X i))).
have EG : G = Hd *m B by rewrite /G /B mulmxA; congr (_ *m _); rewrite /Hd (@rdiag_l Rr).
have -> : D = Hd *m (dense N N (fun i j => state_cov ker (X i) (X j)) - B *m Kzz *m B^T) *m Hd^T.
  rewrite mulmxBr mulmxBl (@rdiag_sandwich Rr) /D EG trmx_mul !mulmxA.
  by [].
exact: psd_congr'.
Qed.

Variables (q : ssm Rr d) (m' : nat -> 'cV[R]_d) (K' : nat -> nat -> 'M[R]_d).
Hypothesis Nq : ssm_nonsing n q.
Hypothesis Lq : has_law n.+1 n.+1 (ssm_path q) m' K'.
Variables (Y : nat -> 'cV[R]_o) (s2 : R).
Hypothesis Hs : 0 < s2.

Let mu := flat N (fun i => mean (X i)).
Let S : 'M[R]_(N * o) := s2%:M.

Lemma svgp_ve :
  let f := model_predict_f_diag ker emission mean n q z X in
  \sum_(k < N) ext_gaussian_ve s2 (f k).1 (f k).2 (Y k) =
  gauss_logpdf (G *m flat n.+1 m') S (flat N Y - mu) - 2%:R^-1 * \tr (invmx S *m D)
  - 2%:R^-1 * \tr (invmx S *m (G *m dense n.+1 n.+1 K' *m G^T)).
Proof.
move=> f.
pose V i j := f_cov ker emission (X i) (X j) - g i *m Kzz *m (g j)^T + g i *m dense n.+1 n.+1 K' *m (g j)^T.
pose fm i := g i *m flat n.+1 m' + mean (X i).
have Ef k : (k < N)%N -> f k = (fm k, \col_r V k k r r).
  move=> Hk.
  have [_ Ed] := predict_f_covered (fun i => emission (X i)) (fun i => mean (X i)) Hker Hm0 Hz (HX Hk) Nq Lq.
  rewrite /f /model_predict_f_diag Ed; congr pair; first by rewrite /fm /g !mulmxA.
  apply/colP => r; rewrite [LHS]mxE [RHS]mxE; congr (fun_of_matrix _ r r).
  rewrite /V /f_cov state_cov_diag // mulmxDr mulmxBr mulmxDl mulmxBl.
  rewrite /g !trmx_mul !mulmxA.
  by [].
rewrite (eq_bigr (fun k : 'I_N => ext_gaussian_ve s2 (fm k) (\col_r V k k r r) (Y k))); last first.
  by move=> k _; rewrite Ef.
rewrite ve_sum // -/S.
have -> : dense N N V = D + G *m dense n.+1 n.+1 K' *m G^T.
  by rewrite /D !G_congr denseB denseD.
have -> : flat N fm = G *m flat n.+1 m' + mu.
  by rewrite G_bcol mul_bcol_mx -[bcol N _]/(flat N _) /mu flatD.
have E a b c : gauss_logpdf (a + b) S c = gauss_logpdf a S (c - b).
  by rewrite /gauss_logpdf; congr (_ * (_ + qf _ _)); zmod.
rewrite E mulmxDr mxtraceD mulrDr opprD addrA.
by [].
Qed.

Let Qff := G *m Kzz *m G^T.
Let y := flat N Y - mu.
Let collapsed := gauss_logpdf 0 (Qff + S) y - 2%:R^-1 * \tr (invmx S *m D).

Lemma svgp_value :
  svgp_elbo ker emission mean (ext_gaussian_ve s2) n z None N X Y q =
  Some (collapsed - gauss_kl (flat n.+1 m') (dense n.+1 n.+1 K') (cond_mean 0 Kzz G S y) (cond_cov Kzz G S)).
Proof.
have [p [Ep Np Lp]] := kernel_law Hker Hz.
rewrite /svgp_elbo Ep /Option.map /Option.bind /Option.apply; cbv zeta beta.
rewrite svgp_ve mulr1; congr Some.
have [-> _ _ _] := kl_law Nq Np Lq Lp.
have HS : spd S by apply: (@spd_scalar Rr).
have HK1 : spd (dense n.+1 n.+1 K') by have [_ ->] := ssm_lawE Lq; apply: cov_spd.
have -> : flat n.+1 (fun _ => k_mean0 ker) = 0.
  by rewrite Hm0 -[RHS](subrr (flat n.+1 (fun _ => 0))) flatB; apply: eq_flat => k Hk; rewrite subrr.
have := gauss_elbo (flat n.+1 m') 0 G y HK1 Kzz_spd HS.
rewrite mulmx0 -/Qff -/y /collapsed.
move: (gauss_logpdf _ _ _) (gauss_logpdf _ _ _) (gauss_kl _ _ _ _) (gauss_kl _ _ _ _) (\tr _) (\tr _) => a b c e f g'.
by rewrite ?halfR; toR_ops; lra.
Qed.

Lemma svgp_bound e : svgp_elbo ker emission mean (ext_gaussian_ve s2) n z None N X Y q = Some e ->
  e <= gauss_logpdf mu (Kff + S) (flat N Y).
Proof.
rewrite svgp_value => [[<-]].
have HS : spd S by apply: (@spd_scalar Rr).
have HK1 : spd (dense n.+1 n.+1 K') by have [_ ->] := ssm_lawE Lq; apply: cov_spd.
have HC : spd (cond_cov Kzz G S).
  rewrite (cond_cov_info G Kzz_spd HS); apply/spd_inv/info_spd; [exact: Kzz_spd|exact: HS].
have [Hkl _] := gauss_kl_ge0 (flat n.+1 m') (cond_mean 0 Kzz G S y) HK1 HC.
have HQ : psd Qff by apply: psd_congr'; apply: spd_psd; exact: Kzz_spd.
have := titsias 0 y HQ HS D_psd.
have -> : Qff + D + S = Kff + S by rewrite /D /Qff; zmod.
have -> : gauss_logpdf mu (Kff + S) (flat N Y) = gauss_logpdf 0 (Kff + S) y by rewrite /gauss_logpdf subr0.
rewrite /collapsed => H; apply: le_trans H; rewrite ler_subl_addr ler_addl; exact: Hkl.
Qed.
End Elbo.
