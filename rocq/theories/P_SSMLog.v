From Coq Require Import Reals.
From mathcomp Require Import all_ssreflect all_algebra.
From Verif Require Import RealStruct Log Nat Alg Lin Ent Spd M_Block S_Block P_Block P_Block2
  M_SSM S_SSM P_SSM M_SSMLog S_Gauss P_Gauss.
Set Implicit Arguments.
Unset Strict Implicit.
Unset Printing Implicit Defensive.
Import GRing.Theory Num.Theory Order.TTheory.
Local Open Scope ring_scope.

Lemma qf_mul_tr (F : rcfType) n (L : 'M[F]_n) x : L \in unitmx ->
  qf (invmx (L *m L^T)) x = \sum_i (invmx L *m x) i 0 ^+ 2.
Proof.
move=> u; rewrite invmx_mul ?unitmx_tr // -tr_invmx -[(invmx L)^T]mulmx1.
by rewrite qf_congr qf1.
Qed.

Lemma mvn_tril_gauss d (m : 'cV[R]_d) (L : 'M[R]_d) x : lownz L ->
  ext_mvn_tril_log_prob m L x = gauss_logpdf m (L *m L^T) x.
Proof.
move=> HL; have u := lownz_unit HL; have [tL nL] := HL.
rewrite /ext_mvn_tril_log_prob /gauss_logpdf /ext_triangular_solve tril_id //.
rewrite qf_mul_tr // ln_det_low //.
have -> : \sum_i ln (L i i ^+ 2) = 2%:R * \sum_i ln `|L i i|.
  by rewrite big_distrr /=; apply: eq_bigr => i _; rewrite ln_sqr.
rewrite sumrB -big_distrr /= sumr_const card_ord.
rewrite -[_ *+ d]mulr_natr.
move: (\sum_(i < d) _) (\sum_(i < d) _) (d%:R : R) (ln (2%:R * PI)) => a b c e.
rlra.
Qed.

Lemma sum_ord_succ (V : zmodType) n (f : nat -> V) : \sum_(k < n.+1) f k = f 0%N + \sum_(k < n) f k.+1.
Proof. by rewrite big_ord_recl. Qed.

Section SSM.
Variables (d n : nat).
Implicit Types S : ssm Rr d.

Lemma det_precision S : ssm_nonsing n S ->
  \det (btd_to_dense n.+1 true (ssm_precision n S)) =
  \prod_(k < n.+1) \det (invmx (ssm_Qc S k)).
Proof.
move=> H; rewrite precision_dense // !det_mulmx det_tr.
have Z1 i j : (i < j)%N -> (j < n.+1)%N -> ainv_blocks (s_A S) i j = 0.
  move=> Hij _; rewrite /ainv_blocks /lower_blocks.
  by rewrite (ltn_eqF Hij) (ltn_eqF (ltnW (_ : (i.+1 < j.+1)%N))).
have Z2 i j : (i < j)%N -> (j < n.+1)%N -> bdiag (fun k => invmx (ssm_Qc S k)) i j = 0.
  by move=> Hij _; rewrite /bdiag (ltn_eqF Hij).
rewrite (det_dense_ltrig Z1) (det_dense_ltrig Z2).
have -> : \prod_(k < n.+1) \det (ainv_blocks (s_A S) k k) = 1.
  by apply: big1 => k _; rewrite /ainv_blocks /lower_blocks eqxx det1.
by rewrite mul1r mulr1; apply: eq_bigr => k _; rewrite /bdiag eqxx.
Qed.

Lemma log_det_precisionE S : ssm_nonsing n S ->
  ssm_log_det_precision n S = ln (\det (btd_to_dense n.+1 true (ssm_precision n S))).
Proof.
move=> H; rewrite det_precision // ln_prod; last first.
  by move=> k; apply: spd_det_gt0; apply: spd_inv; apply: (ssm_Qc_spd H).
rewrite (eq_bigr (fun k : 'I_n.+1 => - \sum_(r < d) ln ((ssm_concat_chol S k r r) ^+ 2))); last first.
  move=> k _; rewrite ln_det_inv; last exact: (ssm_Qc_spd H).
  by rewrite ln_det_low //; apply: (concat_chol_nz H).
rewrite sumrN (sum_ord_succ n (fun k => \sum_(r < d) ln ((ssm_concat_chol S k r r) ^+ 2))).
by [].
Qed.

Lemma ln_det_cov S : ssm_nonsing n S ->
  ln (\det (dense n.+1 n.+1 (ssm_cov S))) = - ssm_log_det_precision n S.
Proof.
by move=> H; rewrite log_det_precisionE // -inv_precision // ln_det_inv //; apply: precision_spd.
Qed.

(* quadratic form of the precision *)
Lemma qf_dense_bdiag N (V : nat -> 'M[R]_d) (x : nat -> 'cV[R]_d) :
  qf (dense N N (bdiag V)) (flat N x) = \sum_(k < N) qf (V k) (x k).
Proof.
rewrite /qf -mulmxA mul_dense_flat flat_dot mxsumE; apply: eq_bigr => k _.
by rewrite (sum_bdiag_l _ x (ltn_ord k)) mulmxA.
Qed.

Lemma ainv_flat S (x : nat -> 'cV[R]_d) :
  dense n.+1 n.+1 (ainv_blocks (s_A S)) *m flat n.+1 x =
  flat n.+1 (fun k => x k - prevb (fun l => s_A S l *m x l) k).
Proof.
rewrite mul_dense_flat; apply: eq_flat => k Hk.
rewrite (sum_lower _ _ x Hk) mul1mx /prevb; case: (k) => [|k']; first by rewrite subr0 addr0.
by rewrite mulNmx.
Qed.

Lemma qf_precision S (x : nat -> 'cV[R]_d) : ssm_nonsing n S ->
  qf (btd_to_dense n.+1 true (ssm_precision n S)) (flat n.+1 x) =
  \sum_(k < n.+1) qf (invmx (ssm_Qc S k)) (x k - prevb (fun l => s_A S l *m x l) k).
Proof.
by move=> H; rewrite precision_dense // qf_congr ainv_flat qf_dense_bdiag.
Qed.

Lemma log_pdfE S (x : nat -> 'cV[R]_d) : ssm_nonsing n S ->
  ssm_log_pdf n S x =
  gauss_logpdf (flat n.+1 (ssm_marginal_means n S)) (dense n.+1 n.+1 (ssm_cov S)) (flat n.+1 x).
Proof.
move=> H; rewrite /gauss_logpdf ln_det_cov // -inv_precision // invmxK.
have -> : flat n.+1 x - flat n.+1 (ssm_marginal_means n S) =
   flat n.+1 (fun k => x k - ssm_marginal_means n S k) by rewrite flatB.
rewrite qf_precision //.
pose r k := x k - (if k is k'.+1 then s_A S k' *m x k' + s_b S k' else s_mu0 S).
have Er k : (k < n.+1)%N ->
   x k - ssm_marginal_means n S k -
   prevb (fun l => s_A S l *m (x l - ssm_marginal_means n S l)) k = r k.
  move=> Hk; rewrite /r marginal_meansE //; case: k Hk => [|k] Hk /=; first by rewrite subr0.
  rewrite marginal_meansE ?(ltnW Hk) // mulmxBr; mxring.
rewrite (eq_bigr (fun k : 'I_n.+1 => qf (invmx (ssm_Qc S k)) (r k))); last first.
  by move=> k _; rewrite -Er.
have -> : ssm_log_pdf n S x =
  \sum_(k < n.+1) (- 2%:R^-1 * (d%:R * ln (2%:R * PI) + ln (\det (ssm_Qc S k)) + qf (invmx (ssm_Qc S k)) (r k))).
  rewrite /ssm_log_pdf; apply: eq_bigr => -[k Hk] _ /=; have Hz := concat_chol_nz H Hk.
  by case: k Hk Hz => [|k] Hk Hz /=; rewrite mvn_tril_gauss.
rewrite -big_distrr /= 2!big_split /= sumr_const card_ord; congr (_ * (_ + _ + _)).
  by move: (ln _) => l; rewrite (natrM _ n.+1 d) -mulrA !mulr_natl.
rewrite /ssm_log_det_precision opprK.
rewrite (sum_ord_succ n (fun k => ln (\det (ssm_Qc S k)))) ln_det_low; last by case: H.
by congr (_ + _); apply: eq_bigr => k _; rewrite ln_det_low //; apply: H.2.
Qed.

(* trace of a product with a block tridiagonal matrix *)
Lemma tr_mul_entries (X Y : 'M[R]_d) : \tr (X^T *m Y) = \sum_(i < d) \sum_(j < d) X i j * Y i j.
Proof.
rewrite exchange_big /=; apply: eq_bigr => i _; rewrite mxE; apply: eq_bigr => j _.
by rewrite mxE.
Qed.

Lemma tr_sym_dense N (D A : nat -> 'M[R]_d) (K : nat -> nat -> 'M[R]_d) :
  (forall k, (k < N)%N -> (D k)^T = D k) ->
  (forall i j, (i < N)%N -> (j < N)%N -> (K i j)^T = K j i) ->
  \tr (dense N N (sym_blocks D A) *m dense N N K) =
  reduce_sum_prod N D (fun k => K k k) + 2%:R * reduce_sum_prod N.-1 A (fun k => K k.+1 k).
Proof.
move=> HD HK; rewrite mul_dense tr_dense_diag.
rewrite (eq_bigr (fun k : 'I_N => \tr (D k *m K k k) + \tr (prevb (fun l => A l *m K l l.+1) k)
    + \tr (nextb N (fun l => (A l)^T *m K l.+1 l) k))); last first.
  move=> k _; rewrite (sum_sym _ _ (fun l => K l k) (ltn_ord k)) !mxtraceD; congr (_ + \tr _ + _).
  by rewrite /prevb; case: (nat_of_ord k).
rewrite !big_split /= -addrA; congr (_ + _).
  by rewrite /reduce_sum_prod; apply: eq_bigr => k _; rewrite -tr_mul_entries HD.
have E1 : \sum_(k < N) \tr (prevb (fun l => A l *m K l l.+1) k) =
          \sum_(k < N.-1) \tr ((A k)^T *m K k.+1 k).
  case: N HD HK => [|N] HD HK; first by rewrite !big_ord0.
  rewrite (sum_ord_succ N (fun k => \tr (prevb (fun l => A l *m K l l.+1) k))) /= mxtrace0 add0r.
  apply: eq_bigr => k _; rewrite -mxtrace_tr trmx_mul (HK k k.+1) ?ltnS ?(ltn_ord k) ?(ltnW (ltn_ord k)) //.
  exact: mxtrace_mulC.
have E2 : \sum_(k < N) \tr (nextb N (fun l => (A l)^T *m K l.+1 l) k) =
          \sum_(k < N.-1) \tr ((A k)^T *m K k.+1 k).
  case: N HD HK {E1} => [|N] HD HK; first by rewrite !big_ord0.
  rewrite big_ord_recr /= {2}/nextb ltnn mxtrace0 addr0; apply: eq_bigr => k _.
  by rewrite /nextb ltnS ltn_ord.
rewrite E1 E2 /reduce_sum_prod (eq_bigr (fun k : 'I_N.-1 => \sum_(i < d) \sum_(j < d) A k i j * K k.+1 k i j)).
  by move: (\sum_(k < N.-1) _) => a; rlra.
by move=> k _; rewrite tr_mul_entries.
Qed.

Lemma reduce_sum_sqE N (x : nat -> 'cV[R]_d) :
  reduce_sum_sq N x = qf 1%:M (flat N x).
Proof.
rewrite -dense1 qf_dense_bdiag /reduce_sum_sq; apply: eq_bigr => k _.
by rewrite qf1; apply: eq_bigr => i _; rewrite expr2.
Qed.

Lemma chol_mahalanobis (P : btd Rr d) (x : nat -> 'cV[R]_d) :
  spd (btd_to_dense n.+1 true P) ->
  reduce_sum_sq n.+1 (btd_dense_mult n.+1 false (btd_cholesky n.+1 P) true x) =
  qf (btd_to_dense n.+1 true P) (flat n.+1 x).
Proof.
move=> H; rewrite reduce_sum_sqE dense_multE -qf_congr trmxK mulmx1.
by have [_ -> _] := cholesky_spec H.
Qed.

Lemma kl_divergenceE S S' : ssm_nonsing n S -> ssm_nonsing n S' ->
  ssm_kl_divergence n S S' =
  gauss_kl (flat n.+1 (ssm_marginal_means n S)) (dense n.+1 n.+1 (ssm_cov S))
           (flat n.+1 (ssm_marginal_means n S')) (dense n.+1 n.+1 (ssm_cov S')).
Proof.
move=> H H'; have Hp := precision_spd H'.
rewrite /gauss_kl.
rewrite (ln_det_cov H') (ln_det_cov H).
rewrite /ssm_kl_divergence.
rewrite (chol_mahalanobis (fun k => ssm_marginal_means n S' k - ssm_marginal_means n S k) Hp).
rewrite -(inv_precision H') invmxK -flatB addn1 opprK.
congr (_ * (_ + _ - _ - _ + _)).
rewrite to_dense_sym (eq_dense (L := sym_blocks (bt_diag (ssm_precision n S')) (osub (bt_sub (ssm_precision n S'))))); last first.
  by move=> i j Hi Hj; rewrite /sym_blocks symm_id // precision_diag_sym.
rewrite tr_sym_dense; last first.
- by move=> i j _ _; apply: chain_cov_tr => k; rewrite ssm_Qc_sym.
- by move=> k Hk; apply: precision_diag_sym.
rewrite /reduce_sum_prod; congr (_ + _ * _); apply: eq_bigr => k _; do 2!(apply: eq_bigr => ? _).
  by rewrite marginal_covE // /ssm_cov chain_cov_diag.
rewrite /ssm_subsequent_covariances marginal_covE 1?ltnW ?ltnS //.
by rewrite /ssm_cov chain_cov_succ.
Qed.

Lemma normalizerE S : ssm_nonsing n S ->
  ssm_normalizer n S =
  - gauss_logpdf (flat n.+1 (ssm_marginal_means n S)) (dense n.+1 n.+1 (ssm_cov S)) 0.
Proof.
move=> H; have Hp := precision_spd H.
rewrite /ssm_normalizer /gauss_logpdf ln_det_cov // chol_mahalanobis // -(inv_precision H) invmxK.
rewrite addn1; set q := qf _ _; set q' := qf _ _.
have -> : q' = q by rewrite /q' /q sub0r /qf trmxN !mulNmx mulmxN opprK.
by move: (_ * ln _) (ssm_log_det_precision n S) q => a b c; rlra.
Qed.

End SSM.

(* statements against an arbitrary description (m, K) of the joint law *)
Section LawLog.
Variables (d n : nat).
Implicit Types S : ssm Rr d.

Lemma log_det_precision_law S m K : ssm_nonsing n S -> has_law n.+1 n.+1 (ssm_path S) m K ->
  ssm_log_det_precision n S = ln (\det (btd_to_dense n.+1 true (ssm_precision n S))) /\
  ssm_log_det_precision n S = - ln (\det (dense n.+1 n.+1 K)).
Proof.
move=> H HL; have [_ ->] := ssm_lawE HL.
by rewrite ln_det_cov // opprK; split=> //; apply: log_det_precisionE.
Qed.

Lemma log_pdf_law S m K x : ssm_nonsing n S -> has_law n.+1 n.+1 (ssm_path S) m K ->
  ssm_log_pdf n S x = gauss_logpdf (flat n.+1 m) (dense n.+1 n.+1 K) (flat n.+1 x).
Proof. by move=> H HL; have [-> ->] := ssm_lawE HL; apply: log_pdfE. Qed.

Lemma kl_law S S' m K m' K' : ssm_nonsing n S -> ssm_nonsing n S' ->
  has_law n.+1 n.+1 (ssm_path S) m K -> has_law n.+1 n.+1 (ssm_path S') m' K' ->
  let kl := ssm_kl_divergence n S S' in
  [/\ kl = gauss_kl (flat n.+1 m) (dense n.+1 n.+1 K) (flat n.+1 m') (dense n.+1 n.+1 K'),
      expects (flat n.+1 m) (dense n.+1 n.+1 K)
        (fun v => ssm_log_pdf n S (unflat v) - ssm_log_pdf n S' (unflat v)) kl,
      0 <= kl &
      kl = 0 <-> (forall k, (k <= n)%N -> m k = m' k) /\
                 (forall i j, (i <= n)%N -> (j <= n)%N -> K i j = K' i j)].
Proof.
move=> H H' HL HL' kl; have E : kl = gauss_kl (flat n.+1 m) (dense n.+1 n.+1 K) (flat n.+1 m') (dense n.+1 n.+1 K').
  have [E1 E2] := ssm_lawE HL; have [E3 E4] := ssm_lawE HL'.
  by rewrite E1 E2 E3 E4; apply: kl_divergenceE.
have HK : spd (dense n.+1 n.+1 K) by have [_ ->] := ssm_lawE HL; apply: cov_spd.
have HK' : spd (dense n.+1 n.+1 K') by have [_ ->] := ssm_lawE HL'; apply: cov_spd.
have [Hge Heq] := gauss_kl_ge0 (flat n.+1 m) (flat n.+1 m') HK HK'.
split=> //.
- have [c [b [M [Hf He]]]] := gauss_kl_expects (flat n.+1 m) (flat n.+1 m') HK HK'.
  exists c, b, M; split; last by rewrite E.
  move=> v; rewrite -Hf (log_pdf_law _ H HL) (log_pdf_law _ H' HL').
  by rewrite flat_unflat.
- by rewrite E.
- rewrite E Heq; split=> [[Em EK]|[Em EK]]; last by split; [apply: eq_flat | apply: eq_dense].
  by split; [move=> k Hk; apply: (bcol_inj Em) | move=> i j Hi Hj; apply: (dense_inj EK)].
Qed.

Lemma normalizer_law S m K : ssm_nonsing n S -> has_law n.+1 n.+1 (ssm_path S) m K ->
  ssm_normalizer n S =
  2%:R^-1 * ((n.+1 * d)%:R * ln (2%:R * PI) + ln (\det (dense n.+1 n.+1 K))
             + qf (invmx (dense n.+1 n.+1 K)) (flat n.+1 m)).
Proof.
move=> H HL; have [-> ->] := ssm_lawE HL; rewrite normalizerE // /gauss_logpdf.
set q := qf _ _; set q' := qf _ _.
have -> : q = q' by rewrite /q' /q sub0r /qf trmxN !mulNmx mulmxN opprK.
by move: (_ * ln (2%:R * PI)) (ln (\det _)) q' => a b c; rlra.
Qed.

End LawLog.

(* a concrete chain: unit noise, unit transitions, drift b *)
Definition ex_ssm (F : rcfType) (d : nat) (mu b : 'cV[F]_d) : ssm F d :=
  Ssm mu 1%:M (fun _ => 1%:M) (fun _ => b) (fun _ => 1%:M).
Lemma ex_ssm_nonsing (F : rcfType) d n (mu b : 'cV[F]_d) : ssm_nonsing n (ex_ssm mu b).
Proof.
have H : lownz (1%:M : 'M[F]_d).
  by split=> [|i]; [exact: scalar_mx_is_trig | rewrite mxE eqxx oner_eq0].
by split.
Qed.
