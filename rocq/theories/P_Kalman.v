From mathcomp Require Import all_ssreflect all_algebra.
From Verif Require Import Nat Alg Lin Ent Spd M_Block S_Block P_Block P_Block2
  M_SSM S_SSM P_SSM S_Kalman M_Kalman.
Set Implicit Arguments.
Unset Strict Implicit.
Unset Printing Implicit Defensive.
Import GRing.Theory Num.Theory Order.TTheory.
Local Open Scope ring_scope.

Section Blocks.
Variable R : comRingType.

Lemma rdiag_bdiag d (D : nat -> 'M[R]_d) : rdiag D = bdiag D. Proof. by []. Qed.

Lemma sum_rdiag_l d e p N (D : nat -> 'M[R]_(e, d)) (L : nat -> 'M[R]_(d, p)) i : (i < N)%N ->
  \sum_(k < N) rdiag D i k *m L k = D i *m L i.
Proof.
move=> Hi; rewrite (@sum_ord_at N _ (fun k => rdiag D i k *m L k) i) //; first by rewrite /rdiag eqxx.
by move=> k _; rewrite /rdiag eq_sym => /negbTE ->; rewrite mul0mx.
Qed.

Lemma rdiag_flat d e N (D : nat -> 'M[R]_(e, d)) (x : nat -> 'cV[R]_d) :
  dense N N (rdiag D) *m flat N x = flat N (fun k => D k *m x k).
Proof. by rewrite mul_dense_flat; apply: eq_flat => k Hk; rewrite sum_rdiag_l. Qed.

Lemma rdiag_tr d e N (D : nat -> 'M[R]_(e, d)) :
  (dense N N (rdiag D))^T = dense N N (rdiag (fun k => (D k)^T)).
Proof.
rewrite tr_dense; apply: eq_dense => i j _ _; rewrite /rdiag eq_sym.
by have [->|_] := eqVneq i j; rewrite ?trmx0.
Qed.

Lemma rdiag_mul d e p N (D : nat -> 'M[R]_(e, d)) (E : nat -> 'M[R]_(d, p)) :
  dense N N (rdiag D) *m dense N N (rdiag E) = dense N N (rdiag (fun k => D k *m E k)).
Proof.
rewrite mul_dense; apply: eq_dense => i j Hi Hj.
rewrite (sum_rdiag_l D (fun k => rdiag E k j) Hi) /rdiag.
by have [->|_] := eqVneq i j; rewrite ?mulmx0.
Qed.

Lemma rdiag_congr d e N (H : nat -> 'M[R]_(e, d)) (V : nat -> 'M[R]_e) :
  (dense N N (rdiag H))^T *m dense N N (rdiag V) *m dense N N (rdiag H) =
  dense N N (rdiag (fun k => (H k)^T *m V k *m H k)).
Proof. by rewrite rdiag_tr !rdiag_mul. Qed.

Lemma rdiag_congr_flat d e N (H : nat -> 'M[R]_(e, d)) (V : nat -> 'M[R]_e) (y : nat -> 'cV[R]_e) :
  (dense N N (rdiag H))^T *m dense N N (rdiag V) *m flat N y =
  flat N (fun k => (H k)^T *m V k *m y k).
Proof. by rewrite rdiag_tr !rdiag_mul rdiag_flat. Qed.

End Blocks.

Section Inv.
Variable F : fieldType.
Lemma rdiag_unit d N (V : nat -> 'M[F]_d) : (forall k, (k < N)%N -> V k \in unitmx) ->
  dense N N (rdiag V) *m dense N N (rdiag (fun k => invmx (V k))) = 1%:M.
Proof.
move=> u; rewrite rdiag_mul -dense1; apply: eq_dense => i j Hi Hj; rewrite /rdiag /bdiag.
by have [E|//] := eqVneq i j; rewrite mulmxV // u.
Qed.
Lemma rdiag_inv d N (V : nat -> 'M[F]_d) : (forall k, (k < N)%N -> V k \in unitmx) ->
  invmx (dense N N (rdiag V)) = dense N N (rdiag (fun k => invmx (V k))).
Proof. by move=> u; apply: mulmx1_inv; apply: rdiag_unit. Qed.
End Inv.

Section Psd.
Variable F : realFieldType.
Lemma qf_rdiag d N (V : nat -> 'M[F]_d) (x : nat -> 'cV[F]_d) :
  qf (dense N N (rdiag V)) (flat N x) = \sum_(k < N) qf (V k) (x k).
Proof.
rewrite /qf -mulmxA rdiag_flat flat_dot mxsumE; apply: eq_bigr => k _.
by rewrite mulmxA.
Qed.
Lemma psd_rdiag d N (V : nat -> 'M[F]_d) : (forall k, (k < N)%N -> psd (V k)) ->
  psd (dense N N (rdiag V)).
Proof.
move=> H; split.
  rewrite rdiag_tr; apply: eq_dense => i j Hi Hj; rewrite /rdiag.
  by have [_|//] := eqVneq i j; have [-> _] := H i Hi.
move=> x; rewrite -(flat_unflat x) qf_rdiag; apply: sumr_ge0 => k _.
by have [_] := H k (ltn_ord k); apply.
Qed.
Lemma spd_rdiag d N (V : nat -> 'M[F]_d) : (forall k, (k < N)%N -> spd (V k)) ->
  spd (dense N N (rdiag V)).
Proof.
move=> H; have [Hs Hp] : psd (dense N N (rdiag V)) by apply: psd_rdiag => k /H /spd_psd.
split=> // x nx; rewrite lt_neqAle Hp andbT eq_sym; apply: contra nx => /eqP.
rewrite -(flat_unflat x) qf_rdiag => E; have G (k : 'I_N) : 0 <= qf (V k) (unflat x k).
  by have /spd_psd [_] := H k (ltn_ord k); apply.
have /psumr_eq0P Z := E; apply/eqP; transitivity (flat N (fun _ => 0 : 'cV[F]_d)); last exact: bcol0.
apply: eq_flat => k Hk.
have := Z (fun i _ => G i) (Ordinal Hk) isT => /= /eqP; apply: contraTeq => nz.
by rewrite gt_eqF //; have [_] := H k Hk; apply.
Qed.
End Psd.

Section Cond.
Variable F : realFieldType.

(* information form of Gaussian conditioning *)
Lemma cond_cov_info n p (K : 'M[F]_n) (G : 'M[F]_(p, n)) (S : 'M[F]_p) : spd K -> spd S ->
  cond_cov K G S = invmx (invmx K + G^T *m invmx S *m G).
Proof.
move=> HK HS; rewrite /cond_cov woodbury_inv //; try exact: spd_unit.
by apply: spd_unit; rewrite addrC; apply: spdD => //; apply/psd_congr'/spd_psd.
Qed.

Lemma cond_mean_info n p (m : 'cV[F]_n) (K : 'M[F]_n) (G : 'M[F]_(p, n)) (S : 'M[F]_p) y :
  spd K -> spd S ->
  cond_mean m K G S y =
  invmx (invmx K + G^T *m invmx S *m G) *m (G^T *m invmx S *m y + invmx K *m m).
Proof.
move=> HK HS; have uK := spd_unit HK; have uS := spd_unit HS.
have uE : G *m K *m G^T + S \in unitmx.
  by apply: spd_unit; rewrite addrC; apply: spdD => //; apply/psd_congr'/spd_psd.
have uL : invmx K + G^T *m invmx S *m G \in unitmx.
  by apply: spd_unit; apply: spdD; [exact: spd_inv|apply/psd_congr/spd_psd/spd_inv].
rewrite /cond_mean -(woodbury_gain uK uS uE); set L := invmx K + _ in uL *.
apply: (mulmx_cancel_l uL); rewrite mulKVmx // mulmxDr !mulmxA mulmxV // mul1mx mulmxBr.
rewrite {1}/L mulmxDl; mxring.
Qed.
End Cond.

Section Posterior.
Variable F : rcfType.
Variables (d e n : nat).
Implicit Types f : kf F d e.

(* observation matrix and precision over all times *)
Definition kf_G f := dense n.+1 n.+1 (rdiag (kf_H f)).
Definition kf_Si f := dense n.+1 n.+1 (rdiag (kf_rinv f)).
Definition kf_L f := btd_to_dense n.+1 true (ssm_precision n (kf_ssm f)) + (kf_G f)^T *m kf_Si f *m kf_G f.

Lemma k_inv_post_dense f : (forall k, (k < n.+1)%N -> psd (kf_rinv f k)) ->
  btd_to_dense n.+1 true (kf_k_inv_post n f) = kf_L f.
Proof.
move=> Hr; rewrite /kf_k_inv_post to_dense_add /kf_L rdiag_congr; congr (_ + _).
rewrite to_dense_sym; apply: eq_dense => i j Hi Hj; rewrite /sym_blocks /rdiag /=.
have [_|_] := eqVneq i j; last by rewrite trmx0 !if_same.
by rewrite symm_id //; case: (psd_congr (kf_H f i) (Hr i Hi)).
Qed.

Lemma k_inv_post_sym f : ssm_nonsing n (kf_ssm f) -> (forall k, (k < n.+1)%N -> psd (kf_rinv f k)) ->
  forall k, (k < n.+1)%N -> (bt_diag (kf_k_inv_post n f) k)^T = bt_diag (kf_k_inv_post n f) k.
Proof.
move=> HS Hr k Hk; rewrite /= trmxD; congr (_ + _); first exact: precision_diag_sym HS Hk.
by case: (psd_congr (kf_H f k) (Hr k Hk)).
Qed.

Lemma kf_L_spd f : ssm_nonsing n (kf_ssm f) -> (forall k, (k < n.+1)%N -> psd (kf_rinv f k)) ->
  spd (kf_L f).
Proof.
move=> HS Hr; apply: spdD; first exact: precision_spd.
by apply: psd_congr; apply: psd_rdiag.
Qed.

Lemma back_project_flat f y : (forall k, (k < n.+1)%N -> psd (kf_rinv f k)) ->
  flat n.+1 (kf_back_project f y) = (kf_G f)^T *m kf_Si f *m flat n.+1 y.
Proof.
move=> Hr; rewrite rdiag_congr_flat; apply: eq_flat => k Hk.
by rewrite /kf_back_project trmx_mul; case: (Hr k Hk) => -> _.
Qed.

Lemma kf_posterior_core f : (0 < n)%N ->
  ssm_nonsing n (kf_ssm f) -> (forall k, (k < n.+1)%N -> psd (kf_rinv f k)) ->
  exists post,
  [/\ kf_posterior n f = Some post, ssm_nonsing n post,
      btd_to_dense n.+1 true (ssm_precision n post) = kf_L f &
      flat n.+1 (ssm_marginal_means n post) =
        invmx (kf_L f) *m ((kf_G f)^T *m kf_Si f *m flat n.+1 (kf_obs f) +
           btd_to_dense n.+1 true (ssm_precision n (kf_ssm f)) *m flat n.+1 (ssm_marginal_means n (kf_ssm f)))].
Proof.
move=> Hn HS Hr.
have HL : spd (btd_to_dense n.+1 true (kf_k_inv_post n f)).
  by rewrite k_inv_post_dense //; apply: kf_L_spd.
have Hsym := k_inv_post_sym HS Hr.
rewrite /kf_posterior ssm_okE Hn [~~ true]/=.
case E: (btd_upper_diagonal_lower n.+1 (kf_k_inv_post n f)) => [[U Dg]|]; last first.
  by move/udl_defined: E.
have [HU HD HDs HM] := udu_correct (ltn0Sn n) Hsym HL E.
case EU: (bt_sub U) => [sub|]; last by move: E EU; rewrite /btd_upper_diagonal_lower /= => -[<- _].
set m_post := btd_solve _ _ _ _.
pose qs k := ext_cholesky (ext_cholesky_solve (bt_diag Dg k) 1%:M).
set post := Ssm _ _ _ _ _; exists post.
have Hq k : (k < n.+1)%N -> spd (bt_diag Dg k *m (bt_diag Dg k)^T) by move=> Hk; apply/lowpos_spd/HD.
have Eq k : (k < n.+1)%N -> ssm_concat_chol post k = chol (invmx (bt_diag Dg k *m (bt_diag Dg k)^T)).
  move=> Hk; have -> : ssm_concat_chol post k = qs k by case: k Hk.
  by rewrite /qs chol_solveE ?mulmx1 //; apply/lowpos_nz/HD.
have Hc k : (k < n.+1)%N -> lowpos (ssm_concat_chol post k).
  by move=> Hk; rewrite Eq //; apply/chol_lowpos/spd_inv/Hq.
have HP : ssm_nonsing n post.
  split=> [|k Hk]; first by have := Hc 0%N isT; move/lowpos_nz.
  by have := Hc k.+1 Hk; move/lowpos_nz.
have EQ k : (k < n.+1)%N -> invmx (ssm_Qc post k) = bt_diag Dg k *m (bt_diag Dg k)^T.
  by move=> Hk; rewrite /ssm_Qc Eq // chol_mul ?invmxK //; apply/spd_inv/Hq.
have EA : dense n.+1 n.+1 (ainv_blocks (s_A post)) = btd_to_dense n.+1 false U.
  rewrite to_dense_lower EU; apply: eq_dense => i j Hi Hj; rewrite /ainv_blocks /lower_blocks /=.
  by have [_|_] := eqVneq i j; rewrite ?opprK // HU // tril_id // scalar_mx_is_trig.
have ED : btd_to_dense n.+1 false Dg = dense n.+1 n.+1 (rdiag (bt_diag Dg)).
  rewrite to_dense_lower HDs; apply: eq_dense => i j Hi Hj; rewrite /lower_blocks /rdiag /= if_same.
  by have [_|//] := eqVneq i j; rewrite tril_id //; case: (HD i Hi).
have EP : btd_to_dense n.+1 true (ssm_precision n post) = kf_L f.
  rewrite precision_dense // EA -k_inv_post_dense // -HM; congr (_ *m _ *m _).
  rewrite ED rdiag_tr rdiag_mul; apply: eq_dense => i j Hi Hj; rewrite /bdiag /rdiag.
  by have [_|//] := eqVneq i j; rewrite EQ.
split=> //.
have uU : btd_to_dense n.+1 false U \in unitmx.
  by apply: to_dense_lower_unit => k Hk r; rewrite HU // mxE eqxx oner_eq0.
have uD : btd_to_dense n.+1 false Dg \in unitmx.
  by apply: to_dense_lower_unit => k Hk r; case: (lowpos_nz (HD k Hk)).
set v := (_ *m flat _ _ + _).
have Ev : flat n.+1 m_post = invmx (btd_to_dense n.+1 false Dg)^T *m (invmx (btd_to_dense n.+1 false Dg) *m
     (invmx (btd_to_dense n.+1 false U)^T *m v)).
  rewrite /m_post !solveE; congr (_ *m (_ *m (_ *m _))).
  by rewrite -flatD back_project_flat // dense_multE.
have Em : btd_to_dense n.+1 false U *m flat n.+1 (ssm_marginal_means n post) = flat n.+1 m_post.
  rewrite -EA -a_inv_dense.
  have := @solveE F n.+1 d (ssm_a_inv_block post) false (ssm_concat_offsets post).
  rewrite -/(ssm_marginal_means n post) => ->.
  rewrite mulKVmx; first by apply: eq_flat => -[|k].
  by rewrite a_inv_dense EA.
have HkL := kf_L_spd HS Hr.
apply: (mulmx_cancel_l (spd_unit HkL)); rewrite mulKVmx ?spd_unit //.
rewrite -k_inv_post_dense // -HM -!mulmxA Em Ev.
rewrite (mulKVmx (_ : (_)^T \in unitmx)) ?unitmx_tr // mulKVmx // mulKVmx ?unitmx_tr //.
Qed.

(* the joint law of the posterior *)
Lemma kf_posterior_law f m K : (0 < n)%N ->
  ssm_nonsing n (kf_ssm f) -> (forall k, (k < n.+1)%N -> psd (kf_rinv f k)) ->
  has_law n.+1 n.+1 (ssm_path (kf_ssm f)) m K ->
  exists post,
  [/\ kf_posterior n f = Some post, ssm_nonsing n post &
      forall m' K', has_law n.+1 n.+1 (ssm_path post) m' K' ->
      let L := invmx (dense n.+1 n.+1 K) + (kf_G f)^T *m kf_Si f *m kf_G f in
      dense n.+1 n.+1 K' = invmx L /\
      flat n.+1 m' = invmx L *m ((kf_G f)^T *m kf_Si f *m flat n.+1 (kf_obs f) +
                                 invmx (dense n.+1 n.+1 K) *m flat n.+1 m)].
Proof.
move=> Hn HS Hr HL; have [post [E1 E2 E3 E4]] := kf_posterior_core Hn HS Hr.
exists post; split=> // m' K' HL' L.
have [-> ->] := ssm_lawE HL'; have [Em EK] := ssm_lawE HL.
have Ei : invmx (dense n.+1 n.+1 K) = btd_to_dense n.+1 true (ssm_precision n (kf_ssm f)).
  by rewrite EK -inv_precision // invmxK.
have EL : L = kf_L f by rewrite /L Ei.
by rewrite EL E4 Ei Em -inv_precision // E3.
Qed.

(* with invertible observation precisions *)
Lemma kf_posterior_cond f (V : nat -> 'M[F]_e) m K : (0 < n)%N ->
  ssm_nonsing n (kf_ssm f) -> (forall k, (k < n.+1)%N -> spd (V k)) ->
  (forall k, (k < n.+1)%N -> kf_rinv f k = invmx (V k)) ->
  has_law n.+1 n.+1 (ssm_path (kf_ssm f)) m K ->
  exists post,
  [/\ kf_posterior n f = Some post, ssm_nonsing n post &
      forall m' K', has_law n.+1 n.+1 (ssm_path post) m' K' ->
      let G := dense n.+1 n.+1 (rdiag (kf_H f)) in
      let Sg := dense n.+1 n.+1 (rdiag V) in
      flat n.+1 m' = cond_mean (flat n.+1 m) (dense n.+1 n.+1 K) G Sg (flat n.+1 (kf_obs f)) /\
      dense n.+1 n.+1 K' = cond_cov (dense n.+1 n.+1 K) G Sg].
Proof.
move=> Hn HS HV Er HL.
have Hr k : (k < n.+1)%N -> psd (kf_rinv f k) by move=> Hk; rewrite Er //; apply/spd_psd/spd_inv/HV.
have [post [E1 E2 E3]] := kf_posterior_law Hn HS Hr HL.
exists post; split=> // m' K' HL' G Sg; have [EK Em] := E3 m' K' HL'.
have HK : spd (dense n.+1 n.+1 K) by have [_ ->] := ssm_lawE HL; apply: cov_spd.
have HSg : spd Sg by apply: spd_rdiag.
have ES : kf_Si f = invmx Sg.
  rewrite /Sg rdiag_inv; first by apply: eq_dense => i j Hi Hj; rewrite /rdiag; have [_|//] := eqVneq i j; apply: Er.
  by move=> k Hk; apply/spd_unit/HV.
by rewrite EK Em cond_mean_info // cond_cov_info // -ES.
Qed.

End Posterior.

Section Pick.
Variable R : comRingType.
Variables (d e m N : nat).
Implicit Types (H : nat -> 'M[R]_(e, d)) (V : nat -> 'M[R]_e) (idx : nat -> nat).

Lemma pick_mul p H idx (X : nat -> 'M[R]_(d, p)) j : (idx j < N)%N ->
  \sum_(k < N) pick_blocks H idx j k *m X k = H (idx j) *m X (idx j).
Proof.
move=> Hj; rewrite (@sum_ord_at N _ (fun k => pick_blocks H idx j k *m X k) (idx j)) //.
  by rewrite /pick_blocks eqxx.
by move=> k _ /negbTE; rewrite /pick_blocks => ->; rewrite mul0mx.
Qed.

Lemma pick_flat H idx (x : nat -> 'cV[R]_d) : (forall j, (j < m)%N -> (idx j < N)%N) ->
  dense m N (pick_blocks H idx) *m flat N x = flat m (fun j => H (idx j) *m x (idx j)).
Proof. by move=> Hi; rewrite mul_dense_flat; apply: eq_flat => j Hj; rewrite pick_mul ?Hi. Qed.

Lemma pick_cov H idx (K : nat -> nat -> 'M[R]_d) : (forall j, (j < m)%N -> (idx j < N)%N) ->
  dense m N (pick_blocks H idx) *m dense N N K *m (dense m N (pick_blocks H idx))^T =
  dense m m (fun i j => H (idx i) *m K (idx i) (idx j) *m (H (idx j))^T).
Proof.
move=> Hi; rewrite tr_dense !mul_dense; apply: eq_dense => i j Hi' Hj'.
rewrite (eq_bigr (fun k : 'I_N => H (idx i) *m K (idx i) k *m (pick_blocks H idx j k)^T)); last first.
  by move=> k _; rewrite (pick_mul _ (fun l => K l k)) ?Hi.
rewrite (@sum_ord_at N _ (fun k => H (idx i) *m K (idx i) k *m (pick_blocks H idx j k)^T) (idx j)) ?Hi //.
  by rewrite /pick_blocks eqxx.
by move=> k _ /negbTE; rewrite /pick_blocks => ->; rewrite trmx0 mulmx0.
Qed.

Lemma pick_tr_mul p H idx (X : nat -> 'M[R]_(e, p)) k :
  \sum_(j < m) (pick_blocks H idx j k)^T *m X j = (H k)^T *m \sum_(j < m | idx j == k) X j.
Proof.
rewrite mulmx_sumr [RHS]big_mkcond /=; apply: eq_bigr => j _; rewrite /pick_blocks eq_sym.
by case: eqP => _; rewrite ?trmx0 ?mul0mx.
Qed.

Lemma pick_tr_rdiag H V idx :
  (dense m N (pick_blocks H idx))^T *m dense m m (rdiag V) =
  dense N m (fun k j => (pick_blocks H idx j k)^T *m V j).
Proof.
rewrite tr_dense mul_dense; apply: eq_dense => k j Hk Hj.
by rewrite (@sum_bdiag_r R _ _ m V (fun l => (pick_blocks H idx l k)^T) j Hj).
Qed.

Lemma pick_tr_flat H V idx (y : nat -> 'cV[R]_e) :
  (dense m N (pick_blocks H idx))^T *m dense m m (rdiag V) *m flat m y =
  flat N (fun k => (H k)^T *m \sum_(j < m | idx j == k) V j *m y j).
Proof.
rewrite pick_tr_rdiag mul_dense_flat; apply: eq_flat => k Hk.
by rewrite -(pick_tr_mul H idx (fun j => V j *m y j)); apply: eq_bigr => j _; rewrite mulmxA.
Qed.

Lemma pick_congr H V idx :
  (dense m N (pick_blocks H idx))^T *m dense m m (rdiag V) *m dense m N (pick_blocks H idx) =
  dense N N (rdiag (fun k => (H k)^T *m (\sum_(j < m | idx j == k) V j) *m H k)).
Proof.
rewrite pick_tr_rdiag mul_dense; apply: eq_dense => k l Hk Hl.
rewrite (eq_bigr (fun j : 'I_m => (pick_blocks H idx j k)^T *m (V j *m pick_blocks H idx j l))); last first.
  by move=> j _; rewrite mulmxA.
rewrite (pick_tr_mul H idx (fun j => V j *m pick_blocks H idx j l)) /rdiag.
have [->|nE] := eqVneq k l.
  rewrite -mulmxA mulmx_suml; congr (_ *m _); apply: eq_bigr => j /eqP E.
  by rewrite /pick_blocks E eqxx.
rewrite big1 ?mulmx0 // => j /eqP E; rewrite /pick_blocks E eq_sym (negbTE nE) mulmx0; reflexivity.
Qed.

(* at most one term when the indices are distinct *)
Lemma scatter_one (V : zmodType) (t : nat -> V) idx j :
  (forall i j, (i < m)%N -> (j < m)%N -> idx i = idx j -> i = j) -> (j < m)%N ->
  \sum_(i < m | idx i == idx j) t i = t j.
Proof.
move=> inj Hj; rewrite (bigD1 (Ordinal Hj)) //= big1 ?addr0 // => i /andP [/eqP E].
by rewrite -val_eqE /= => /eqP []; apply: inj.
Qed.

Lemma scatter_cases idx k : (exists2 j, (j < m)%N & idx j = k) \/ (forall j, (j < m)%N -> idx j != k).
Proof.
have [/existsP [j /eqP E]|/existsPn H] := boolP [exists j : 'I_m, idx j == k].
  by left; exists j.
by right=> j Hj; apply: (H (Ordinal Hj)).
Qed.

Lemma scatter_none (V : zmodType) (t : nat -> V) idx k : (forall j, (j < m)%N -> idx j != k) ->
  \sum_(j < m | idx j == k) t j = 0.
Proof. by move=> H; rewrite big1 // => j E; have := H j (ltn_ord j); rewrite E. Qed.
End Pick.

Lemma psd_sum (F : realFieldType) d (I : finType) (P : pred I) (V : I -> 'M[F]_d) :
  (forall i, psd (V i)) -> psd (\sum_(i | P i) V i).
Proof. by move=> H; elim/big_ind: _ => //; [exact: psd0 | exact: psdD]. Qed.

Section Sparse.
Variable F : rcfType.
Variables (d n m : nat).
Variables (S : ssm F d) (H : nat -> 'M[F]_(1, d)) (s : sites F) (idx : nat -> nat) (obs : nat -> 'cV[F]_1).
Hypothesis Hs : forall j, (j < m)%N -> st_nat2 s j < 0.
Let f := kf_sparse S H m s idx obs.

Definition site_var k : 'M[F]_1 := ((- 2%:R * st_nat2 s k)^-1)%:M.

Lemma site_prec_gt0 j : st_nat2 s j < 0 -> 0 < - 2%:R * st_nat2 s j.
Proof. by move=> h; rewrite mulNr -mulrN; apply: mulr_gt0; rewrite ?oppr_gt0 // ltr0n. Qed.

Lemma site_var_spd j : st_nat2 s j < 0 -> spd (site_var j).
Proof. by move=> h; apply: spd11; rewrite invr_gt0 site_prec_gt0. Qed.

Lemma site_var_inv j : invmx (site_var j) = sites_precisions s j.
Proof. by rewrite /site_var invmx_scalar invrK. Qed.

Lemma sparse_rinv_psd k : (k < n.+1)%N -> psd (kf_rinv f k).
Proof.
move=> _; rewrite /f /= /ext_scatter_nd; elim/big_ind: _; [exact: psd0 | exact: psdD |] => j _.
by apply: spd_psd; rewrite -site_var_inv; apply/spd_inv/site_var_spd/Hs.
Qed.

Let G := dense m n.+1 (pick_blocks H idx).
Let Sg := dense m m (rdiag site_var).

Lemma sparse_Sg_spd : spd Sg.
Proof. by apply: spd_rdiag => j Hj; apply/site_var_spd/Hs. Qed.

Lemma sparse_Sg_inv : invmx Sg = dense m m (rdiag (sites_precisions s)).
Proof.
rewrite /Sg rdiag_inv; last by move=> j Hj; apply/spd_unit/site_var_spd/Hs.
by apply: eq_dense => i j _ _; rewrite /rdiag site_var_inv.
Qed.

Lemma sparse_info : (kf_G n f)^T *m kf_Si n f *m kf_G n f = G^T *m invmx Sg *m G.
Proof.
rewrite sparse_Sg_inv /G (pick_congr m n.+1 H (sites_precisions s) idx).
exact: (rdiag_congr n.+1 H (kf_rinv f)).
Qed.

Hypothesis inj : forall i j, (i < m)%N -> (j < m)%N -> idx i = idx j -> i = j.

(* the scattered information vector, shifted by any mean *)
Lemma sparse_vec (mu : nat -> 'cV[F]_1) :
  (kf_G n f)^T *m kf_Si n f *m flat n.+1 (fun k => kf_obs f k - mu k) =
  G^T *m invmx Sg *m flat m (fun j => obs j - mu (idx j)).
Proof.
rewrite sparse_Sg_inv /G (pick_tr_flat m n.+1 H (sites_precisions s) idx).
rewrite (rdiag_congr_flat n.+1 H (kf_rinv f)); apply: eq_flat => k _.
rewrite -mulmxA; congr (_ *m _); rewrite /f /= /ext_scatter_nd.
pose t j := sites_precisions s j *m (obs j - mu (idx j)).
have [[j Hj <-]|Z] := scatter_cases m idx k.
  rewrite (scatter_one (sites_precisions s) inj Hj) (scatter_one obs inj Hj).
  by rewrite -[LHS](scatter_one t inj Hj).
rewrite (scatter_none (sites_precisions s) Z) mul0mx -[LHS](scatter_none t Z).
by apply: eq_bigr.
Qed.

Lemma sparse_posterior mu K : (0 < n)%N ->
  ssm_nonsing n S -> has_law n.+1 n.+1 (ssm_path S) mu K ->
  exists post,
  [/\ kf_posterior n f = Some post, ssm_nonsing n post &
      forall m' K', has_law n.+1 n.+1 (ssm_path post) m' K' ->
      flat n.+1 m' = cond_mean (flat n.+1 mu) (dense n.+1 n.+1 K) G Sg (flat m obs) /\
      dense n.+1 n.+1 K' = cond_cov (dense n.+1 n.+1 K) G Sg].
Proof.
move=> Hn HS HL.
have [post [E1 E2 E3]] := @kf_posterior_law F d 1 n f mu K Hn HS sparse_rinv_psd HL.
exists post; split=> // m' K' HL'; have [EK Em] := E3 m' K' HL'.
have HK : spd (dense n.+1 n.+1 K) by have [_ ->] := ssm_lawE HL; apply: cov_spd.
rewrite cond_mean_info ?cond_cov_info //; try exact: sparse_Sg_spd.
rewrite Em EK sparse_info; split=> //; congr (_ *m (_ + _)).
have := sparse_vec (fun _ => 0); rewrite (eq_flat (y := kf_obs f)); last by move=> k _; rewrite subr0.
by rewrite [X in _ = _ *m X](eq_flat (y := obs)) // => k _; rewrite subr0.
Qed.

End Sparse.

Section SiteLemmas.
Variable F : rcfType.
Variables (d n : nat).
Variables (S : ssm F d) (H : nat -> 'M[F]_(1, d)) (s : sites F).
Hypothesis Hs : forall j, (j < n.+1)%N -> st_nat2 s j < 0.

Lemma sites_posterior mu K : (0 < n)%N ->
  ssm_nonsing n S -> has_law n.+1 n.+1 (ssm_path S) mu K ->
  exists post,
  [/\ kf_posterior n (kf_sites S H s) = Some post, ssm_nonsing n post &
      forall m' K', has_law n.+1 n.+1 (ssm_path post) m' K' ->
      let G := dense n.+1 n.+1 (rdiag H) in
      let Sg := dense n.+1 n.+1 (rdiag (fun k => ((- 2%:R * st_nat2 s k)^-1)%:M)) in
      let y := flat n.+1 (fun k => (- st_nat1 s k / (2%:R * st_nat2 s k))%:M) in
      [/\ flat n.+1 m' = cond_mean (flat n.+1 mu) (dense n.+1 n.+1 K) G Sg y,
          dense n.+1 n.+1 K' = cond_cov (dense n.+1 n.+1 K) G Sg,
          invmx (dense n.+1 n.+1 K') = invmx (dense n.+1 n.+1 K) +
            G^T *m dense n.+1 n.+1 (rdiag (fun k => (- 2%:R * st_nat2 s k)%:M)) *m G &
          invmx (dense n.+1 n.+1 K') *m flat n.+1 m' =
            invmx (dense n.+1 n.+1 K) *m flat n.+1 mu + G^T *m flat n.+1 (fun k => (st_nat1 s k)%:M)]].
Proof.
move=> Hn HS HL; pose f := kf_sites S H s.
have HV k (Hk : (k < n.+1)%N) := site_var_spd (Hs Hk).
have Er k : (k < n.+1)%N -> kf_rinv f k = invmx (site_var s k) by move=> _; rewrite site_var_inv.
have Hr k : (k < n.+1)%N -> psd (kf_rinv f k) by move=> Hk; rewrite Er //; apply/spd_psd/spd_inv/HV.
have [post [E1 E2 E3]] := @kf_posterior_cond F d 1 n f (site_var s) mu K Hn HS HV Er HL.
have [post' [E1' _ E3']] := @kf_posterior_law F d 1 n f mu K Hn HS Hr HL.
have Ep : post' = post by move: E1'; rewrite E1 => -[].
subst post'; exists post; split=> // m' K' HL' G Sg y; have [Em EK] := E3 m' K' HL'; have [EK' Em'] := E3' m' K' HL'.
have HLs : spd (invmx (dense n.+1 n.+1 K) + (kf_G n f)^T *m kf_Si n f *m kf_G n f).
  apply: spdD; last by apply/psd_congr/psd_rdiag.
  by apply: spd_inv; have [_ ->] := ssm_lawE HL; apply: cov_spd.
have Ey : flat n.+1 (kf_obs f) = y.
  apply: eq_flat => k Hk; congr (_%:M); rewrite invfM.
  by move: (2%:R^-1 : F) (st_nat1 s k) ((st_nat2 s k)^-1) => i a b; crng.
split; [by rewrite Em Ey | by rewrite EK | by rewrite EK' invmxK |].
rewrite EK' invmxK Em' mulKVmx ?spd_unit // addrC; congr (_ + _).
rewrite -mulmxA; congr (_ *m _); rewrite rdiag_flat; apply: eq_flat => k Hk /=.
rewrite /sites_precisions /sites_means -scalar_mxM; congr (_%:M).
have n0 : st_nat2 s k != 0 by rewrite lt_eqF // Hs.
transitivity ((2%:R / 2%:R) * (st_nat2 s k / st_nat2 s k) * st_nat1 s k); last first.
  by rewrite !divff ?pnatr_eq0 // !mul1r.
by move: (2%:R : F) (2%:R^-1 : F) (st_nat1 s k) ((st_nat2 s k)^-1) (st_nat2 s k) => t i a b c; crng.
Qed.
End SiteLemmas.
