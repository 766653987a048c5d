(* Proofs about the parameter transformations. *)
From mathcomp Require Import all_ssreflect all_algebra.
From Verif Require Import Nat Alg Lin Ent Spd M_Block S_Block P_Block P_Block2 M_SSM S_SSM P_SSM
  S_Kalman M_Kalman P_Kalman M_Trans S_Trans.
Set Implicit Arguments.
Unset Strict Implicit.
Unset Printing Implicit Defensive.
Import GRing.Theory Num.Theory.
Local Open Scope ring_scope.
Local Arguments ext_triangular_solve : simpl never.
Local Arguments ext_cholesky_solve : simpl never.

Section Trans.
Variable F : rcfType.
Variables (d n : nat).
Implicit Types (S : ssm F d) (t : triple F d).

Lemma half_two : (- 2%:R^-1 : F) * (- 2%:R) = 1.
Proof. by rewrite mulrNN mulVf // pnatr_eq0. Qed.
Lemma two_half : (- 2%:R : F) * (- 2%:R^-1) = 1.
Proof. by rewrite mulrNN divff // pnatr_eq0. Qed.

Lemma tri_solveE p (L : 'M[F]_d) (X : 'M[F]_(d, p)) adj : lownz L ->
  ext_triangular_solve adj L X = (if adj then invmx L^T else invmx L) *m X.
Proof. by case=> HL _; rewrite /ext_triangular_solve tril_id //; case: adj. Qed.

Lemma naturals_diag S k : ssm_nonsing n S -> (k < n.+1)%N ->
  t_diag (ssm_to_naturals n S) k = - 2%:R^-1 *: bt_diag (ssm_precision n S) k.
Proof.
move=> HS Hk /=; congr (_ *: (_ + _)); case: ifP => // Hkn.
have HL : lownz (s_cholQ S k) by apply: HS.2.
rewrite tri_solveE // chol_solveE // trmx_mul !mulmxA; congr (_ *m _).
by rewrite -mulmxA tr_invmx -invmx_mul ?unitmx_tr ?lownz_unit.
Qed.

Lemma naturals_sub S k : ssm_nonsing n S -> (k < n)%N ->
  t_sub (ssm_to_naturals n S) k = - osub (bt_sub (ssm_precision n S)) k.
Proof. by move=> HS Hk /=; rewrite opprK. Qed.

Lemma flat_offsets S : dense n.+1 n.+1 (ainv_blocks (s_A S)) *m flat n.+1 (ssm_marginal_means n S) =
  flat n.+1 (ssm_concat_offsets S).
Proof.
rewrite /ssm_marginal_means solveE -a_inv_dense mulKVmx //.
by apply: to_dense_lower_unit => k Hk; apply: (@a_inv_diag F d n).
Qed.

Lemma lower_tr_flat N (D A : nat -> 'M[F]_d) (x : nat -> 'cV[F]_d) :
  (dense N N (lower_blocks D A))^T *m flat N x =
  flat N (fun k => (D k)^T *m x k + nextb N (fun k => (A k)^T *m x k.+1) k).
Proof. by rewrite tr_dense mul_dense_flat; apply: eq_flat => k Hk; rewrite -(sum_lower_tr D A x Hk). Qed.

Lemma ainv_tr_flat (A : nat -> 'M[F]_d) (x : nat -> 'cV[F]_d) :
  (dense n.+1 n.+1 (ainv_blocks A))^T *m flat n.+1 x =
  flat n.+1 (fun k => x k - (if (k < n)%N then (A k)^T *m x k.+1 else 0)).
Proof.
rewrite lower_tr_flat; apply: eq_flat => k Hk; rewrite trmx1 mul1mx /nextb ltnS.
by case: ifP => // _; rewrite ?subr0 ?addr0 // trmxN mulNmx.
Qed.

Lemma naturals_lin_core S : ssm_nonsing n S ->
  flat n.+1 (t_lin (ssm_to_naturals n S)) =
  (dense n.+1 n.+1 (ainv_blocks (s_A S)))^T *m dense n.+1 n.+1 (bdiag (fun k => invmx (ssm_Qc S k)))
    *m flat n.+1 (ssm_concat_offsets S).
Proof.
move=> HS; rewrite -mulmxA -rdiag_bdiag rdiag_flat ainv_tr_flat; apply: eq_flat => k Hk /=.
rewrite chol_solveE; last exact: (concat_chol_nz HS Hk).
by case: ifP => Hkn; rewrite ?subr0 // chol_solveE //; apply: HS.2.
Qed.

Lemma naturals_lin S : ssm_nonsing n S ->
  flat n.+1 (t_lin (ssm_to_naturals n S)) =
  btd_to_dense n.+1 true (ssm_precision n S) *m flat n.+1 (ssm_marginal_means n S).
Proof. by move=> HS; rewrite naturals_lin_core // precision_dense // -!mulmxA flat_offsets. Qed.

Lemma band_diag_block N (M : 'M[F]_(N * d)) w k : (d <= w)%N -> (k < N)%N ->
  \matrix_(s < d, r < d) ext_band_to_block d true (ext_pack_band w M) r (k * d + s)%N = symm (blk M k k).
Proof.
move=> Hw Hk; apply: ent_eq => s r Hs Hr; rewrite (ent_lt _ Hs Hr) mxE /=.
have [_ Hm] := divmod_blk k Hs; rewrite /ext_band_to_block Hm /ext_pack_band ent_symm.
have E i j : (i < d)%N -> (j < d)%N -> ent (blk M k k) i j = ent M (k * d + i) (k * d + j).
  by move=> Hi Hj; rewrite -(ent_dense (fun i j => blk M i j) Hk Hk Hi Hj) dense_blk.
case: (leqP s r) => Hsr.
  have -> : (r - s < w)%N by lia.
  rewrite E //; case: leqP => Hrs; rewrite ?E //; last by congr ent; lia.
  by congr ent; lia.
rewrite (ltnW Hsr) E //; have -> : (s - r < w)%N by lia.
by congr ent; lia.
Qed.

Lemma band_sub_block N (M : 'M[F]_(N * d)) w k : (d.-1 + d < w)%N -> (k.+1 < N)%N ->
  \matrix_(s < d, r < d) ext_band_to_block d true (ext_pack_band w M) (d + r)%N (k * d + s)%N = (blk M k.+1 k)^T.
Proof.
move=> Hw Hk; apply: ent_eq => s r Hs Hr; rewrite (ent_lt _ Hs Hr) mxE /= ent_tr.
have [_ Hm] := divmod_blk k Hs; rewrite /ext_band_to_block Hm /ext_pack_band.
rewrite -(ent_dense (fun i j => blk M i j) Hk (ltnW Hk) Hr Hs) dense_blk.
have -> : (s <= d + r)%N by lia.
have -> : (d + r - s < w)%N by lia.
by congr ent; lia.
Qed.

Lemma chain_var_spd (A Qc : nat -> 'M[F]_d) k :
  (forall l, (l <= k)%N -> spd (Qc l)) -> spd (chain_var A Qc k).
Proof.
elim: k => [|k IH] H /=; first exact: H.
rewrite addrC; apply: spdD; first exact: H.
by apply/psd_congr'/spd_psd/IH => l Hl; apply: H; lia.
Qed.

(* a triple built from transitions A, conditional precisions V and offsets *)
Section Core.
Variables (A V : nat -> 'M[F]_d) (off : nat -> 'cV[F]_d) (t : triple F d).
Hypothesis HV : forall k, (k < n.+1)%N -> spd (V k).
Let P := naturals_to_precision t.
Hypothesis Hd : forall k, (k < n.+1)%N ->
  bt_diag P k = V k + (if (k < n)%N then (A k)^T *m V k.+1 *m A k else 0).
Hypothesis Hsub : forall k, (k < n)%N -> t_sub t k = V k.+1 *m A k.
Let Ai := dense n.+1 n.+1 (ainv_blocks A).
Hypothesis Hlin : flat n.+1 (t_lin t) = Ai^T *m dense n.+1 n.+1 (bdiag V) *m flat n.+1 off.

Lemma core_diag_sym k : (k < n.+1)%N -> (bt_diag P k)^T = bt_diag P k.
Proof.
move=> Hk; rewrite Hd // trmxD (spd_sym (HV Hk)); case: ifP => Hn; last by rewrite trmx0.
by rewrite !trmx_mul trmxK (spd_sym (HV _)) // mulmxA.
Qed.

Lemma core_dense : btd_to_dense n.+1 true P = Ai^T *m dense n.+1 n.+1 (bdiag V) *m Ai.
Proof.
rewrite to_dense_sym.
rewrite (eq_dense (L := sym_blocks (bt_diag P) (fun k => - (V k.+1 *m A k)))); last first.
  move=> i j Hi Hj; rewrite /sym_blocks symm_id ?core_diag_sym //.
  have E k : (k < n)%N -> osub (bt_sub P) k = - (V k.+1 *m A k) by move=> Hk /=; rewrite Hsub.
  have [//|nE] := eqVneq i j.
  have [E1|nE1] := eqVneq i j.+1; first by rewrite E // -ltnS -E1.
  by have [E2|//] := eqVneq j i.+1; rewrite E // -ltnS -E2.
symmetry; apply: udu_mul => k Hk.
- by apply/spd_sym/HV.
- by rewrite mulmxN.
- rewrite Hd //; congr (_ + _); rewrite /nextb ltnS; case: ifP => // Hn.
  by rewrite trmxN mulNmx mulmxN opprK trmx_mul (spd_sym (HV _)).
Qed.

Lemma core_unit : Ai \in unitmx.
Proof. by have [] := mulmx1_unit (ainv_phi A n.+1). Qed.

Lemma core_spd : spd (btd_to_dense n.+1 true P).
Proof.
rewrite core_dense; apply: spd_congr; first exact: core_unit.
by rewrite -rdiag_bdiag; apply: spd_rdiag.
Qed.

Let Qc k := invmx (V k).

Lemma core_inv : invmx (btd_to_dense n.+1 true P) = dense n.+1 n.+1 (chain_cov A Qc).
Proof.
apply: mulmx1_inv; rewrite core_dense phi_dense_cov.
set Ph := dense _ _ (phi_le _).
have E1 : Ai *m Ph = 1%:M by exact: ainv_phi.
have E2 : dense n.+1 n.+1 (bdiag V) *m dense n.+1 n.+1 (bdiag Qc) = 1%:M.
  by rewrite -!rdiag_bdiag rdiag_unit // => k Hk; apply/spd_unit/HV.
rewrite -!mulmxA (mulmxA Ai) E1 mul1mx (mulmxA (dense _ _ (bdiag V))) E2 mul1mx -trmx_mul.
by rewrite (mulmx1C E1) trmx1.
Qed.

Lemma core_inv_tr : invmx Ai^T = (dense n.+1 n.+1 (phi_le A))^T.
Proof. by apply: mulmx1_inv; rewrite -trmx_mul (mulmx1C (ainv_phi A n.+1)) trmx1. Qed.

(* the block (k, k) of Ainv^-T times the lower triangle of the precision *)
Lemma core_tmp_block k : (k < n.+1)%N ->
  symm (blk (invmx Ai^T *m dense n.+1 n.+1 (lower_blocks (fun k => tril (bt_diag P k)) (osub (bt_sub P)))) k k)
  = V k.
Proof.
move=> Hk; rewrite core_inv_tr tr_dense mul_dense blk_dense //.
have E0 (D B : nat -> 'M[F]_d) : \sum_(l < n.+1) (phi_le A l k)^T *m lower_blocks D B l k =
    (\sum_(l < n.+1) (lower_blocks D B l k)^T *m phi_le A l k)^T.
  by rewrite raddf_sum /=; apply: eq_bigr => l _; rewrite trmx_mul trmxK.
rewrite E0.
have -> := @sum_lower_tr F d d n.+1 (fun k => tril (bt_diag P k)) (osub (bt_sub P)) (fun l => phi_le A l k) k Hk.
have E1 : phi_le A k k = 1%:M by rewrite /phi_le leqnn subnn.
have E2 : phi_le A k.+1 k = A k by rewrite /phi_le leqnSn subSnn /= addn0 mulmx1.
rewrite E1 mulmx1 trmxD trmxK symmD /nextb ltnS.
have E3 (M : 'M[F]_d) : symm (tril M) = symm M.
  by apply: ent_eq => i j Hi Hj; rewrite !ent_symm !ent_tril; case: (leqP j i) => // H; rewrite (ltnW H).
rewrite E3 symm_id ?core_diag_sym // Hd //.
case: ifP => Hn; last by rewrite trmx0 symm_id ?trmx0 ?addr0.
rewrite E2 [osub _ _]/= Hsub // -[RHS]addr0 -addrA; congr (_ + _).
have E4 : ((- (V k.+1 *m A k))^T *m A k)^T = - ((A k)^T *m V k.+1 *m A k).
  by rewrite trmx_mul trmxK mulmxN mulmxA.
rewrite E4 symm_id ?subrr // trmxN !trmx_mul trmxK (spd_sym (HV _)) //.
by rewrite mulmxA.
Qed.

Lemma core_result : (0 < n)%N -> exists S,
  [/\ naturals_to_ssm n t = Some S, s_mu0 S = off 0%N, s_cholP0 S = chol (invmx (V 0%N)) &
      forall k, (k < n)%N -> [/\ s_A S k = A k, s_b S k = off k.+1 & s_cholQ S k = chol (invmx (V k.+1))]].
Proof.
move=> Hn; rewrite /naturals_to_ssm -/P {1}/btd_ctor_ok [bt_sub P]/= ltnS Hn [~~ true]/=.
set block := ext_band_to_block d true (ext_inverse_from_cholesky_band _ _ _).
set mc := fun k => \matrix_(s < d, r < d) block r (k * d + s)%N.
set sd := fun k => \matrix_(s < d, r < d) block (d + r)%N (k * d + s)%N.
have Eb : block = ext_band_to_block d true (ext_pack_band (d.-1 + d).+1 (dense n.+1 n.+1 (chain_cov A Qc))).
  rewrite /block /ext_inverse_from_cholesky_band; congr (ext_band_to_block d true (ext_pack_band _ _)).
  have E : ext_unpack_banded (btd_bandwidth (btd_cholesky n.+1 P)).+1 (n.+1 * d) (btd_as_band n.+1 (btd_cholesky n.+1 P))
     = btd_to_dense n.+1 false (btd_cholesky n.+1 P) by [].
  by rewrite E cholesky_to_dense ?chol_mul ?core_inv //; apply: core_spd.
have HQ k : (k < n.+1)%N -> spd (Qc k) by move=> Hk; apply/spd_inv/HV.
have Emc k : (k < n.+1)%N -> mc k = chain_var A Qc k.
  move=> Hk; rewrite /mc Eb band_diag_block //; last by lia.
  rewrite blk_dense // chain_cov_diag symm_id //.
  by apply/spd_sym/chain_var_spd => l Hl; apply: HQ; lia.
have Esd k : (k < n)%N -> sd k = (A k *m chain_var A Qc k)^T.
  by move=> Hk; rewrite /sd Eb band_sub_block // blk_dense ?chain_cov_succ //; lia.
set As := fun k => (ext_solve (mc k) (sd k))^T.
have EA k : (k < n)%N -> As k = A k.
  move=> Hk; rewrite /As /ext_solve Emc ?Esd; try lia.
  have HC : spd (chain_var A Qc k) by apply: chain_var_spd => l Hl; apply: HQ; lia.
  by rewrite trmx_mul trmxK tr_invmx (spd_sym HC) mulmxK ?spd_unit.
set ai := Btd (fun _ => 1%:M) (Some (fun k => - As k)).
have Eai : ext_unpack_banded (btd_bandwidth ai).+1 (n.+1 * d) (btd_as_band n.+1 ai) = Ai.
  rewrite unpack_as_band; apply: eq_dense => i j Hi Hj; rewrite /ainv_blocks /lower_blocks tril_id; last exact: scalar_mx_is_trig.
  case: eqP => // _; case: eqP => // E /=; rewrite EA //; lia.
set tb := ext_band_to_block d true (ext_solve_triang_band (btd_bandwidth ai).+1 (btd_bandwidth P).+1
  (btd_bandwidth P).+1 (n.+1 * d) (btd_as_band n.+1 ai) (btd_as_band n.+1 P) true).
set cp := fun k => \matrix_(s < d, r < d) tb r (k * d + s)%N.
have Ecp k : (k < n.+1)%N -> cp k = V k.
  move=> Hk; rewrite /cp /tb /ext_solve_triang_band Eai (unpack_as_band _ P) band_diag_block //; last by rewrite (_ : (btd_bandwidth P).+1 = (d.-1 + d).+1) //; lia.
  exact: core_tmp_block.
set cov := fun k => ext_cholesky_solve (ext_cholesky (cp k)) 1%:M.
have Ecov k : (k < n.+1)%N -> cov k = Qc k.
  move=> Hk; rewrite /cov Ecp // /ext_cholesky chol_solveE ?mulmx1 ?chol_mul //; try exact: HV.
  by apply/lowpos_nz/chol_lowpos/HV.
set pto := btd_solve n.+1 ai true (t_lin t).
have Epto k : (k < n.+1)%N -> pto k = V k *m off k.
  move=> Hk.
  have E : flat n.+1 pto = flat n.+1 (fun k => V k *m off k).
    rewrite /pto solveE (_ : btd_to_dense n.+1 false ai = Ai) //.
    by rewrite Hlin -mulmxA mulKmx ?unitmx_tr ?core_unit // -rdiag_bdiag rdiag_flat.
  exact: (bcol_inj E Hk).
have Eoff k : (k < n.+1)%N -> cov k *m pto k = off k.
  by move=> Hk; rewrite Ecov // Epto // mulKmx ?spd_unit //; apply: HV.
eexists; split; [reflexivity|..].
- exact: Eoff.
- by rewrite -[LHS]/(chol (cov 0%N)) Ecov.
- move=> k Hk; split; [exact: EA|exact: Eoff|].
  by rewrite -[LHS]/(chol (cov k.+1)) Ecov.
Qed.
End Core.

Lemma ssm_chol_nonsing S : ssm_chol n S -> ssm_nonsing n S.
Proof. by case=> H0 H; split; [exact: lowpos_nz|move=> k Hk; apply/lowpos_nz/H]. Qed.

Lemma concat_chol_pos S : ssm_chol n S -> forall k, (k < n.+1)%N -> lowpos (ssm_concat_chol S k).
Proof. by case=> H0 H [|k] Hk //; apply: H. Qed.

Lemma prec_diagE S k : ssm_nonsing n S -> (k < n.+1)%N -> bt_diag (ssm_precision n S) k =
  invmx (ssm_Qc S k) + (if (k < n)%N then (s_A S k)^T *m invmx (ssm_Qc S k.+1) *m s_A S k else 0).
Proof.
move=> HS Hk; rewrite [LHS]/= chol_solveE ?mulmx1; last exact: (concat_chol_nz HS Hk).
congr (_ + _); case: ifP => // Hn; rewrite chol_solveE; last exact: HS.2.
by rewrite mulmxA.
Qed.

Lemma prec_subE S k : ssm_nonsing n S -> (k < n)%N ->
  t_sub (ssm_to_naturals n S) k = invmx (ssm_Qc S k.+1) *m s_A S k.
Proof.
move=> HS Hk; rewrite [LHS]/=; have HL : lownz (s_cholQ S k) by apply: HS.2.
rewrite !tri_solveE // mulmxA; congr (_ *m _).
by rewrite -invmx_mul ?unitmx_tr ?lownz_unit.
Qed.

Lemma scale_half (M : 'M[F]_d) : - 2%:R *: (- 2%:R^-1 *: M) = M.
Proof. by rewrite scalerA two_half scale1r. Qed.
Lemma scale_two (M : 'M[F]_d) : - 2%:R^-1 *: (- 2%:R *: M) = M.
Proof. by rewrite scalerA half_two scale1r. Qed.

(* model -> naturals -> model *)
Lemma naturals_round_trip S : (0 < n)%N -> ssm_nonsing n S -> exists S',
  [/\ naturals_to_ssm n (ssm_to_naturals n S) = Some S', s_mu0 S' = s_mu0 S,
      s_cholP0 S' = chol (s_cholP0 S *m (s_cholP0 S)^T) &
      forall k, (k < n)%N -> [/\ s_A S' k = s_A S k, s_b S' k = s_b S k &
                                s_cholQ S' k = chol (s_cholQ S k *m (s_cholQ S k)^T)]].
Proof.
move=> Hn HS.
have HQ := ssm_Qc_spd HS.
have [||||S' [E E0 E1 E2]] := @core_result (s_A S) (fun k => invmx (ssm_Qc S k)) (ssm_concat_offsets S)
  (ssm_to_naturals n S) _ _ _ _ Hn.
- by move=> k Hk; apply/spd_inv/HQ.
- move=> k Hk; rewrite -[bt_diag _ k]/(- 2%:R *: t_diag (ssm_to_naturals n S) k).
  by rewrite naturals_diag // scale_half prec_diagE.
- by move=> k Hk; rewrite prec_subE.
- exact: naturals_lin_core.
exists S'; split=> //; first by rewrite E1 invmxK.
by move=> k Hk; have [-> -> ->] := E2 k Hk; rewrite invmxK.
Qed.

Lemma naturals_round_trip_chol S : (0 < n)%N -> ssm_chol n S ->
  exists2 S', naturals_to_ssm n (ssm_to_naturals n S) = Some S' & same_ssm n S' S.
Proof.
move=> Hn HS; have [S' [E E0 E1 E2]] := naturals_round_trip Hn (ssm_chol_nonsing HS).
exists S' => //; split=> //; first by rewrite E1 chol_eq //; case: HS.
by move=> k Hk; have [-> -> ->] := E2 k Hk; rewrite chol_eq //; case: HS => _; apply.
Qed.

(* naturals -> model -> naturals *)
Lemma naturals_of_ssm_of t : (0 < n)%N -> nat_valid n t ->
  exists S, [/\ naturals_to_ssm n t = Some S, ssm_chol n S & same_triple n (ssm_to_naturals n S) t].
Proof.
move=> Hn [Hsym Hspd].
set D := fun k => - 2%:R *: t_diag t k; set B := fun k => - t_sub t k.
set V := fun k => dk n.+1 D B k.
have HV k : (k < n.+1)%N -> spd (V k) by move=> Hk; apply: dk_spd.
set A := fun k => invmx (V k.+1) *m t_sub t k.
set Ai := dense n.+1 n.+1 (ainv_blocks A).
have uA : Ai^T \in unitmx by rewrite unitmx_tr; have [] := mulmx1_unit (ainv_phi A n.+1).
set y := unflat (invmx Ai^T *m flat n.+1 (t_lin t)) : nat -> 'cV[F]_d.
set off := fun k => invmx (V k) *m y k.
have HVA k : (k < n)%N -> t_sub t k = V k.+1 *m A k.
  by move=> Hk; rewrite /A mulKVmx //; apply/spd_unit/HV.
have HD k : (k < n.+1)%N -> D k = V k + (if (k < n)%N then (A k)^T *m V k.+1 *m A k else 0).
  move=> Hk; case: ifP => Hkn; last first.
    have -> : k = n by lia.
    by rewrite addr0 /V -[n in dk _ _ _ n]/(n.+1.-1) dk_last.
  rewrite /V dk_step ?ltnS // -/(V k.+1) /B trmxN !mulNmx mulmxN opprK.
  have -> : (A k)^T *m V k.+1 *m A k = (t_sub t k)^T *m invmx (V k.+1) *m t_sub t k.
    rewrite -mulmxA -HVA // /A trmx_mul tr_invmx (spd_sym (HV k.+1 Hkn)) //.
  by rewrite subrK.
have Hlin : flat n.+1 (t_lin t) = Ai^T *m dense n.+1 n.+1 (bdiag V) *m flat n.+1 off.
  rewrite -mulmxA -rdiag_bdiag rdiag_flat.
  rewrite [X in _ = _ *m X](eq_flat (y := y)); first by rewrite /flat /y bcol_unflat mulKVmx.
  by move=> k Hk; rewrite /off mulKVmx //; apply/spd_unit/HV.
have [S [E E0 E1 E2]] := @core_result A V off t HV HD HVA Hlin Hn.
have Hc : ssm_chol n S.
  split; first by rewrite E1; apply/chol_lowpos/spd_inv/HV.
  by move=> k Hk; have [_ _ ->] := E2 k Hk; apply/chol_lowpos/spd_inv/HV.
have HS := ssm_chol_nonsing Hc.
have EQ k : (k < n.+1)%N -> invmx (ssm_Qc S k) = V k.
  move=> Hk; rewrite /ssm_Qc.
  have -> : ssm_concat_chol S k = chol (invmx (V k)) by case: k Hk => [|k] Hk //=; have [_ _ ->] := E2 k Hk.
  by rewrite chol_mul ?invmxK //; apply/spd_inv/HV.
have Eo k : (k < n.+1)%N -> ssm_concat_offsets S k = off k.
  by case: k => [|k] Hk //=; have [_ -> _] := E2 k Hk.
have EA k : (k < n)%N -> s_A S k = A k by move=> Hk; have [->] := E2 k Hk.
exists S; split=> //; split.
- suff /bcol_inj H : flat n.+1 (t_lin (ssm_to_naturals n S)) = flat n.+1 (t_lin t) by [].
  rewrite naturals_lin_core // Hlin; congr (_^T *m _ *m _).
  + apply: eq_dense => i j Hi Hj; rewrite /ainv_blocks /lower_blocks.
    by case: eqP => // _; case: eqP => // Eij; rewrite EA //; lia.
  + by apply: eq_dense => i j Hi Hj; rewrite /bdiag; case: eqP => // _; rewrite EQ.
  + by apply: eq_flat => k Hk; rewrite Eo.
- move=> k Hk; rewrite naturals_diag // prec_diagE // EQ //.
  rewrite -[RHS]scale_two -/(D k) HD //; congr (_ *: (_ + _)).
  by case: ifP => // Hkn; rewrite EQ // EA.
- by move=> k Hk; rewrite prec_subE // EQ // EA // HVA.
Qed.

(* no smoothing *)
Lemma no_smoothing_round_trip S : ssm_chol n S ->
  same_ssm n (naturals_to_ssm_no_smoothing (ssm_to_naturals_no_smoothing S)) S.
Proof.
move=> Hc; have HS := ssm_chol_nonsing Hc.
have HQ k : (k < n.+1)%N -> spd (ssm_Qc S k) by move=> Hk; apply: (ssm_Qc_spd HS).
have EP k : (k < n.+1)%N -> - 2%:R *: t_diag (ssm_to_naturals_no_smoothing S) k = invmx (ssm_Qc S k).
  by move=> Hk /=; rewrite scale_half chol_solveE ?mulmx1 //; apply: (concat_chol_nz HS).
have ES p k (X : 'M[F]_(d, p)) : (k < n.+1)%N ->
    ext_cholesky_solve (ext_cholesky (- 2%:R *: t_diag (ssm_to_naturals_no_smoothing S) k))
      (ext_cholesky_solve (ssm_concat_chol S k) X) = X.
  move=> Hk; rewrite EP // chol_solve_spd ?invmxK; last by apply/spd_inv/HQ.
  by rewrite chol_solveE -/(ssm_Qc S k) ?mulKVmx ?spd_unit //; [exact: HQ|exact: (concat_chol_nz HS)].
have EC k : (k < n.+1)%N -> ext_cholesky (ext_cholesky_solve
   (ext_cholesky (- 2%:R *: t_diag (ssm_to_naturals_no_smoothing S) k)) 1%:M) = ssm_concat_chol S k.
  move=> Hk; rewrite EP // chol_solve_spd ?invmxK ?mulmx1; last by apply/spd_inv/HQ.
  by rewrite /ext_cholesky /ssm_Qc chol_eq //; apply: concat_chol_pos.
split; [exact: ES|exact: EC|move=> k Hk; split; [exact: ES|exact: ES|exact: EC]].
Qed.

Lemma no_smoothing_round_trip' t : cond_valid n t ->
  ssm_chol n (naturals_to_ssm_no_smoothing t) /\ same_triple n (ssm_to_naturals_no_smoothing (naturals_to_ssm_no_smoothing t)) t.
Proof.
move=> Hv; set S := naturals_to_ssm_no_smoothing t.
set V := fun k => - 2%:R *: t_diag t k; have HV k : (k < n.+1)%N -> spd (V k) by apply: Hv.
have EC k : (k < n.+1)%N -> ssm_concat_chol S k = chol (invmx (V k)).
  by case: k => [|k] Hk; rewrite /= chol_solve_spd ?mulmx1 //; apply: HV.
have HS k : (k < n.+1)%N -> lowpos (ssm_concat_chol S k).
  by move=> Hk; rewrite EC //; apply/chol_lowpos/spd_inv/HV.
have EQ p k (X : 'M[F]_(d, p)) : (k < n.+1)%N ->
    ext_cholesky_solve (ssm_concat_chol S k) X = V k *m X.
  move=> Hk; rewrite chol_solveE; last exact/lowpos_nz/HS.
  by rewrite EC // chol_mul ?invmxK //; apply/spd_inv/HV.
have EX p k (X : 'M[F]_(d, p)) : (k < n.+1)%N -> V k *m ext_cholesky_solve (ext_cholesky (V k)) X = X.
  by move=> Hk; rewrite chol_solve_spd ?mulKVmx ?spd_unit //; apply: HV.
split; first by split; [exact: (HS 0%N)|move=> k Hk; exact: (HS k.+1)].
split=> k Hk /=.
- by rewrite EQ //; case: k Hk => [|k] Hk /=; rewrite EX.
- by rewrite EQ // mulmx1 scale_two.
- by rewrite (EQ _ k.+1) // EX.
Qed.

(* expectations *)
Lemma expectations_law S m K : ssm_nonsing n S -> has_law n.+1 n.+1 (ssm_path S) m K ->
  let t := ssm_to_expectations n S in
  [/\ forall k, (k <= n)%N -> t_lin t k = m k,
      forall k, (k <= n)%N -> t_diag t k = K k k + m k *m (m k)^T &
      forall k, (k < n)%N -> t_sub t k = K k.+1 k + m k.+1 *m (m k)^T].
Proof.
move=> HS HL; have [Hm HK _ HK2] := ssm_covariances HS HL.
have [_ HK'] := has_law_unique HL (ssm_has_law n S).
split=> k Hk /=; first exact: Hm.
  by rewrite Hm // HK.
rewrite !Hm //; last exact: ltnW; congr (_ + _).
have Hk' : (k < n.+1)%N by lia.
by rewrite HK' // /ssm_cov chain_cov_succ -(marginal_covE HS Hk').
Qed.

Lemma expectations_round_trip S : ssm_chol n S ->
  same_ssm n (expectations_to_ssm (ssm_to_expectations n S)) S.
Proof.
move=> Hc; have HS := ssm_chol_nonsing Hc; have [H1 H2 H3 H4] := ssm_moments_rec HS.
have HC k : (k < n.+1)%N -> spd (ssm_marginal_covariances n S k).
  move=> Hk; rewrite marginal_covE //; apply: chain_var_spd => l Hl; apply: (ssm_Qc_spd HS); lia.
have EA k : (k < n)%N -> s_A (expectations_to_ssm (ssm_to_expectations n S)) k = s_A S k.
  move=> Hk; rewrite [LHS]/= addrK; have Hk' : (k < n.+1)%N by lia.
  rewrite chol_solve_spd; last exact: HC.
  rewrite trmx_mul trmxB trmxK tr_invmx (spd_sym (HC _ Hk')) trmx_mul trmxK addrK.
  by rewrite mulmxK //; apply/spd_unit/HC.
split.
- exact: H1.
- by rewrite [LHS]/= addrK H3 /ext_cholesky chol_eq //; case: Hc.
- move=> k Hk; have Hk' : (k < n.+1)%N by lia.
  split; first exact: EA.
    rewrite -[LHS]/(ssm_marginal_means n S k.+1 -
      s_A (expectations_to_ssm (ssm_to_expectations n S)) k *m ssm_marginal_means n S k) EA // H2 //.
    by rewrite addrC addrA addNr add0r.
  have -> : s_cholQ (expectations_to_ssm (ssm_to_expectations n S)) k =
     ext_cholesky (ssm_marginal_covariances n S k.+1 + ssm_marginal_means n S k.+1 *m (ssm_marginal_means n S k.+1)^T
      - ssm_marginal_means n S k.+1 *m (ssm_marginal_means n S k.+1)^T
      - s_A (expectations_to_ssm (ssm_to_expectations n S)) k *m
        ((ssm_marginal_covariances n S k + ssm_marginal_means n S k *m (ssm_marginal_means n S k)^T
      - ssm_marginal_means n S k *m (ssm_marginal_means n S k)^T)
        *m (s_A (expectations_to_ssm (ssm_to_expectations n S)) k)^T)) by [].
  rewrite EA // !addrK H4 // mulmxA addrC addrA addNr add0r.
  by rewrite /ext_cholesky chol_eq //; case: Hc => _; apply.
Qed.

Lemma expectations_of_ssm_of t : exp_valid n t ->
  ssm_chol n (expectations_to_ssm t) /\ same_triple n (ssm_to_expectations n (expectations_to_ssm t)) t.
Proof.
case=> HV HC; set S := expectations_to_ssm t.
have EA k : (k < n)%N -> s_A S k = exp_cov t k *m invmx (exp_var t k).
  move=> Hk; rewrite [LHS]/= -/(exp_var t k) chol_solve_spd; last by apply: HV; lia.
  rewrite trmx_mul tr_invmx (spd_sym (HV _ (ltnW Hk))); congr (_ *m _).
  by rewrite trmxB !trmx_mul !trmxK.
have EQ k : (k < n)%N -> s_cholQ S k =
    chol (exp_var t k.+1 - exp_cov t k *m invmx (exp_var t k) *m (exp_cov t k)^T).
  move=> Hk; have -> : s_cholQ S k = ext_cholesky (exp_var t k.+1 - s_A S k *m (exp_var t k *m (s_A S k)^T)) by [].
  rewrite EA // /ext_cholesky; congr (chol (_ - _)).
  have Hk' := ltnW Hk.
  by rewrite trmx_mul tr_invmx (spd_sym (HV _ Hk')) (mulmxA (exp_var t k)) mulmxV ?mul1mx //; apply/spd_unit/HV.
have Hc : ssm_chol n S.
  split; first exact/chol_lowpos/HV.
  by move=> k Hk; rewrite EQ //; apply/chol_lowpos/HC.
have HS := ssm_chol_nonsing Hc; have [H1 H2 H3 H4] := ssm_moments_rec HS.
have Em k : (k <= n)%N -> ssm_marginal_means n S k = t_lin t k.
  elim: k => [|k IH] Hk; first by rewrite H1.
  rewrite H2 // IH ?(ltnW Hk) // -[s_b S k]/(t_lin t k.+1 - s_A S k *m t_lin t k).
  by rewrite addrC subrK.
have Ec k : (k <= n)%N -> ssm_marginal_covariances n S k = exp_var t k.
  elim: k => [|k IH] Hk; first by rewrite H3 -[s_cholP0 S]/(chol (exp_var t 0%N)) chol_mul //; apply: HV.
  rewrite H4 // IH ?(ltnW Hk) // EQ // chol_mul; last exact: HC.
  have Hk' := ltnW Hk.
  rewrite EA // mulmxKV; last exact/spd_unit/HV.
  rewrite trmx_mul tr_invmx (spd_sym (HV _ Hk')) mulmxA.
  by rewrite addrC subrK.
split=> //; split=> k Hk; first exact: Em.
  rewrite -[LHS]/(ssm_marginal_covariances n S k + ssm_marginal_means n S k *m (ssm_marginal_means n S k)^T).
  by rewrite Em // Ec // /exp_var subrK.
have Hk' := ltnW Hk.
rewrite -[LHS]/(s_A S k *m ssm_marginal_covariances n S k + ssm_marginal_means n S k.+1 *m (ssm_marginal_means n S k)^T).
by rewrite !Em // Ec // EA // mulmxKV ?/exp_cov ?subrK //; apply/spd_unit/HV.
Qed.

(* the quadratic form of a symmetric block tridiagonal matrix *)
Lemma qf_sym_blocks (D A : nat -> 'M[F]_d) (x : nat -> 'cV[F]_d) :
  qf (dense n.+1 n.+1 (sym_blocks D A)) (flat n.+1 x) =
  \sum_(k < n.+1) qf (D k) (x k) + 2%:R * \sum_(k < n) ((x k.+1)^T *m A k *m x k) 0 0.
Proof.
rewrite /qf -mulmxA mul_dense_flat tr_bcol mul_brow_bcol.
have E k : (k < n.+1)%N -> \sum_(k0 < n.+1) sym_blocks D A k k0 *m x k0 =
   D k *m x k + prevb (fun k => A k *m x k) k + nextb n.+1 (fun k => (A k)^T *m x k.+1) k.
  by move=> Hk; rewrite -(sum_sym D A x Hk).
rewrite summxE (eq_bigr (fun k : 'I_n.+1 => ((x k)^T *m D k *m x k) 0 0 +
    (((x k)^T *m prevb (fun k => A k *m x k) k) 0 0
    + ((x k)^T *m nextb n.+1 (fun k => (A k)^T *m x k.+1) k) 0 0))); last first.
  by move=> k _; rewrite E // !mulmxDr mulmxA addrA 2!mxE.
rewrite !big_split /=; congr (_ + _).
rewrite big_ord_recl /= mulmx0 mxE add0r [X in _ + X]big_ord_recr /= /nextb ltnn mulmx0 mxE addr0.
rewrite mulrDl mul1r; congr (_ + _); apply: eq_bigr => k _; first by rewrite mulmxA.
have Et (M : 'M[F]_1) : M 0 0 = M^T 0 0 by rewrite mxE.
by rewrite ltnS ltn_ord Et !trmx_mul !trmxK.
Qed.
End Trans.
