(* Proofs about the parameter transformations: densities over the reals. *)
From Coq Require Import Reals.
From mathcomp Require Import all_ssreflect all_algebra.
From Verif Require Import RealStruct Log Nat Alg Lin Ent Spd M_Block S_Block P_Block P_Block2
  M_SSM S_SSM P_SSM M_SSMLog S_Gauss P_Gauss P_SSMLog M_Trans S_Trans P_Trans.
Set Implicit Arguments.
Unset Strict Implicit.
Unset Printing Implicit Defensive.
Import GRing.Theory Num.Theory Order.TTheory.
Local Open Scope ring_scope.

Section Gen.
Variable F : rcfType.
Variables (d n : nat).
Implicit Types (S : ssm F d) (t : triple F d).

Lemma dense_precision S : ssm_nonsing n S ->
  btd_to_dense n.+1 true (ssm_precision n S) = nat_precision n (ssm_to_naturals n S).
Proof.
move=> HS; rewrite to_dense_sym; apply: eq_dense => i j Hi Hj; rewrite /sym_blocks.
have ED k : (k < n.+1)%N -> symm (bt_diag (ssm_precision n S) k) = - 2%:R *: t_diag (ssm_to_naturals n S) k.
  by move=> Hk; rewrite symm_id ?precision_diag_sym // naturals_diag // scale_half.
have ES k : (k < n)%N -> osub (bt_sub (ssm_precision n S)) k = - t_sub (ssm_to_naturals n S) k.
  by move=> Hk; rewrite naturals_sub // opprK.
have [//|nE] := eqVneq i j; first by rewrite ED.
have [E1|nE1] := eqVneq i j.+1; first by rewrite ES // -ltnS -E1.
by have [E2|//] := eqVneq j i.+1; rewrite ES // -ltnS -E2.
Qed.

Lemma naturals_valid S : ssm_nonsing n S -> nat_valid n (ssm_to_naturals n S).
Proof.
move=> HS; split; last by rewrite -dense_precision //; apply: precision_spd.
by move=> k Hk; rewrite naturals_diag // linearZ /= precision_diag_sym.
Qed.

Lemma no_smoothing_valid S : ssm_nonsing n S -> cond_valid n (ssm_to_naturals_no_smoothing S).
Proof.
move=> HS k Hk /=; rewrite scale_half chol_solveE ?mulmx1; last exact: (concat_chol_nz HS Hk).
by apply/spd_inv/(ssm_Qc_spd HS).
Qed.

Lemma expectations_valid S : ssm_nonsing n S -> exp_valid n (ssm_to_expectations n S).
Proof.
move=> HS; have HC k : (k < n.+1)%N -> spd (ssm_marginal_covariances n S k).
  by move=> Hk; rewrite marginal_covE //; apply: chain_var_spd => l Hl; apply: (ssm_Qc_spd HS); lia.
have EV k : exp_var (ssm_to_expectations n S) k = ssm_marginal_covariances n S k by rewrite /exp_var /= addrK.
have EC k : exp_cov (ssm_to_expectations n S) k = s_A S k *m ssm_marginal_covariances n S k.
  by rewrite /exp_cov /= addrK.
split=> k Hk; first by rewrite EV; apply: HC.
have [_ _ _ H4] := ssm_moments_rec HS.
have Hk' : (k < n.+1)%N by lia.
rewrite !EV EC H4 // trmx_mul (spd_sym (HC k Hk')) mulmxK; last exact/spd_unit/HC.
by rewrite mulmxA addrC addKr; apply: lownz_spd; apply: HS.2.
Qed.

Lemma qf_nat_precision t (x : nat -> 'cV[F]_d) :
  - 2%:R^-1 * qf (nat_precision n t) (flat n.+1 x) =
  \sum_(k < n.+1) qf (t_diag t k) (x k) + \sum_(k < n) ((x k.+1)^T *m t_sub t k *m x k) 0 0.
Proof.
rewrite qf_sym_blocks mulrDr; congr (_ + _).
  by rewrite mulr_sumr; apply: eq_bigr => k _; rewrite qfZ mulrA half_two mul1r.
rewrite mulrA mulNr mulVf ?pnatr_eq0 // mulN1r -sumrN; apply: eq_bigr => k _.
by rewrite mulmxN mulNmx mxE opprK.
Qed.

Lemma flat_dot (a b : nat -> 'cV[F]_d) :
  ((flat n.+1 a)^T *m flat n.+1 b) 0 0 = \sum_(k < n.+1) ((a k)^T *m b k) 0 0.
Proof. by rewrite tr_bcol mul_brow_bcol summxE. Qed.

Lemma nat_exponentE S (x : nat -> 'cV[F]_d) : ssm_nonsing n S ->
  let P := btd_to_dense n.+1 true (ssm_precision n S) in
  nat_exponent n (ssm_to_naturals n S) x =
  ((P *m flat n.+1 (ssm_marginal_means n S))^T *m flat n.+1 x) 0 0 - 2%:R^-1 * qf P (flat n.+1 x).
Proof.
move=> HS P; rewrite /nat_exponent -addrA -qf_nat_precision -dense_precision // mulNr.
by congr (_ - _); rewrite /P -naturals_lin // flat_dot.
Qed.

Lemma same_triple_exponent t t' x : same_triple n t t' -> nat_exponent n t x = nat_exponent n t' x.
Proof.
case=> H1 H2 H3; rewrite /nat_exponent; congr (_ + _ + _); apply: eq_bigr => k _.
- by rewrite H1 // -ltnS.
- by rewrite H2 // -ltnS.
- by rewrite H3.
Qed.
End Gen.

Section Real.
Variables (d n : nat).
Implicit Types (S : ssm Rr d).

Lemma log_pdf_naturals S (x : nat -> 'cV[R]_d) : ssm_nonsing n S ->
  ssm_log_pdf n S x = nat_exponent n (ssm_to_naturals n S) x - ssm_normalizer n S.
Proof.
move=> HS; rewrite log_pdfE // normalizerE // opprK nat_exponentE //.
rewrite /gauss_logpdf -(inv_precision HS) invmxK.
set P := btd_to_dense _ _ _; set m := flat n.+1 (ssm_marginal_means n S); set y := flat n.+1 x.
have sP : P^T = P by apply/spd_sym/precision_spd.
have -> : qf P (y - m) = qf P y - 2%:R * ((P *m m)^T *m y) 0 0 + qf P m.
  by rewrite qf_sub // trmx_mul sP.
have -> : qf P (0 - m) = qf P m by rewrite sub0r /qf trmxN !mulNmx mulmxN opprK.
move: (qf P y) (qf P m) (((P *m m)^T *m y) 0 0) (ln (\det _)) (_ * ln _) => a b c e f.
rlra.
Qed.

Lemma density_naturals S m K (x : nat -> 'cV[R]_d) : ssm_nonsing n S ->
  has_law n.+1 n.+1 (ssm_path S) m K ->
  gauss_logpdf (flat n.+1 m) (dense n.+1 n.+1 K) (flat n.+1 x) =
    nat_exponent n (ssm_to_naturals n S) x - ssm_normalizer n S /\
  ssm_log_pdf n S x = nat_exponent n (ssm_to_naturals n S) x - ssm_normalizer n S.
Proof. by move=> HS HL; rewrite -(log_pdf_law x HS HL) -log_pdf_naturals. Qed.

Lemma naturals_density (t : triple Rr d) : (0 < n)%N -> nat_valid n t ->
  exists S, [/\ naturals_to_ssm n t = Some S, ssm_chol n S &
    forall m K (x : nat -> 'cV[R]_d), has_law n.+1 n.+1 (ssm_path S) m K ->
    gauss_logpdf (flat n.+1 m) (dense n.+1 n.+1 K) (flat n.+1 x) = nat_exponent n t x - ssm_normalizer n S].
Proof.
move=> Hn Ht; have [S [E Hc Hs]] := naturals_of_ssm_of Hn Ht; exists S; split=> // m K x HL.
by have [-> _] := density_naturals x (ssm_chol_nonsing Hc) HL; rewrite (same_triple_exponent x Hs).
Qed.
End Real.

Lemma lowpos1 (F : rcfType) d : lowpos (1%:M : 'M[F]_d).
Proof. by split=> [|i]; [exact: scalar_mx_is_trig | rewrite mxE eqxx ltr01]. Qed.
Lemma ex_ssm_chol (F : rcfType) d n (mu b : 'cV[F]_d) : ssm_chol n (ex_ssm mu b).
Proof. by split=> [|k _]; apply: lowpos1. Qed.
