(* Proofs about the state space model. *)
From mathcomp Require Import all_ssreflect all_algebra.
From Verif Require Import Nat Alg Lin Ent Spd M_Block S_Block P_Block P_Block2 M_SSM S_SSM.
Set Implicit Arguments.
Unset Strict Implicit.
Unset Printing Implicit Defensive.
Import GRing.Theory Num.Theory Order.TTheory.
Local Open Scope ring_scope.

Section Chain.
Variable R : comRingType.
Variable d : nat.
Variables (A Qc : nat -> 'M[R]_d).

Lemma phi_recl i m : phi A i m.+1 = A (i + m)%N *m phi A i m.
Proof. by []. Qed.

Lemma phiS i m : phi A i m.+1 = phi A i.+1 m *m A i.
Proof.
elim: m => [|m IH]; first by rewrite /= addn0 mulmx1 mul1mx.
by rewrite phi_recl IH mulmxA phi_recl addnS addSn.
Qed.

Lemma phi_add i m l : phi A i (m + l) = phi A (i + m) l *m phi A i m.
Proof.
elim: l => [|l IH]; first by rewrite addn0 mul1mx.
by rewrite addnS /= IH mulmxA addnA.
Qed.

Lemma chain_path_lin p (u : nat -> 'M[R]_(d, p)) k :
  chain_path A u k = \sum_(l < k.+1) phi A l (k - l) *m u l.
Proof.
elim: k => [|k IH]; first by rewrite big_ord_recl big_ord0 /= mul1mx addr0.
rewrite [LHS]/= IH [in RHS]big_ord_recr /= subnn mul1mx; congr (_ + _).
rewrite mulmx_sumr; apply: eq_bigr => l _; rewrite mulmxA.
have Hl : (l <= k)%N by rewrite -ltnS.
by rewrite subSn // phi_recl subnKC.
Qed.

Lemma chain_var_sym k : (forall k, (Qc k)^T = Qc k) -> (chain_var A Qc k)^T = chain_var A Qc k.
Proof.
move=> H; elim: k => [|k IH] /=; first exact: H.
by rewrite linearD /= H !trmx_mul trmxK IH mulmxA.
Qed.

Lemma chain_cov_diag k : chain_cov A Qc k k = chain_var A Qc k.
Proof. by rewrite /chain_cov leqnn subnn mul1mx. Qed.

Lemma chain_cov_succ k : chain_cov A Qc k.+1 k = A k *m chain_var A Qc k.
Proof. by rewrite /chain_cov leqnSn subSnn /= addn0 mulmx1. Qed.

Lemma chain_cov_tr i j : (forall k, (Qc k)^T = Qc k) ->
  (chain_cov A Qc i j)^T = chain_cov A Qc j i.
Proof.
move=> H; rewrite /chain_cov; case: (ltngtP j i) => Hij; rewrite ?trmx_mul ?trmxK ?chain_var_sym //.
by subst j; rewrite subnn trmx1 mulmx1 mul1mx.
Qed.

(* the covariance as a sum over the noise *)
Lemma chain_var_sum k :
  chain_var A Qc k = \sum_(l < k.+1) phi A l (k - l) *m Qc l *m (phi A l (k - l))^T.
Proof.
elim: k => [|k IH]; first by rewrite big_ord_recl big_ord0 /= mul1mx trmx1 mulmx1 addr0.
rewrite [LHS]/= IH [in RHS]big_ord_recr /= subnn mul1mx trmx1 mulmx1; congr (_ + _).
rewrite mulmx_sumr mulmx_suml; apply: eq_bigr => l _.
have Hl : (l <= k)%N by rewrite -ltnS.
by rewrite subSn // phi_recl subnKC // trmx_mul !mulmxA.
Qed.

Definition phi_le k l := if (l <= k)%N then phi A l (k - l) else 0.

Lemma chain_cov_sum N i j : (i < N)%N -> (j < N)%N ->
  chain_cov A Qc i j = \sum_(l < N) phi_le i l *m Qc l *m (phi_le j l)^T.
Proof.
have Hle i' j' : (j' <= i')%N -> (i' < N)%N ->
   phi A j' (i' - j') *m chain_var A Qc j' = \sum_(l < N) phi_le i' l *m Qc l *m (phi_le j' l)^T.
  move=> Hji Hi; rewrite chain_var_sum mulmx_sumr.
  rewrite (big_ord_widen N (fun l => phi A j' (i' - j') *m (phi A l (j' - l) *m Qc l *m (phi A l (j' - l))^T))); last by lia.
  rewrite big_mkcond /=; apply: eq_bigr => l _; rewrite ltnS /phi_le.
  case: (leqP l j') => Hl; last by rewrite trmx0 mulmx0.
  rewrite (leq_trans Hl Hji) !mulmxA; congr (_ *m _ *m _).
  have -> : (i' - l = (j' - l) + (i' - j'))%N by lia.
  by rewrite phi_add subnKC.
have Hgt i' j' : (i' < j')%N -> (j' < N)%N ->
   chain_var A Qc i' *m (phi A i' (j' - i'))^T = \sum_(l < N) phi_le i' l *m Qc l *m (phi_le j' l)^T.
  move=> Hij Hj; rewrite chain_var_sum mulmx_suml.
  rewrite (big_ord_widen N (fun l => (phi A l (i' - l) *m Qc l *m (phi A l (i' - l))^T) *m (phi A i' (j' - i'))^T)); last by lia.
  rewrite big_mkcond /=; apply: eq_bigr => l _; rewrite ltnS /phi_le.
  case: (leqP l i') => Hl; last by rewrite !mul0mx.
  rewrite (leq_trans Hl (ltnW Hij)) -!mulmxA; congr (_ *m (_ *m _)).
  have -> : (j' - l = (i' - l) + (j' - i'))%N by lia.
  by rewrite phi_add subnKC // trmx_mul.
by move=> Hi Hj; rewrite /chain_cov; case: leqP => Hij; [exact: Hle|exact: Hgt].
Qed.

(* the covariance is inverse to the precision factorisation *)
Definition ainv_blocks := lower_blocks (fun _ => 1%:M) (fun k => - A k).

Lemma ainv_phi N : dense N N ainv_blocks *m dense N N phi_le = 1%:M.
Proof.
rewrite mul_dense -dense1; apply: eq_dense => i j Hi Hj.
rewrite (sum_lower _ _ (fun k => phi_le k j) Hi) mul1mx /bdiag /phi_le.
have [E|nE] := eqVneq i j.
  subst j; rewrite leqnn subnn /=; case: i Hi {Hj} => [|i] Hi /=; first by rewrite addr0.
  by rewrite ltnn mulmx0 addr0.
case: leqP => Hji; last first.
  rewrite add0r; case: i nE Hi Hji => [|i] //= nE Hi Hji.
  by rewrite leqNgt (ltnW Hji) /= mulmx0.
case: i nE Hi Hji => [|i] nE Hi Hji; first by case: j nE Hji {Hj}.
have Hj' : (j <= i)%N by lia.
by rewrite /= Hj' subSn // phi_recl subnKC // mulNmx subrr.
Qed.

Lemma phi_dense_cov N : dense N N (chain_cov A Qc) =
  dense N N phi_le *m dense N N (bdiag Qc) *m (dense N N phi_le)^T.
Proof.
rewrite -mulmxA tr_dense mul_dense mul_dense; apply: eq_dense => i j Hi Hj.
rewrite (chain_cov_sum Hi Hj); apply: eq_bigr => l _.
by rewrite (sum_bdiag_l _ (fun k => (phi_le j k)^T) (ltn_ord l)) mulmxA.
Qed.

Lemma chain_pathD p (u v : nat -> 'M[R]_(d, p)) k :
  chain_path A (fun l => u l + v l) k = chain_path A u k + chain_path A v k.
Proof.
rewrite !chain_path_lin -big_split /=; apply: eq_bigr => l _; exact: mulmxDr.
Qed.

Lemma chain_path_sum N p (u : nat -> 'M[R]_(d, p)) k : (k < N)%N ->
  chain_path A u k = \sum_(l < N) phi_le k l *m u l.
Proof.
move=> Hk; rewrite chain_path_lin (big_ord_widen N (fun l => phi A l (k - l) *m u l)) //.
rewrite big_mkcond /=; apply: eq_bigr => l _; rewrite ltnS /phi_le.
by case: leqP => // _; rewrite mul0mx.
Qed.

Lemma eq_chain_path p (u v : nat -> 'M[R]_(d, p)) k :
  (forall l, (l <= k)%N -> u l = v l) -> chain_path A u k = chain_path A v k.
Proof.
elim: k => [|k IH] H /=; first exact: H.
by rewrite IH ?H // => l Hl; apply: H; lia.
Qed.

End Chain.

Section SSM.
Variable F : rcfType.
Variable d : nat.
Variable n : nat.
Implicit Types S : ssm F d.

(* the factors are usable: lower triangular without zero on the diagonal *)
Definition ssm_nonsing S := lownz (s_cholP0 S) /\ forall k, (k < n)%N -> lownz (s_cholQ S k).

(* [P0, Q0, Q1, ...] *)
Definition ssm_Qc S k : 'M[F]_d := ssm_concat_chol S k *m (ssm_concat_chol S k)^T.

Lemma ssm_Qc_sym S k : (ssm_Qc S k)^T = ssm_Qc S k.
Proof. by rewrite /ssm_Qc trmx_mul trmxK. Qed.

Lemma concat_chol_nz S : ssm_nonsing S -> forall k, (k < n.+1)%N -> lownz (ssm_concat_chol S k).
Proof. by move=> [H0 H] [|k] Hk //; apply: H. Qed.

Lemma ssm_Qc_spd S : ssm_nonsing S -> forall k, (k < n.+1)%N -> spd (ssm_Qc S k).
Proof. by move=> H k Hk; apply: lownz_spd; apply: concat_chol_nz. Qed.

Lemma ssm_okE S : ssm_ok n S = (0 < n)%N.
Proof. by []. Qed.

Lemma a_inv_dense S : btd_to_dense n.+1 false (ssm_a_inv_block S) =
  dense n.+1 n.+1 (ainv_blocks (s_A S)).
Proof.
rewrite to_dense_lower; apply: eq_dense => i j _ _; rewrite /ainv_blocks /lower_blocks /=.
by rewrite tril_id // scalar_mx_is_trig.
Qed.

Lemma a_inv_diag S k : (k < n.+1)%N -> forall r, bt_diag (ssm_a_inv_block S) k r r != 0.
Proof. by move=> _ r; rewrite mxE eqxx oner_neq0. Qed.

Lemma solve_path S (u : nat -> 'cV[F]_d) k : (k < n.+1)%N ->
  btd_solve n.+1 (ssm_a_inv_block S) false u k = chain_path (s_A S) u k.
Proof.
have H := mult_solve false u (@a_inv_diag S).
elim: k => [|k IH] Hk.
  have := H _ Hk; rewrite mult_blocks // /= tril_id ?scalar_mx_is_trig // mul1mx addr0.
  by move=> ->.
have := H _ Hk; rewrite mult_blocks // /= tril_id ?scalar_mx_is_trig // mul1mx IH 1?ltnW //.
by rewrite mulNmx => <-; rewrite addrC subrK.
Qed.

Lemma marginal_meansE S k : (k < n.+1)%N ->
  ssm_marginal_means n S k = chain_path (s_A S) (ssm_concat_offsets S) k.
Proof. exact: solve_path. Qed.

Lemma precision_diag_sym S k : ssm_nonsing S -> (k < n.+1)%N ->
  (bt_diag (ssm_precision n S) k)^T = bt_diag (ssm_precision n S) k.
Proof.
move=> H Hk /=; rewrite linearD /= chol_solveE; last exact: concat_chol_nz.
rewrite mulmx1 tr_invmx trmx_mul trmxK; congr (_ + _).
case: ifP => Hn; last by rewrite trmx0.
have Hq := H.2 k Hn; rewrite chol_solveE // !trmx_mul trmxK tr_invmx trmx_mul trmxK.
by rewrite mulmxA.
Qed.

Lemma precision_dense S : ssm_nonsing S ->
  btd_to_dense n.+1 true (ssm_precision n S) =
  (dense n.+1 n.+1 (ainv_blocks (s_A S)))^T *m
    dense n.+1 n.+1 (bdiag (fun k => invmx (ssm_Qc S k))) *m
    dense n.+1 n.+1 (ainv_blocks (s_A S)).
Proof.
move=> H; rewrite to_dense_sym.
rewrite (eq_dense (L := sym_blocks (bt_diag (ssm_precision n S))
   (fun k => - (invmx (ssm_Qc S k.+1) *m s_A S k)))); last first.
  move=> i j Hi Hj; rewrite /sym_blocks symm_id ?precision_diag_sym //.
  have E k : (k < n)%N -> osub (bt_sub (ssm_precision n S)) k = - (invmx (ssm_Qc S k.+1) *m s_A S k).
    by move=> Hk /=; rewrite chol_solveE //; apply: H.2.
  have [//|nE] := eqVneq i j.
  have [E1|nE1] := eqVneq i j.+1; first by rewrite E // -ltnS -E1.
  by have [E2|//] := eqVneq j i.+1; rewrite E // -ltnS -E2.
symmetry; apply: udu_mul => k Hk.
- by rewrite tr_invmx ssm_Qc_sym.
- by rewrite mulmxN.
- rewrite [LHS]/= chol_solveE; last exact: concat_chol_nz.
  rewrite mulmx1; congr (_ + _); rewrite /nextb ltnS; case: ifP => // Hn.
  rewrite chol_solveE; last exact: H.2.
  by rewrite trmxN mulNmx mulmxN opprK trmx_mul tr_invmx ssm_Qc_sym mulmxA.
Qed.

(* the joint covariance *)
Definition ssm_cov S := chain_cov (s_A S) (ssm_Qc S).

Lemma precision_inv S : ssm_nonsing S ->
  btd_to_dense n.+1 true (ssm_precision n S) *m dense n.+1 n.+1 (ssm_cov S) = 1%:M.
Proof.
move=> H; rewrite precision_dense // phi_dense_cov.
set Ai := dense _ _ (ainv_blocks _); set Ph := dense _ _ (phi_le _).
have E1 : Ai *m Ph = 1%:M by exact: ainv_phi.
have [u1 u2] := mulmx1_unit E1.
rewrite -!mulmxA (mulmxA Ai) E1 mul1mx (mulmxA (dense _ _ (bdiag _))).
have -> : dense n.+1 n.+1 (bdiag (fun k => invmx (ssm_Qc S k))) *m
          dense n.+1 n.+1 (bdiag (ssm_Qc S)) = 1%:M.
  rewrite mul_dense -dense1; apply: eq_dense => i j Hi Hj.
  rewrite (sum_bdiag_l _ (fun k => bdiag (ssm_Qc S) k j) Hi) /bdiag.
  case: eqP => // _; last by rewrite mulmx0.
  by rewrite mulVmx //; apply: spd_unit; apply: ssm_Qc_spd.
by rewrite mul1mx -trmx_mul (mulmx1C E1) trmx1.
Qed.

Lemma inv_precision S : ssm_nonsing S ->
  invmx (btd_to_dense n.+1 true (ssm_precision n S)) = dense n.+1 n.+1 (ssm_cov S).
Proof. by move=> H; apply: mulmx1_inv; apply: precision_inv. Qed.

Lemma precision_spd S : ssm_nonsing S -> spd (btd_to_dense n.+1 true (ssm_precision n S)).
Proof.
move=> H; rewrite precision_dense //; apply: spd_congr.
  by have [] := mulmx1_unit (ainv_phi (s_A S) n.+1).
pose V k := invmx (ssm_concat_chol S k).
have -> : dense n.+1 n.+1 (bdiag (fun k => invmx (ssm_Qc S k))) =
          dense n.+1 n.+1 (bdiag (fun k => (V k)^T)) *m (dense n.+1 n.+1 (bdiag (fun k => (V k)^T)))^T.
  rewrite tr_dense mul_dense; apply: eq_dense => i j Hi Hj.
  rewrite (sum_bdiag_l _ (fun k => (bdiag (fun k => (V k)^T) j k)^T) Hi) /bdiag eq_sym.
  case: eqP => [->|_]; last by rewrite trmx0 mulmx0.
  rewrite trmxK /V tr_invmx -invmx_mul ?unitmx_tr //; apply: lownz_unit; exact: concat_chol_nz.
apply: spd_mul_tr.
have E : dense n.+1 n.+1 (bdiag (fun k => (V k)^T)) *m
         dense n.+1 n.+1 (bdiag (fun k => (ssm_concat_chol S k)^T)) = 1%:M.
  rewrite mul_dense -dense1; apply: eq_dense => i j Hi Hj.
  rewrite (sum_bdiag_l _ (fun k => bdiag (fun k => (ssm_concat_chol S k)^T) k j) Hi) /bdiag.
  case: eqP => [->|_]; last by rewrite mulmx0.
  by rewrite -trmx_mul mulmxV ?trmx1 //; apply: lownz_unit; apply: concat_chol_nz.
by have [] := mulmx1_unit E.
Qed.

Lemma cov_spd S : ssm_nonsing S -> spd (dense n.+1 n.+1 (ssm_cov S)).
Proof. by move=> H; rewrite -inv_precision //; apply: spd_inv; apply: precision_spd. Qed.

Lemma marginal_covE S k : ssm_nonsing S -> (k < n.+1)%N ->
  ssm_marginal_covariances n S k = chain_var (s_A S) (ssm_Qc S) k.
Proof.
move=> H Hk; rewrite /ssm_marginal_covariances chol_inverse_blocks //; last exact: precision_spd.
by rewrite inv_precision // blk_dense // /ssm_cov chain_cov_diag.
Qed.

(* the generative recursion *)
Lemma gen_path_chain S (eps : nat -> 'cV[F]_d) k :
  gen_path (s_mu0 S) (s_cholP0 S) (s_A S) (s_b S) (s_cholQ S) eps k =
  chain_path (s_A S) (fun l => ssm_concat_offsets S l + ssm_concat_chol S l *m eps l) k.
Proof. by elim: k => [|k IH] //=; rewrite IH addrA. Qed.

Definition ssm_gain S k l := phi_le (s_A S) k l *m ssm_concat_chol S l.

Lemma gen_path_affine S eps k : (k < n.+1)%N ->
  gen_path (s_mu0 S) (s_cholP0 S) (s_A S) (s_b S) (s_cholQ S) eps k =
  ssm_marginal_means n S k + \sum_(l < n.+1) ssm_gain S k l *m eps l.
Proof.
move=> Hk; rewrite gen_path_chain chain_pathD marginal_meansE //; congr (_ + _).
rewrite (chain_path_sum _ _ Hk); apply: eq_bigr => l _; exact: mulmxA.
Qed.

Lemma cov_gain S i j : (i < n.+1)%N -> (j < n.+1)%N ->
  ssm_cov S i j = wn_cov n.+1 (ssm_gain S i) (ssm_gain S j).
Proof.
move=> Hi Hj; rewrite /ssm_cov (chain_cov_sum _ _ Hi Hj); apply: eq_bigr => l _.
by rewrite /ssm_gain /ssm_Qc trmx_mul !mulmxA.
Qed.

Lemma ssm_moments S : ssm_nonsing S ->
  exists G : nat -> nat -> 'M[F]_d,
  [/\ forall eps k, (k <= n)%N ->
        gen_path (s_mu0 S) (s_cholP0 S) (s_A S) (s_b S) (s_cholQ S) eps k =
        ssm_marginal_means n S k + \sum_(l < n.+1) G k l *m eps l,
      forall k, (k <= n)%N -> ssm_marginal_covariances n S k = wn_cov n.+1 (G k) (G k),
      forall k, (k <= n)%N -> (ssm_covariance_blocks n S).1 k = wn_cov n.+1 (G k) (G k) &
      forall k, (k < n)%N -> (ssm_covariance_blocks n S).2 k = wn_cov n.+1 (G k.+1) (G k)].
Proof.
move=> H; exists (ssm_gain S); split.
- by move=> eps k Hk; apply: gen_path_affine.
- by move=> k Hk; rewrite marginal_covE // -chain_cov_diag -cov_gain.
- by move=> k Hk; rewrite /= marginal_covE // -chain_cov_diag -cov_gain.
- move=> k Hk; rewrite /= /ssm_subsequent_covariances marginal_covE //; last by rewrite ltnW.
  by rewrite -chain_cov_succ -cov_gain // ltnW.
Qed.

Lemma ssm_moments_rec S : ssm_nonsing S ->
  [/\ ssm_marginal_means n S 0%N = s_mu0 S,
      forall k, (k < n)%N ->
        ssm_marginal_means n S k.+1 = s_A S k *m ssm_marginal_means n S k + s_b S k,
      ssm_marginal_covariances n S 0%N = s_cholP0 S *m (s_cholP0 S)^T &
      forall k, (k < n)%N ->
        ssm_marginal_covariances n S k.+1 =
        s_A S k *m ssm_marginal_covariances n S k *m (s_A S k)^T +
        s_cholQ S k *m (s_cholQ S k)^T].
Proof.
move=> H; split.
- by rewrite marginal_meansE.
- by move=> k Hk; rewrite !marginal_meansE // ltnW.
- by rewrite marginal_covE.
- by move=> k Hk; rewrite !marginal_covE // ltnW.
Qed.

Lemma sampleE S eps k : (k <= n)%N ->
  ssm_sample n S eps k = gen_path (s_mu0 S) (s_cholP0 S) (s_A S) (s_b S) (s_cholQ S) eps k.
Proof. by move=> Hk; rewrite gen_path_chain /ssm_sample solve_path. Qed.

(* from covariances *)
Lemma cholesky_or_zeroP (C : 'M[F]_d) : spd C ->
  (0 < d)%N -> cholesky_or_zero C = chol C.
Proof.
move=> H d0; rewrite /cholesky_or_zero; case: (boolP [forall i, _]) => [/forallP Hz|_]; last by rewrite addr0.
have := spd_diag_gt0 (Ordinal d0) H.
by have /forallP/(_ (Ordinal d0))/eqP -> := Hz (Ordinal d0); rewrite ltxx.
Qed.

Lemma cholesky_or_zero0 : cholesky_or_zero (0 : 'M[F]_d) = 0.
Proof.
rewrite /cholesky_or_zero; case: ifP => // /negbT /forallPn [i] /forallPn [j].
by rewrite mxE eqxx.
Qed.

Lemma cholesky_or_zero_mul (C : 'M[F]_d) : spd C \/ C = 0 ->
  cholesky_or_zero C *m (cholesky_or_zero C)^T = C.
Proof.
case=> [H|->]; last by rewrite cholesky_or_zero0 mul0mx.
have [d0|d0] := posnP d; last by rewrite cholesky_or_zeroP // chol_mul.
by apply/matrixP=> i; exfalso; have := ltn_ord i; rewrite [X in (_ < X)%N]d0.
Qed.

Lemma cholesky_or_zero_low (C : 'M[F]_d) : spd C -> lowpos (cholesky_or_zero C).
Proof.
move=> H; have [d0|d0] := posnP d; last by rewrite cholesky_or_zeroP //; exact: chol_lowpos.
split; first by apply/is_trig_mxP=> i; exfalso; have := ltn_ord i; rewrite [X in (_ < X)%N]d0.
by move=> i; exfalso; have := ltn_ord i; rewrite [X in (_ < X)%N]d0.
Qed.

End SSM.

(* the joint law of a path is unique, and that of the chain is the one computed *)
Section Law.
Variable F : rcfType.

Lemma has_law_unique d e N' N (X : (nat -> 'cV[F]_d) -> nat -> 'cV[F]_e) m K m' K' :
  has_law N' N X m K -> has_law N' N X m' K' ->
  (forall k, (k < N')%N -> m k = m' k) /\
  (forall i j, (i < N')%N -> (j < N')%N -> K i j = K' i j).
Proof.
move=> [G [HG HK]] [G' [HG' HK']].
have E0 k : (k < N')%N -> m k = m' k.
  move=> Hk; have := HG (fun _ => 0) k Hk; rewrite (HG' (fun _ => 0) k Hk).
  by rewrite !big1 ?addr0 // => l _; rewrite mulmx0.
have EG k l : (k < N')%N -> (l < N)%N -> G k l = G' k l.
  move=> Hk Hl; apply/matrixP => i j.
  pose eps l' : 'cV[F]_d := if l' == l then delta_mx j 0 else 0.
  have S (H : nat -> nat -> 'M[F]_(e, d)) : \sum_(l' < N) H k l' *m eps l' = H k l *m delta_mx j 0.
    rewrite (@sum_ord_at N _ (fun l' => H k l' *m eps l') l) // /eps ?eqxx // => l' _ /negbTE ->.
    by rewrite mulmx0.
  have := HG eps k Hk; rewrite (HG' eps k Hk) !S (E0 k Hk) => /addrI /matrixP /(_ i 0).
  by rewrite -!colE !mxE => ->.
split=> // i j Hi Hj; rewrite HK // HK' // /wn_cov; apply: eq_bigr => l _.
by rewrite !EG.
Qed.

Definition ssm_path d (S : ssm F d) := gen_path (s_mu0 S) (s_cholP0 S) (s_A S) (s_b S) (s_cholQ S).

Lemma ssm_has_law d n (S : ssm F d) :
  has_law n.+1 n.+1 (ssm_path S) (ssm_marginal_means n S) (ssm_cov S).
Proof.
exists (ssm_gain S); split=> [eps k Hk|i j Hi Hj]; first exact: gen_path_affine.
exact: cov_gain.
Qed.

Lemma ssm_lawE d n (S : ssm F d) m K : has_law n.+1 n.+1 (ssm_path S) m K ->
  flat n.+1 m = flat n.+1 (ssm_marginal_means n S) /\
  dense n.+1 n.+1 K = dense n.+1 n.+1 (ssm_cov S).
Proof.
move=> H; have [Hm HK] := has_law_unique H (ssm_has_law n S).
by split; [apply: eq_flat | apply: eq_dense].
Qed.

Lemma ssm_covariances d n (S : ssm F d) m K : ssm_nonsing n S ->
  has_law n.+1 n.+1 (ssm_path S) m K ->
  [/\ forall k, (k <= n)%N -> ssm_marginal_means n S k = m k,
      forall k, (k <= n)%N -> ssm_marginal_covariances n S k = K k k,
      forall k, (k <= n)%N -> (ssm_covariance_blocks n S).1 k = K k k &
      forall k, (k < n)%N -> (ssm_covariance_blocks n S).2 k = K k.+1 k].
Proof.
move=> H HL; have [Hm HK] := has_law_unique HL (ssm_has_law n S).
have E k : (k <= n)%N -> ssm_marginal_covariances n S k = K k k.
  by move=> Hk; rewrite HK // marginal_covE // /ssm_cov chain_cov_diag.
split=> // k Hk; try by rewrite Hm.
have Hk' : (k < n.+1)%N by exact: ltnW.
rewrite /= /ssm_subsequent_covariances (marginal_covE H Hk') HK //.
by rewrite /ssm_cov chain_cov_succ.
Qed.

Lemma precision_law d n (S : ssm F d) m K : ssm_nonsing n S ->
  has_law n.+1 n.+1 (ssm_path S) m K ->
  btd_to_dense n.+1 true (ssm_precision n S) *m dense n.+1 n.+1 K = 1%:M /\
  dense n.+1 n.+1 K *m btd_to_dense n.+1 true (ssm_precision n S) = 1%:M.
Proof.
move=> H HL; have [_ ->] := ssm_lawE HL.
have E := precision_inv H; split=> //; exact: mulmx1C.
Qed.

Lemma sample_law d n (S : ssm F d) m K :
  has_law n.+1 n.+1 (ssm_path S) m K -> has_law n.+1 n.+1 (ssm_sample n S) m K.
Proof.
move=> [G [HG HK]]; exists G; split=> // eps k Hk.
by rewrite sampleE // -HG.
Qed.

(* the joint law of the model built by from_covariances only depends on the
   covariances *)
Lemma from_covariances_law d n mu0 (P0 : 'M[F]_d) A b (Q : nat -> 'M[F]_d) :
  let S := ssm_from_covariances mu0 P0 A b Q in
  (spd P0 \/ P0 = 0) -> (forall k, (k < n)%N -> spd (Q k) \/ Q k = 0) ->
  [/\ ssm_initial_covariance S = P0,
      forall k, (k < n)%N -> s_cholQ S k *m (s_cholQ S k)^T = Q k,
      forall k, (k < n)%N -> Q k = 0 -> s_cholQ S k = 0,
      P0 = 0 -> s_cholP0 S = 0 &
      has_law n.+1 n.+1 (ssm_path S) (ssm_marginal_means n S)
        (chain_cov A (tcons P0 Q))].
Proof.
move=> S HP HQ; have E0 := cholesky_or_zero_mul HP.
have EQ k (Hk : (k < n)%N) := cholesky_or_zero_mul (HQ k Hk).
split=> // [k _ EQ0|EP0|].
- by rewrite /S /= EQ0; exact: cholesky_or_zero0.
- by rewrite /S /= EP0; exact: cholesky_or_zero0.
have [G [HG HK]] := ssm_has_law n S; exists G; split=> // i j Hi Hj.
rewrite -HK // /ssm_cov (chain_cov_sum _ _ Hi Hj) (chain_cov_sum _ (ssm_Qc S) Hi Hj).
apply: eq_bigr => -[[|l] Hl] _ /=; congr (_ *m _ *m _); first by rewrite /ssm_Qc /= E0.
by rewrite /ssm_Qc /= EQ.
Qed.

End Law.
