(* Proofs about conditional statistics and state prediction. *)
From mathcomp Require Import all_ssreflect all_algebra.
From Verif Require Import Nat Alg Lin Ent Spd M_Block S_Block P_Block P_Block2 M_SSM S_SSM P_SSM
  S_Kalman M_Kalman P_Kalman P_Trans M_Kernel S_Kernel P_Kernel M_Cond.
Set Implicit Arguments.
Unset Strict Implicit.
Unset Printing Implicit Defensive.
Import GRing.Theory Num.Theory Order.TTheory.
Local Open Scope ring_scope.
Local Arguments ext_triangular_solve : simpl never.
Local Arguments ext_cholesky_solve : simpl never.

Section Stats.
Variable F : rcfType.
Variable d : nat.
Implicit Types (A Q : 'M[F]_d).

Lemma cond_statsE A Q A' Q' : Q^T = Q -> spd (Q' + A' *m Q *m A'^T) ->
  let E := Q *m A'^T *m invmx (Q' + A' *m Q *m A'^T) in
  cond_stats_from_transitions A Q A' Q' = (A - E *m A' *m A, E, Q - E *m A' *m Q).
Proof.
move=> sQ HW; rewrite /cond_stats_from_transitions.
have -> : Q' + A' *m (A' *m Q)^T = Q' + A' *m Q *m A'^T by rewrite trmx_mul sQ mulmxA.
set W := Q' + _ in HW *.
have HL : lownz (ext_cholesky W) by apply/lowpos_nz/chol_lowpos.
have uL : ext_cholesky W \in unitmx := lownz_unit HL.
have EW : ext_cholesky W *m (ext_cholesky W)^T = W by apply: chol_mul.
rewrite !(tri_solveE _ _ HL).
have EI : invmx W = (invmx (ext_cholesky W))^T *m invmx (ext_cholesky W).
  by rewrite -{1}EW invmx_mul ?unitmx_tr // tr_invmx.
have -> : (invmx (ext_cholesky W)^T *m (invmx (ext_cholesky W) *m (A' *m Q)))^T = Q *m A'^T *m invmx W.
  by rewrite mulmxA -tr_invmx -EI trmx_mul trmx_mul sQ tr_invmx (spd_sym HW).
have -> : (invmx (ext_cholesky W) *m (A' *m Q))^T *m (invmx (ext_cholesky W) *m (A' *m Q)) =
  Q *m A'^T *m invmx W *m A' *m Q.
  by rewrite trmx_mul trmx_mul sQ EI !mulmxA.
by [].
Qed.

Lemma mp_spd A Q A' Q' : spd Q -> spd Q' -> spd (Q' + A' *m Q *m A'^T).
Proof. by move=> HQ HQ'; apply: spdD => //; apply/psd_congr'/spd_psd. Qed.

(* the conditional covariance and the conditional precision *)
Lemma cond_precisionE Q A' Q' : spd Q -> spd Q' ->
  cond_precision_from_transitions Q A' Q' = invmx Q + A'^T *m invmx Q' *m A'.
Proof.
move=> HQ HQ'; rewrite /cond_precision_from_transitions.
have HL : lownz (ext_cholesky Q') by apply/lowpos_nz/chol_lowpos.
rewrite chol_solve_spd // (tri_solveE _ _ HL) mulmx1 trmx_mul.
have EW : ext_cholesky Q' *m (ext_cholesky Q')^T = Q' by apply: chol_mul.
by rewrite -{3}EW invmx_mul ?unitmx_tr ?(lownz_unit HL) // tr_invmx !mulmxA.
Qed.

Lemma cond_T_prec A Q A' Q' : spd Q -> spd Q' ->
  invmx (cond_precision_from_transitions Q A' Q') = (cond_stats_from_transitions A Q A' Q').2.
Proof.
move=> HQ HQ'; rewrite cond_precisionE // (cond_statsE _ (spd_sym HQ)); last exact: mp_spd.
rewrite woodbury_inv ?spd_unit //; first by rewrite /= [Q' + _]addrC.
by rewrite addrC; apply: mp_spd.
Qed.

Lemma cond_prec_spd Q A' Q' : spd Q -> spd Q' -> spd (cond_precision_from_transitions Q A' Q').
Proof.
move=> HQ HQ'; rewrite cond_precisionE //; apply: spdD; first exact: spd_inv.
by apply/psd_congr/spd_psd/spd_inv.
Qed.

(* t equal to the right neighbour *)
Lemma cond_stats_right A Q : spd Q -> cond_stats_from_transitions A Q 1%:M 0 = (0, 1%:M, 0).
Proof.
move=> HQ; have E1 : 0 + 1%:M *m Q *m (1%:M : 'M[F]_d)^T = Q by rewrite add0r mul1mx trmx1 mulmx1.
have HW : spd (0 + 1%:M *m Q *m (1%:M : 'M[F]_d)^T) by rewrite E1.
rewrite (cond_statsE A (spd_sym HQ) HW) /= E1 trmx1 !mulmx1.
rewrite mulmxV ?spd_unit //.
by rewrite !mul1mx !subrr.
Qed.
End Stats.

Section Chain.
Variable F : rcfType.
Variables (d n : nat) (S : ssm F d).
Hypothesis HS : ssm_nonsing n S.

Let Q k := s_cholQ S k *m (s_cholQ S k)^T.

Lemma cov_tr i j : ssm_cov S i j = (ssm_cov S j i)^T.
Proof. by rewrite [in RHS]chain_cov_tr //; apply: ssm_Qc_sym. Qed.

Lemma cov_below i j : (j <= i)%N -> ssm_cov S i.+1 j = s_A S i *m ssm_cov S i j.
Proof.
move=> H; rewrite /ssm_cov /chain_cov H (leqW H).
by rewrite subSn // phi_recl subnKC // mulmxA.
Qed.

Lemma cov_above i j l : (i <= l)%N -> (l <= j)%N ->
  ssm_cov S i j = ssm_cov S i l *m (phi (s_A S) l (j - l))^T.
Proof.
move=> Hil Hlj.
rewrite [LHS]cov_tr [ssm_cov S i l]cov_tr -trmx_mul /ssm_cov /chain_cov.
rewrite (leq_trans Hil Hlj) Hil mulmxA; congr (_ *m _)^T.
have -> : (j - i = (l - i) + (j - l))%N by lia.
by rewrite phi_add subnKC.
Qed.

Lemma chain_conditional m K k D E T : (k.+1 < n)%N -> has_law n.+1 n.+1 (ssm_path S) m K ->
  cond_stats_from_transitions (s_A S k) (Q k) (s_A S k.+1) (Q k.+1) = (D, E, T) ->
  [/\ forall j, (j <= n)%N -> j != k.+1 -> K k.+1 j - D *m K k j - E *m K k.+2 j = 0,
      K k.+1 k.+1 - D *m K k k.+1 - E *m K k.+2 k.+1 = T,
      spd T &
      m k.+1 - D *m m k - E *m m k.+2 = s_b S k - E *m (s_A S k.+1 *m s_b S k + s_b S k.+1)].
Proof.
move=> Hk HL E0; have [Hm HK] := has_law_unique HL (ssm_has_law n S).
have HQ : spd (Q k) by apply/lownz_spd; case: HS => _; apply; lia.
have HQ' : spd (Q k.+1) by apply/lownz_spd; case: HS => _; apply; lia.
have HW := mp_spd (s_A S k) (s_A S k.+1) HQ HQ'.
have sQ := spd_sym HQ.
have HTs : spd T.
  have <- : (cond_stats_from_transitions (s_A S k) (Q k) (s_A S k.+1) (Q k.+1)).2 = T by rewrite E0.
  by rewrite -cond_T_prec //; apply/spd_inv/cond_prec_spd.
move: E0; rewrite (cond_statsE _ sQ HW); set W := Q k.+1 + _ in HW *.
move=> [ED EE ET].
have EW : E *m W = Q k *m (s_A S k.+1)^T by rewrite -EE mulmxKV ?spd_unit.
have {}ED : D = s_A S k - E *m s_A S k.+1 *m s_A S k by rewrite -ED -EE.
have {}ET : T = Q k - E *m s_A S k.+1 *m Q k by rewrite -ET -EE.
have V1 : ssm_cov S k.+1 k.+1 = s_A S k *m ssm_cov S k k *m (s_A S k)^T + Q k.
  by rewrite /ssm_cov !chain_cov_diag.
have V2 : ssm_cov S k.+2 k.+2 = s_A S k.+1 *m ssm_cov S k.+1 k.+1 *m (s_A S k.+1)^T + Q k.+1.
  by rewrite /ssm_cov !chain_cov_diag.
have C1 : ssm_cov S k k.+1 = ssm_cov S k k *m (s_A S k)^T.
  by rewrite cov_tr cov_below // trmx_mul -cov_tr.
have C2 : ssm_cov S k.+1 k.+2 = ssm_cov S k.+1 k.+1 *m (s_A S k.+1)^T.
  by rewrite cov_tr cov_below // trmx_mul -cov_tr.
have C3 : ssm_cov S k k.+2 = ssm_cov S k k *m (s_A S k)^T *m (s_A S k.+1)^T.
  by rewrite cov_tr cov_below // cov_below // !trmx_mul -cov_tr ?mulmxA.
have next : ssm_cov S k.+1 k.+2 - D *m ssm_cov S k k.+2 - E *m ssm_cov S k.+2 k.+2 = 0.
  have -> : E *m ssm_cov S k.+2 k.+2 = E *m s_A S k.+1 *m s_A S k *m ssm_cov S k k *m (s_A S k)^T *m (s_A S k.+1)^T
      + Q k *m (s_A S k.+1)^T.
    by rewrite V2 V1 -EW /W; mxring.
  by rewrite C2 C3 V1 ED; mxring.
split=> //.
- move=> j Hj Hjk; rewrite !HK //; try lia.
  have [Hj'|Hj'] : (j <= k)%N \/ (k.+2 <= j)%N by lia.
    rewrite [ssm_cov S k.+2 j]cov_below; last by lia.
    by rewrite [ssm_cov S k.+1 j]cov_below // ED; mxring.
  have Ea i : (i <= k.+2)%N -> ssm_cov S i j = ssm_cov S i k.+2 *m (phi (s_A S) k.+2 (j - k.+2))^T.
    by move=> Hi; apply: cov_above.
  rewrite (Ea k.+1) //.
  rewrite (Ea k (leqW (leqnSn k))) (Ea k.+2) // !mulmxA -!mulmxBl next mul0mx //.
- rewrite !HK //; try lia.
  by rewrite [ssm_cov S k.+2 k.+1]cov_below // C1 V1 ED ET; mxring.
- have [_ M _ _] := ssm_moments_rec HS.
  rewrite !Hm; try lia.
  by rewrite (M k.+1) // (M k) ?ED; [mxring|lia].
Qed.
End Chain.

Section Search.
Variable F : rcfType.
Implicit Types (z : nat -> F).

Lemma searchsorted_spec N z t : (forall i, (i.+1 < N)%N -> z i <= z i.+1) ->
  let i := ext_searchsorted N z t in
  [/\ (i <= N)%N, forall j, (j < i)%N -> z j < t & forall j, (i <= j)%N -> (j < N)%N -> t <= z j].
Proof.
move=> Hz i; have Hi : (i <= N)%N by rewrite -[N in (_ <= N)%N](size_iota 0 N); apply: find_size.
split=> // j Hj.
  have := before_find 0%N Hj; rewrite nth_iota; last by lia.
  by rewrite add0n leNgt => /negbFE.
elim: j Hj => [|j IH] Hj HjN.
  have Ei : i = 0%N by lia.
  have : has (fun k => t <= z k) (iota 0 N) by rewrite has_find size_iota -[find _ _]/i; lia.
  by move/(nth_find 0%N); rewrite -[find _ _]/i Ei nth_iota.
have [Ei|Hij] : i = j.+1 \/ (i <= j)%N by lia.
  have : has (fun k => t <= z k) (iota 0 N) by rewrite has_find size_iota -[find _ _]/i; lia.
  by move/(nth_find 0%N); rewrite -[find _ _]/i Ei nth_iota.
by apply: le_trans (Hz _ HjN); apply: IH => //; lia.
Qed.

Lemma increasing_sorted N z : increasing N z -> forall i, (i.+1 < N)%N -> z i <= z i.+1.
Proof. by move=> H i Hi; apply/ltW/H. Qed.

Lemma searchsorted_inner N z t k : increasing N z -> (k.+1 < N)%N -> z k < t -> t <= z k.+1 ->
  ext_searchsorted N z t = k.+1.
Proof.
move=> Hz Hk H1 H2; have [Hi Hlt Hge] := searchsorted_spec t (increasing_sorted Hz).
set i := ext_searchsorted N z t in Hi Hlt Hge *.
have [//|[H|H]] : i = k.+1 \/ (i <= k)%N \/ (k.+1 < i)%N by lia.
  by have := Hge k H ltac:(lia); rewrite leNgt H1.
by have := Hlt k.+1 H; rewrite ltNge H2.
Qed.
End Search.
