(* Proofs: what the sparse Kalman filter computes when observation indices repeat. *)
From Coq Require Import Reals.
From mathcomp Require Import all_ssreflect all_algebra.
From Verif Require Import RealStruct Log Nat Alg Lin Ent Spd M_Block S_Block P_Block P_Block2
  M_SSM S_SSM P_SSM M_SSMLog S_Gauss P_Gauss P_SSMLog S_Kalman M_Kalman P_Kalman P_KalmanLog P_Kalman2.
Set Implicit Arguments.
Unset Strict Implicit.
Unset Printing Implicit Defensive.
Import GRing.Theory Num.Theory Order.POrderTheory.
Local Open Scope ring_scope.

Section Any.
Variable F : rcfType.
Variables (d n m : nat) (S : ssm F d) (H : nat -> 'M[F]_(1, d)) (s : sites F) (idx : nat -> nat) (obs : nat -> 'cV[F]_1).
Hypothesis Hs : forall j, (j < m)%N -> st_nat2 s j < 0.
Let f := kf_sparse S H m s idx obs.
Let G := dense m n.+1 (pick_blocks H idx).
Let Sg := dense m m (rdiag (site_var s)).

(* sum of precisions times sum of observations, minus the sum of the products *)
Definition merge_gap (k : nat) : 'cV[F]_1 :=
  let r j : F := - 2%:R * st_nat2 s j in
  (\sum_(j < m | idx j == k) r j) *: (\sum_(j < m | idx j == k) obs j) - \sum_(j < m | idx j == k) r j *: obs j.
Definition merge_shift : 'cV[F]_(n.+1 * d) := flat n.+1 (fun k => (H k)^T *m merge_gap k).

Lemma merge_vec (mu : nat -> 'cV[F]_1) :
  (kf_G n f)^T *m kf_Si n f *m flat n.+1 (fun k => kf_obs f k - mu k) =
  G^T *m invmx Sg *m flat m (fun j => obs j - mu (idx j)) + merge_shift.
Proof.
rewrite (sparse_Sg_inv Hs) /G (pick_tr_flat m n.+1 H (sites_precisions s) idx).
rewrite (rdiag_congr_flat n.+1 H (kf_rinv f)) /merge_shift flatD; apply: eq_flat => k _.
rewrite -mulmxA -mulmxDr; congr (_ *m _); rewrite /f /= /ext_scatter_nd /merge_gap.
have E (y : 'cV[F]_1) : (\sum_(j < m | idx j == k) sites_precisions s j) *m y = (\sum_(j < m | idx j == k) (- 2%:R * st_nat2 s j)) *: y.
  by rewrite mulmx_suml scaler_suml; apply: eq_bigr => j _; rewrite mul_scalar_mx.
rewrite E scalerBr.
have -> : \sum_(j < m | idx j == k) sites_precisions s j *m (obs j - mu (idx j)) =
    \sum_(j < m | idx j == k) (- 2%:R * st_nat2 s j) *: obs j - (\sum_(j < m | idx j == k) (- 2%:R * st_nat2 s j)) *: mu k.
  rewrite scaler_suml -sumrB; apply: eq_bigr => j /eqP ->.
  by rewrite mul_scalar_mx scalerBr.
by zmod.
Qed.

Lemma merge_posterior mu K : (0 < n)%N -> ssm_nonsing n S -> has_law n.+1 n.+1 (ssm_path S) mu K ->
  exists post,
  [/\ kf_posterior n f = Some post, ssm_nonsing n post &
      forall m' K', has_law n.+1 n.+1 (ssm_path post) m' K' ->
      [/\ dense n.+1 n.+1 K' = cond_cov (dense n.+1 n.+1 K) G Sg,
          flat n.+1 m' = cond_mean (flat n.+1 mu) (dense n.+1 n.+1 K) G Sg (flat m obs) + dense n.+1 n.+1 K' *m merge_shift &
          flat n.+1 m' = cond_mean (flat n.+1 mu) (dense n.+1 n.+1 K) G Sg (flat m obs) <->
          (forall k, (k <= n)%N -> H k = 0 \/ merge_gap k = 0)]].
Proof.
move=> Hn HS HL.
have [post [E1 E2 E3]] := @kf_posterior_law F d 1 n f mu K Hn HS (fun k Hk => @sparse_rinv_psd F d n m S H s idx obs Hs k Hk) HL.
exists post; split=> // m' K' HL'; have [EK Em] := E3 m' K' HL'.
have HK : spd (dense n.+1 n.+1 K) by have [_ ->] := ssm_lawE HL; apply: cov_spd.
have HSg : spd Sg by exact: sparse_Sg_spd.
have EC : dense n.+1 n.+1 K' = cond_cov (dense n.+1 n.+1 K) G Sg.
  by rewrite cond_cov_info // EK sparse_info.
have EM : flat n.+1 m' = cond_mean (flat n.+1 mu) (dense n.+1 n.+1 K) G Sg (flat m obs) + dense n.+1 n.+1 K' *m merge_shift.
  rewrite EC cond_mean_info // cond_cov_info // Em sparse_info // -mulmxDr; congr (_ *m _).
  have := merge_vec (fun _ => 0); rewrite (eq_flat (y := kf_obs f)); last by move=> k _; rewrite subr0.
  rewrite [X in _ = _ *m X + _](eq_flat (y := obs)); last by move=> k _; rewrite subr0.
  by move=> ->; rewrite addrAC.
split=> //; rewrite EM.
have HU : dense n.+1 n.+1 K' \in unitmx.
  by rewrite EC cond_cov_info // unitmx_inv; apply/spd_unit/info_spd.
have -> : forall a b : 'cV[F]_(n.+1 * d), a + b = a <-> b = 0.
  by move=> a b; split=> [/eqP|->]; [rewrite -subr_eq0 addrC addKr => /eqP|rewrite addr0].
have -> : dense n.+1 n.+1 K' *m merge_shift = 0 <-> merge_shift = 0.
  by split=> [E|->]; [rewrite -[merge_shift](mulKmx HU) E mulmx0|rewrite mulmx0].
have F0 : flat n.+1 (fun _ => 0 : 'cV[F]_d) = 0.
  have := flatB n.+1 (fun _ => 0 : 'cV[F]_d) (fun _ => 0); rewrite subrr => ->.
  by apply: eq_flat => k _; rewrite subr0.
split=> [E k Hk|E].
  have : (H k)^T *m merge_gap k = 0.
    have <- := @unflat_bcol F 1 d n.+1 (fun k => (H k)^T *m merge_gap k) k Hk.
    rewrite -[bcol _ _]/merge_shift E -F0; exact: unflat_bcol.
  rewrite [merge_gap k]mx11_scalar mul_mx_scalar => /eqP; rewrite scaler_eq0 => /orP [/eqP ->|/eqP E'].
    by right; rewrite raddf0.
  by left; rewrite -[H k]trmxK E' trmx0.
rewrite /merge_shift -F0; apply: eq_flat => k Hk.
by case: (E k Hk) => ->; rewrite ?trmx0 ?mul0mx ?mulmx0.
Qed.
End Any.

Section AnyLog.
Variables (d n m : nat).
Variables (S : ssm Rr d) (H : nat -> 'M[R]_(1, d)) (s : sites Rr) (idx : nat -> nat) (obs : nat -> 'cV[R]_1).
Hypothesis Hs : forall j, (j < m)%N -> st_nat2 s j < 0.
Hypothesis Hidx : forall j, (j < m)%N -> (idx j <= n)%N.
Let G : 'M[Rr]_(m * 1, n.+1 * d) := dense m n.+1 (pick_blocks H idx).
Let Sg : 'M[Rr]_(m * 1) := dense m m (rdiag (site_var s)).

Lemma merge_log_likelihood mu K : ssm_nonsing n S -> has_law n.+1 n.+1 (ssm_path S) mu K ->
  let C := cond_cov (dense n.+1 n.+1 K) G Sg in
  let w := G^T *m invmx Sg *m (flat m obs - G *m flat n.+1 mu) in
  kf_sparse_log_likelihood n S H m s idx obs =
  gauss_logpdf (G *m flat n.+1 mu) (G *m dense n.+1 n.+1 K *m G^T + Sg) (flat m obs)
  + 2%:R^-1 * (qf C (w + merge_shift (F := Rr) n m H s idx obs) - qf C w).
Proof.
move=> HS HL; have [-> ->] := ssm_lawE HL; pose f := kf_sparse (F := Rr) S H m s idx obs.
have Hr k (Hk : (k < n.+1)%N) := @sparse_rinv_psd Rr d n m S H s idx obs Hs k Hk.
have HV j (Hj : (j < m)%N) := site_var_spd (Hs Hj).
have HK := cov_spd HS; have HSg : spd Sg by apply: sparse_Sg_spd.
have EL := @k_inv_post_dense Rr d 1 n f Hr.
have HLs : spd (btd_to_dense n.+1 true (kf_k_inv_post n f)) by rewrite EL; apply: (@kf_L_spd Rr d 1 n f HS Hr).
cbv zeta; rewrite cond_cov_info // gauss_evidence // /kf_sparse_log_likelihood -/f.
rewrite (solve_chol_sq _ HLs) (abs_log_det_chol HLs) quad_sumE.
rewrite -(inv_precision HS) invmxK EL /kf_L.
rewrite (@sparse_info Rr d n m S H s idx obs Hs).
rewrite (@back_project_flat Rr d 1 n f _ Hr).
rewrite (@merge_vec Rr d n m S H s idx obs Hs (fun k => H k *m ssm_marginal_means n S k)).
have -> : flat m (fun j => obs j - H (idx j) *m ssm_marginal_means n S (idx j)) =
   flat m obs - G *m flat n.+1 (ssm_marginal_means n S).
  by rewrite (pick_flat H _ (Hidx : forall j, (j < m)%N -> (idx j < n.+1)%N)) flatB.
rewrite (sites_ldr Hs) (inv_precision HS) (ln_det_cov HS) (ln_det_rdiag HV).
rewrite -(sparse_Sg_inv Hs); change (kf_ssm f) with S.
have -> : ((1 * m)%:R : R) = m%:R by rewrite mul1n.
have -> : ((m * 1)%:R : R) = m%:R by rewrite muln1.
move: (qf (invmx (dense m m _)) _) => a.
set b := qf (invmx _) _; set b' := qf (invmx _) _.
move: (ln (\det (_ + _))) => c.
move: (ssm_log_det_precision n S) (\sum_(j < m) ln (\det (site_var s j))) (m%:R : R) (ln (2%:R * PI)) => g h i j.
rlra.
Qed.
End AnyLog.
