(* Final forms of the Kalman filter results, and the repeated index witness. *)
From Coq Require Import Reals.
From mathcomp Require Import all_ssreflect all_algebra.
From Verif Require Import RealStruct Log Nat Alg Lin Ent Spd M_Block S_Block P_Block P_Block2
  M_SSM S_SSM P_SSM M_SSMLog S_Gauss P_Gauss P_SSMLog S_Kalman M_Kalman P_Kalman P_KalmanLog.
Set Implicit Arguments.
Unset Strict Implicit.
Unset Printing Implicit Defensive.
Import GRing.Theory Num.Theory Order.POrderTheory.
Local Open Scope ring_scope.

Lemma plain_posterior_gen (F : rcfType) d e n (S : ssm F d) (H : nat -> 'M[F]_(e, d)) obs (cR : 'M[F]_e) m K :
  (0 < n)%N -> ssm_nonsing n S -> lownz cR -> has_law n.+1 n.+1 (ssm_path S) m K ->
  exists post,
  [/\ kf_posterior n (kf_plain S H obs cR) = Some post, ssm_nonsing n post &
      forall m' K', has_law n.+1 n.+1 (ssm_path post) m' K' ->
      let G := dense n.+1 n.+1 (rdiag H) in
      let Sg := dense n.+1 n.+1 (rdiag (fun _ => cR *m cR^T)) in
      flat n.+1 m' = cond_mean (flat n.+1 m) (dense n.+1 n.+1 K) G Sg (flat n.+1 obs) /\
      dense n.+1 n.+1 K' = cond_cov (dense n.+1 n.+1 K) G Sg].
Proof.
move=> Hn HS HR HL.
apply: (@kf_posterior_cond F d e n (kf_plain S H obs cR) (fun _ => cR *m cR^T)) => //.
- by move=> k _; apply: lownz_spd.
- by move=> k _ /=; rewrite chol_solveE // mulmx1.
Qed.

(* singular observation precisions are allowed in information form *)
Lemma posterior_info (F : rcfType) d e n (S : ssm F d) (H : nat -> 'M[F]_(e, d)) (rinv : nat -> 'M[F]_e) obs m K :
  (0 < n)%N -> ssm_nonsing n S -> (forall k, (k <= n)%N -> psd (rinv k)) ->
  has_law n.+1 n.+1 (ssm_path S) m K ->
  exists post,
  [/\ kf_posterior n (Kf S H rinv obs) = Some post, ssm_nonsing n post &
      forall m' K', has_law n.+1 n.+1 (ssm_path post) m' K' ->
      let G := dense n.+1 n.+1 (rdiag H) in
      let Si := dense n.+1 n.+1 (rdiag rinv) in
      let L := invmx (dense n.+1 n.+1 K) + G^T *m Si *m G in
      [/\ L \in unitmx, dense n.+1 n.+1 K' = invmx L &
          L *m flat n.+1 m' = G^T *m Si *m flat n.+1 obs + invmx (dense n.+1 n.+1 K) *m flat n.+1 m]].
Proof.
move=> Hn HS Hr HL; have [post [E1 E2 E3]] := @kf_posterior_law F d e n (Kf S H rinv obs) m K Hn HS Hr HL.
exists post; split=> // m' K' HL' G Si L; have [EK Em] := E3 m' K' HL'.
have HLs : spd L.
  apply: spdD; last by apply/psd_congr/psd_rdiag.
  by apply: spd_inv; have [_ ->] := ssm_lawE HL; apply: cov_spd.
by split=> //; [apply: spd_unit | rewrite Em mulKVmx ?spd_unit].
Qed.

Section Sites.
Variables (d n : nat) (S : ssm Rr d) (H : nat -> 'M[R]_(1, d)) (s : sites Rr).
Hypothesis HS : ssm_nonsing n S.
Hypothesis Hs : forall k, (k <= n)%N -> st_nat2 s k < 0.

Lemma sites_log_likelihood_law m K : has_law n.+1 n.+1 (ssm_path S) m K ->
  kf_sites_log_likelihood n S H s =
  gauss_logpdf (flat n.+1 (fun k => H k *m m k))
    (dense n.+1 n.+1 (fun i j => H i *m K i j *m (H j)^T +
        (if i == j then ((- 2%:R * st_nat2 s i)^-1)%:M else 0)))
    (flat n.+1 (fun k => (- st_nat1 s k / (2%:R * st_nat2 s k))%:M)).
Proof.
move=> HL; rewrite (sites_log_likelihood H HS Hs HL) rdiag_flat.
congr (gauss_logpdf _ _ _).
  rewrite -denseD; congr (_ + _).
  rewrite rdiag_tr mul_dense mul_dense; apply: eq_dense => i j Hi Hj.
  rewrite (bigD1 (Ordinal Hj)) //= [X in _ + X]big1 ?addr0; last first.
    by move=> l Hl; rewrite /rdiag (negbTE (Hl : (l : nat) != j)) mulmx0.
  by rewrite (sum_rdiag_l H (fun k => K k j) Hi) /rdiag eqxx.
apply: eq_flat => k Hk; congr (_%:M).
rewrite invfM; by move: (2%:R^-1 : R) (st_nat1 s k) ((st_nat2 s k)^-1) => i a b; crng.
Qed.

(* the posterior is the prior times the site factors exp (nat1 f + nat2 f^2) *)
Lemma sites_factor : (0 < n)%N ->
  exists post c,
  [/\ kf_posterior n (kf_sites (F := Rr) S H s) = Some post, ssm_nonsing n post &
      forall x, ssm_log_pdf n post x =
        ssm_log_pdf n S x + \sum_(k < n.+1) (let f := (H k *m x k) 0 0 in
          st_nat1 s k * f + st_nat2 s k * f ^+ 2) + c].
Proof.
move=> Hn; have [post [E1 E2 E3]] := sites_bayes H Hn HS Hs.
exists post, (\sum_(k < n.+1) (2%:R^-1 * (ln (- 2%:R * st_nat2 s k) - ln (2%:R * PI)) +
   st_nat1 s k ^+ 2 / (4%:R * st_nat2 s k)) - kf_sites_log_likelihood n S H s); split=> // x.
have := E3 x; move/(canRL (addrK _)) => ->.
rewrite -!addrA; congr (_ + _); rewrite !addrA; congr (_ - _); rewrite -big_split /=.
apply: eq_bigr => k _; rewrite -(site_density _ (Hs (leq_ord k))) -mx11_scalar //.
Qed.
End Sites.

Section Sparse.
Variables (d n m : nat).
Variables (S : ssm Rr d) (H : nat -> 'M[R]_(1, d)) (s : sites Rr) (idx : nat -> nat) (obs : nat -> 'cV[R]_1).
Hypothesis HS : ssm_nonsing n S.
Hypothesis Hs : forall j, (j < m)%N -> st_nat2 s j < 0.
Hypothesis inj : forall i j, (i < m)%N -> (j < m)%N -> idx i = idx j -> i = j.
Hypothesis Hidx : forall j, (j < m)%N -> (idx j <= n)%N.

Lemma sparse_log_likelihood_law mu K : has_law n.+1 n.+1 (ssm_path S) mu K ->
  kf_sparse_log_likelihood n S H m s idx obs =
  gauss_logpdf (flat m (fun j => H (idx j) *m mu (idx j)))
    (dense m m (fun i j => H (idx i) *m K (idx i) (idx j) *m (H (idx j))^T +
        (if i == j then ((- 2%:R * st_nat2 s i)^-1)%:M else 0)))
    (flat m obs).
Proof.
move=> HL; rewrite (sparse_log_likelihood H obs Hs inj Hidx HS HL).
rewrite (pick_flat H mu (Hidx : forall j, (j < m)%N -> (idx j < n.+1)%N)) (pick_cov H K (Hidx : forall j, (j < m)%N -> (idx j < n.+1)%N)).
by congr (gauss_logpdf _ _ _); rewrite -denseD.
Qed.

Lemma sparse_bayes : (0 < n)%N ->
  exists post,
  [/\ kf_posterior n (kf_sparse (F := Rr) S H m s idx obs) = Some post, ssm_nonsing n post &
      forall x, ssm_log_pdf n post x + kf_sparse_log_likelihood n S H m s idx obs =
        ssm_log_pdf n S x +
        \sum_(j < m) gauss_logpdf (H (idx j) *m x (idx j)) ((- 2%:R * st_nat2 s j)^-1)%:M (obs j)].
Proof.
move=> Hn; have HL := ssm_has_law n S.
have [post [E1 E2 E3]] := @sparse_posterior Rr d n m S H s idx obs Hs inj _ _ Hn HS HL.
exists post; split=> // x; have [Em EK] := E3 _ _ (ssm_has_law n post).
rewrite (log_pdfE x E2) (log_pdfE x HS) Em EK (sparse_log_likelihood H obs Hs inj Hidx HS HL).
rewrite -gauss_bayes; [| exact: cov_spd | exact: sparse_Sg_spd].
congr (_ + _); rewrite (pick_flat H x (Hidx : forall j, (j < m)%N -> (idx j < n.+1)%N)).
by rewrite (gauss_logpdf_rdiag (fun j => H (idx j) *m x (idx j)) obs (fun j Hj => site_var_spd (Hs Hj))).
Qed.

End Sparse.

(* states without an observation can be changed freely: only the law of the observed
   states enters the evidence *)
Lemma sparse_grid d m s obs n (S : ssm Rr d) idx H mu K n' (S' : ssm Rr d) idx' H' mu' K' :
  (forall j, (j < m)%N -> st_nat2 s j < 0) ->
  ssm_nonsing n S -> (forall i j, (i < m)%N -> (j < m)%N -> idx i = idx j -> i = j) ->
  (forall j, (j < m)%N -> (idx j <= n)%N) ->
  ssm_nonsing n' S' -> (forall i j, (i < m)%N -> (j < m)%N -> idx' i = idx' j -> i = j) ->
  (forall j, (j < m)%N -> (idx' j <= n')%N) ->
  has_law n.+1 n.+1 (ssm_path S) mu K -> has_law n'.+1 n'.+1 (ssm_path S') mu' K' ->
  (forall j, (j < m)%N -> H (idx j) = H' (idx' j) /\ mu (idx j) = mu' (idx' j)) ->
  (forall i j, (i < m)%N -> (j < m)%N -> K (idx i) (idx j) = K' (idx' i) (idx' j)) ->
  kf_sparse_log_likelihood n S H m s idx obs = kf_sparse_log_likelihood n' S' H' m s idx' obs.
Proof.
move=> Hs HS inj Hidx HS' inj' Hidx' HL HL' Em EK; rewrite (sparse_log_likelihood_law H obs HS Hs inj Hidx HL).
rewrite (sparse_log_likelihood_law H' obs HS' Hs inj' Hidx' HL').
have -> : flat m (fun j => H (idx j) *m mu (idx j)) = flat m (fun j => H' (idx' j) *m mu' (idx' j)).
  by apply: eq_flat => j Hj; have [-> ->] := Em j Hj.
congr (gauss_logpdf _ _ _).
apply: eq_dense => i j Hi Hj; rewrite EK //; have [-> _] := Em i Hi; have [-> _] := Em j Hj.
by [].
Qed.

(* two observations of the same state: the code multiplies the summed precision by
   the summed observations *)
Definition rep_sites (F : rcfType) : sites F := Sites (fun _ => 0) (fun _ => - 2%:R^-1).

Lemma repeated_index (F : rcfType) :
  exists (n d m : nat) (S : ssm F d) H s idx obs,
  [/\ (0 < n)%N, ssm_nonsing n S, forall j, (j < m)%N -> st_nat2 s j < 0,
      forall j, (j < m)%N -> (idx j <= n)%N &
      forall mu K, has_law n.+1 n.+1 (ssm_path S) mu K ->
        exists2 post, kf_posterior n (kf_sparse S H m s idx obs) = Some post &
        forall m' K', has_law n.+1 n.+1 (ssm_path post) m' K' ->
        flat n.+1 m' <> cond_mean (flat n.+1 mu) (dense n.+1 n.+1 K) (dense m n.+1 (pick_blocks H idx))
           (dense m m (rdiag (fun j => ((- 2%:R * st_nat2 s j)^-1)%:M))) (flat m obs)].
Proof.
pose S : ssm F 1 := ex_ssm 0 0; pose s := rep_sites F; pose idx (_ : nat) := 0%N.
pose obs (_ : nat) : 'cV[F]_1 := 1%:M; pose H (_ : nat) : 'M[F]_1 := 1%:M.
exists 1%N, 1%N, 2%N, S, H, s, idx, obs.
have HS : ssm_nonsing 1 S by apply: ex_ssm_nonsing.
have Hs : forall j, (j < 2)%N -> st_nat2 s j < 0 by move=> j _ /=; rewrite oppr_lt0 invr_gt0 ltr0n.
split=> // mu K HL.
have Hr := @sparse_rinv_psd F 1 1 2 S H s idx obs Hs.
have [post [E1 _ E3]] := @kf_posterior_law F 1 1 1 (kf_sparse S H 2 s idx obs) mu K isT HS Hr HL.
exists post => // m' K' HL' Em; have [_ Em'] := E3 m' K' HL'.
have HK : spd (dense 2 2 K) by have [_ ->] := ssm_lawE HL; apply: (cov_spd (n := 1)).
have HV := @sparse_Sg_spd F 2 s Hs.
move: Em; rewrite cond_mean_info // Em'.
rewrite -(@sparse_info F 1 1 2 S H s idx obs Hs).
set L := _ + _; have HL2 : spd L.
  by apply: spdD; [apply: spd_inv | apply/psd_congr/psd_rdiag].
move/(congr1 (mulmx L)); rewrite !mulKVmx ?spd_unit //; move/addIr.
rewrite (sparse_Sg_inv Hs).
have -> := @pick_tr_flat F 1 1 2 2 H (sites_precisions s) idx obs.
have -> := @rdiag_congr_flat F 1 1 2 H (ext_scatter_nd 2 idx (sites_precisions s)) (ext_scatter_nd 2 idx obs).
move/(@bcol_inj F 1 1 2) => /(_ 0%N isT) /=.
rewrite /ext_scatter_nd /H !trmx1 !mul1mx !big_mkcond /= !big_ord_recl !big_ord0 /= !addr0.
have -> : sites_precisions s 0 = 1%:M.
  by rewrite /sites_precisions /= mulrNN divff // pnatr_eq0.
have -> : sites_precisions s (lift ord0 ord0) = 1%:M.
  by rewrite /sites_precisions /= mulrNN divff // pnatr_eq0.
rewrite /obs !mul1mx mulmxDl !mul1mx.
move/matrixP => /(_ 0 0); rewrite !mxE eqxx /= -!natrD => /eqP.
by rewrite eqr_nat.
Unshelve. exact: 0%N.
Qed.
