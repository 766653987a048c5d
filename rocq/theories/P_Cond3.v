(* Proofs about state prediction with a kernel. *)
From mathcomp Require Import all_ssreflect all_algebra.
From Verif Require Import Nat Alg Lin Ent Spd M_Block S_Block P_Block P_Block2 M_SSM S_SSM P_SSM
  S_Kalman M_Kalman P_Kalman P_Kalman2 P_Trans M_Kernel S_Kernel P_Kernel M_Cond P_Cond P_Cond2.
Set Implicit Arguments.
Unset Strict Implicit.
Unset Printing Implicit Defensive.
Import GRing.Theory Num.Theory Order.TTheory.
Local Open Scope ring_scope.

Local Arguments cond_stats_from_transitions : simpl never.

Section Pairs.
Variable F : rcfType.
Variables (d n : nat) (S : ssm F d) (m : nat -> 'cV[F]_d) (K : nat -> nat -> 'M[F]_d).
Hypothesis HS : ssm_nonsing n S.
Hypothesis HL : has_law n.+1 n.+1 (ssm_path S) m K.

Lemma law_sym i j : (i <= n)%N -> (j <= n)%N -> (K i j)^T = K j i.
Proof.
by move=> Hi Hj; have [_ HK] := has_law_unique HL (ssm_has_law n S); rewrite !HK // -cov_tr.
Qed.

Lemma extend_in (T : Type) x0 (xs : nat -> T) k : (k < n.+1)%N -> extend_pairs n x0 xs k.+1 = xs k.
Proof. by rewrite /extend_pairs => ->. Qed.
Lemma extend_out (T : Type) x0 (xs : nat -> T) : extend_pairs n x0 xs n.+2 = x0.
Proof. by rewrite /extend_pairs ltnn. Qed.

Lemma pairwise_mean m0 P0 k : (pairwise_marginals n S m0 P0).1 k =
  col_mx (extend_pairs n m0 (ssm_marginal_means n S) k) (extend_pairs n m0 (ssm_marginal_means n S) k.+1).
Proof. by []. Qed.

Lemma pairwise_cov m0 P0 k : (pairwise_marginals n S m0 P0).2 k =
  let sub := if k is k'.+1 then if (k' < n)%N then (ssm_covariance_blocks n S).2 k' else 0 else 0 in
  block_mx (extend_pairs n P0 (ssm_covariance_blocks n S).1 k) sub^T
    sub (extend_pairs n P0 (ssm_covariance_blocks n S).1 k.+1).
Proof. by []. Qed.

Lemma pairwise_inner m0 P0 k : (k < n)%N ->
  (pairwise_marginals n S m0 P0).1 k.+1 = col_mx (m k) (m k.+1) /\
  (pairwise_marginals n S m0 P0).2 k.+1 = block_mx (K k k) (K k k.+1) (K k.+1 k) (K k.+1 k.+1).
Proof.
move=> Hk; have [Hm HV HV' HC] := ssm_covariances HS HL.
have Hk1 : (k < n.+1)%N by lia.
have Hk2 : (k.+1 < n.+1)%N by [].
rewrite pairwise_mean pairwise_cov !extend_in // Hk (Hm k) // (Hm k.+1) // (HV' k) // (HV' k.+1) // HC //.
by split=> //; cbv zeta; rewrite law_sym.
Qed.

Lemma pairwise_first m0 P0 :
  (pairwise_marginals n S m0 P0).1 0%N = col_mx m0 (m 0%N) /\
  (pairwise_marginals n S m0 P0).2 0%N = block_mx P0 0 0 (K 0 0)%N.
Proof.
have [Hm HV HV' HC] := ssm_covariances HS HL.
by rewrite pairwise_mean pairwise_cov !extend_in // Hm // HV' //; split=> //=; rewrite trmx0.
Qed.

Lemma pairwise_last m0 P0 :
  (pairwise_marginals n S m0 P0).1 n.+1 = col_mx (m n) m0 /\
  (pairwise_marginals n S m0 P0).2 n.+1 = block_mx (K n n) 0 0 P0.
Proof.
have [Hm HV HV' HC] := ssm_covariances HS HL.
by rewrite pairwise_mean pairwise_cov !extend_out !(extend_in _ _ (ltnSn n)) ltnn Hm // HV' //; split=> //=; rewrite trmx0.
Qed.
End Pairs.

Lemma predict_stateE (F : rcfType) d (ker : sde_kernel F d) n post z t0 t P T i :
  conditional_statistics ker n.+1 z t = (P, T, i) ->
  predict_state ker n post z t0 t =
  (P *m (pairwise_marginals n post (k_mean0 ker) (k_P0 ker t0)).1 i,
   T + P *m (pairwise_marginals n post (k_mean0 ker) (k_P0 ker t0)).2 i *m P^T).
Proof. by rewrite /predict_state /conditional_predict => ->. Qed.

Section Kernel.
Variable F : rcfType.
Variables (d : nat) (ker : sde_kernel F d) (n : nat) (z : nat -> F).
Hypothesis Hker : markov_kernel ker.
Hypothesis Hz : increasing n.+1 z.

Lemma insert_increasing k t : (k < n)%N -> z k < t -> t < z k.+1 -> increasing n.+2 (insert_time z k t).
Proof.
move=> Hk H1 H2 i Hi; rewrite /insert_time.
case: (leqP i.+1 k) => Hik; first by rewrite (ltnW Hik) Hz //; lia.
case: (leqP i k) => Hik'.
  by have -> : i = k; [lia|rewrite eqxx].
have -> : (i.+1 == k.+1) = false by lia.
case: eqP => [->//|Hne] /=.
by have := @Hz i.-1 ltac:(lia); rewrite prednK //; lia.
Qed.

Lemma insert_skip k t i : insert_time z k t (skip k i) = z i.
Proof.
rewrite /insert_time /skip; case: (leqP i k) => H; first by rewrite H.
have -> : (i.+1 <= k)%N = false by lia.
by have -> : (i.+1 == k.+1) = false by lia.
Qed.

Lemma stats_inner k t : (k < n)%N -> z k < t -> t <= z k.+1 ->
  conditional_statistics ker n.+1 z t =
  (let s := cond_stats_from_transitions (k_trans ker (z k) (t - z k)) (k_cov ker (z k) (t - z k))
     (k_trans ker t (z k.+1 - t)) (k_cov ker t (z k.+1 - t)) in
   (row_mx s.1.1 s.1.2, s.2, k.+1)).
Proof.
move=> Hk H1 H2; rewrite /conditional_statistics (searchsorted_inner Hz _ H1 H2) //.
have Hk1 : (k < n.+1)%N by lia.
have Hk2 : (k.+1 < n.+1)%N by [].
by rewrite /augment_times Hk1 Hk2.
Qed.

Lemma kernel_conditional k t : (k < n)%N -> z k < t -> t < z k.+1 ->
  exists D E T, [/\ conditional_statistics ker n.+1 z t = (row_mx D E, T, k.+1), spd T,
   forall j, (j < n.+2)%N -> j != k.+1 ->
     state_cov ker t (insert_time z k t j) =
     D *m state_cov ker (z k) (insert_time z k t j) + E *m state_cov ker (z k.+1) (insert_time z k t j) &
   state_cov ker t t = D *m state_cov ker (z k) t + E *m state_cov ker (z k.+1) t + T].
Proof.
move=> Hk H1 H2; have Hzp := insert_increasing Hk H1 H2.
set zp := insert_time z k t in Hzp *.
have NS := @kssm_nonsing F d ker n.+1 zp Hker Hzp.
have LW := @kssm_law F d ker n.+1 zp Hker Hzp.
have zk : zp k = z k by rewrite /zp /insert_time leqnn.
have zk1 : zp k.+1 = t by rewrite /zp /insert_time ltnn eqxx.
have zk2 : zp k.+2 = z k.+1.
  by rewrite /zp /insert_time; have [-> ->] : (k.+2 <= k)%N = false /\ (k.+2 == k.+1) = false by split; lia.
rewrite (stats_inner Hk H1 (ltW H2)); cbv zeta.
have EQ i : (i < n.+1)%N -> s_cholQ (kssm ker zp) i *m (s_cholQ (kssm ker zp) i)^T = k_cov ker (zp i) (zp i.+1 - zp i).
  by move=> Hi; have := @kssm_Qc F d ker n.+1 zp Hker Hzp i.+1 Hi.
have Hk1 : (k < n.+1)%N by lia.
have EA i : s_A (kssm ker zp) i = k_trans ker (zp i) (zp i.+1 - zp i) by [].
case ES: (cond_stats_from_transitions (k_trans ker (z k) _) _ _ _) => [[D E] T].
have ES' : cond_stats_from_transitions (s_A (kssm ker zp) k) (s_cholQ (kssm ker zp) k *m (s_cholQ (kssm ker zp) k)^T)
   (s_A (kssm ker zp) k.+1) (s_cholQ (kssm ker zp) k.+1 *m (s_cholQ (kssm ker zp) k.+1)^T) = (D, E, T).
  by rewrite (EQ k Hk1) (EQ k.+1) // !EA zk zk1 zk2.
have [HR HT HTs _] := chain_conditional NS Hk LW ES'.
rewrite zk zk1 zk2 in HT.
exists D, E, T; split=> //.
- by move=> j Hj Hjk; apply/eqP; rewrite -subr_eq0 opprD addrA; have := HR j Hj Hjk; rewrite zk zk1 zk2 => ->.
- by rewrite -HT; zmod.
Qed.
End Kernel.

Section Predict.
Variable F : rcfType.
Variables (d : nat) (ker : sde_kernel F d) (n : nat) (z : nat -> F).
Hypothesis Hker : markov_kernel ker.
Hypothesis H0 : k_mean0 ker = 0.
Hypothesis Hz : increasing n.+1 z.
Variables (k : nat) (t t0 : F).
Hypothesis Hk : (k < n)%N.
Hypothesis H1 : z k < t.
Hypothesis H2 : t < z k.+1.

Lemma predict_core post m' K' p (G : 'M[F]_(p, n.+1 * d)) Sg y prior aug m K mp Kp :
  ssm_nonsing n post -> has_law n.+1 n.+1 (ssm_path post) m' K' ->
  kernel_ssm n ker z = Some prior -> has_law n.+1 n.+1 (ssm_path prior) m K ->
  flat n.+1 m' = cond_mean (flat n.+1 m) (dense n.+1 n.+1 K) G Sg y ->
  dense n.+1 n.+1 K' = cond_cov (dense n.+1 n.+1 K) G Sg ->
  kernel_ssm n.+1 ker (insert_time z k t) = Some aug -> has_law n.+2 n.+2 (ssm_path aug) mp Kp ->
  let Gp := G *m dense n.+1 n.+2 (@skip_blocks F d k) in
  predict_state ker n post z t0 t =
    (unflat (cond_mean (flat n.+2 mp) (dense n.+2 n.+2 Kp) Gp Sg y) k.+1,
     blk (cond_cov (dense n.+2 n.+2 Kp) Gp Sg) k.+1 k.+1).
Proof.
move=> NP LP Eprior Lprior Em EK Eaug Laug.
have Hzp := insert_increasing Hz Hk H1 H2.
have Ez := kernel_ssmE ker Hz; have Ezp := kernel_ssmE ker Hzp.
move: Eprior Eaug; rewrite Ez Ezp => -[Epr] [Eau].
rewrite -Epr in Lprior; rewrite -Eau in Laug.
have [HmP HKP] := has_law_unique Lprior (kssm_law Hker Hz).
have [HmA HKA] := has_law_unique Laug (kssm_law Hker Hzp).
have [D [E [T [EST HT HR HTT]]]] := kernel_conditional Hker Hz Hk H1 H2.
set zp := insert_time z k t in Hzp HmA HKA HR.
pose Kp' i j := state_cov ker (zp i) (zp j).
have zk : zp k = z k by rewrite /zp /insert_time leqnn.
have zk1 : zp k.+1 = t by rewrite /zp /insert_time ltnn eqxx.
have zk2 : zp k.+2 = z k.+1.
  by rewrite /zp /insert_time; have [-> ->] : (k.+2 <= k)%N = false /\ (k.+2 == k.+1) = false by split; lia.
have EKp : dense n.+2 n.+2 Kp = dense n.+2 n.+2 Kp' by apply: eq_dense => i j Hi Hj; rewrite HKA.
have EKk : dense n.+1 n.+1 K = dense n.+1 n.+1 (fun i j => Kp' (skip k i) (skip k j)).
  by apply: eq_dense => i j Hi Hj; rewrite HKP // /Kp' /zp !insert_skip.
have Emp : flat n.+2 mp = flat n.+2 (fun _ => 0) by apply: eq_flat => i Hi; rewrite HmA.
have Emm : flat n.+1 m = flat n.+1 (fun _ => 0) by apply: eq_flat => i Hi; rewrite HmP.
have Ks i j : (i < n.+2)%N -> (j < n.+2)%N -> (Kp' i j)^T = Kp' j i by move=> _ _; apply: state_cov_tr.
have HR' j : (j < n.+2)%N -> j != k.+1 -> Kp' k.+1 j = D *m Kp' k j + E *m Kp' k.+2 j.
  by move=> Hj Hj'; rewrite /Kp' zk zk1 zk2 HR.
have HT' : Kp' k.+1 k.+1 = D *m Kp' k k.+1 + E *m Kp' k.+2 k.+1 + T by rewrite /Kp' zk zk1 zk2.
have Hm0 : (0 : 'cV[F]_d) = D *m 0 + E *m 0 by rewrite !mulmx0 addr0.
cbv zeta; rewrite EKp Emp.
rewrite (@insert_mean F d n k Hk D E Kp' Ks HR' p G Sg y (fun _ => 0) Hm0).
rewrite (@insert_cov F d n k Hk D E T Kp' Ks HR' HT' (spd_sym HT) p G Sg).
rewrite -EKk.
rewrite -Emm.
rewrite -Em -EK J_block // JCJ_block //.
rewrite (predict_stateE _ _ EST).
have [-> ->] := pairwise_inner NP LP (k_mean0 ker) (k_P0 ker t0) Hk.
by rewrite mul_row_col.
Qed.

(* prediction from the prior *)
Lemma predict_prior prior aug mp Kp :
  kernel_ssm n ker z = Some prior ->
  kernel_ssm n.+1 ker (insert_time z k t) = Some aug -> has_law n.+2 n.+2 (ssm_path aug) mp Kp ->
  predict_state ker n prior z t0 t = (mp k.+1, Kp k.+1 k.+1).
Proof.
move=> Eprior Eaug Laug.
have Ez := kernel_ssmE ker Hz; move: (Eprior); rewrite Ez => -[Epr].
have NP := kssm_nonsing Hker Hz; have LP := kssm_law Hker Hz; rewrite Epr in NP LP.
have -> := @predict_core prior _ _ 0%N 0 0 0 prior aug _ _ mp Kp NP LP Eprior LP _ _ Eaug Laug.
- rewrite /cond_mean /cond_cov !mul0mx !trmx0 !mulmx0 !mul0mx addr0 subr0.
  rewrite /flat unflat_bcol ?blk_dense //; lia.
- by rewrite /cond_mean !trmx0 !mulmx0 !mul0mx addr0.
- by rewrite /cond_cov !trmx0 !mulmx0 !mul0mx subr0.
Qed.

(* prediction from the posterior of the Kalman filter *)
Lemma predict_kalman e (H : nat -> 'M[F]_(e, d)) obs cR prior aug mp Kp : lownz cR ->
  kernel_ssm n ker z = Some prior ->
  kernel_ssm n.+1 ker (insert_time z k t) = Some aug -> has_law n.+2 n.+2 (ssm_path aug) mp Kp ->
  exists2 post, kf_posterior n (kf_plain prior H obs cR) = Some post &
  let Gp := dense n.+1 n.+1 (rdiag H) *m dense n.+1 n.+2 (@skip_blocks F d k) in
  let Sg := dense n.+1 n.+1 (rdiag (fun _ => cR *m cR^T)) in
  predict_state ker n post z t0 t =
    (unflat (cond_mean (flat n.+2 mp) (dense n.+2 n.+2 Kp) Gp Sg (flat n.+1 obs)) k.+1,
     blk (cond_cov (dense n.+2 n.+2 Kp) Gp Sg) k.+1 k.+1).
Proof.
move=> HcR Eprior Eaug Laug.
have Ez := kernel_ssmE ker Hz; move: (Eprior); rewrite Ez => -[Epr].
have NP := kssm_nonsing Hker Hz; have LP := kssm_law Hker Hz; rewrite Epr in NP LP.
have n0 : (0 < n)%N by lia.
have [post [Epost NPo Hpost]] := @plain_posterior_gen F d e n prior H obs cR _ _ n0 NP HcR LP.
exists post => //=.
have LPo := ssm_has_law n post.
have [Em EK] := Hpost _ _ LPo.
exact: (predict_core NPo LPo Eprior LP Em EK Eaug Laug).
Qed.

End Predict.

(* prediction at a conditioning time *)
Section AtTrain.
Variable F : rcfType.
Variables (d : nat) (ker : sde_kernel F d) (n : nat) (z : nat -> F).
Hypothesis Hz : increasing n.+1 z.

Lemma predict_at_train k t0 post m' K' : (k < n)%N ->
  k_trans ker (z k.+1) 0 = 1%:M -> k_cov ker (z k.+1) 0 = 0 -> spd (k_cov ker (z k) (z k.+1 - z k)) ->
  ssm_nonsing n post -> has_law n.+1 n.+1 (ssm_path post) m' K' ->
  predict_state ker n post z t0 (z k.+1) = (m' k.+1, K' k.+1 k.+1).
Proof.
move=> Hk HA HQ Hspd NP LP.
have EST : conditional_statistics ker n.+1 z (z k.+1) = (row_mx 0 1%:M, 0, k.+1).
  by rewrite (stats_inner ker Hz Hk) //; [rewrite subrr HA HQ cond_stats_right|apply: Hz].
rewrite (predict_stateE _ _ EST).
have [-> ->] := pairwise_inner NP LP (k_mean0 ker) (k_P0 ker t0) Hk.
rewrite mul_row_col mul0mx mul1mx !add0r.
by rewrite mul_row_block tr_row_mx mul_row_col !mul0mx !mul1mx !add0r trmx0 mulmx0 trmx1 mulmx1 add0r.
Qed.

Lemma predict_at_first t0 post m' K' : - APPROX_INF F < z 0%N ->
  k_trans ker (z 0%N) 0 = 1%:M -> k_cov ker (z 0%N) 0 = 0 ->
  spd (k_cov ker (- APPROX_INF F) (z 0%N + APPROX_INF F)) ->
  ssm_nonsing n post -> has_law n.+1 n.+1 (ssm_path post) m' K' ->
  predict_state ker n post z t0 (z 0%N) = (m' 0%N, K' 0%N 0%N).
Proof.
move=> Hlt HA HQ Hspd NP LP.
have [Hi Hl Hg] := searchsorted_spec (z 0%N) (increasing_sorted Hz).
have E0 : ext_searchsorted n.+1 z (z 0%N) = 0%N.
  by case: (ext_searchsorted _ _ _) Hl => // i /(_ 0%N erefl); rewrite ltxx.
have EST : conditional_statistics ker n.+1 z (z 0%N) = (row_mx 0 1%:M, 0, 0%N).
  by rewrite /conditional_statistics E0 /augment_times ltn0Sn opprK subrr HA HQ cond_stats_right.
rewrite (predict_stateE _ _ EST).
have [-> ->] := pairwise_first NP LP (k_mean0 ker) (k_P0 ker t0).
rewrite mul_row_col mul0mx mul1mx !add0r.
by rewrite mul_row_block tr_row_mx mul_row_col !mul0mx !mul1mx !add0r trmx0 mulmx0 trmx1 mulmx1 add0r.
Qed.
End AtTrain.
