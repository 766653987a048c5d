(* Proofs for M_SPep.v: Matern kernels and the initial sites. *)
From Coq Require Import Reals Lra FunctionalExtensionality.
From mathcomp Require Import all_ssreflect all_algebra.
From Verif Require Import MCalc RealStruct Nat Alg Lin Ent Spd Log M_Block S_Block P_Block M_SSM S_SSM P_SSM M_SSMLog P_SSMLog S_Gauss P_Gauss
  M_Trans S_Trans P_Trans S_Kalman M_Kalman P_Kalman P_KalmanLog M_Kernel S_Kernel P_Kernel M_Cond P_Cond P_Cond2 P_Cond3 
  M_Comb S_Comb P_Comb P_Comb2 M_KernelR S_KernelR P_KernelR P_KernelR2 P_KernelR3 P_Cond4
  M_Emission P_Emission M_Sort P_Sort M_Models S_GP P_Elbo P_Models P_Models2 P_Models3 M_Cvi S_Cvi P_Cvi P_Cvi3 P_Cvi4 M_Pep S_Pep P_Block2 P_Pep P_Pep2 P_Pep3 P_Pep4
  M_SPep S_SPep P_SPep P_SPep2 P_SPep3 P_SPep4 P_SPep5 P_SPep6 P_SPep7.
Set Implicit Arguments.
Unset Strict Implicit.
Unset Printing Implicit Defensive.
Import GRing.Theory Num.Theory Order.TTheory.
Local Open Scope ring_scope.

Lemma m12_model (l v : R) : 0 < l -> 0 < v -> let k := matern12 1 0 l v 0 in
  [/\ markov_kernel (to_sde k), k_mean0 (to_sde k) = 0, forall s t, 0 < f_cov (to_sde k) (sk_H k) s t 0 0 & k_P0 (to_sde k) 0 = v%:M].
Proof.
move=> Hl Hv k; have [[H1 H2 H3 H4 H5] _ _] := matern_ready 1 Hl Hv.
have [E1 E2 E3] := plain_markov (lib_plain H1 H2 H3) H4; split; [exact: E1|exact: E2| |].
  move=> s t; rewrite E3 H5 mxE /cov_matern12; apply: (@mulr_gt0 [numDomainType of R]); first exact: Hv.
  apply/RltP; exact: exp_pos.
by rewrite /= scale0r addr0 -(m12_P 1 0 l v 0).
Qed.

(* the initial sites *)
Lemma spep_initial_valid d n : valid_pairs n (sp_sites (spep_initial d)).
Proof.
move=> m _; split; first by rewrite /= trmxZ trmx1.
move=> v; rewrite /= (@qfZ Rr) mulNr oppr_le0 mulr_ge0 ?invr_ge0 ?ler0n //.
by rewrite /qf mulmx1 mxE; apply: sumr_ge0 => i _; rewrite mxE; exact: sqr_ge0.
Qed.

Lemma spep_initial_first (l v : R) : 0 < l -> 0 < v -> v < (10 ^ 10)%N%:R / 2%:R ->
  first_site (to_sde (matern12 1 0 l v 0)) (sp_sites (spep_initial 1)).
Proof.
move=> Hl Hv Hb; have [_ _ _ EP] := m12_model Hl Hv; rewrite /first_site EP; move: Hb; set B := ((10 ^ 10)%N%:R : R) => Hb.
have B0 : 0 < B by rewrite /B ltr0n expn_gt0.
rewrite /spep_initial /sp_sites /ps_nat2 -/B; split.
- by apply/matrixP => i j; rewrite !mxE (ord1 i) (ord1 j) /= mulr0.
- by apply/matrixP => i j; rewrite !mxE (ord1 i) (ord1 j) /= mulr0.
have -> : ulsubmx (- B^-1 *: 1%:M : 'M[R]_(1 + 1)) = (- B^-1)%:M by apply/matrixP => i j; rewrite !mxE (ord1 i) (ord1 j) /= mulr1 mulr1n.
rewrite invmx_scalar scale_scalar_mx -raddfD; apply: spd_scalar.
rewrite subr_gt0 -invfM ltf_pinv ?posrE; [by rewrite mulrC -ltr_pdivl_mulr ?ltr0n|exact: B0|by rewrite mulr_gt0 ?ltr0n].
Qed.

(* one data point between two inducing points *)
Lemma single_refuted (l v : R) n z k (t y s2 : R) st : 0 < l -> 0 < v -> 0 < s2 ->
  increasing (F := Rr) n.+1 z -> - APPROX_INF Rr < z 0%N -> (k < n)%N -> z k < t -> t < z k.+1 ->
  let m12 := matern12 1 0 l v 0 in let ker := to_sde m12 in let emission := sk_H m12 in let X (_ : nat) := t in
  valid_pairs n (sp_sites st) -> first_site ker (sp_sites st) ->
  let Kzz := x_gram ker n.+1 z in let Kfz := fx_gram ker emission 1 n.+1 X z in let Kff := f_gram ker emission 1 1 X X in
  exists st' q, [/\ spep_update_sites ker emission (pep_gaussian_led s2) (pep_gaussian_grads s2) n z 1 1 1 X (fun _ => y) st = Some st',
    spep_dist_q ker n z (sp_sites st') = Some q &
    forall m K, has_law n.+1 n.+1 (ssm_path q) m K -> dense n.+1 n.+1 K <> Kzz - Kfz^T *m invmx (Kff + s2%:M) *m Kfz].
Proof.
move=> Hl Hv Hs2 Hz Hinf Hk H1 H2 m12 ker emission X Vs Fs Kzz Kfz Kff.
have [M1 M2 M3 _] := m12_model Hl Hv.
have Hn : (0 < n)%N by case: (n) Hk.
have Ht : z 0%N <= t <= z n.
  apply/andP; split; first by apply: le_trans (ltW H1); apply: (z_mono Hz) => //; exact: ltnW.
  by apply: le_trans (ltW H2) _; apply: (z_mono Hz).
have [st' [q [E1 E2 E3]]] := single_posterior emission M1 M2 Hz Hn Hinf y Hs2 Ht Vs Fs.
exists st', q; split; [exact: E1|exact: E2|move=> m K L E].
have [Eu|Ek] := (E3 m K L).1 E.
  have P : 0 < unexplained ker emission n z t.
    apply: (unexplained_inner M1 Hz Hk H1 H2); apply/eqP => E0.
    by have := M3 t t; rewrite /f_cov -/m12 -/emission E0 !mul0mx mxE ltxx.
  by rewrite Eu ltxx in P.
have E0 : emission t *m state_cov ker t (z 0%N) = 0.
  have := dense_inj (etrans Ek (esym (dense0 _ _ _ _ _))) (ltn0Sn 0) (ltn0Sn n); exact.
by have := M3 t (z 0%N); rewrite /f_cov -/m12 -/emission E0 mul0mx mxE ltxx.
Qed.

Lemma spep_example (l v : R) n : 0 < l -> 0 < v -> v < (10 ^ 10)%N%:R / 2%:R ->
  let k := matern12 1 0 l v 0 in let z i : R := i%:R in
  [/\ markov_kernel (to_sde k), k_mean0 (to_sde k) = 0, increasing (F := Rr) n.+1 z, - APPROX_INF Rr < z 0%N &
      valid_pairs n (sp_sites (spep_initial 1)) /\ first_site (to_sde k) (sp_sites (spep_initial 1))].
Proof.
move=> Hl Hv Hb k z; have [H1 H2 _ _] := m12_model Hl Hv; split; [exact: H1|exact: H2| | |].
- by move=> i _; rewrite ltr_nat.
- by rewrite oppr_lt0; apply: lt_trans ltr01 (@inf_gt1 Rr).
by split; [exact: spep_initial_valid | exact: spep_initial_first].
Qed.

(* power expectation propagation gradients of likelihoods with concave expected density *)
Lemma spep_grads_example (s2 : R) : 0 < s2 -> forall mu v y, 0 <= v ->
  let g := pep_gaussian_grads s2 1 mu v y in (gradient_correction mu v g.1 g.2).2 <= 0.
Proof. by move=> H mu v y; exact: gauss_gc_le0. Qed.

(* the cavity *)
Lemma spep_cavity_thm d (ker : sde_kernel Rr d) (emission : R -> 'M[R]_(1, d)) :
  markov_kernel ker -> k_mean0 ker = 0 -> forall n z, increasing n.+1 z -> (0 < n)%N -> - APPROX_INF Rr < z 0%N ->
  forall N X k, (k < N)%N -> z 0%N <= X k <= z n -> forall (alpha : R) s, 0 <= alpha <= 1 -> valid_pairs n s -> first_site ker s ->
  let m := below n z (X k) in
  exists f q', [/\ spep_cavity ker emission n z alpha N X s = Some f,
    spep_dist_q ker n z (scale_pair s m (1 - alpha * (share n z N X m)%:R^-1)) = Some q', ssm_nonsing n q' &
    f k = cvi_predict_f ker emission n q' z X k].
Proof.
move=> Hker Hm0 n z Hz Hn Hinf N X k Hk HX alpha s Ha Hs Hf m.
have [q Eq Nq] := spep_q_exists Hker Hm0 Hz Hn Hs.
have [f Ef] := cavity_total emission Hker Hm0 Hz Hn N X alpha Hs.
have [q' [E1 N1 _ E2]] := spep_cavity_of emission Hker Hm0 Hz Hn Hk Ha Hs Hf Hinf HX Eq Nq.
exists f, q'; split; [exact: Ef| |exact: N1|].
  by rewrite spep_dist_qE /m (below_searchsorted _ Hz) -(num_data_share Hz).
by rewrite -E2; move: Ef; rewrite /spep_cavity spep_dist_qE Eq => -[<-].
Qed.
