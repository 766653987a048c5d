(* Proofs for M_Cvi.v and M_SPep.v: new sparse models, and the stored normalisers. *)
From Coq Require Import Reals Lra FunctionalExtensionality.
From mathcomp Require Import all_ssreflect all_algebra.
From Verif Require Import MCalc RealStruct Nat Alg Lin Ent Spd Log M_Block S_Block P_Block M_SSM S_SSM P_SSM M_SSMLog P_SSMLog S_Gauss P_Gauss
  M_Trans S_Trans P_Trans S_Kalman M_Kalman P_Kalman P_KalmanLog M_Kernel S_Kernel P_Kernel M_Cond P_Cond P_Cond2 P_Cond3 
  M_Comb S_Comb P_Comb P_Comb2 M_KernelR S_KernelR P_KernelR P_KernelR2 P_KernelR3 P_Cond4
  M_Emission P_Emission M_Sort P_Sort M_Models S_GP P_Elbo P_Models P_Models2 P_Models3 M_Cvi S_Cvi P_Cvi P_Cvi3 P_Cvi4 M_Pep S_Pep P_Block2 P_Pep P_Pep2 P_Pep3 P_Pep4
  M_SPep S_SPep P_SPep P_SPep2 P_SPep3 P_SPep4 P_SPep8.
Set Implicit Arguments.
Unset Strict Implicit.
Unset Printing Implicit Defensive.
Import GRing.Theory Num.Theory Order.TTheory.
Local Open Scope ring_scope.

Section New.
Variables (d : nat) (ker : sde_kernel Rr d).
Hypothesis Hker : markov_kernel ker.
Hypothesis Hm0 : k_mean0 ker = 0.
Variables (n : nat) (z : nat -> R).
Hypothesis Hz : increasing n.+1 z.
Hypothesis Hn : (0 < n)%N.
Let Kzz := x_gram ker n.+1 z.

Lemma scvi_new_model : exists q, [/\ scvi_dist_q ker n z (scvi_initial_sites d) = Some q, ssm_nonsing n q &
  forall m K, has_law n.+1 n.+1 (ssm_path q) m K -> flat n.+1 m = 0 /\ dense n.+1 n.+1 K = Kzz].
Proof.
have Hs : valid_pairs n (scvi_initial_sites d) by move=> m _; split; [rewrite /= trmx0|move=> v; rewrite /= /qf mulmx0 mul0mx mxE].
have [q [c [E1 /ssm_chol_nonsing E2 E3]]] := scvi_posterior Hker Hm0 Hz Hn Hs.
exists q; split=> // m K L.
apply: (gauss_logpdf_inj (c := c)).
- by have [_ ->] := ssm_lawE L; exact: cov_spd.
- exact: Kzz_spd.
move=> x; have := E3 m K (unflat x) L; rewrite flat_unflat => ->.
rewrite (_ : pairs_exponent _ _ _ = 0) ?addr0 //.
by rewrite /pairs_exponent big1 // => j _; rewrite /= trmx0 mul0mx /qf mulmx0 mul0mx !mxE addr0.
Qed.

Lemma qf_one e (v : 'cV[R]_e) c : qf (c *: 1%:M) v = c * \sum_i v i 0 ^+ 2.
Proof.
rewrite (@qfZ Rr); congr (_ * _); rewrite /qf mulmx1 mxE; apply: eq_bigr => i _.
by rewrite mxE expr2.
Qed.

Lemma sq_col (a b : 'cV[R]_d) : \sum_i (col_mx a b) i 0 ^+ 2 = \sum_i a i 0 ^+ 2 + \sum_i b i 0 ^+ 2.
Proof.
by rewrite big_split_ord /=; congr (_ + _); apply: eq_bigr => i _; rewrite ?col_mxEu ?col_mxEd.
Qed.

Let sq (u : nat -> 'cV[R]_d) k := \sum_i u k i 0 ^+ 2.

Lemma initial_exponent (c : R) u : pairs_exponent n (PairSites (fun _ => 0) (fun _ => - c^-1 *: 1%:M)) u =
  - (2%:R / c) * \sum_(k < n.+1) sq u k.
Proof.
have -> : pairs_exponent n (PairSites (fun _ => 0) (fun _ => - c^-1 *: 1%:M)) u =
  - c^-1 * \sum_(m < n.+2) \sum_i pair_at n u m i 0 ^+ 2.
  rewrite mulr_sumr; apply: eq_bigr => m _; rewrite [ps_nat1 _ _]/= trmx0 mul0mx mxE add0r; exact: qf_one.
have -> : \sum_(m < n.+2) \sum_i pair_at n u m i 0 ^+ 2 = 2%:R * \sum_(k < n.+1) sq u k.
  rewrite (eq_bigr (fun m : 'I_n.+2 => (\sum_i (if val m is m'.+1 then inside n u m' else 0) i 0 ^+ 2) +
    \sum_i (inside n u m) i 0 ^+ 2)) => [|m _]; last by rewrite /pair_at -sq_col.
  have Z0 : \sum_(i < d) (0 : 'cV[R]_d) i 0 ^+ 2 = 0 by rewrite big1 // => i _; rewrite mxE expr0n.
  have A1 : \sum_(m < n.+2) \sum_i (if val m is m'.+1 then inside n u m' else 0) i 0 ^+ 2 = \sum_(k < n.+1) sq u k.
    rewrite big_ord_recl /= Z0 add0r; apply: eq_bigr => k _.
    by rewrite /inside /= -ltnS ltn_ord.
  have A2 : \sum_(m < n.+2) \sum_i (inside n u m) i 0 ^+ 2 = \sum_(k < n.+1) sq u k.
    rewrite big_ord_recr /= {2}/inside ltnn Z0 addr0; apply: eq_bigr => k _.
    by rewrite /inside /= -ltnS ltn_ord.
  by rewrite big_split A1 A2 mulr2n mulrDl mul1r.
by rewrite mulrA; congr (_ * _); rewrite mulNr; congr (- _); rewrite mulrC.
Qed.

Lemma spep_vague (c : R) : 0 < c -> valid_pairs n (PairSites (d := d) (fun _ => 0) (fun _ => - c^-1 *: 1%:M)) ->
  exists q, [/\ spep_dist_q ker n z (PairSites (fun _ => 0) (fun _ => - c^-1 *: 1%:M)) = Some q, ssm_nonsing n q &
  forall m K, has_law n.+1 n.+1 (ssm_path q) m K -> flat n.+1 m = 0 /\
    dense n.+1 n.+1 K = cond_cov Kzz 1%:M (c / 4%:R)%:M].
Proof.
move=> c0 Hs.
have [q [b [E1 /ssm_chol_nonsing E2 E3]]] := scvi_posterior Hker Hm0 Hz Hn Hs.
exists q; split=> // m K L.
have PK : spd Kzz by exact: Kzz_spd.
have c40 : 0 < c / 4%:R by rewrite divr_gt0 ?ltr0n.
have PS : spd ((c / 4%:R)%:M : 'M[R]_(n.+1 * d)) by apply: spd_scalar.
have -> : 0 = cond_mean 0 Kzz 1%:M (c / 4%:R)%:M 0 by rewrite /cond_mean mulmx0 subrr mulmx0 addr0.
pose e := gauss_logpdf (1%:M *m 0) (1%:M *m Kzz *m (1%:M)^T + (c / 4%:R)%:M) 0.
pose e' := - 2%:R^-1 * ((n.+1 * d)%:R * ln (2%:R * PI) + ln (\det ((c / 4%:R)%:M : 'M[R]_(n.+1 * d)))).
apply: (gauss_logpdf_inj (c := b + e - e')).
- by have [_ ->] := ssm_lawE L; exact: cov_spd.
- by rewrite (@cond_cov_info Rr) //; apply: (@spd_inv Rr); exact: info_spd.
move=> x; have := E3 m K (unflat x) L; rewrite flat_unflat initial_exponent => ->.
have := @gauss_bayes _ _ 0 Kzz (c / 4%:R)%:M 1%:M x 0 PK PS; rewrite -/e.
have -> : gauss_logpdf (1%:M *m x) (c / 4%:R)%:M 0 = - (2%:R / c) * (\sum_(k < n.+1) sq (unflat x) k) + e'.
  rewrite /gauss_logpdf mul1mx sub0r qfNx invmx_scalar.
  have -> : qf ((c / 4%:R)^-1)%:M x = (c / 4%:R)^-1 * \sum_i x i 0 ^+ 2 by rewrite -qf_one scalemx1.
  have -> : \sum_i x i 0 ^+ 2 = \sum_(k < n.+1) sq (unflat x) k.
    have -> : \sum_i x i 0 ^+ 2 = (x^T *m x) 0 0 by rewrite mxE; apply: eq_bigr => i _; rewrite mxE expr2.
    rewrite -{1 2}[x](@flat_unflat Rr) (@flat_dot Rr) summxE; apply: eq_bigr => k _.
    by rewrite mxE; apply: eq_bigr => i _; rewrite mxE expr2.
  rewrite /e'; set A := _ + ln _; move: A (\sum_(k < _) _) => a1 a2; rewrite invf_div.
  move: (c^-1) => w; toR_ops; rewrite halfR !natrR /=; field.
move: (gauss_logpdf _ _ _) (gauss_logpdf _ _ _) (\sum_(k < _) _) e e' (2%:R / c) => a1 a2 a3 a4 a5 a6; toR_ops => U; lra.
Qed.

Lemma spep_new_model : exists q, [/\ spep_dist_q ker n z (sp_sites (spep_initial d)) = Some q, ssm_nonsing n q,
  forall m K, has_law n.+1 n.+1 (ssm_path q) m K -> flat n.+1 m = 0 /\
    dense n.+1 n.+1 K = cond_cov Kzz 1%:M ((10 ^ 10)%N%:R / 4%:R)%:M &
  forall m, sp_log_norm (spep_initial d) m = 0].
Proof.
have : valid_pairs n (sp_sites (spep_initial d)) by exact: spep_initial_valid.
have : (0 < 10 ^ 10)%N by rewrite expn_gt0.
rewrite /spep_initial /sp_sites; move: (10 ^ 10)%N => c c0 Hs.
have c0' : 0 < c%:R :> R by rewrite ltr0n.
by have [q [E1 E2 E3]] := spep_vague c0' Hs; exists q; split.
Qed.

Variables (emission : R -> 'M[R]_(1, d)).
Hypothesis Hinf : - APPROX_INF Rr < z 0%N.
Lemma spep_log_norm N X : (forall k, (k < N)%N -> z 0%N <= X k <= z n) ->
  forall (led : R -> R -> R -> R -> R) (grads : R -> R -> R -> R -> R * R) (alpha lr : R) (Y : nat -> R), 0 < alpha <= 1 -> 0 <= lr <= 1 ->
  (forall mu v y, 0 <= v -> let g := grads 1 mu v y in (gradient_correction mu v g.1 g.2).2 <= 0) ->
  forall st, valid_pairs n (sp_sites st) -> first_site ker (sp_sites st) -> exists st' f q,
  [/\ spep_update_sites ker emission led grads n z alpha lr N X Y st = Some st',
      spep_new_sites ker emission grads n z alpha lr N X Y (sp_sites st) = Some (sp_sites st'),
      spep_cavity ker emission n z alpha N X (sp_sites st') = Some f, spep_dist_q ker n z (sp_sites st') = Some q &
      forall m, (m <= n.+1)%N ->
      exists2 qc, spep_dist_q ker n z (scale_pair (sp_sites st') m (1 - alpha * (share n z N X m)%:R^-1)) = Some qc &
      sp_log_norm st' m = (1 - lr * alpha) * sp_log_norm st m + lr * \sum_(k < N | below n z (X k) == m)
        (led alpha (f k).1 (f k).2 (Y k) + (ssm_normalizer n qc - ssm_normalizer n q))].
Proof.
move=> HX led grads alpha lr Y /andP [a0 a1] Hlr Hg st Hs Hf.
have Ha : 0 <= alpha <= 1 by rewrite (ltW a0).
have [_ [s' [_ _ E1 [E2 _] _]]] := spep_update emission Hker Hm0 Hz Hn Hinf HX Y Ha Hlr Hg Hs Hf.
have [q Eq _] := spep_q_exists Hker Hm0 Hz Hn E2.
have [f Ef] : exists f, spep_cavity ker emission n z alpha N X s' = Some f by rewrite /spep_cavity spep_dist_qE Eq; eexists; reflexivity.
have [l El Hl] := log_norm_total Hker Hm0 Hz Hn led Y Ha E2 Ef Eq.
eexists; exists f, q; split; first by rewrite /spep_update_sites E1 /Option.bind /Option.apply El; reflexivity.
- exact: E1.
- exact: Ef.
- exact: Eq.
move=> m Hm; have [qc Ec H] := Hl m; exists qc; first exact: Ec.
rewrite /sp_log_norm (H Hm) divfK ?gt_eqF //; set A := \sum_(k < _ | _) _; set B := \sum_(k < _ | _) _.
have -> : A = B by rewrite /A /B; apply: eq_bigl => k; rewrite (below_searchsorted _ Hz).
by case: (st) => ? L; move: B (L m) => b c; crng.
Qed.
End New.
