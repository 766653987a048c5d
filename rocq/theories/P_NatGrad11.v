(* Proofs for natural gradients, part 11: a regression case of the sparse correspondence. *)
From Coq Require Import Reals Lra.
From Coquelicot Require Import Derive_2d.
From mathcomp Require Import all_ssreflect all_algebra.
From Verif Require Import RealStruct Log Nat Alg Lin Ent Spd M_Block M_SSM S_SSM P_SSM M_SSMLog S_Gauss M_Trans S_Trans
  P_TransLog P_SSMLog S_Kalman M_Kalman M_Kernel S_Kernel M_Cond P_Cond M_Emission M_Sort M_Models S_GP P_Models3 M_Comb S_Comb M_KernelR S_KernelR
  M_Cvi S_Cvi P_Cvi P_Cvi4 M_NatGrad S_NatGrad P_NatGrad10 P_PredSpd2 P_Pep7.
Set Implicit Arguments.
Unset Strict Implicit.
Unset Printing Implicit Defensive.
Import GRing.Theory Num.Theory Order.TTheory.
Local Open Scope ring_scope.

Lemma quad_differentiable (a w h : R) (mu v y : R) : (0 < w)%Re -> (h = / 2)%Re ->
  differentiable_pt_lim (fun m v => (a + - (h * (((y - m) * (y - m) + v) * w)))%Re) mu v ((y - mu) * w)%Re (- (h * w))%Re.
Proof.
move=> Hw -> eps; have Hd : (0 < eps / w)%Re by apply: Rdiv_lt_0_compat => //; exact: cond_pos.
exists (mkposreal _ Hd) => u t Hu Ht; rewrite /= in Hu.
have -> : ((a + - (/ 2 * (((y - u) * (y - u) + t) * w)) - (a + - (/ 2 * (((y - mu) * (y - mu) + v) * w))) -
  ((y - mu) * w * (u - mu) + - (/ 2 * w) * (t - v))) = - (/ 2 * w * (u - mu) * (u - mu)))%Re by field.
rewrite Rabs_Ropp !Rabs_mult (Rabs_right (/ 2)%Re); last by lra.
rewrite (Rabs_right w); last by lra.
have H1 := Rmax_l (Rabs (u - mu)%Re) (Rabs (t - v)%Re); have P := Rabs_pos (u - mu)%Re.
have H2 : (Rabs (u - mu) * w <= eps)%Re.
  have Ew : (eps / w * w = eps)%Re by field; apply: Rgt_not_eq.
  by apply: Rlt_le; have := Rmult_lt_compat_r _ _ _ Hw Hu; rewrite Ew.
apply: (Rle_trans _ (eps * Rabs (u - mu))%Re).
  have -> : (/ 2 * w * Rabs (u - mu) * Rabs (u - mu) = / 2 * (Rabs (u - mu) * w) * Rabs (u - mu))%Re by ring.
  apply: Rmult_le_compat_r => //; have := cond_pos eps; lra.
by apply: Rmult_le_compat_l => //; apply: Rlt_le; exact: cond_pos.
Qed.

Lemma gauss_differentiable (s2 mu v y : R) : 0 < s2 ->
  differentiable_pt_lim (fun m v => ext_gaussian_ve1 s2 m v y) mu v ((y - mu) / s2) (- (2%:R * s2)^-1).
Proof.
move=> Hs.
have Hw : (0 < s2^-1)%Re by apply/RltP; rewrite invr_gt0.
have E : (- (2%:R * s2)^-1 : R) = (- (2%:R^-1 * s2^-1))%Re by rewrite invfM.
have h2 : (2%:R^-1 : R) = (/ 2)%Re by rewrite halfR; lra.
rewrite E; have := quad_differentiable (- 2%:R^-1 * ln (2%:R * PI) - 2%:R^-1 * ln s2) mu v y Hw h2.
apply: differentiable_pt_lim_ext; exists (mkposreal 1 Rlt_0_1) => u t _ _; rewrite ve1E.
move: (s2^-1) (2%:R^-1 : R) (ln _) (ln _) => w h l1 l2; toR_ops; rewrite exprR; ring.
Qed.

Lemma sparse_natgrad_example (l v s2 : R) n (N : nat) (X y : nat -> R) : 0 < l -> 0 < v -> 0 < s2 ->
  n%:R < APPROX_INF Rr -> (forall k, (k < N)%N -> 0 <= X k <= n%:R) ->
  let ke := matern32 1 0 l v 0 in let z i : R := i%:R in
  [/\ [/\ markov_kernel (to_sde ke), k_mean0 (to_sde ke) = 0, increasing (F := Rr) n.+1 z, - APPROX_INF Rr < z 0%N & z n < APPROX_INF Rr],
      forall t, sk_H ke t != 0, valid_pairs n (scvi_initial_sites 2),
      forall mu v y, differentiable_pt_lim (fun m v => ext_gaussian_ve1 s2 m v y) mu v ((y - mu) / s2) (- (2%:R * s2)^-1) &
      exists grads : ssm Rr 2 -> triple Rr 2 * triple Rr 2, forall q', ssm_chol n q' ->
        exp_gradient n (loss_of (svgp_elbo (to_sde ke) (sk_H ke) (fun _ => 0)
          (fun fmu fvar v => ext_gaussian_ve1 s2 (fmu 0 0) (fvar 0 0) (v 0 0)) n z None N X (fun k => const_mx (y k)))) q' (grads q').1].
Proof.
move=> Hl Hv Hs Hi HX ke z; have [E1 E2 E3 E4 _] := @cvi_example l v 1 n Hl Hv ltr01.
have [_ _ _ _ E5] := @pld_example l v n Hl Hv.
have E6 : forall t, sk_H ke t != 0 by move=> t; exact: matern_H.
split=> //; first by move=> *; exact: gauss_differentiable.
apply: (@sparse_grads 2 (to_sde ke) (sk_H ke) E1 E2 n z E3 N X E4 Hi HX (ext_gaussian_ve1 s2)
  (fun mu _ y => (y - mu) / s2) (fun _ _ _ => - (2%:R * s2)^-1) y) => [mu w k _ _|k _].
  exact: gauss_differentiable.
exact: E6.
Qed.
