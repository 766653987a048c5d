(* Regression depends on the kernel only through its covariance function; kernel expressions. *)
From Coq Require Import Reals.
From mathcomp Require Import all_ssreflect all_algebra.
From Verif Require Import RealStruct Nat Alg Lin Ent Spd Log M_Block S_Block M_SSM S_SSM P_SSM M_SSMLog P_SSMLog S_Gauss
  S_Kalman M_Kalman M_Kernel S_Kernel M_Cond M_Emission M_Sort M_Models S_GP P_Models P_Models2 P_Models3
  M_Comb S_Comb P_Kron P_Comb P_Comb2 P_Comb3 M_KernelR S_KernelR P_KernelR P_KernelR2 P_KernelR3 M_Expr S_Expr P_Expr.
Set Implicit Arguments.
Unset Strict Implicit.
Unset Printing Implicit Defensive.
Import GRing.Theory Num.Theory Order.TTheory.
Local Open Scope ring_scope.

Lemma same_regression o d d' (k : skernel Rr o d) (k' : skernel Rr o d') mean n z y (cR : 'M[R]_o) :
  plain_kernel k -> noisy k -> plain_kernel k' -> noisy k' -> (forall s t, fcov k s t = fcov k' s t) ->
  increasing n.+1 z -> lownz cR ->
  gpr_log_likelihood (to_sde k) (sk_H k) mean n z y cR = gpr_log_likelihood (to_sde k') (sk_H k') mean n z y cR /\
  forall new i, (0 < n)%N -> - APPROX_INF Rr < z 0%N -> z 0%N <= new i -> new i <= z n ->
  omap (fun p => p i) (gpr_predict_f (to_sde k) (sk_H k) mean n z y cR new) =
  omap (fun p => p i) (gpr_predict_f (to_sde k') (sk_H k') mean n z y cR new).
Proof.
move=> Pk Nk Pk' Nk' E Hz HR.
have [Hk H0 Ef] := plain_markov Pk Nk; have [Hk' H0' Ef'] := plain_markov Pk' Nk'.
have Ec s t : f_cov (to_sde k) (sk_H k) s t = f_cov (to_sde k') (sk_H k') s t by rewrite Ef Ef'.
have Eg : f_gram (to_sde k) (sk_H k) n.+1 n.+1 z z = f_gram (to_sde k') (sk_H k') n.+1 n.+1 z z.
  by apply: eq_dense => a b _ _; exact: Ec.
split; first by rewrite (gpr_evidence (sk_H k) mean Hk H0 y Hz HR) (gpr_evidence (sk_H k') mean Hk' H0' y Hz HR) Eg.
move=> new i Hn Hinf H1 H2.
have := gpr_predict (sk_H k) mean Hk H0 y Hz HR Hn Hinf H1 H2; cbv zeta => ->.
have := gpr_predict (sk_H k') mean Hk' H0' y Hz HR Hn Hinf H1 H2; cbv zeta => ->.
have -> : brow n.+1 (fun j => f_cov (to_sde k) (sk_H k) (new i) (z j)) = brow n.+1 (fun j => f_cov (to_sde k') (sk_H k') (new i) (z j)).
  by apply: eq_brow => j _; exact: Ec.
by rewrite Eg Ec.
Qed.

Lemma expr_regression (e e' : kexpr Rr) mean n z y (cR : 'M[R]_1) :
  leaves (fun k => plain_kernel (projT2 k)) e -> noise true e -> leaves (fun k => plain_kernel (projT2 k)) e' -> noise true e' ->
  (forall s t : R, let c (k : child Rr 1) (s t : R) := fcov (projT2 k) s t 0 0 in expr_cov c e s t = expr_cov c e' s t) ->
  increasing n.+1 z -> lownz cR ->
  let k := projT2 (kernel_of e) in let k' := projT2 (kernel_of e') in
  gpr_log_likelihood (to_sde k) (sk_H k) mean n z y cR = gpr_log_likelihood (to_sde k') (sk_H k') mean n z y cR /\
  forall new i, (0 < n)%N -> - APPROX_INF Rr < z 0%N -> z 0%N <= new i -> new i <= z n ->
  omap (fun p => p i) (gpr_predict_f (to_sde k) (sk_H k) mean n z y cR new) =
  omap (fun p => p i) (gpr_predict_f (to_sde k') (sk_H k') mean n z y cR new).
Proof.
move=> L N L' N' E Hz HR k k'.
apply: (@same_regression 1 _ _ k k' mean n z y cR (expr_plain L) (expr_noise L N) (expr_plain L') (expr_noise L' N')) => // s t.
have H := E s t; cbv zeta in H; move: H.
rewrite -(@expr_fcov Rr e s t) -(@expr_fcov Rr e' s t) -/k -/k' => H.
by rewrite [LHS](mx11_scalar _) [RHS](mx11_scalar _) H.
Qed.

Lemma expr_example (l s2 p : R) : 0 < l -> 0 < s2 -> 0 < p ->
  let m12 := mkchild (matern12 1 0 l s2 0) in let m32 := mkchild (matern32 1 0 l s2 0) in
  let c := mkchild (harmonic_oscillator 1 0 1 p) in
  let e := KMul (KAdd (KLeaf m12) (KLeaf m32)) (KLeaf c) in
  let e' := KAdd (KMul (KLeaf m12) (KLeaf c)) (KMul (KLeaf c) (KLeaf m32)) in
  [/\ leaves (fun k => plain_kernel (projT2 k)) e, noise true e, leaves (fun k => plain_kernel (projT2 k)) e', noise true e' &
      forall f s t, expr_cov f e s t = expr_cov f e' s t].
Proof.
move=> Hl Hs Hp m12 m32 c e e'.
have P1 : plain_kernel (projT2 m12) by apply: lib_plain => //; apply: lib_matern12.
have P2 : plain_kernel (projT2 m32) by apply: lib_plain => //; apply: lib_matern32.
have P3 : plain_kernel (projT2 c) by apply: lib_plain => //; apply: lib_harmonic => //; apply: ltr01.
have N1 : noise true (KLeaf m12) by apply: noise_leaf; apply: m12_noisy.
have N2 : noise true (KLeaf m32) by apply: noise_leaf; apply: m32_noisy.
have N3 : noise false (KLeaf c) by apply: no_noise_leaf; apply: ho_noiseless.
split.
- by split.
- exact: (noise_mul (noise_add N1 N2) N3).
- by split.
- exact: (noise_add (noise_mul N1 N3) (noise_mul N3 N2)).
by move=> f s t; rewrite /e /e' /= mulrDl [X in _ + X]mulrC.
Qed.
