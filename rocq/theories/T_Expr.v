(* Property theorems C109 and C111: kernels combined with + and *, and independent outputs.

   Vocabulary: S_Expr.v ([expr_cov] c e, the covariance function of the expression e when c gives the covariance functions
   of its kernels; [leaves] p e, p holds for every kernel of e; [noise] b e); S_Comb.v ([plain_kernel], a stationary
   process with mean zero and no jitter; [fcov], its covariance function; [prior_f_law]); S_Kernel.v ([markov_kernel],
   [increasing]).  [kernel_of] e is the kernel that the expression evaluates to.
   S_Comb.v ([every] p ks, p holds for every kernel of ks); Lin.v ([unflat] v a, block a of the stacked vector v; [dense] c c K,
   the matrix with blocks K a b); S_Kalman.v ([rdiag] D, block a on the diagonal is D a, the others are zero). *)
From Coq Require Import Reals.
From mathcomp Require Import all_ssreflect all_algebra.
From Verif Require Import RealStruct Lin Spd M_Block M_SSM S_SSM P_SSM M_SSMLog S_Kalman M_Kernel S_Kernel M_Cond M_Models
  M_Comb S_Comb M_KernelR S_KernelR M_Expr S_Expr P_Expr P_Expr2 P_Indep2.
Set Implicit Arguments.
Unset Strict Implicit.
Unset Printing Implicit Defensive.
Import GRing.Theory Num.Theory Order.TTheory.
Local Open Scope ring_scope.

(* the prior of an expression of any depth has the covariance function obtained by evaluating the expression on the
   covariance functions of its kernels *)
Theorem C109_prior (F : rcfType) b (e : kexpr F) n z :
  leaves (fun k => plain_kernel (projT2 k)) e -> noise b e -> increasing n.+1 z ->
  prior_f_law (projT2 (kernel_of e)) n z (fun _ => 0)
    (fun i j => (expr_cov (fun (k : child F 1) (s t : F) => fcov (projT2 k) s t 0 0) e (z i) (z j))%:M).
Proof. exact: expr_law. Qed.
Print Assumptions C109_prior.

(* with noise in every step it is a Markov kernel, the hypothesis of the theorems about the models *)
Theorem C109_markov (F : rcfType) (e : kexpr F) : leaves (fun k => plain_kernel (projT2 k)) e -> noise true e ->
  markov_kernel (to_sde (projT2 (kernel_of e))).
Proof. exact: expr_markov. Qed.
Print Assumptions C109_markov.

(* two expressions with the same value (reordered, regrouped, multiplied out, ...) give the same regression: the same log
   likelihood, and the same predictions between the data; their states may have different sizes *)
Theorem C109_regression (e e' : kexpr Rr) mean n z y (cR : 'M[R]_1) :
  leaves (fun k => plain_kernel (projT2 k)) e -> noise true e -> leaves (fun k => plain_kernel (projT2 k)) e' -> noise true e' ->
  (forall s t : R, let c (k : child Rr 1) (s t : R) := fcov (projT2 k) s t 0 0 in expr_cov c e s t = expr_cov c e' s t) ->
  increasing n.+1 z -> lownz cR ->
  let k := projT2 (kernel_of e) in let k' := projT2 (kernel_of e') in
  gpr_log_likelihood (to_sde k) (sk_H k) mean n z y cR = gpr_log_likelihood (to_sde k') (sk_H k') mean n z y cR /\
  forall new i, (0 < n)%N -> - APPROX_INF Rr < z 0%N -> z 0%N <= new i -> new i <= z n ->
  omap (fun p => p i) (gpr_predict_f (to_sde k) (sk_H k) mean n z y cR new) =
  omap (fun p => p i) (gpr_predict_f (to_sde k') (sk_H k') mean n z y cR new).
Proof. exact: expr_regression. Qed.
Print Assumptions C109_regression.

(* + and * of two independent multi-output stacks act on the kernels in the same position; stacks of different sizes are
   refused *)
Theorem C109_stacks (F : rcfType) (ks ks' : seq (child F 1)) :
  (size ks <> size ks' -> stack_add ks ks' = None /\ stack_mul ks ks' = None) /\ (size ks = size ks' ->
  exists s p, [/\ stack_add ks ks' = Some s, stack_mul ks ks' = Some p, size s = size ks, size p = size ks &
  forall k0 i, (i < size ks)%N ->
    nth k0 s i = kernel_of (KAdd (KLeaf (nth k0 ks i)) (KLeaf (nth k0 ks' i))) /\
    nth k0 p i = kernel_of (KMul (KLeaf (nth k0 ks i)) (KLeaf (nth k0 ks' i)))]).
Proof. exact: (conj (@stack_refused F ks ks') (@stack_ops F ks ks')). Qed.
Print Assumptions C109_stacks.

(* (matern12 + matern32) * cosine, and the same multiplied out in another order *)
Example C109_example (l s2 p : R) : 0 < l -> 0 < s2 -> 0 < p ->
  let m12 := mkchild (matern12 1 0 l s2 0) in let m32 := mkchild (matern32 1 0 l s2 0) in
  let c := mkchild (harmonic_oscillator 1 0 1 p) in
  let e := KMul (KAdd (KLeaf m12) (KLeaf m32)) (KLeaf c) in
  let e' := KAdd (KMul (KLeaf m12) (KLeaf c)) (KMul (KLeaf c) (KLeaf m32)) in
  [/\ leaves (fun k => plain_kernel (projT2 k)) e, noise true e, leaves (fun k => plain_kernel (projT2 k)) e', noise true e' &
      forall f s t, expr_cov f e s t = expr_cov f e' s t].
Proof. exact: expr_example. Qed.

(* ---------- C111: independent outputs ---------- *)

(* the log likelihood of GaussianProcessRegression with an IndependentMultiOutput kernel, when the observation noise of
   different outputs is uncorrelated, is the sum of the log likelihoods of one regression per output *)
Theorem C111_log_likelihood o (ks : seq (child Rr o)) n z (cR : nat -> 'M[R]_o) mean y :
  every (fun d k => plain_kernel k) ks -> every (fun d k => noisy k) ks -> increasing n.+1 z ->
  (forall a, (a < size ks)%N -> lownz (cR a)) ->
  let joint := indep_kernel ks 0 in
  exists l : nat -> R,
  gpr_log_likelihood (to_sde joint) (sk_H joint) mean n z y (dense (size ks) (size ks) (rdiag cR)) =
    Some (\sum_(a < size ks) l a) /\
  forall a k, List.nth_error ks a = Some k ->
    gpr_log_likelihood (to_sde (projT2 k)) (sk_H (projT2 k)) (fun t => unflat (mean t) a) n z (fun i => unflat (y i) a) (cR a) =
    Some (l a).
Proof. exact: indep_log_likelihood. Qed.
Print Assumptions C111_log_likelihood.

(* its predictions are those of the separate regressions, and it predicts no correlation between outputs *)
Theorem C111_predict o (ks : seq (child Rr o)) n z (cR : nat -> 'M[R]_o) mean y :
  every (fun d k => plain_kernel k) ks -> every (fun d k => noisy k) ks -> increasing n.+1 z ->
  (forall a, (a < size ks)%N -> lownz (cR a)) ->
  forall new i, (0 < n)%N -> - APPROX_INF Rr < z 0%N -> z 0%N <= new i -> new i <= z n ->
  let joint := indep_kernel ks 0 in
  exists m V,
  omap (fun p => p i) (gpr_predict_f (to_sde joint) (sk_H joint) mean n z y (dense (size ks) (size ks) (rdiag cR)) new) =
    Some (m, dense (size ks) (size ks) (rdiag V)) /\
  forall a k, List.nth_error ks a = Some k ->
    omap (fun p => p i) (gpr_predict_f (to_sde (projT2 k)) (sk_H (projT2 k)) (fun t => unflat (mean t) a) n z
                           (fun i => unflat (y i) a) (cR a) new) =
    Some (unflat m a, V a).
Proof. exact: indep_predict. Qed.
Print Assumptions C111_predict.

(* two outputs with different kernels and different noise *)
Example C111_example (l s2 : R) : 0 < l -> 0 < s2 ->
  let ks := [:: mkchild (matern12 1 0 l s2 0); mkchild (matern32 1 0 l s2 0)] in
  let cR a : 'M[R]_1 := a.+1%:R%:M in
  [/\ every (fun d k => plain_kernel k) ks, every (fun d k => noisy k) ks &
      forall a, (a < size ks)%N -> lownz (cR a)].
Proof. exact: indep_example. Qed.
