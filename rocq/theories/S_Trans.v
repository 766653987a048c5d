(* Specification vocabulary for the parameter transformations: equality of the
   parameters that exist (n transitions, n + 1 states), the quadratic exponent of a
   natural parameterisation and the block tridiagonal precision it stands for. *)
From mathcomp Require Import all_ssreflect all_algebra.
From Verif Require Import Lin Ent Spd S_Block M_SSM M_Trans.
Set Implicit Arguments.
Unset Strict Implicit.
Unset Printing Implicit Defensive.
Import GRing.Theory.
Local Open Scope ring_scope.

Section S.
Variable F : rcfType.
Variables (d n : nat).

(* the two models have the same parameters *)
Definition same_ssm (S S' : ssm F d) : Prop :=
  [/\ s_mu0 S = s_mu0 S', s_cholP0 S = s_cholP0 S' &
      forall k, (k < n)%N -> [/\ s_A S k = s_A S' k, s_b S k = s_b S' k & s_cholQ S k = s_cholQ S' k]].

(* the factors are Cholesky factors: lower triangular, positive diagonal *)
Definition ssm_chol (S : ssm F d) : Prop :=
  lowpos (s_cholP0 S) /\ forall k, (k < n)%N -> lowpos (s_cholQ S k).

(* same blocks: n + 1 linear terms, n + 1 diagonal and n sub-diagonal blocks *)
Definition same_triple (t t' : triple F d) : Prop :=
  [/\ forall k, (k <= n)%N -> t_lin t k = t_lin t' k,
      forall k, (k <= n)%N -> t_diag t k = t_diag t' k &
      forall k, (k < n)%N -> t_sub t k = t_sub t' k].

(* sum_k theta_k^T x_k + sum_k x_k^T Theta_kk x_k + sum_k x_{k+1}^T Theta_{k+1,k} x_k *)
Definition nat_exponent (t : triple F d) (x : nat -> 'cV[F]_d) : F :=
  \sum_(k < n.+1) ((t_lin t k)^T *m x k) 0 0 + \sum_(k < n.+1) qf (t_diag t k) (x k)
  + \sum_(k < n) ((x k.+1)^T *m t_sub t k *m x k) 0 0.

(* the quadratic part is -1/2 x^T P x with this P *)
Definition nat_precision (t : triple F d) : 'M[F]_(n.+1 * d) :=
  dense n.+1 n.+1 (sym_blocks (fun k => - 2%:R *: t_diag t k) (fun k => - t_sub t k)).

(* natural parameters of a (non degenerate) Gaussian *)
Definition nat_valid (t : triple F d) : Prop :=
  (forall k, (k <= n)%N -> (t_diag t k)^T = t_diag t k) /\ spd (nat_precision t).

(* the no-smoothing parameterisation keeps the parameters of each conditional
   p(x_k | x_{k-1}) separately: valid when every -2 theta_diag is positive definite *)
Definition cond_valid (t : triple F d) : Prop :=
  forall k, (k <= n)%N -> spd (- 2%:R *: t_diag t k).

(* expectation parameters of a (non degenerate) Gaussian chain: each marginal
   covariance and each conditional covariance is positive definite *)
Definition exp_var (t : triple F d) k := t_diag t k - t_lin t k *m (t_lin t k)^T.
Definition exp_cov (t : triple F d) k := t_sub t k - t_lin t k.+1 *m (t_lin t k)^T.
Definition exp_valid (t : triple F d) : Prop :=
  (forall k, (k <= n)%N -> spd (exp_var t k)) /\
  (forall k, (k < n)%N ->
    spd (exp_var t k.+1 - exp_cov t k *m invmx (exp_var t k) *m (exp_cov t k)^T)).

End S.
