(* Specification of a linear Gaussian chain, independent of the model:
     x_0 = mu0 + noise_0,   x_{k+1} = A_k x_k + b_k + noise_{k+1},
   with independent noise of covariance Qc 0 = P0, Qc (k+1) = Q_k. *)
From mathcomp Require Import all_ssreflect all_algebra.
From Verif Require Import Lin.
Set Implicit Arguments.
Unset Strict Implicit.
Unset Printing Implicit Defensive.
Import GRing.Theory.
Local Open Scope ring_scope.

Section Chain.
Variable R : comRingType.
Variable d : nat.
Variables (A : nat -> 'M[R]_d).

(* the trajectory driven by [u]: x_0 = u_0, x_{k+1} = A_k x_k + u_{k+1} *)
Fixpoint chain_path p (u : nat -> 'M[R]_(d, p)) (k : nat) : 'M[R]_(d, p) :=
  match k with
  | 0 => u 0%N
  | k'.+1 => A k' *m chain_path u k' + u k'.+1
  end.

(* A_{i+m-1} ... A_i *)
Fixpoint phi (i m : nat) : 'M[R]_d :=
  match m with
  | 0 => 1%:M
  | m'.+1 => A (i + m') *m phi i m'
  end.

Variable Qc : nat -> 'M[R]_d.

(* marginal covariances *)
Fixpoint chain_var (k : nat) : 'M[R]_d :=
  match k with
  | 0 => Qc 0%N
  | k'.+1 => A k' *m chain_var k' *m (A k')^T + Qc k'.+1
  end.

(* Cov(x_i, x_j) *)
Definition chain_cov (i j : nat) : 'M[R]_d :=
  if (j <= i)%N then phi j (i - j) *m chain_var j
  else chain_var i *m (phi i (j - i))^T.

End Chain.

(* the generative recursion driven by standard normal draws eps *)
Fixpoint gen_path (R : comRingType) d (mu0 : 'cV[R]_d) (cholP0 : 'M[R]_d) (A : nat -> 'M[R]_d)
    (b : nat -> 'cV[R]_d) (cholQ : nat -> 'M[R]_d) (eps : nat -> 'cV[R]_d) (k : nat) : 'cV[R]_d :=
  match k with
  | 0 => mu0 + cholP0 *m eps 0%N
  | k'.+1 => A k' *m gen_path mu0 cholP0 A b cholQ eps k' + b k' + cholQ k' *m eps k'.+1
  end.

(* covariance of sum_l G_l eps_l and sum_l H_l eps_l when the eps_l are independent
   with mean 0 and covariance 1: E[eps_l eps_m^T] = 1 if l = m, 0 otherwise *)
Definition wn_cov (R : comRingType) d p q N (G : nat -> 'M[R]_(p, d)) (H : nat -> 'M[R]_(q, d)) : 'M[R]_(p, q) :=
  \sum_(l < N) G l *m (H l)^T.

(* [X] maps N independent standard normal vectors to N' vectors.  It has joint mean
   [m] and joint covariance [K] when it is affine in the draws, with constant term m
   and linear part G, and K i j is the covariance of the noise parts of X_i and X_j. *)
Definition has_law (R : comRingType) d e N' N (X : (nat -> 'cV[R]_d) -> nat -> 'cV[R]_e)
    (m : nat -> 'cV[R]_e) (K : nat -> nat -> 'M[R]_e) : Prop :=
  exists G : nat -> nat -> 'M[R]_(e, d),
    (forall eps k, (k < N')%N -> X eps k = m k + \sum_(l < N) G k l *m eps l) /\
    (forall i j, (i < N')%N -> (j < N')%N -> K i j = wn_cov N (G i) (G j)).
