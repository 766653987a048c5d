(* Specification: conditioning a Gaussian vector on noisy linear observations. *)
From mathcomp Require Import all_ssreflect all_algebra.
From Verif Require Import Lin Spd.
Set Implicit Arguments.
Unset Strict Implicit.
Unset Printing Implicit Defensive.
Import GRing.Theory.
Local Open Scope ring_scope.

(* blocks of a block diagonal matrix with rectangular blocks *)
Definition rdiag (R : ringType) d e (H : nat -> 'M[R]_(e, d)) (i j : nat) : 'M[R]_(e, d) :=
  if i == j then H i else 0.

(* blocks of the matrix that reads observation j off state [idx j] *)
Definition pick_blocks (R : ringType) d e (H : nat -> 'M[R]_(e, d)) (idx : nat -> nat)
    (j k : nat) : 'M[R]_(e, d) := if k == idx j then H k else 0.

(* x ~ N(m, K), y = G x + noise with covariance S: mean and covariance of x given y *)
Definition cond_mean (F : fieldType) n p (m : 'cV[F]_n) (K : 'M[F]_n) (G : 'M[F]_(p, n))
    (S : 'M[F]_p) (y : 'cV[F]_p) : 'cV[F]_n :=
  m + K *m G^T *m invmx (G *m K *m G^T + S) *m (y - G *m m).
Definition cond_cov (F : fieldType) n p (K : 'M[F]_n) (G : 'M[F]_(p, n)) (S : 'M[F]_p) : 'M[F]_n :=
  K - K *m G^T *m invmx (G *m K *m G^T + S) *m G *m K.
