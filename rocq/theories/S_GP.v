(* Specification: a Gaussian process observed with noise.  f = mean + emission x, where x is
   the state process of a kernel; k(s, t) = emission(s) Cov(x(s), x(t)) emission(t)^T. *)
From mathcomp Require Import all_ssreflect all_algebra.
From Verif Require Import Lin M_Kernel S_Kernel.
Set Implicit Arguments.
Unset Strict Implicit.
Unset Printing Implicit Defensive.
Import GRing.Theory Num.Theory.
Local Open Scope ring_scope.

Section S.
Variables (F : rcfType) (o d : nat) (ker : sde_kernel F d) (emission : F -> 'M[F]_(o, d)).

(* the covariance function of f *)
Definition f_cov (s t : F) : 'M[F]_o := emission s *m state_cov ker s t *m (emission t)^T.
(* the covariance of f at N times x and the state at M times z *)
Definition fx_gram N M (x z : nat -> F) : 'M[F]_(N * o, M * d) :=
  dense N M (fun i j => emission (x i) *m state_cov ker (x i) (z j)).
(* the covariance matrix of f at N times and f at M times *)
Definition f_gram N M (x x' : nat -> F) : 'M[F]_(N * o, M * o) := dense N M (fun i j => f_cov (x i) (x' j)).
(* the covariance matrix of the states at N times *)
Definition x_gram N (z : nat -> F) : 'M[F]_(N * d) := dense N N (fun i j => state_cov ker (z i) (z j)).
End S.
