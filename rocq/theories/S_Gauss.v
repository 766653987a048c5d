(* Specification: densities and divergences of multivariate Gaussians, over the
   reals of the standard library. *)
From Coq Require Import Reals.
From mathcomp Require Import all_ssreflect all_algebra.
From Verif Require Import RealStruct Spd.
Set Implicit Arguments.
Unset Strict Implicit.
Unset Printing Implicit Defensive.
Import GRing.Theory.
Local Open Scope ring_scope.

(* log N(x; m, K) = -1/2 (n log 2 pi + log det K + (x - m)^T K^-1 (x - m)) *)
Definition gauss_logpdf n (m : 'cV[R]_n) (K : 'M[R]_n) (x : 'cV[R]_n) : R :=
  - 2%:R^-1 * (n%:R * ln (2%:R * PI) + ln (\det K) + qf (invmx K) (x - m)).

(* A quadratic function c + b^T x + x^T M x and its expectation under a
   distribution with mean m and covariance K: c + b^T m + tr (M (K + m m^T)). *)
Definition quad_fun n (c : R) (b : 'cV[R]_n) (M : 'M[R]_n) (x : 'cV[R]_n) : R :=
  c + (b^T *m x) 0 0 + qf M x.
Definition quad_expect n (m : 'cV[R]_n) (K : 'M[R]_n) (c : R) (b : 'cV[R]_n) (M : 'M[R]_n) : R :=
  c + (b^T *m m) 0 0 + \tr (M *m (K + m *m m^T)).

(* "f has expectation e under mean m and covariance K", for quadratic f *)
Definition expects n (m : 'cV[R]_n) (K : 'M[R]_n) (f : 'cV[R]_n -> R) (e : R) : Prop :=
  exists c b M, (forall x, f x = quad_fun c b M x) /\ e = quad_expect m K c b M.

(* KL[N(m1, K1) || N(m2, K2)] *)
Definition gauss_kl n (m1 : 'cV[R]_n) (K1 : 'M[R]_n) (m2 : 'cV[R]_n) (K2 : 'M[R]_n) : R :=
  2%:R^-1 * (\tr (invmx K2 *m K1) + qf (invmx K2) (m2 - m1) - n%:R
             + ln (\det K2) - ln (\det K1)).
