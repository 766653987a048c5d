(* Specification for the spatio-temporal models. *)
From Coq Require Import Reals.
From mathcomp Require Import all_ssreflect all_algebra.
From Verif Require Import RealStruct Alg Lin Spd S_SSM M_Kernel S_Kernel M_Comb S_Comb S_GP.
Set Implicit Arguments.
Unset Strict Implicit.
Unset Printing Implicit Defensive.
Import GRing.Theory.
Local Open Scope ring_scope.

Section S.
Variable F : rcfType.

(* g1 and g2 are jointly Gaussian with mean zero, Var(g2) = Kmm, Cov(g2, g1) = k and
   Var(g1) = knn, so that g1 given g2 has mean k^T Kmm^-1 g2 and variance
   knn - k^T Kmm^-1 k.  The mean and the variance of g1 when g2 is given the mean f and the
   covariance C: *)
Definition mixed_mean m (Kmm : 'M[F]_m) (k f : 'cV[F]_m) : F := (k^T *m invmx Kmm *m f) 0 0.
Definition mixed_var m (Kmm : 'M[F]_m) (k : 'cV[F]_m) (knn : F) (C : 'M[F]_m) : F :=
  knn - (k^T *m invmx Kmm *m k) 0 0 + (k^T *m invmx Kmm *m C *m invmx Kmm *m k) 0 0.

(* the covariance function of the space-time process: space times time *)
Definition st_cov (S : Type) (space : S -> S -> F) d (ktime : skernel F 1 d) (x : S) (s : F) (x' : S) (t : F) : F :=
  space x x' * fcov ktime s t 0 0.

(* a covariance function: symmetric, and no combination of values has a negative variance *)
Definition covariance_function (S : Type) (k : S -> S -> F) : Prop :=
  (forall x y, k x y = k y x) /\
  forall p (y : nat -> S) (a : nat -> F), 0 <= \sum_(i < p) \sum_(j < p) a i * a j * k (y i) (y j).

(* a row of weights w on the outputs of a kernel at time t: the row that gives
   E[w f(t) | the states at the n + 1 times z] from the states *)
Definition weights_on_states o d (ker : sde_kernel F d) (emission : F -> 'M[F]_(o, d)) n (z : nat -> F)
    (w : 'rV[F]_o) (t : F) : 'rV[F]_(n.+1 * d) :=
  w *m emission t *m brow n.+1 (fun j => state_cov ker t (z j)) *m invmx (x_gram ker n.+1 z).
End S.
