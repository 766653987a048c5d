(* Specification vocabulary for the models with Gaussian sites (CVI, PEP): exponents of the
   sites, and what a gradient is. *)
From Coq Require Import Reals.
From mathcomp Require Import all_ssreflect all_algebra.
From Verif Require Import RealStruct Lin Spd M_Kalman M_SSMLog M_Kernel S_Kernel M_Models S_GP M_Cvi.
Set Implicit Arguments.
Unset Strict Implicit.
Unset Printing Implicit Defensive.
Import GRing.Theory.
Local Open Scope ring_scope.

(* log of the product of the sites at the states x, without the normalisation: the sum of
   nat1 f + nat2 f^2 over the data points, f = H x *)
Definition sites_exponent d (n : nat) (H : nat -> 'M[R]_(1, d)) (s : sites Rr) (x : nat -> 'cV[R]_d) : R :=
  \sum_(k < n.+1) (let f := (H k *m x k) 0 0 in st_nat1 s k * f + st_nat2 s k * f ^+ 2).

(* the consecutive inducing states v_m = [u_(m-1), u_m], with zero outside 0 .. n *)
Definition inside d (n : nat) (u : nat -> 'cV[R]_d) (k : nat) : 'cV[R]_d := if (k <= n)%N then u k else 0.
Definition pair_at d (n : nat) (u : nat -> 'cV[R]_d) (m : nat) : 'cV[R]_(d + d) :=
  col_mx (if m is m'.+1 then inside n u m' else 0) (inside n u m).
Definition pairs_exponent d (n : nat) (s : pair_sites d) (u : nat -> 'cV[R]_d) : R :=
  \sum_(m < n.+2) (((ps_nat1 s m)^T *m pair_at n u m) 0 0 + qf (ps_nat2 s m) (pair_at n u m)).

(* sites that cannot increase the variance: symmetric, no positive direction *)
Definition valid_pairs d (n : nat) (s : pair_sites d) : Prop := forall m, (m <= n.+1)%N ->
  (ps_nat2 s m)^T = ps_nat2 s m /\ (forall v, qf (ps_nat2 s m) v <= 0).

(* E[f(t) | the states at the n + 1 times z are u], for a prior with mean zero *)
Definition projected d (ker : sde_kernel Rr d) (emission : R -> 'M[R]_(1, d)) (n : nat) (z : nat -> R) (t : R)
    (u : nat -> 'cV[R]_d) : R :=
  (emission t *m brow n.+1 (fun j => state_cov ker t (z j)) *m invmx (x_gram ker n.+1 z) *m flat n.+1 u) 0 0.

(* gmu and gvar are the partial derivatives of ve(mean, variance, observation) *)
Definition gradients_of (ve gmu gvar : R -> R -> R -> R) : Prop := forall mu v y,
  derivable_pt_lim (fun t => ve t v y) mu (gmu mu v y) /\ derivable_pt_lim (fun t => ve mu t y) v (gvar mu v y).
