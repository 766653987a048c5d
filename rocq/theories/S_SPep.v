(* Specification vocabulary for sparse power expectation propagation. *)
From Coq Require Import Reals.
From mathcomp Require Import all_ssreflect all_algebra.
From Verif Require Import RealStruct Lin Spd M_SSMLog M_Kernel S_Kernel S_GP M_Cvi S_Cvi.
Set Implicit Arguments.
Unset Strict Implicit.
Unset Printing Implicit Defensive.
Import GRing.Theory Num.Theory.
Local Open Scope ring_scope.

(* the interval of t: the number of the n + 1 inducing points that are before t *)
Definition below (n : nat) (z : nat -> R) (t : R) : nat := count (fun i => z i < t) (iota 0 n.+1).

(* the number of the N data points in interval m *)
Definition share (n : nat) (z : nat -> R) (N : nat) (X : nat -> R) (m : nat) : nat :=
  count (fun j => below n z (X j) == m) (iota 0 N).

(* the sites with that of interval m raised to the power c *)
Definition scale_pair d (s : pair_sites d) (m : nat) (c : R) : pair_sites d :=
  PairSites (fun j => if j == m then c *: ps_nat1 s j else ps_nat1 s j)
            (fun j => if j == m then c *: ps_nat2 s j else ps_nat2 s j).

(* the site of interval 0 acts on a state before the first inducing point, for which the
   library takes the prior at time zero, and on the first inducing state: they are not
   coupled, and the first factor is integrable *)
Definition first_site d (ker : sde_kernel Rr d) (s : pair_sites d) : Prop :=
  [/\ ursubmx (ps_nat2 s 0%N) = 0, dlsubmx (ps_nat2 s 0%N) = 0 &
      spd (2%:R^-1 *: invmx (k_P0 ker 0) + ulsubmx (ps_nat2 s 0%N))].

(* the log of the site of interval m at the inducing states u *)
Definition site_exponent d (n : nat) (s : pair_sites d) (u : nat -> 'cV[R]_d) (m : nat) : R :=
  ((ps_nat1 s m)^T *m pair_at n u m) 0 0 + qf (ps_nat2 s m) (pair_at n u m).

(* the variance of f(t) given the states at the n + 1 times z *)
Definition unexplained d (ker : sde_kernel Rr d) (emission : R -> 'M[R]_(1, d)) (n : nat) (z : nat -> R) (t : R) : R :=
  let k := emission t *m brow n.+1 (fun j => state_cov ker t (z j)) in
  (f_cov ker emission t t - k *m invmx (x_gram ker n.+1 z) *m k^T) 0 0.

(* the average of the observations of the data points in the interval of t *)
Definition interval_mean (n : nat) (z : nat -> R) (N : nat) (X Y : nat -> R) (t : R) : R :=
  (\sum_(k < N | below n z (X k) == below n z t) Y k) / (share n z N X (below n z t))%:R.
