(* Specification vocabulary for kernels: consistency of the transitions of a Markov
   process in continuous time, and the covariance function of its state. *)
From mathcomp Require Import all_ssreflect all_algebra.
From Verif Require Import Lin Spd M_Kernel.
Set Implicit Arguments.
Unset Strict Implicit.
Unset Printing Implicit Defensive.
Import GRing.Theory Num.Theory.
Local Open Scope ring_scope.

Section S.
Variable F : rcfType.
Variable d : nat.
Implicit Types k : sde_kernel F d.

(* going from s to s + a and on to s + a + b is going from s to s + a + b; the initial
   law is the law of the process at every time *)
Record markov_kernel k : Prop := MarkovKernel {
  mk_trans0 : forall s, k_trans k s 0 = 1%:M;
  mk_cov0 : forall s, k_cov k s 0 = 0;
  mk_trans : forall s a b, 0 <= a -> 0 <= b -> k_trans k s (a + b) = k_trans k (s + a) b *m k_trans k s a;
  mk_cov : forall s a b, 0 <= a -> 0 <= b ->
    k_cov k s (a + b) = k_trans k (s + a) b *m k_cov k s a *m (k_trans k (s + a) b)^T + k_cov k (s + a) b;
  mk_cov_spd : forall s a, 0 < a -> spd (k_cov k s a);
  mk_P0_spd : forall s, spd (k_P0 k s);
  mk_P0 : forall s a, 0 <= a -> k_P0 k (s + a) = k_trans k s a *m k_P0 k s *m (k_trans k s a)^T + k_cov k s a;
  mk_mean : forall s a, 0 <= a -> k_mean0 k = k_trans k s a *m k_mean0 k + k_off k s a
}.

(* Cov(x(s), x(t)) *)
Definition state_cov k (s t : F) : 'M[F]_d :=
  if t <= s then k_trans k t (s - t) *m k_P0 k t else (k_trans k s (t - s) *m k_P0 k s)^T.

(* strictly increasing, N points *)
Definition increasing (N : nat) (z : nat -> F) : Prop := forall i, (i.+1 < N)%N -> z i < z i.+1.

(* the grid with t inserted after k + 1 points *)
Definition insert_time (z : nat -> F) (k : nat) (t : F) (i : nat) : F :=
  if (i <= k)%N then z i else if i == k.+1 then t else z i.-1.

End S.

(* blocks of the matrix that reads the states of the original grid (n + 1 points) off
   the states of the grid with a point inserted after k + 1 points *)
Definition skip_blocks (R : ringType) d (k : nat) (i j : nat) : 'M[R]_d :=
  if j == (if (i <= k)%N then i else i.+1) then 1%:M else 0.
