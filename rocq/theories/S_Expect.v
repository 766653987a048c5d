(* Specification vocabulary: random vectors and their first two moments under an
   expectation E over draws (S_IW.v), and draws from the variational posterior. *)
From Coq Require Import Reals.
From mathcomp Require Import all_ssreflect all_algebra.
From Verif Require Import RealStruct Lin M_SSMLog M_Kernel S_Kernel S_GP.
Set Implicit Arguments.
Unset Strict Implicit.
Unset Printing Implicit Defensive.
Import GRing.Theory.
Local Open Scope ring_scope.

Section S.
Variables (T : Type) (finite : ((nat -> T) -> R) -> Prop) (E : ((nat -> T) -> R) -> R).

(* the random vector v has mean m and covariance K *)
Definition moments p (v : (nat -> T) -> 'cV[R]_p) (m : 'cV[R]_p) (K : 'M[R]_p) : Prop :=
  (forall i, finite (fun x => v x i 0) /\ E (fun x => v x i 0) = m i 0) /\
  (forall i j, finite (fun x => v x i 0 * v x j 0) /\ E (fun x => v x i 0 * v x j 0) = K i j + m i 0 * m j 0).

(* the state s of the process at time t drawn given the states u at n + 1 times z, which have
   mean m and covariance K: s = Cov(x(t), x(z)) Cov(x(z))^-1 u + r, with r of mean zero,
   uncorrelated with u, and of covariance Cov(x(t)) - Cov(x(t), x(z)) Cov(x(z))^-1 Cov(x(z), x(t)) *)
Definition drawn_given d (ker : sde_kernel Rr d) n (z : nat -> R) (m : nat -> 'cV[R]_d) (K : nat -> nat -> 'M[R]_d)
    (t : R) (s : (nat -> T) -> 'cV[R]_d) (u : (nat -> T) -> nat -> 'cV[R]_d) : Prop :=
  let Ktz := brow n.+1 (fun j => state_cov ker t (z j)) in
  let B := Ktz *m invmx (x_gram ker n.+1 z) in
  moments (fun x => col_mx (flat n.+1 (u x)) (s x - B *m flat n.+1 (u x)))
    (col_mx (flat n.+1 m) 0) (block_mx (dense n.+1 n.+1 K) 0 0 (state_cov ker t t - B *m Ktz^T)).

(* ve is the variational expectation of log_prob at the random vector f: from the mean and
   the variances of f it gives the expected log_prob *)
Definition ve_contract o (f : (nat -> T) -> 'cV[R]_o) (y : 'cV[R]_o) (log_prob : 'cV[R]_o -> 'cV[R]_o -> R)
    (ve : 'cV[R]_o -> 'cV[R]_o -> 'cV[R]_o -> R) : Prop :=
  forall a V, moments f a V ->
  finite (fun x => log_prob (f x) y) /\ E (fun x => log_prob (f x) y) = ve a (\col_c V c c) y.
End S.
