(* Specification vocabulary for stationary kernels and their combinations. *)
From mathcomp Require Import all_ssreflect all_algebra.
From Verif Require Import Alg Lin Ent Spd M_SSM S_SSM P_SSM M_Kernel M_Comb.
Set Implicit Arguments.
Unset Strict Implicit.
Unset Printing Implicit Defensive.
Import GRing.Theory Num.Theory.
Local Open Scope ring_scope.

Section S.
Variable F : rcfType.

(* covariance gained over a step of length a *)
Definition step_cov o d (k : skernel F o d) (a : F) : 'M[F]_d := sk_P k - sk_A k a *m sk_P k *m (sk_A k a)^T.

(* a stationary Gaussian Markov process: transitions over successive steps compose, the
   stationary covariance is positive definite, no step removes variance *)
Record good_kernel o d (k : skernel F o d) : Prop := GoodKernel {
  good_semi : forall a b, 0 < a -> 0 < b -> sk_A k (a + b) = sk_A k b *m sk_A k a;
  good_P : spd (sk_P k);
  good_step : forall a, 0 < a -> psd (step_cov k a)
}.

(* every step adds noise in every direction / no step adds noise *)
Definition noisy o d (k : skernel F o d) : Prop := forall a, 0 < a -> spd (step_cov k a).
Definition noiseless o d (k : skernel F o d) : Prop := forall a, 0 < a -> step_cov k a = 0.

(* the mean of the initial state is preserved by the transitions *)
Definition steady_mean o d (k : skernel F o d) : Prop :=
  forall a, 0 < a -> sk_mean0 k = sk_A k a *m sk_mean0 k + sk_off k a.

(* transitions over any two lengths of time compose, and nothing happens in no time *)
Definition semigroup o d (k : skernel F o d) : Prop :=
  sk_A k 0 = 1%:M /\ forall s t, 0 <= s -> 0 <= t -> sk_A k (s + t) = sk_A k t *m sk_A k s.

(* a stationary process with zero mean and no jitter *)
Record plain_kernel o d (k : skernel F o d) : Prop := PlainKernel {
  plain_good : good_kernel k;
  plain_A0 : sk_A k 0 = 1%:M;
  plain_jitter : sk_jitter k = 0;
  plain_mean : sk_mean0 k = 0;
  plain_off : forall a, sk_off k a = 0
}.

(* the stationary covariance balances the feedback against some diffusion B B^T *)
Definition lyapunov o d (k : skernel F o d) : Prop :=
  exists r (B : 'M[F]_(d, r)), sk_F k *m sk_P k + sk_P k *m (sk_F k)^T = - (B *m B^T).

(* Kronecker sum of the feedback matrices of the children *)
Fixpoint kron_sum (ks : seq (child F 1)) : 'M[F]_(prod_dim ks) :=
  match ks with
  | [::] => 0
  | k :: ks' => kron (sk_F (projT2 k)) 1%:M + kron 1%:M (kron_sum ks')
  end.

Definition every o (p : forall d, skernel F o d -> Prop) (ks : seq (child F o)) : Prop :=
  forall k, List.In k ks -> p _ (projT2 k).
Definition some o (p : forall d, skernel F o d -> Prop) (ks : seq (child F o)) : Prop :=
  exists2 k, List.In k ks & p _ (projT2 k).

(* Cov(f(s), f(t)) of the process emitted by the kernel, f = H x *)
Definition fcov o d (k : skernel F o d) (s t : F) : 'M[F]_o :=
  sk_H k s *m (if t < s then sk_A k (s - t) *m sk_P k
               else if s < t then (sk_A k (t - s) *m sk_P k)^T else sk_P k) *m (sk_H k t)^T.

(* the same with the jitter that the kernel adds to the initial and to every process
   covariance: every time point l up to both i and j contributes *)
Definition fcov_jitter o d (k : skernel F o d) (z : nat -> F) (i j : nat) : 'M[F]_o :=
  fcov k (z i) (z j) + sk_jitter k *:
    (sk_H k (z i) *m (\sum_(l < (minn i j).+1) sk_A k (z i - z l) *m (sk_A k (z j - z l))^T) *m (sk_H k (z j))^T).

(* the state space model the kernel builds at the n + 1 time points z exists, and the
   emitted process f_i = H(z_i) x_i has means m and covariances K *)
Definition prior_f_law o d (k : skernel F o d) n (z : nat -> F) (m : nat -> 'cV[F]_o) (K : nat -> nat -> 'M[F]_o) : Prop :=
  exists2 S, kernel_ssm n (to_sde k) z = Some S &
    has_law n.+1 n.+1 (fun eps i => sk_H k (z i) *m ssm_path S eps i) m K.

(* matrix whose diagonal blocks are the matrices of the children *)
Definition diag_children o (ks : seq (child F o)) (f : forall d, skernel F o d -> 'M[F]_o) : 'M[F]_(size ks * o) :=
  dense (size ks) (size ks) (fun a b =>
    if a == b then (if ohead (drop a ks) is Some k then f _ (projT2 k) else 0) else 0).

End S.
