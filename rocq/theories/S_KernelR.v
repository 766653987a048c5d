(* Specification: the covariance functions of the concrete kernels, as functions of the
   distance r between two times. *)
From Coq Require Import Reals.
From mathcomp Require Import all_ssreflect all_algebra.
From Verif Require Import RealStruct MCalc M_SSMLog M_Kernel M_Comb M_KernelR.
Set Implicit Arguments.
Unset Strict Implicit.
Unset Printing Implicit Defensive.
Import GRing.Theory Num.Theory.

Definition cov_matern12 (lengthscale variance r : R) : R :=
  (variance * exp (- (r / lengthscale))%Re)%Re.
Definition cov_ou (decay diffusion r : R) : R :=
  (diffusion / (2 * decay) * exp (- (decay * r))%Re)%Re.
Definition cov_matern32 (lengthscale variance r : R) : R :=
  (variance * (1 + sqrt 3%Re * r / lengthscale) * exp (- (sqrt 3%Re * r / lengthscale))%Re)%Re.
Definition cov_matern52 (lengthscale variance r : R) : R :=
  (variance * (1 + sqrt 5%Re * r / lengthscale + 5 * r ^ 2 / (3 * lengthscale ^ 2))
     * exp (- (sqrt 5%Re * r / lengthscale))%Re)%Re.
Definition cov_cosine (variance period r : R) : R := (variance * cos (2 * PI * r / period)%Re)%Re.

(* A solves A' = M A with A(0) = 1: A(t) is the transition over t of dx/dt = M x *)
Definition generates d (M : 'M[R]_d) (A : R -> 'M[R]_d) : Prop :=
  (A 0 = 1%:M)%R /\ forall t, mderiv A t (M *m A t)%R.

(* the kernels a user can build, with positive hyperparameters and any jitter: the
   concrete ones, ConcatKernel and its subclasses over any list of them (Sum,
   IndependentMultiOutput, FactorAnalysisKernel: the emission is arbitrary), and, if
   [products] is true, Product over any list of them *)
Inductive library_kernel (products : bool) : forall o d, skernel Rr o d -> Prop :=
| lib_matern12 o jitter l s2 m : (0 < l)%R -> (0 < s2)%R -> library_kernel products (matern12 o jitter l s2 m)
| lib_ou o jitter l q m : (0 < l)%R -> (0 < q)%R -> library_kernel products (ornstein_uhlenbeck o jitter l q m)
| lib_matern32 o jitter l s2 m : (0 < l)%R -> (0 < s2)%R -> library_kernel products (matern32 o jitter l s2 m)
| lib_matern52 o jitter l s2 m : (0 < l)%R -> (0 < s2)%R -> library_kernel products (matern52 o jitter l s2 m)
| lib_constant o jitter s2 : (0 < s2)%R -> library_kernel products (constant_kernel o jitter s2)
| lib_harmonic o jitter s2 p : (0 < s2)%R -> (0 < p)%R -> library_kernel products (harmonic_oscillator o jitter s2 p)
| lib_leg d N Rot jitter : library_kernel products (leg_kernel (d := d) N Rot jitter)
| lib_concat o o' (ks : seq (child Rr o)) (E : R -> 'M[R]_(o', concat_dim ks)) jitter :
    (forall k, List.In k ks -> library_kernel products (projT2 k)) ->
    library_kernel products (concat_kernel (F := Rr) E jitter)
| lib_product (ks : seq (child Rr 1)) jitter : products = true ->
    (forall k, List.In k ks -> library_kernel products (projT2 k)) ->
    library_kernel products (product_kernel ks jitter).
