(* Model of the kernel interface of markovflow/kernels/sde_kernel.py: what a kernel
   hands over to build a state space model, and the StationaryKernel base class.  One
   batch element; times are elements of the field. *)
From mathcomp Require Import all_ssreflect all_algebra.
From Verif Require Import Alg Lin Ent Spd M_Block M_SSM.
Set Implicit Arguments.
Unset Strict Implicit.
Unset Printing Implicit Defensive.
Import GRing.Theory Num.Theory.
Local Open Scope ring_scope.

Section Kernel.
Variable F : rcfType.

(* utils.py:88-104, for N time points.  None: the assertion fails.  The assertion is
   delta >= 0 (the docstring says delta > 0). *)
Definition to_delta_time (N : nat) (time_points : nat -> F) : option (nat -> F) :=
  let delta_t k := time_points k.+1 - time_points k in
  if [forall k : 'I_N.-1, 0 <= delta_t k] then Some delta_t else None.

Variable d : nat.

(* sde_kernel.py:43-350, the abstract methods: state_transitions, process_covariances
   (the second result of transition_statistics), state_offsets, initial_mean and
   initial_covariance. *)
Record sde_kernel := SdeKernel {
  k_trans : F -> F -> 'M[F]_d;
  k_cov : F -> F -> 'M[F]_d;
  k_off : F -> F -> 'cV[F]_d;
  k_mean0 : 'cV[F]_d;
  k_P0 : F -> 'M[F]_d
}.

(* sde_kernel.py:153-171 state_space_model, for n + 1 time points *)
Definition kernel_ssm (n : nat) (kernel : sde_kernel) (time_points : nat -> F) : option (ssm F d) :=
  if to_delta_time n.+1 time_points is Some delta_t then
    Some (ssm_from_covariances (k_mean0 kernel) (k_P0 kernel (time_points 0%N))
      (fun k => k_trans kernel (time_points k) (delta_t k))
      (fun k => k_off kernel (time_points k) (delta_t k))
      (fun k => k_cov kernel (time_points k) (delta_t k)))
  else None.

(* sde_kernel.py:353-496 StationaryKernel: transition_statistics 421-447,
   state_offsets 460-476, initial_mean 380-391, initial_covariance 402-419.  For the
   kernels in the library state_transitions does not read the transition times. *)
Definition stationary_kernel (A : F -> 'M[F]_d) (Pinf : 'M[F]_d) (jitter : F) (state_mean : 'cV[F]_d) :
    sde_kernel :=
  SdeKernel (fun _ dt => A dt)
    (fun _ dt => Pinf - A dt *m Pinf *m (A dt)^T + jitter *: 1%:M)
    (fun _ dt => - (A dt - 1%:M) *m state_mean)
    state_mean
    (fun _ => Pinf + jitter *: 1%:M).

End Kernel.
