(* Model of markovflow/mean_function.py.  One batch element; num_actions = N > 0 actions at
   the times tau 0 .. tau (N - 1) with state perturbations u.  The kernel enters through
   state_transitions, feedback_matrix and the emission matrix at a time.

   The transition times passed as first argument of state_transitions (210-213, 256, 362-365, 410) are
   ignored by every stationary kernel (sde_kernel.py: state_transitions uses time_deltas
   only) and are not modelled; a PiecewiseKernel, which reads them, is out of scope. *)
From mathcomp Require Import all_ssreflect all_algebra.
From Verif Require Import M_Block M_Cond M_Comb.
Set Implicit Arguments.
Unset Strict Implicit.
Unset Printing Implicit Defensive.
Import GRing.Theory Num.Theory.
Local Open Scope ring_scope.

Section Mean.
Variable F : rcfType.
Variables o d : nat.
Variable kernel : skernel F o d.
Variables (N : nat) (tau : nat -> F) (u : nat -> 'cV[F]_d).

(* mean_function.py:66-87 ZeroMeanFunction; 91-114 LinearMeanFunction *)
Definition zero_mean (t : F) : 'cV[F]_o := 0.
(* mean_function.py:91-114 LinearMeanFunction *)
Definition linear_mean (a t : F) : 'cV[F]_o := const_mx (a * t).

(* mean_function.py:199-220 (impulse) and 352-372 (step): LowerTriangularBlockTriDiagonal(identities, A_s)
   with A_s = - exp(F (tau_(k+1) - tau_k)), or no sub-diagonal for a single action *)
Definition action_system : btd F d :=
  Btd (fun _ => 1%:M) (if N == 1%N then None else Some (fun k => - sk_A kernel (tau k.+1 - tau k))).

(* mean_function.py:217-223, 345, 369-375: tf.concat([zeros, x]) along the action axis *)
Definition zero_first (x : nat -> 'cV[F]_d) : nat -> 'cV[F]_d :=
  fun k => if k is k'.+1 then x k' else 0.

(* mean_function.py:245 and 397: searchsorted (left) among the actions themselves *)
Definition action_index (t : F) : nat := ext_searchsorted N tau t.

(* mean_function.py:193: the times with a dummy 1e-6 before the first action *)
Definition impulse_times : nat -> F := fun k => if k is k'.+1 then tau k' else tau 0%N - (10 ^+ 6)^-1.

(* mean_function.py:195-223 ImpulseMeanFunction._a_k *)
Definition impulse_a : nat -> 'cV[F]_d := zero_first (btd_solve N action_system false u).

(* mean_function.py:225-258 ImpulseMeanFunction.__call__ at one time *)
Definition impulse_mean (t : F) : 'cV[F]_o :=
  let i := action_index t in
  sk_H kernel t *m (sk_A kernel (t - impulse_times i) *m impulse_a i).

(* mean_function.py:332: the first action time repeated *)
Definition step_times : nat -> F := fun k => if k is k'.+1 then tau k' else tau 0%N.

(* mean_function.py:334-345 StepMeanFunction._a_k *)
Definition step_a : nat -> 'cV[F]_d := zero_first (fun k => - ext_solve (sk_F kernel) (u k)).

(* mean_function.py:347-375 StepMeanFunction._b_k *)
Definition step_b : nat -> 'cV[F]_d :=
  zero_first (btd_solve N action_system false (fun k => step_a k - step_a k.+1)).

(* mean_function.py:377-412 StepMeanFunction.__call__ at one time *)
Definition step_mean (t : F) : 'cV[F]_o :=
  let i := action_index t in
  sk_H kernel t *m (step_a i + sk_A kernel (t - step_times i) *m step_b i).
End Mean.
