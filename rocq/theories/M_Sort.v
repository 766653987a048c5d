(* Model of ConditionalProcess.sample_state_trajectories, posterior.py:260-377, from the
   callers' lists of times: sorting, sampling the prior jointly, and undoing the sort; and
   of predict_f and sample_f.
   One batch element, one sample. *)
From mathcomp Require Import all_ssreflect all_algebra.
From Verif Require Import M_Block M_SSM M_Kernel M_Cond M_Emission.
Set Implicit Arguments.
Unset Strict Implicit.
Unset Printing Implicit Defensive.
Import GRing.Theory Num.Theory Order.TTheory.
Local Open Scope ring_scope.

(* external, called at posterior.py:332, 342: tf.argsort is not stable by default: any permutation of the indices that puts the keys
   in order is allowed.  This is its contract; the functions below take the results as
   arguments. *)
Definition ext_argsort_ok (T : eqType) (leT : rel T) (x0 : T) (keys : seq T) (p : seq nat) : bool :=
  perm_eq p (iota 0 (size keys)) && sorted leT [seq nth x0 keys i | i <- p].

(* external, called at posterior.py:333, 346: tf.gather along the time axis *)
Definition gather (T : Type) (x0 : T) (x : seq T) (idx : seq nat) : seq T := [seq nth x0 x i | i <- idx].

Section Sample.
Variables (F : rcfType) (d : nat) (kernel : sde_kernel F d).
Variables (z new : seq F).           (* conditioning_time_points, new_time_points *)
Variables (sort_ind unsort_ind : seq nat).  (* posterior.py:332 argsort of the times, 342 argsort of sort_ind *)

(* posterior.py:331 *)
Definition joint_time_points : seq F := z ++ new.
(* posterior.py:333 *)
Definition sorted_joint_time_points : seq F := gather 0 joint_time_points sort_ind.

(* posterior.py:336: the model of the sorted grid *)
Definition joint_model : option (ssm F d) :=
  kernel_ssm (size sorted_joint_time_points).-1 kernel (nth 0 sorted_joint_time_points).

(* posterior.py:336-348: samples on the sorted grid, back in the order of joint_time_points *)
Definition joint_samples (joint : ssm F d) (eps : nat -> 'cV[F]_d) : nat -> 'cV[F]_d :=
  let sorted_joint_samples := ssm_sample (size sorted_joint_time_points).-1 joint eps in
  fun i => sorted_joint_samples (nth 0%N unsort_ind i).

(* posterior.py:349-377: sample number i of the new points *)
Definition new_samples (joint : ssm F d) (eps : nat -> 'cV[F]_d) (post_z : nat -> 'cV[F]_d) (i : nat) : 'cV[F]_d :=
  let js := joint_samples joint eps in
  sample_state kernel (size z).-1 (nth 0 z) (nth 0 new i) (js (size z + i)%N) js post_z.
End Sample.

Section Function.
Variables (F : rcfType) (d o : nat) (kernel : sde_kernel F d).
(* generate_emission_model(new_time_points).emission_matrix and mean_function(new_time_points),
   one entry for each new time; the transposition of _correct_mean_shape (790-813) for stacked
   kernels only moves an axis and is not modelled *)
Variables (H : nat -> 'M[F]_(o, d)) (mean : nat -> 'cV[F]_o).

(* posterior.py:379-410: mean + project_state_to_f of the state samples *)
Definition sample_f (state_samples : nat -> 'cV[F]_d) : nat -> 'cV[F]_o :=
  fun i => mean i + project_state_to_f H state_samples i.

(* posterior.py:230-258 with full_output_cov=True and False; the initial covariance is
   evaluated at the first new time (208-228) *)
Definition predict_f_full n (post : ssm F d) (z new : nat -> F) : nat -> 'cV[F]_o * 'M[F]_o :=
  let pred i := predict_state kernel n post z (new 0%N) (new i) in
  fun i => (project_state_to_f H (fun j => (pred j).1) i + mean i, project_cov_full H (fun j => (pred j).2) i).
(* posterior.py:230-258 with full_output_cov=False *)
Definition predict_f_diag n (post : ssm F d) (z new : nat -> F) : nat -> 'cV[F]_o * 'cV[F]_o :=
  let pred i := predict_state kernel n post z (new 0%N) (new i) in
  fun i => (project_state_to_f H (fun j => (pred j).1) i + mean i, project_cov_diag H (fun j => (pred j).2) i).
End Function.
