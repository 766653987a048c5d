(* Model of markovflow/kernels/piecewise_stationary.py: PiecewiseKernel.  One batch
   element; a tensor with a time axis is a list, an exception is None. *)
From mathcomp Require Import all_ssreflect all_algebra.
From Verif Require Import Alg Lin Ent Spd M_Block M_SSM M_Kernel M_Cond M_Comb.
Set Implicit Arguments.
Unset Strict Implicit.
Unset Printing Implicit Defensive.
Import GRing.Theory Num.Theory.
Local Open Scope ring_scope.

(* external, called at piecewise_stationary.py:143: tf.searchsorted(sorted, t, "right") on a sorted list: the number of entries up to the
   first one above t *)
Definition ext_searchsorted_right (F : rcfType) (sorted : seq F) (t : F) : nat :=
  find (fun c => t < c) sorted.

(* external, called at piecewise_stationary.py:158: tf.dynamic_partition(data, partitions, num_partitions): for every partition the
   entries with that index, in their order.  None: an index is out of range, or the
   lengths differ. *)
Definition ext_dynamic_partition (T : Type) (data : seq T) (partitions : seq int) (num : nat) :
    option (seq (seq T)) :=
  if (size data == size partitions) && all (fun i => (0 <= i) && (i < num%:Z)) partitions then
    Some [seq [seq x.1 | x <- zip data partitions & x.2 == k%:Z] | k <- iota 0 num]
  else None.

(* external, called at piecewise_stationary.py:175, 243, 285: tf.unique_with_counts(x): the values in the order of their first occurrence, and for
   every entry the position of its value *)
Fixpoint ext_unique_values (T : eqType) (seen : seq T) (x : seq T) : seq T :=
  match x with
  | [::] => [::]
  | a :: x' => if a \in seen then ext_unique_values seen x' else a :: ext_unique_values (a :: seen) x'
  end.
(* external, called at piecewise_stationary.py:175, 243, 285 *)
Definition ext_unique (T : eqType) (x : seq T) : seq T * seq nat :=
  let y := ext_unique_values [::] x in (y, [seq index a y | a <- x]).

(* external, called at piecewise_stationary.py:177-178: tf.gather(params, indices).  None: an index is out of range. *)
Fixpoint ext_gather (T : Type) (params : seq T) (indices : seq int) : option (seq T) :=
  match indices with
  | [::] => Some [::]
  | i :: indices' =>
    match i, ext_gather params indices' with
    | Posz k, Some xs => if ohead (drop k params) is Some x then Some (x :: xs) else None
    | _, _ => None
    end
  end.

(* piecewise_stationary.py:104-108: kernels[i](parts[i]) for every part.  None: IndexError, fewer kernels than parts. *)
Fixpoint each_kernel (K T U : Type) (f : K -> T -> U) (kernels : seq K) (parts : seq T) : option (seq U) :=
  match parts, kernels with
  | [::], _ => Some [::]
  | _ :: _, [::] => None
  | p :: parts', k :: kernels' =>
    if each_kernel f kernels' parts' is Some us then Some (f k p :: us) else None
  end.

Section Piecewise.
Variable F : rcfType.
Variables o d : nat.
Variables (kernels : seq (skernel F o d)) (change_points : seq F) (jitter : F).
Implicit Types (times deltas : seq F).

(* piecewise_stationary.py:126-143.  change_points[..., -1:] is empty when there are no change points. *)
Definition split_time_indices times : seq int :=
  let augmented := if change_points is [::] then [::]
    else - APPROX_INF F :: rcons change_points (APPROX_INF F) in
  [seq (ext_searchsorted_right augmented t)%:Z - 1 | t <- times].

(* piecewise_stationary.py:145-160 split_input *)
Definition split_input (T : Type) (input : seq T) (indices : seq int) : option (seq (seq T)) :=
  ext_dynamic_partition input indices (size change_points).+1.

(* piecewise_stationary.py:162-178 steady_state_covariances; 230-246 feedback_matrices and
   273-288 state_means
   have the same body *)
Definition tile (T : Type) (f : skernel F o d -> T) times : option (seq T) :=
  let u := ext_unique (split_time_indices times) in
  if ext_gather [seq f k | k <- kernels] u.1 is Some selected then
    ext_gather selected [seq Posz i | i <- u.2]
  else None.
(* piecewise_stationary.py:162-178 *)
Definition pw_steady_state_covariances := tile (@sk_P F o d).
(* piecewise_stationary.py:230-246 *)
Definition pw_feedback_matrices := tile (@sk_F F o d).
(* piecewise_stationary.py:273-288; the state mean of a stationary kernel is its initial mean
   (sde_kernel.py:380-391, 490-496) *)
Definition pw_state_means := tile (@sk_mean0 F o d).

(* piecewise_stationary.py:180-204 state_transitions and 248-271 state_offsets: split, apply, concatenate *)
Definition by_segment (T : Type) (f : skernel F o d -> F -> T) times deltas : option (seq T) :=
  let indices := split_time_indices times in
  match split_input times indices, split_input deltas indices with
  | Some parts_t, Some parts_d =>
    omap flatten (each_kernel (fun k p => [seq f k dt | dt <- p.2]) kernels (zip parts_t parts_d))
  | _, _ => None
  end.
(* piecewise_stationary.py:180-204 *)
Definition pw_state_transitions := by_segment (@sk_A F o d).
(* piecewise_stationary.py:248-271 *)
Definition pw_state_offsets := by_segment (@sk_off F o d).

(* piecewise_stationary.py:206-228 transition_statistics *)
Definition pw_transition_statistics times deltas : option (seq 'M[F]_d * seq 'M[F]_d) :=
  match pw_state_transitions times deltas, pw_steady_state_covariances times with
  | Some As, Some Ps => Some (As, [seq x.2 - x.1 *m x.2 *m x.1^T + jitter *: 1%:M | x <- zip As Ps])
  | _, _ => None
  end.

(* piecewise_stationary.py:89-109 generate_emission_model *)
Definition pw_emission times : option (seq 'M[F]_(o, d)) :=
  if split_input times (split_time_indices times) is Some parts then
    omap flatten (each_kernel (fun k p => [seq sk_H k t | t <- p]) kernels parts)
  else None.

(* piecewise_stationary.py:111-124 initial_covariance: no jitter *)
Definition pw_initial_covariance (t0 : F) : option 'M[F]_d :=
  if pw_steady_state_covariances [:: t0] is Some Ps then ohead Ps else None.

(* sde_kernel.py:153-171 state_space_model, for the list of times [times]; initial_mean
   is inherited from SDEKernel (213-224): zero *)
Definition pw_state_space_model times : option (ssm F d) :=
  let z k := nth 0 times k in
  if (0 < size times)%N then
    if to_delta_time (size times) z is Some delta_t then
      let deltas := mkseq delta_t (size times).-1 in
      let starts := take (size times).-1 times in
      match pw_transition_statistics starts deltas, pw_state_offsets starts deltas,
          pw_initial_covariance (z 0%N) with
      | Some (As, Qs), Some bs, Some P0 =>
        Some (ssm_from_covariances 0 P0 (nth 0 As) (nth 0 bs) (nth 0 Qs))
      | _, _, _ => None
      end
    else None
  else None.

End Piecewise.
