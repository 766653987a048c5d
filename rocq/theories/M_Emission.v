(* Model of markovflow/emission_model.py.

   One batch element; a tensor [num_data, a, b] is a function nat -> 'M_(a, b) and einsum
   is written out as the sum over the repeated indices.  The shape assertions of the
   class hold by typing. *)
From mathcomp Require Import all_ssreflect all_algebra.
Set Implicit Arguments.
Unset Strict Implicit.
Unset Printing Implicit Defensive.
Import GRing.Theory.
Local Open Scope ring_scope.

Section Plain.
Variable F : comRingType.
Variables o d : nat.
Variable H : nat -> 'M[F]_(o, d).      (* emission_model.py:40-51, _H *)

(* emission_model.py:115-128 project_state_to_f *)
Definition project_state_to_f (state : nat -> 'cV[F]_d) : nat -> 'cV[F]_o :=
  fun k => H k *m state k.

(* emission_model.py:130-153 project_state_covariance_to_f, full_output_cov=True:
   einsum "ij,jk,lk->il" *)
Definition project_cov_full (cov : nat -> 'M[F]_d) : nat -> 'M[F]_o :=
  fun k => \matrix_(i, l) \sum_j \sum_r H k i j * cov k j r * H k l r.

(* emission_model.py:130-153, full_output_cov=False: einsum "ij,ij->i" of H and einsum "ij,jk->ik" *)
Definition project_cov_diag (cov : nat -> 'M[F]_d) : nat -> 'cV[F]_o :=
  fun k => \col_i \sum_j H k i j * (\sum_r H k i r * cov k r j).

(* emission_model.py:93-113 project_state_marginals_to_f *)
Definition project_marginals_full means cov := (project_state_to_f means, project_cov_full cov).
(* emission_model.py:93-113 *)
Definition project_marginals_diag means cov := (project_state_to_f means, project_cov_diag cov).
End Plain.

Section Composed.
Variable F : comRingType.
Variables o l d : nat.

(* emission_model.py:177-193 ComposedPairEmissionModel: einsum "ij,jk->ik" of the outer and the inner
   emission matrices is passed to the parent class *)
Definition composed_matrix (outer : nat -> 'M[F]_(o, l)) (inner : nat -> 'M[F]_(l, d)) : nat -> 'M[F]_(o, d) :=
  fun k => \matrix_(i, r) \sum_j outer k i j * inner k j r.

(* emission_model.py:221-266: the projections to g are those of the inner model *)
Definition project_state_to_g (inner : nat -> 'M[F]_(l, d)) := project_state_to_f inner.
(* emission_model.py:252-266 *)
Definition project_cov_to_g_full (inner : nat -> 'M[F]_(l, d)) := project_cov_full inner.
(* emission_model.py:252-266 *)
Definition project_cov_to_g_diag (inner : nat -> 'M[F]_(l, d)) := project_cov_diag inner.
End Composed.

Section Stack.
Variable F : comRingType.
Variables m d : nat.
(* emission_model.py:301-316 StackEmissionModel: one emission row per kernel and time *)
Variable H : 'I_m -> nat -> 'M[F]_(1, d).

(* emission_model.py:325-344 project_state_to_f: (H x)[..., 0, 0], then the kernel axis becomes the last *)
Definition stack_project_state (state : 'I_m -> nat -> 'cV[F]_d) : nat -> 'cV[F]_m :=
  fun k => \col_i (H i k *m state i k) 0 0.

(* emission_model.py:369-374: reduce_sum(H * cov * transpose(H), axis=[-2,-1]); the product broadcasts
   [1, d] * [d, d] * [d, 1] *)
Definition stack_project_cov_diag (cov : 'I_m -> nat -> 'M[F]_d) : nat -> 'cV[F]_m :=
  fun k => \col_i \sum_j \sum_r H i k 0 r * cov i k j r * (H i k)^T j 0.

(* emission_model.py:375-378 tf.linalg.diag *)
Definition stack_project_cov_full (cov : 'I_m -> nat -> 'M[F]_d) : nat -> 'M[F]_m :=
  fun k => diag_mx (stack_project_cov_diag cov k)^T.
End Stack.
