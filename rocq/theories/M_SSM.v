(* Model of markovflow/state_space_model.py (the parts without logarithms).

   One batch element.  A time-indexed tensor is a function of the time index; the
   number of transitions n is an explicit argument and entries past it are not
   read. *)
From mathcomp Require Import all_ssreflect all_algebra.
From Verif Require Import Alg Lin Ent Spd M_Block.
Set Implicit Arguments.
Unset Strict Implicit.
Unset Printing Implicit Defensive.
Import GRing.Theory.
Local Open Scope ring_scope.

(* state_space_model.py:191, 219: tf.concat([x0[None], xs], axis=time) *)
Definition tcons (T : Type) (x0 : T) (xs : nat -> T) (k : nat) : T :=
  if k is k'.+1 then xs k' else x0.

Section SSM.
Variable F : rcfType.
Variable d : nat.

(* state_space_model.py:74-124, the stored tensors (_mu_0, _chol_P_0, _A_s, _b_s,
   _chol_Q_s) *)
Record ssm := Ssm {
  s_mu0 : 'cV[F]_d;
  s_cholP0 : 'M[F]_d;
  s_A : nat -> 'M[F]_d;
  s_b : nat -> 'cV[F]_d;
  s_cholQ : nat -> 'M[F]_d
}.

Variable n : nat.
Implicit Types S : ssm.

(* state_space_model.py:175-182 *)
Definition ssm_initial_covariance S : 'M[F]_d := s_cholP0 S *m (s_cholP0 S)^T.

(* state_space_model.py:184-191 *)
Definition ssm_concat_chol S : nat -> 'M[F]_d := tcons (s_cholP0 S) (s_cholQ S).

(* state_space_model.py:212-219 *)
Definition ssm_concat_offsets S : nat -> 'cV[F]_d := tcons (s_mu0 S) (s_b S).

(* state_space_model.py:277-296 *)
Definition ssm_a_inv_block S : btd F d := Btd (fun _ => 1%:M) (Some (fun k => - s_A S k)).

(* The BlockTriDiagonal constructor (block_tri_diag.py:66-72) rejects a sub-diagonal
   when there is only one block: the properties below raise on a model without
   transitions.  [ssm_ok n S] says that they do not raise. *)
Definition ssm_ok S : bool := btd_ctor_ok n.+1 (ssm_a_inv_block S).

(* state_space_model.py:231-251 *)
Definition ssm_marginal_means S : nat -> 'cV[F]_d :=
  btd_solve n.+1 (ssm_a_inv_block S) false (ssm_concat_offsets S).

(* state_space_model.py:431-483; concat([aqa, zeros]) is written with the test
   k < n *)
Definition ssm_precision S : btd F d :=
  let inv_q_a k := ext_cholesky_solve (s_cholQ S k) (s_A S k) in
  let aqa k := (s_A S k)^T *m inv_q_a k in
  let concatted_inv_q_s k := ext_cholesky_solve (ssm_concat_chol S k) 1%:M in
  let diag k := concatted_inv_q_s k + (if (k < n)%N then aqa k else 0) in
  Btd diag (Some (fun k => - inv_q_a k)).

(* state_space_model.py:253-262 *)
Definition ssm_marginal_covariances S : nat -> 'M[F]_d :=
  btd_block_diagonal_of_inverse n.+1 (btd_cholesky n.+1 (ssm_precision S)).

(* state_space_model.py:326-341 *)
Definition ssm_subsequent_covariances S (marginal_covariances : nat -> 'M[F]_d) : nat -> 'M[F]_d :=
  fun k => s_A S k *m marginal_covariances k.

(* state_space_model.py:264-275 *)
Definition ssm_covariance_blocks S : (nat -> 'M[F]_d) * (nat -> 'M[F]_d) :=
  (ssm_marginal_covariances S, ssm_subsequent_covariances S (ssm_marginal_covariances S)).

(* state_space_model.py:298-324; the standard normal draws are an argument *)
Definition ssm_sample S (epsilons : nat -> 'cV[F]_d) : nat -> 'cV[F]_d :=
  btd_solve n.+1 (ssm_a_inv_block S) false
    (fun k => ssm_concat_offsets S k + ssm_concat_chol S k *m epsilons k).

(* state_space_model.py:375-395 and 397-429: both copies keep the five tensors;
   tf.stop_gradient and Parameter(transform=triangular()) act as the identity on
   values (triangular matrices for the Cholesky factors). *)
Definition ssm_copy S : ssm := Ssm (s_mu0 S) (s_cholP0 S) (s_A S) (s_b S) (s_cholQ S).

(* state_space_model.py:634-656: tf.where on the mask "all entries are zero" *)
Definition cholesky_or_zero (C : 'M[F]_d) : 'M[F]_d :=
  let mask := [forall i, forall j, C i j == 0] in
  let fix_ := if mask then 1%:M else 0 in
  if mask then 0 else ext_cholesky (C + fix_).

(* state_space_model.py:612-664 *)
Definition ssm_from_covariances (mu0 : 'cV[F]_d) (P0 : 'M[F]_d) (A : nat -> 'M[F]_d)
    (b : nat -> 'cV[F]_d) (Q : nat -> 'M[F]_d) : ssm :=
  Ssm mu0 (cholesky_or_zero P0) A b (fun k => cholesky_or_zero (Q k)).

End SSM.

Arguments Ssm {F d}.
Arguments s_mu0 {F d} s.
Arguments s_cholP0 {F d} s.
Arguments s_A {F d} s _.
Arguments s_b {F d} s _.
Arguments s_cholQ {F d} s _.
