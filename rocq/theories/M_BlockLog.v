(* Model of the log-determinant of markovflow/block_tri_diag.py, over the reals of
   the standard library because of the logarithm. *)
From Coq Require Import Reals.
From mathcomp Require Import all_ssreflect all_algebra.
From Verif Require Import RealStruct Log Alg Lin Ent Spd M_Block.
Set Implicit Arguments.
Unset Strict Implicit.
Unset Printing Implicit Defensive.
Import GRing.Theory.
Local Open Scope ring_scope.

(* block_tri_diag.py:353-366 *)
Definition btd_abs_log_det (N d : nat) (B : btd [rcfType of R] d) : R :=
  2%:R^-1 * \sum_(c < N * d) ln ((btd_as_band N B 0 c) ^+ 2).
