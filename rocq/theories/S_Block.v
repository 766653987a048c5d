(* Specification vocabulary for block tridiagonal matrices: the block layouts of
   the class docstrings (block_tri_diag.py:290-306, 384-402), as functions from
   block coordinates to blocks.  Independent of the model. *)
From mathcomp Require Import all_ssreflect all_algebra.
From Verif Require Import Lin Ent.
Set Implicit Arguments.
Unset Strict Implicit.
Unset Printing Implicit Defensive.
Import GRing.Theory.
Local Open Scope ring_scope.

Section S.
Variable R : ringType.

(* [D0; A0 D1; A1 D2; ...] *)
Definition lower_blocks d (D A : nat -> 'M[R]_d) (i j : nat) : 'M[R]_d :=
  if i == j then D i else if i == j.+1 then A j else 0.

(* symmetric: D on the diagonal, A below, A^T above *)
Definition sym_blocks d (D A : nat -> 'M[R]_d) (i j : nat) : 'M[R]_d :=
  if i == j then D i else if i == j.+1 then A j else if j == i.+1 then (A i)^T else 0.

(* an absent sub-diagonal is a zero sub-diagonal *)
Definition osub d (A : option (nat -> 'M[R]_d)) (k : nat) : 'M[R]_d :=
  if A is Some a then a k else 0.

(* the symmetric matrix with the given lower triangle *)
Definition symm d (M : 'M[R]_d) : 'M[R]_d :=
  \matrix_(i, j) if (j <= i)%N then M i j else M j i.

End S.
