(* Specification: the same data set in another order. *)
From mathcomp Require Import all_ssreflect all_fingroup.
Set Implicit Arguments.
Unset Strict Implicit.
Unset Printing Implicit Defensive.

(* the first N entries of x' are those of x in the order given by s *)
Definition reordered (T : Type) (N : nat) (s : {perm 'I_N}) (x x' : nat -> T) : Prop :=
  forall k : 'I_N, x' k = x (s k).
