(* Specification vocabulary for predictive densities. *)
From mathcomp Require Import all_ssreflect.
Set Implicit Arguments.
Unset Strict Implicit.
Unset Printing Implicit Defensive.

(* the sequence x 0, ..., x k, a, x (k + 1), ... *)
Definition insert (T : Type) (k : nat) (a : T) (x : nat -> T) (i : nat) : T :=
  if i <= k then x i else if i == k.+1 then a else x i.-1.
