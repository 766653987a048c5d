(* Specification vocabulary: the expectation over N interchangeable draws.  E f is the
   expected value of f, a function of the draws, for the functions f with a finite
   expectation. *)
From Coq Require Import Reals.
From mathcomp Require Import all_ssreflect all_algebra.
From Verif Require Import RealStruct.
Set Implicit Arguments.
Unset Strict Implicit.
Unset Printing Implicit Defensive.
Local Open Scope ring_scope.

Section S.
Variable T : Type.

(* the draws with draws i and j exchanged *)
Definition swap_draws (i j : nat) (x : nat -> T) (k : nat) : T :=
  if k == i then x j else if k == j then x i else x k.

Record expectation (N : nat) (finite : ((nat -> T) -> R) -> Prop) (E : ((nat -> T) -> R) -> R) : Prop := Expectation {
  ex_ext : forall f g, (forall x, f x = g x) -> finite f -> finite g;
  ex_const : forall c, finite (fun _ => c) /\ E (fun _ => c) = c;
  ex_add : forall f g, finite f -> finite g ->
    finite (fun x => f x + g x) /\ E (fun x => f x + g x) = E f + E g;
  ex_scale : forall a f, finite f -> finite (fun x => a * f x) /\ E (fun x => a * f x) = a * E f;
  ex_mono : forall f g, finite f -> finite g -> (forall x, f x <= g x) -> E f <= E g;
  ex_swap : forall i j f, (i < N)%N -> (j < N)%N -> finite f ->
    finite (fun x => f (swap_draws i j x)) /\ E (fun x => f (swap_draws i j x)) = E f
}.
End S.

(* N independent draws from a distribution p on m values *)
Definition draws_of N m (x : {ffun 'I_N -> 'I_m.+1}) (k : nat) : 'I_m.+1 :=
  if @idP (k < N)%N is ReflectT h then x (Ordinal h) else ord0.
Definition iid_expect N m (p : 'I_m.+1 -> R) (f : (nat -> 'I_m.+1) -> R) : R :=
  \sum_(x : {ffun 'I_N -> 'I_m.+1}) (\prod_i p (x i)) * f (draws_of x).

(* the draws with draw k moved along its path *)
Definition move_draw (T : Type) (flow : R -> T -> T) (k : nat) (h : R) (x : nat -> T) (j : nat) : T :=
  if j == k then flow h (x j) else x j.
