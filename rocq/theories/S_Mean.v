(* Specification: the response of dx/dt = F x + input(t) to a sequence of actions. *)
From Coq Require Import Reals.
From mathcomp Require Import all_ssreflect all_algebra.
From Verif Require Import RealStruct MCalc M_SSMLog.
Set Implicit Arguments.
Unset Strict Implicit.
Unset Printing Implicit Defensive.
Import GRing.Theory Num.Theory.
Local Open Scope ring_scope.

(* limits of a vector valued function from the right and from the left *)
Definition right_lim d (x : R -> 'cV[R]_d) (t : R) (L : 'cV[R]_d) : Prop :=
  forall i (e : R), 0 < e -> exists2 b : R, t < b & forall s, t < s -> s < b -> `|x s i 0 - L i 0| < e.
Definition left_lim d (x : R -> 'cV[R]_d) (t : R) (L : 'cV[R]_d) : Prop :=
  forall i (e : R), 0 < e -> exists2 a : R, a < t & forall s, a < s -> s < t -> `|x s i 0 - L i 0| < e.

(* [x] is at rest up to the first of the N actions; from action k to the next it follows
   dx/dt = M x + input_k; at action k it jumps by jump_k, just after the action *)
Record response d (M : 'M[R]_d) (N : nat) (tau : nat -> R) (input jump : nat -> 'cV[R]_d) (x : R -> 'cV[R]_d) : Prop :=
  Response {
    resp_rest : forall t, t <= tau 0%N -> x t = 0;
    resp_flow : forall k t, (k < N)%N -> tau k < t -> ((k.+1 < N)%N -> t < tau k.+1) ->
      mderiv x t (M *m x t + input k);
    resp_left : forall k, (k < N)%N -> left_lim x (tau k) (x (tau k));
    resp_jump : forall k, (k < N)%N -> right_lim x (tau k) (x (tau k) + jump k)
  }.
