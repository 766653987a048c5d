(* Specification vocabulary for likelihoods. *)
From Coq Require Import Reals.
From mathcomp Require Import all_ssreflect all_algebra.
From Verif Require Import RealStruct.
Set Implicit Arguments.
Unset Strict Implicit.
Unset Printing Implicit Defensive.
Import GRing.Theory.
Local Open Scope ring_scope.

(* probabilities of a Bernoulli and a Poisson variable *)
Definition bernoulli_prob (p : R) (b : bool) : R := if b then p else 1 - p.
Definition poisson_prob (lam : R) (k : nat) : R := exp (- lam) * lam ^+ k / (k`!)%:R.

(* lgamma at the natural numbers *)
Definition lgamma_ok (lgamma : R -> R) : Prop := forall k : nat, lgamma (k%:R + 1) = ln ((k`!)%:R : R).

(* E is the expectation over three latent values, for the functions with a finite one *)
Record latent_expectation (finite : (R -> R -> R -> R) -> Prop) (E : (R -> R -> R -> R) -> R) : Prop := LatentExpectation {
  le_ext : forall f g, (forall a b c, f a b c = g a b c) -> finite f -> finite g /\ E f = E g;
  le_const : forall c, finite (fun _ _ _ => c) /\ E (fun _ _ _ => c) = c;
  le_add : forall f g, finite f -> finite g ->
    finite (fun a b c => f a b c + g a b c) /\ E (fun a b c => f a b c + g a b c) = E f + E g
}.
