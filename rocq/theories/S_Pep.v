(* Specification vocabulary for power expectation propagation. *)
From Coq Require Import Reals.
From mathcomp Require Import all_ssreflect all_algebra.
From Verif Require Import RealStruct Stein M_Kalman M_SSMLog.
Set Implicit Arguments.
Unset Strict Implicit.
Unset Printing Implicit Defensive.
Import GRing.Theory.
Local Open Scope ring_scope.

(* the sites with that of data point k raised to the power c *)
Definition scale_site (s : sites Rr) (k : nat) (c : R) : sites Rr :=
  Sites (fun j => if j == k then c * st_nat1 s j else st_nat1 s j)
        (fun j => if j == k then c * st_nat2 s j else st_nat2 s j).

(* log density at x of the normal distribution with mean mu and variance v *)
Definition log_normal (x mu v : R) : R := - (ln (2%:R * PI * v) + (x - mu) ^+ 2 / v) / 2%:R.

(* Z is the log of the integral over f of N(f; mu, v) N(y; f, s2)^alpha *)
Definition log_power_expectation (s2 alpha mu v y Z : R) : Prop :=
  integral (fun f => normal_density mu (sqrt v) f * Rpower (normal_density f (sqrt s2) y) alpha) (exp Z).

(* d1 and d2 are the first two derivatives of led (mean, variance, observation) in the mean *)
Definition mean_derivatives (led d1 d2 : R -> R -> R -> R) : Prop := forall mu v y, 0 <= v ->
  derivable_pt_lim (fun t => led t v y) mu (d1 mu v y) /\ derivable_pt_lim (fun t => d1 t v y) mu (d2 mu v y).
