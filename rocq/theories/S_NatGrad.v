(* Specification vocabulary for natural gradients: the pairing of natural and expectation
   parameters and the gradient of a function of a Gauss-Markov model with respect to them. *)
From Coq Require Import Reals.
From mathcomp Require Import all_ssreflect all_algebra.
From Verif Require Import RealStruct M_SSM M_SSMLog M_Trans.
Set Implicit Arguments.
Unset Strict Implicit.
Unset Printing Implicit Defensive.
Import GRing.Theory.
Local Open Scope ring_scope.

Section S.
Variables (d n : nat).
Implicit Types (g t delta : triple Rr d).

(* sum of the products of all the entries: n + 1 linear terms, n + 1 diagonal blocks and n
   sub-diagonal blocks *)
Definition tdot g delta : R :=
  \sum_(k < n.+1) ((t_lin g k)^T *m t_lin delta k) 0 0
  + \sum_(k < n.+1) \tr ((t_diag g k)^T *m t_diag delta k)
  + \sum_(k < n) \tr ((t_sub g k)^T *m t_sub delta k).

(* t + s delta *)
Definition along t delta (s : R) : triple Rr d :=
  Triple (fun k => t_lin t k + s *: t_lin delta k) (fun k => t_diag t k + s *: t_diag delta k)
         (fun k => t_sub t k + s *: t_sub delta k).

(* the diagonal blocks are symmetric *)
Definition tsym t : Prop := forall k, (k <= n)%N -> (t_diag t k)^T = t_diag t k.

(* g is the gradient of the loss with respect to the expectation parameters, at those of q:
   <g, delta> is the derivative in every direction of symmetric matrices *)
Definition exp_gradient (loss : ssm Rr d -> R) (q : ssm Rr d) g : Prop :=
  tsym g /\ forall delta, tsym delta ->
  derivable_pt_lim (fun s => loss (expectations_to_ssm (along (ssm_to_expectations n q) delta s))) 0 (tdot g delta).

(* the same with respect to the natural parameters *)
Definition nat_gradient (loss : ssm Rr d -> R) (q : ssm Rr d) g : Prop :=
  tsym g /\ forall delta, tsym delta ->
  derivable_pt_lim (fun s => if naturals_to_ssm n (along (ssm_to_naturals n q) delta s) is Some q' then loss q' else 0)
    0 (tdot g delta).
End S.

(* the loss of a variational model: minus its lower bound (0 where the bound is undefined) *)
Definition loss_of d (elbo : ssm Rr d -> option R) (q : ssm Rr d) : R := if elbo q is Some e then - e else 0.

(* exponentially weighted averages of a history of r + 1 items, normalised so that the weights
   (1 - b) b^(r-i) / (1 - b^(r+1)) sum to one: the most recent item is item r *)
Definition avg_weight (b : R) (r i : nat) : R := (1 - b) * b ^+ (r - i) / (1 - b ^+ r.+1).
Definition avg_number (r : nat) (x : nat -> R) (b : R) : R := \sum_(i < r.+1) avg_weight b r i * x i.
Definition avg_triple d (r : nat) (g : nat -> triple Rr d) (b : R) : triple Rr d :=
  Triple (fun k => \sum_(i < r.+1) avg_weight b r i *: t_lin (g i) k)
         (fun k => \sum_(i < r.+1) avg_weight b r i *: t_diag (g i) k)
         (fun k => \sum_(i < r.+1) avg_weight b r i *: t_sub (g i) k).
