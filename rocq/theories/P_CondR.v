(* Concrete kernels over Coq's R used as examples. *)
From Coq Require Import Reals Psatz.
From mathcomp Require Import all_ssreflect all_algebra.
From Verif Require Import RealStruct Nat Alg Lin Ent Spd Log M_Block S_Block P_Block P_Block2 M_SSM S_SSM P_SSM M_SSMLog
  P_Kernel M_Cond P_Cond4.
Set Implicit Arguments.
Unset Strict Implicit.
Unset Printing Implicit Defensive.
Import GRing.Theory Num.Theory Order.TTheory.
Local Open Scope ring_scope.

Lemma exp_stationary d : let A (a : Rr) : 'M[Rr]_d := (exp (- a))%:M in
  [/\ A 0 = 1%:M, forall a b, 0 <= a -> 0 <= b -> A (a + b) = A b *m A a, spd (1%:M : 'M[Rr]_d) &
      forall a, 0 < a -> spd (1%:M - A a *m 1%:M *m (A a)^T)].
Proof.
split.
- by rewrite oppr0 exp_0.
- move=> a b _ _; rewrite -scalar_mxM -[_ * _]/(exp (- b) * exp (- a))%Re -exp_plus.
  by congr (exp _)%:M; rewrite opprD addrC.
- exact: spd1.
- move=> a /RltP Ha; rewrite mulmx1 tr_scalar_mx -scalar_mxM -raddfB /=.
  apply: spd_scalar; rewrite subr_gt0; apply/RltP.
  rewrite -[_ * _]/(exp (- a) * exp (- a))%Re -exp_plus -[X in (_ < X)%Re]exp_0.
  apply: exp_increasing; rewrite -[- a]/(Ropp a).
  by have : (0 < a)%Re := Ha; lra.
Qed.
