(* Proofs for natural gradients, part 3: the gradient of the divergence and of the
   variational bound in the expectation parameters, and the steps. *)
From Coq Require Import Reals Lra FunctionalExtensionality.
From mathcomp Require Import all_ssreflect all_algebra.
From Verif Require Import RealStruct Log Nat Alg Lin Ent Spd MCalc MCont M_Block S_Block P_Block P_Block2
  M_SSM S_SSM P_SSM M_SSMLog S_Gauss P_Gauss P_SSMLog M_Trans S_Trans P_Trans P_TransLog P_Elbo M_NatGrad S_NatGrad P_NatGrad P_NatGrad2.
Set Implicit Arguments.
Unset Strict Implicit.
Unset Printing Implicit Defensive.
Import Order.Theory GRing.Theory Num.Theory.
Local Open Scope ring_scope.

Lemma same_ssm_naturals (F : rcfType) d n (S T : ssm F d) : same_ssm n S T -> same_triple n (ssm_to_naturals n S) (ssm_to_naturals n T).
Proof.
case=> E1 E2 E3.
have Ec k : (k <= n)%N -> ssm_concat_chol S k = ssm_concat_chol T k.
  by case: k => [|k] Hk; [exact: E2|have [_ _] := E3 k Hk].
have Eo k : (k <= n)%N -> ssm_concat_offsets S k = ssm_concat_offsets T k.
  by case: k => [|k] Hk; [exact: E1|have [_] := E3 k Hk].
have EA k : (k < n)%N -> s_A S k = s_A T k by move=> Hk; have [] := E3 k Hk.
split=> k Hk; rewrite /ssm_to_naturals /=.
- case: ifP => Hk'; last by rewrite Ec ?Eo.
  by have [-> -> ->] := E3 k Hk'; rewrite Ec // Eo.
- case: ifP => Hk'; last by rewrite Ec.
  by have [-> _ ->] := E3 k Hk'; rewrite Ec.
- by have [-> _ ->] := E3 k Hk.
Qed.

Section KL.
Variables (d n : nat).
Implicit Types (S T p q : ssm Rr d) (t g eta delta : triple Rr d).

Lemma kl_ge0 S T : ssm_nonsing n S -> ssm_nonsing n T -> 0 <= ssm_kl_divergence n S T.
Proof.
by move=> HS HT; rewrite kl_divergenceE //; apply: (proj1 (gauss_kl_ge0 _ _ (cov_spd HS) (cov_spd HT))).
Qed.
Lemma kl_self S : ssm_nonsing n S -> ssm_kl_divergence n S S = 0.
Proof.
by move=> HS; rewrite kl_divergenceE //; apply/(proj2 (gauss_kl_ge0 _ _ (cov_spd HS) (cov_spd HS))).
Qed.

Lemma along_0 t t' : along t t' 0 = t.
Proof. by case: t => l D E; rewrite /along; congr Triple; apply: functional_extensionality => k /=; rewrite scale0r addr0. Qed.

Lemma kl_core p q0 qs eta delta (s : R) : ssm_nonsing n p -> ssm_nonsing n q0 -> ssm_nonsing n qs ->
  same_triple n (ssm_to_expectations n q0) eta -> same_triple n (ssm_to_expectations n qs) (along eta delta s) ->
  `|ssm_kl_divergence n qs p - ssm_kl_divergence n q0 p -
     s * (tdot n (ssm_to_naturals n q0) delta - tdot n (ssm_to_naturals n p) delta)| <=
  `|s| * `|tdot n (ssm_to_naturals n qs) delta - tdot n (ssm_to_naturals n q0) delta|.
Proof.
move=> Hp N0 Ns E0 Es.
have e0 g := same_tdotr g E0.
have es g := etrans (same_tdotr g Es) (tdot_along n g eta delta s).
have := kl_self Ns; have := kl_self N0; have := kl_ge0 N0 Ns; have := kl_ge0 Ns N0.
rewrite (kl_bregman Ns N0) (kl_bregman N0 Ns) (kl_bregman N0 N0) (kl_bregman Ns Ns) (kl_bregman Ns Hp) (kl_bregman N0 Hp).
move: (ssm_to_expectations n q0) (ssm_to_expectations n qs) (ssm_to_naturals n q0) (ssm_to_naturals n qs) (ssm_to_naturals n p) E0 Es e0 es.
move=> x0 xs y0 ys yp _ _ e0 es; rewrite (e0 y0) (e0 ys) (e0 yp) (es y0) (es ys) (es yp).
have key (a0 as_ ap t0 ts tp e0' es' u0 us up : R) :
    0 <= a0 - (t0 + s * u0) - es' -> 0 <= as_ - ts - e0' -> a0 - t0 - e0' = 0 -> as_ - (ts + s * us) - es' = 0 ->
    `|ap - (tp + s * up) - es' - (ap - tp - e0') - s * (u0 - up)| <= `|s| * `|us - u0|.
  move=> h1 h2 h3 h4.
  have E1 : ap - (tp + s * up) - es' - (ap - tp - e0') - s * (u0 - up) = a0 - (t0 + s * u0) - es'.
    have -> : e0' = a0 - t0 by rewrite -[RHS]subr0 -h3; crng.
    by crng.
  rewrite E1 (ger0_norm h1) -normrM; apply: (le_trans _ (ler_norm _)).
  rewrite -subr_ge0; have -> : s * (us - u0) - (a0 - (t0 + s * u0) - es') = as_ - ts - e0'; last exact: h2.
  have -> : e0' = a0 - t0 by rewrite -[RHS]subr0 -h3; crng.
  have -> : es' = as_ - (ts + s * us) by rewrite -[RHS]subr0 -h4; crng.
  by crng.
exact: key.
Qed.

Lemma kl_deriv p q delta : ssm_chol n q -> ssm_nonsing n p -> tsym n delta ->
  derivable_pt_lim (fun s => ssm_kl_divergence n (expectations_to_ssm (along (ssm_to_expectations n q) delta s)) p) 0
    (tdot n (triple_lincomb 1 (ssm_to_naturals n q) (-1) (ssm_to_naturals n p)) delta).
Proof.
move=> Hq Hp sd; have Nq := ssm_chol_nonsing Hq; have Ve := expectations_valid Nq.
pose L s := along (ssm_to_expectations n q) delta s; pose Q s := expectations_to_ssm (L s).
have V0 : exp_valid n (L 0).
  have [a a0 Ha] := near_valid Ve sd; apply: Ha; rewrite normr0; exact: a0.
have [C0 E0] := expectations_of_ssm_of V0; have N0 := ssm_chol_nonsing C0.
have En : same_triple n (ssm_to_naturals n (Q 0)) (ssm_to_naturals n q).
  by apply: same_ssm_naturals; rewrite /Q /L along_0; apply: expectations_round_trip.
apply: (deriv_bound (gap_cont Ve sd delta) (gap0 _ _ _ _)).
apply: near0_imp (near_valid Ve sd) => s Vs.
have [Cs Es] := expectations_of_ssm_of Vs; have Ns := ssm_chol_nonsing Cs.
have E0' : same_triple n (ssm_to_expectations n (Q 0)) (ssm_to_expectations n q) by rewrite -[X in same_triple n _ X](along_0 _ delta).
have lin (y1 y2 y3 : triple Rr d) : same_triple n y1 y2 ->
    tdot n (triple_lincomb 1 y2 (-1) y3) delta = tdot n y1 delta - tdot n y3 delta.
  by move=> E; rewrite tdot_lincomb mul1r mulN1r (same_tdot delta E).
rewrite (lin _ _ (ssm_to_naturals n p) En).
exact: (kl_core Hp N0 Ns E0' Es).
Qed.
End KL.
