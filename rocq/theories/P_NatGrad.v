(* Proofs for natural gradients, part 1: the pairing of natural and expectation parameters. *)
From Coq Require Import Reals FunctionalExtensionality.
From mathcomp Require Import all_ssreflect all_algebra.
From Verif Require Import RealStruct Log Nat Alg Lin Ent Spd M_Block S_Block P_Block P_Block2
  M_SSM S_SSM P_SSM M_SSMLog S_Gauss P_Gauss P_SSMLog M_Trans S_Trans P_Trans P_TransLog P_Elbo M_NatGrad S_NatGrad.
Set Implicit Arguments.
Unset Strict Implicit.
Unset Printing Implicit Defensive.
Import Order.Theory GRing.Theory Num.Theory.
Local Open Scope ring_scope.

Ltac eqR := match goal with |- @eq _ ?a ?b => change (@eq R a b) end.

Section Bregman.
Variables (d n : nat).
Implicit Types (S T : ssm Rr d) (t g : triple Rr d).
Let N := (n.+1 * d)%N.

Lemma tr_prodE a b (X Y : 'M[R]_(a, b)) : \tr (X^T *m Y) = \sum_(i < a) \sum_(j < b) X i j * Y i j.
Proof.
rewrite /mxtrace exchange_big /=; apply: eq_bigr => j _; rewrite mxE.
by apply: eq_bigr => i _; rewrite mxE.
Qed.

Lemma tr_cV a (x y : 'cV[R]_a) : (x^T *m y) 0 0 = \tr (x^T *m y).
Proof. by rewrite /mxtrace big_ord1. Qed.

Lemma tdotE g t : tdot n g t =
  reduce_prod n.+1 (t_lin g) (t_lin t) + reduce_prod n.+1 (t_diag g) (t_diag t) + reduce_prod n (t_sub g) (t_sub t).
Proof.
rewrite /tdot /reduce_prod; congr (_ + _ + _); apply: eq_bigr => k _; rewrite ?tr_cV; exact: tr_prodE.
Qed.

Lemma sum_lin m (a b : R) (f g h : 'I_m -> R) : (forall k, f k = a * g k + b * h k) ->
  \sum_k f k = a * (\sum_k g k) + b * (\sum_k h k).
Proof.
move=> E; apply: (etrans (y := \sum_k (a * g k + b * h k))); first by apply: eq_bigr => k _; exact: E.
by rewrite big_split /= !mulr_sumr.
Qed.

Lemma tdot_lincomb a b t t' g : tdot n (triple_lincomb a t b t') g = a * tdot n t g + b * tdot n t' g.
Proof.
have E (m l : nat) (X Y Z : 'M[R]_(m, l)) : \tr ((a *: X + b *: Y)^T *m Z) = a * \tr (X^T *m Z) + b * \tr (Y^T *m Z).
  by rewrite [(_ + _)^T]linearD /= !linearZ /= mulmxDl mxtraceD -!scalemxAl !mxtraceZ.
have S1 : \sum_(k < n.+1) ((t_lin (triple_lincomb a t b t') k)^T *m t_lin g k) 0 0 =
    a * (\sum_(k < n.+1) ((t_lin t k)^T *m t_lin g k) 0 0) + b * (\sum_(k < n.+1) ((t_lin t' k)^T *m t_lin g k) 0 0).
  by apply: sum_lin => k; rewrite !tr_cV; apply: E.
have S2 : \sum_(k < n.+1) \tr ((t_diag (triple_lincomb a t b t') k)^T *m t_diag g k) =
    a * (\sum_(k < n.+1) \tr ((t_diag t k)^T *m t_diag g k)) + b * (\sum_(k < n.+1) \tr ((t_diag t' k)^T *m t_diag g k)).
  by apply: sum_lin => k; apply: E.
have S3 : \sum_(k < n) \tr ((t_sub (triple_lincomb a t b t') k)^T *m t_sub g k) =
    a * (\sum_(k < n) \tr ((t_sub t k)^T *m t_sub g k)) + b * (\sum_(k < n) \tr ((t_sub t' k)^T *m t_sub g k)).
  by apply: sum_lin => k; apply: E.
rewrite /tdot {}S1 {}S2 {}S3; crng.
Qed.

Lemma tdotC t t' : tdot n t t' = tdot n t' t.
Proof.
have E (m l : nat) (X Y : 'M[R]_(m, l)) : \tr (X^T *m Y) = \tr (Y^T *m X) by rewrite -mxtrace_tr trmx_mul trmxK.
by congr (_ + _ + _); apply: eq_bigr => k _; rewrite ?tr_cV E.
Qed.

Lemma along_lincomb t delta s : along t delta s = triple_lincomb 1 t s delta.
Proof. by rewrite /along /triple_lincomb; congr Triple; apply: functional_extensionality => k; rewrite scale1r. Qed.

Lemma tdot_along g t delta s : tdot n g (along t delta s) = tdot n g t + s * tdot n g delta.
Proof. by rewrite tdotC along_lincomb tdot_lincomb mul1r ![tdot n _ g]tdotC. Qed.

Lemma same_tdot t t' g : same_triple n t t' -> tdot n t g = tdot n t' g.
Proof. by move=> [H1 H2 H3]; congr (_ + _ + _); apply: eq_bigr => k _; rewrite ?H1 ?H2 ?H3 // -ltnS. Qed.
Lemma same_tdotr t t' g : same_triple n t t' -> tdot n g t = tdot n g t'.
Proof. by move=> [H1 H2 H3]; congr (_ + _ + _); apply: eq_bigr => k _; rewrite ?H1 ?H2 ?H3 // -ltnS. Qed.

Definition entropy S : R := 2%:R^-1 * (N%:R * ln (2%:R * PI) + N%:R + ln (\det (dense n.+1 n.+1 (ssm_cov S)))).

Lemma dense_outer (m : nat -> 'cV[R]_d) :
  flat n.+1 m *m (flat n.+1 m)^T = dense n.+1 n.+1 (fun i j => m i *m (m j)^T).
Proof. by rewrite /flat tr_bcol mul_bcol_mx /dense; apply: eq_bcol => i _; rewrite mul_mx_brow. Qed.

Lemma pairing S T : ssm_nonsing n S -> ssm_nonsing n T ->
  let P := btd_to_dense n.+1 true (ssm_precision n T) in
  let m := flat n.+1 (ssm_marginal_means n S) in
  tdot n (ssm_to_naturals n T) (ssm_to_expectations n S) =
  ((P *m flat n.+1 (ssm_marginal_means n T))^T *m m) 0 0 - 2%:R^-1 * \tr (P *m (dense n.+1 n.+1 (ssm_cov S) + m *m m^T)).
Proof.
move=> HS HT P m.
have [E1 E2 E3] := expectations_law HS (@ssm_has_law Rr d n S).
have El := naturals_lin HT; have Ed := proj1 (naturals_valid HT); have Ep := dense_precision HT.
have sK i j : (i < n.+1)%N -> (j < n.+1)%N -> (ssm_cov S i j)^T = ssm_cov S j i.
  by move=> Hi Hj; have := proj1 (cov_spd HS); rewrite tr_dense => /dense_inj E; apply: E.
rewrite /m /P -El Ep; move: (ssm_to_naturals n T) (ssm_to_expectations n S) (ssm_cov S) E1 E2 E3 Ed sK => th et K E1 E2 E3 Ed sK.
move: (ssm_marginal_means n S) E1 E2 E3 => ms E1 E2 E3.
rewrite P_TransLog.flat_dot dense_outer denseD /nat_precision tdotE.
rewrite tr_sym_dense; last 2 first.
- by move=> k Hk; rewrite linearZ; congr (_ *: _); apply: Ed.
- by move=> i j Hi Hj; rewrite [(_ + _)^T]linearD /= trmx_mul trmxK sK.
have -> : reduce_prod n.+1 (t_lin th) (t_lin et) = \sum_(k < n.+1) ((t_lin th k)^T *m ms k) 0 0.
  by apply: eq_bigr => k _; rewrite tr_cV tr_prodE (E1 _ (ltn_ord k)).
rewrite -[LHS]addrA; congr (_ + _).
rewrite /reduce_sum_prod mulrDr opprD !mulr_sumr -!sumrN; congr (_ + _); apply: eq_bigr => k _.
- rewrite (E2 _ (ltn_ord k)) mulr_sumr -sumrN.
  apply: eq_bigr => i _; rewrite mulr_sumr -sumrN; apply: eq_bigr => j _; rewrite (_ : (- 2%:R *: t_diag th k) i j = - 2%:R * t_diag th k i j); last by rewrite mxE.
  by rewrite !mulNr mulrN opprK mulrA mulrA mulVf ?mul1r // two_neq0.
- rewrite (E3 _ (ltn_ord k)) !mulr_sumr -sumrN.
  apply: eq_bigr => i _; rewrite !mulr_sumr -sumrN; apply: eq_bigr => j _; rewrite (_ : (- t_sub th k) i j = - t_sub th k i j); last by rewrite mxE.
  by rewrite half2 mulNr opprK.
Qed.

Lemma kl_bregman S T : ssm_nonsing n S -> ssm_nonsing n T ->
  ssm_kl_divergence n S T = ssm_normalizer n T - tdot n (ssm_to_naturals n T) (ssm_to_expectations n S) - entropy S.
Proof.
move=> HS HT; rewrite kl_divergenceE // pairing // (normalizer_law HT (@ssm_has_law Rr d n T)) /gauss_kl /entropy.
have <- := @inv_precision Rr d n T HT; rewrite invmxK.
set P := btd_to_dense _ _ _; set m := flat _ (ssm_marginal_means n S); set m' := flat _ (ssm_marginal_means n T).
have sP : P^T = P by apply: (proj1 (precision_spd HT)).
rewrite -[m' - m]opprB qfNx (qf_sub _ _ sP) mulmxDr mxtraceD -qf_tr.
rewrite -/N; move: (ln (2%:R * PI)) => w.
have key (a b c e f g h k : R) : 2%:R^-1 * (a + (b - 2%:R * e + c) - k + h - g) =
  2%:R^-1 * (k * w + h + c) - (e - 2%:R^-1 * (a + b)) - 2%:R^-1 * (k * w + k + g) by eqR; rfield.
exact: (key _ _ _ _ 0).
Qed.
End Bregman.
