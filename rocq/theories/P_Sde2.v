(* Linearisation of a stochastic differential equation and its drift difference. *)
From Coq Require Import Reals Lra.
From Coquelicot Require Import Coquelicot.
From mathcomp Require Import all_ssreflect all_algebra.
From Verif Require Import Nat RealStruct Log Alg Lin Spd M_Block M_SSM S_SSM P_SSM S_Gauss P_Gauss M_SSMLog P_SSMLog P_SSMKl P_Cond4
  M_Sde S_Sde P_Sde.
Set Implicit Arguments.
Unset Strict Implicit.
Unset Printing Implicit Defensive.
Import GRing.Theory Num.Theory Order.TTheory.
Local Open Scope ring_scope.

Section Quad.
Variable F : rcfType.
Variables (H : nat) (node weight : nat -> F).
Hypothesis HG : gauss_hermite H node weight.

Lemma quad_exact (p : {poly F}) m v : (size p <= 2 * H)%N -> ext_quad H node weight (fun x => p.[x]) m v = normal_expect m v p.
Proof.
move=> Hp; rewrite /ext_quad /normal_expect; set u := m%:P + _ *: 'X; set r := p \Po u.
have Hu : (size u <= 2)%N.
  rewrite /u; apply: leq_trans (size_add _ _) _; rewrite geq_max (leq_trans (size_polyC_leq1 _)) //=.
  by apply: leq_trans (size_scale_leq _ _) _; rewrite size_polyX.
have Hr : (size r <= 2 * H)%N.
  case: (leqP (size p) 0) => [|p0].
    by rewrite leqn0 size_poly_eq0 /r => /eqP ->; rewrite comp_poly0 size_poly0.
  apply: leq_trans (size_comp_poly_leq p u) _.
  have : ((size p).-1 * (size u).-1 <= (size p).-1)%N.
    have Hu1 : ((size u).-1 <= 1)%N by case: (size u) Hu => [|[|[]]].
    by rewrite -{2}[(size p).-1]muln1 leq_mul2l Hu1 orbT.
  by move=> h; apply: leq_trans Hp; rewrite -(prednK p0) ltnS.
rewrite (std_wide Hr).
rewrite (eq_bigr (fun h : 'I_H => \sum_(k < 2 * H) r`_k * (weight h * node h ^+ k))); last first.
  move=> h _; have -> : m + Num.sqrt v * node h = u.[node h] by rewrite /u hornerD hornerC hornerZ hornerX.
  rewrite -horner_comp (horner_coef_wide _ Hr) big_distrr /=.
  by apply: eq_bigr => k _; rewrite mulrCA.
rewrite exchange_big /=; apply: eq_bigr => k _; rewrite -big_distrr /= HG //.
Qed.
End Quad.

Lemma eq_quad (F : rcfType) H node weight (f g : F -> F) m v : (forall x, f x = g x) ->
  ext_quad H node weight f m v = ext_quad H node weight g m v.
Proof. by move=> E; rewrite /ext_quad; apply: eq_bigr => h _; rewrite E. Qed.

Lemma poly_derive (p : {poly R}) (x : R) : is_derive (fun x => p.[x]) x (p^`().[x]).
Proof.
elim/poly_ind: p => [|p c IH].
  apply: (is_derive_ext (fun _ => 0%Re)) => [t|]; first by rewrite horner0.
  by rewrite derivC horner0; apply: is_derive_const.
apply: (is_derive_ext (fun x => p.[x] * x + c)%Re) => [t|]; first by rewrite hornerMXaddC.
rewrite derivD derivC addr0 derivM derivX mulr1 hornerD hornerMX.
have H1 := is_derive_mult (fun x => p.[x]) (fun x => x) x _ _ IH (is_derive_id x) Rmult_comm.
have := is_derive_plus _ _ x _ _ H1 (is_derive_const c x).
set a := plus _ _; set b := (_ + _)%R; have -> // : a = b.
by rewrite /a /b /plus /mult /zero /one /=; toR_ops; ring.
Qed.

Section Linearise.
Variables (H : nat) (node weight : nat -> R) (s : sde1 Rr) (p : {poly R}).
Hypothesis HG : gauss_hermite (F := Rr) H node weight.
Hypothesis Hf : forall x, drift1 s x = p.[x].
Hypothesis Hd : forall x : R, is_derive (drift1 s : R -> R) x (gradient_drift1 s x).
Hypothesis Hs : (size p <= 2 * H)%N.

Lemma gradientE x : gradient_drift1 s x = p^`().[x].
Proof.
have H1 := Hd x; have H2 : is_derive (drift1 s : R -> R) x (p^`().[x]).
  by apply: (is_derive_ext (fun x => p.[x])) => [t|]; [rewrite Hf|exact: poly_derive].
by rewrite -(is_derive_unique _ _ _ H1) (is_derive_unique _ _ _ H2).
Qed.

Lemma expected_driftE m v : expected_drift H s node weight m v = normal_expect m v p.
Proof. by rewrite /expected_drift (eq_quad _ _ _ _ _ Hf) (@quad_exact Rr). Qed.
Lemma expected_gradientE m v : expected_gradient_drift H s node weight m v = normal_expect m v p^`().
Proof.
have Hs' : (size (p^`() : {poly Rr}) <= 2 * H)%N.
  have [E|H0] := eqVneq p 0; last exact: leq_trans (ltnW (lt_size_deriv H0)) Hs.
  have -> : p^`() = 0 by rewrite E; exact: deriv0.
  by rewrite size_poly0.
rewrite /expected_gradient_drift (eq_quad _ _ _ _ _ gradientE).
exact: (@quad_exact Rr H node weight HG p^`() m v Hs').
Qed.

Lemma chol1 (q : R) : 0 < q -> ext_cholesky (R := Rr) (q%:M : 'M_1) *m (ext_cholesky (R := Rr) (q%:M : 'M_1))^T = q%:M.
Proof. by move=> Hq; apply: chol_mul; apply: (@spd_scalar Rr). Qed.

Lemma linearize_ok n times mu cov m0 v0 : 0 < q1 s -> 0 < v0 ->
  (forall k, (k < n)%N -> 0 <= cov k) -> (forall k, (k < n)%N -> times k <= times k.+1) ->
  exists S, linearize_sde H s node weight times mu cov m0 v0 = Some S /\
  [/\ s_mu0 S = m0%:M, s_cholP0 S *m (s_cholP0 S)^T = v0%:M &
      forall k, (k < n)%N -> let dt := times k.+1 - times k in
      exists A B,
      [/\ s_A S k = (1 + dt * A)%:M, s_b S k = (dt * B)%:M,
          s_cholQ S k *m (s_cholQ S k)^T = (dt * q1 s)%:M &
          forall a b, normal_expect (mu k) (cov k) ((p - (A *: 'X + B%:P)) ^+ 2) <=
                      normal_expect (mu k) (cov k) ((p - (a *: 'X + b%:P)) ^+ 2)]].
Proof.
move=> Hq Hv Hc Ht; eexists; split; first by [].
split; first by []; first by exact: chol1.
move=> k Hk dt; exists (expected_gradient_drift H s node weight (mu k) (cov k)),
  (expected_drift H s node weight (mu k) (cov k) - expected_gradient_drift H s node weight (mu k) (cov k) * mu k).
split.
- by rewrite /= scale_scalar_mx raddfD /= addrC.
- by rewrite /= scale_scalar_mx.
- rewrite /= -/dt (@scaled_chol Rr) ?subr_ge0 ?Ht // chol1 //; exact: (@scale_scalar_mx Rr).
move=> a b; apply: (@best_linear Rr); [exact: Hc|exact: expected_gradientE|by rewrite expected_driftE].
Qed.
End Linearise.
