(* Proofs: the expectations of S_Sde.v and S_Pep.v as integrals. *)
From Coq Require Import Reals Lra.
From Coquelicot Require Import Coquelicot.
From mathcomp Require Import all_ssreflect all_algebra.
From Verif Require Import RealStruct Nat Alg Log M_SSM M_SSMLog Stein GaussInt M_Sde S_Sde P_Sde P_Sde2 P_Sde3 M_Models M_Cvi M_Pep S_Pep P_Pep6.
Set Implicit Arguments.
Unset Strict Implicit.
Unset Printing Implicit Defensive.
Import GRing.Theory Num.Theory Order.TTheory.
Local Open Scope ring_scope.

Lemma moments k : integral (fun z => z ^+ k * normal_density 0 1 z) (nmom2 Rr k).1 /\
  integral (fun z => z ^+ k.+1 * normal_density 0 1 z) (nmom2 Rr k).2.
Proof.
have E j z : (z ^ j * normal_density 0 1 z)%Re = z ^+ j * normal_density 0 1 z by rewrite -exprR.
elim: k => [|k [I1 I2]].
  split; last by apply: (integral_ext _ _ _ (E 1%N)); exact: moment1.
  apply: (integral_ext (normal_density 0 1)); last exact: (normal_integral 0 1 Rlt_0_1).
  by move=> u; rewrite expr0 mul1r.
rewrite /=; case: (nmom2 Rr k) I1 I2 => a b I1 I2; split; first exact: I2.
apply: (integral_ext _ _ _ (E k.+2)).
have H : integral (fun z => (z ^ k * normal_density 0 1 z)%Re) a by apply: integral_ext I1 => u; rewrite E.
have := moment_step _ _ H; congr integral; rewrite natrR; reflexivity.
Qed.

Lemma integral_sum n (f : nat -> R -> R) (a : nat -> R) : (forall k, (k < n)%N -> integral (f k) (a k)) ->
  integral (fun u => \sum_(k < n) f k u) (\sum_(k < n) a k).
Proof.
elim: n => [|n IH] H.
  rewrite big_ord0; have := integral_scal 0 _ _ (normal_integral 0 1 Rlt_0_1).
  rewrite Rmult_0_l; apply: integral_ext => u; rewrite big_ord0; exact: Rmult_0_l.
rewrite big_ord_recr; have := integral_plus _ _ _ _ (IH (fun k Hk => H k (ltnW Hk))) (H n (ltnSn n)).
by apply: integral_ext => u; rewrite big_ord_recr.
Qed.

Lemma std_integral (p : {poly Rr}) : integral (fun z => p.[z] * normal_density 0 1 z) (std_expect p).
Proof.
apply: (integral_ext (fun z => \sum_(k < size p) p`_k * (z ^+ k * normal_density 0 1 z))).
  by move=> u; rewrite horner_coef big_distrl; apply: eq_bigr => k _; rewrite /= mulrA.
apply: (@integral_sum _ (fun k z => p`_k * (z ^+ k * normal_density 0 1 z)) (fun k => p`_k * nmom Rr k)) => k _.
by apply: integral_scal; case: (moments k).
Qed.

Lemma normal_expect_integral (m v : R) (p : {poly Rr}) : 0 < v ->
  integral (fun x => p.[x] * normal_density m (Num.sqrt v) x) (normal_expect (F := Rr) m v p).
Proof.
move=> Hv; have Hs : 0 < Num.sqrt v by rewrite sqrtr_gt0.
have H := @std_integral (p \Po (m%:P + Num.sqrt v *: 'X)).
apply: (integral_normal m (Num.sqrt v) (fun x => p.[x])); first exact/RltP.
apply: integral_ext H => u; rewrite horner_comp hornerD hornerC hornerZ hornerX; reflexivity.
Qed.

(* the value of squared_drift_difference as integrals *)
Lemma squared_integral (H : nat) (node weight : nat -> R) n (s : sde1 Rr) (p : {poly Rr}) (ld : linear_drift Rr 1) mu cov dt (e : nat -> R) :
  gauss_hermite (F := Rr) H node weight -> (1 < H)%N -> (size p <= H)%N -> (forall x, drift1 s x = p.[x]) ->
  (forall k, (k < n)%N -> 0 < cov k) ->
  (forall k, (k < n)%N -> integral (fun x => (ld_A ld k 0 0 * x + ld_b ld k 0 0 - drift1 s x) ^+ 2 * normal_density (mu k) (Num.sqrt (cov k)) x) (e k)) ->
  squared_drift_difference H n s ld node weight mu cov dt = 2%:R^-1 * (\sum_(k < n) e k / q1 s) * dt.
Proof.
move=> HG H1 Hp Hd Hc He; rewrite (@squared_value Rr H node weight HG n s p ld mu cov dt H1 Hp Hd); congr (_ * _ * _).
apply: eq_bigr => k _; congr (_ / _).
have I1 := @normal_expect_integral (mu k) (cov k) ((ld_A ld k 0 0 *: 'X + (ld_b ld k 0 0)%:P - p) ^+ 2) (Hc k (ltn_ord k)).
apply: (integral_unique _ _ _ I1); apply: integral_ext (He k (ltn_ord k)) => x.
by rewrite horner_exp hornerD hornerN hornerD hornerZ hornerX hornerC Hd.
Qed.

(* and the best fit of linearize_sde *)
Lemma linearize_integral (H : nat) (node weight : nat -> R) (s : sde1 Rr) (p : {poly Rr}) n times mu cov m0 v0 :
  gauss_hermite (F := Rr) H node weight -> (forall x, drift1 s x = p.[x]) ->
  (forall x : R, is_derive (drift1 s : R -> R) x (gradient_drift1 s x)) -> (size p <= 2 * H)%N ->
  0 < q1 s -> 0 < v0 -> (forall k, (k < n)%N -> 0 < cov k) -> (forall k, (k < n)%N -> times k <= times k.+1) ->
  exists S, linearize_sde H s node weight times mu cov m0 v0 = Some S /\
  [/\ s_mu0 S = m0%:M, s_cholP0 S *m (s_cholP0 S)^T = v0%:M &
      forall k, (k < n)%N -> let dt := times k.+1 - times k in
      exists A B (e : R -> R -> R),
      [/\ s_A S k = (1 + dt * A)%:M, s_b S k = (dt * B)%:M,
          s_cholQ S k *m (s_cholQ S k)^T = (dt * q1 s)%:M,
          forall a b, integral (fun x => (drift1 s x - (a * x + b)) ^+ 2 * normal_density (mu k) (Num.sqrt (cov k)) x) (e a b) &
          forall a b, e A B <= e a b]].
Proof.
move=> HG Hf Hd Hs Hq Hv Hc Ht.
have Hc' k : (k < n)%N -> 0 <= cov k by move=> Hk; exact/ltW/Hc.
have [S [E [E1 E2 E3]]] := @linearize_ok H node weight s p HG Hf Hd Hs n times mu cov m0 v0 Hq Hv Hc' Ht.
exists S; split=> //; split=> // k Hk dt; have [A [B [F1 F2 F3 F4]]] := E3 k Hk.
exists A, B, (fun a b => normal_expect (F := Rr) (mu k) (cov k) ((p - (a *: 'X + b%:P)) ^+ 2)); split=> // a b.
have := @normal_expect_integral (mu k) (cov k) ((p - (a *: 'X + b%:P)) ^+ 2) (Hc k Hk).
apply: integral_ext => x.
by rewrite horner_exp hornerD hornerN hornerD hornerZ hornerX hornerC Hf.
Qed.

(* gpflow's Gaussian likelihood: variational_expectations *)
Lemma ve_integral (s2 m v y : R) : 0 < s2 -> 0 < v ->
  integral (fun f => ln (normal_density f (Num.sqrt s2) y) * normal_density m (Num.sqrt v) f) (ext_gaussian_ve1 s2 m v y).
Proof.
move=> s0 v0; pose c : R := - (ln (2%:R * PI * s2) / 2%:R); pose k : R := - (2%:R * s2)^-1.
have Hk : s2 <> 0%Re by apply/eqP; exact: lt0r_neq0.
have s0' : (0 <= s2)%Re by apply/Rlt_le/RltP.
have I := @normal_expect_integral m v (c%:P + k *: (1 *: 'X + (- y)%:P) ^+ 2) v0.
have E : ext_gaussian_ve1 s2 m v y = normal_expect (F := Rr) m v (c%:P + k *: (1 *: 'X + (- y)%:P) ^+ 2).
  rewrite expect_add expect_scale expect_const (@expect_sq_lin Rr) ?ltW // /ext_gaussian_ve1 /ext_gaussian_ve big_ord_recl big_ord0 addr0 !mxE.
  rewrite /c /k ln_twopi // mul1r expr1n mul1r; set L1 := ln _; set L2 := ln s2.
  have -> : (2%:R * s2)^-1 = (/ 2 * / s2)%Re :> R by rewrite invfM halfR invrR.
  by rewrite (invrR Hk); rfield.
rewrite E; apply: integral_ext I => x; rewrite hornerD hornerC hornerZ horner_exp hornerD hornerZ hornerX hornerC mul1r; congr (_ * _).
have E2 : ln (normal_density x (Num.sqrt s2) y) = log_normal y x s2 by rewrite (log_normal_density _ _ s0) sqrtrR.
rewrite E2 /log_normal /c /k; set L1 := ln _.
have -> : (2%:R * s2)^-1 = (/ 2 * / s2)%Re :> R by rewrite invfM halfR invrR.
match goal with |- @eq _ ?a ?b => change (@eq R a b) end; rewrite (invrR Hk); rfield.
Qed.

(* ... and predict_log_density *)
Lemma pld_integral (s2 m v y : R) : 0 < s2 -> 0 < v ->
  integral (fun f => normal_density f (Num.sqrt s2) y * normal_density m (Num.sqrt v) f) (exp (ext_gaussian_pld s2 m v y)).
Proof.
move=> s0 v0; have := @led_unit s2 m v y s0 v0; rewrite /log_power_expectation /pep_gaussian_led mul1r /ext_gaussian_pld [s2 + v]addrC.
have s1 : (0 <= s2)%Re by apply/Rlt_le/RltP.
have v1 : (0 <= v)%Re by apply/Rlt_le/RltP.
rewrite (sqrtrR s1) (sqrtrR v1); apply: integral_ext => f.
rewrite Rpower_1 //; last by apply: normal_pos; apply: sqrt_lt_R0; apply/RltP.
exact: Rmult_comm.
Qed.
