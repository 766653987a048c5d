(* Library file (models no code): the logarithm of the standard library in terms
   of the mathcomp structures on R. *)
From Coq Require Import Reals Lra.
From mathcomp Require Import all_ssreflect all_algebra.
From Verif Require Import RealStruct Spd.
Set Implicit Arguments.
Unset Strict Implicit.
Unset Printing Implicit Defensive.
Import GRing.Theory Num.Theory Order.TTheory.
Local Open Scope ring_scope.

Lemma lnM (x y : R) : 0 < x -> 0 < y -> ln (x * y) = ln x + ln y.
Proof. by move=> /RltP hx /RltP hy; apply: ln_mult. Qed.

Lemma ln1 : ln 1 = 0.
Proof. exact: ln_1. Qed.

Lemma lnV (x : R) : 0 < x -> ln x^-1 = - ln x.
Proof.
move=> hx; have h : 0 < x^-1 by rewrite invr_gt0.
by apply/eqP; rewrite -addr_eq0 -lnM // mulVf ?ln1 // gt_eqF.
Qed.

Lemma lnX (x : R) n : 0 < x -> ln (x ^+ n) = n%:R * ln x.
Proof.
move=> hx; elim: n => [|n IH]; first by rewrite expr0 ln1 mul0r.
by rewrite exprS lnM ?exprn_gt0 // IH mulrS mulrDl mul1r.
Qed.

Lemma ln_sqr (x : R) : x != 0 -> ln (x ^+ 2) = 2%:R * ln `|x|.
Proof. by move=> nx; rewrite -(real_normK (num_real x)) lnX // normr_gt0. Qed.

Lemma ln_prod (I : finType) (F : I -> R) :
  (forall i, 0 < F i) -> ln (\prod_i F i) = \sum_i ln (F i).
Proof.
move=> H; suff : 0 < \prod_i F i /\ ln (\prod_i F i) = \sum_i ln (F i) by case=> _ ->.
apply: (big_ind2 (fun (p s : R) => 0 < p /\ ln p = s)); first by rewrite ln1 ltr01.
  by move=> x a y b [hx <-] [hy <-]; split; [exact: mulr_gt0|exact: lnM].
by move=> i _; split.
Qed.

Lemma ln_le_sub1 (x : R) : 0 < x -> ln x <= x - 1.
Proof.
move=> /RltP hx; apply/RleP.
have := exp_ineq1_le (ln x); rewrite exp_ln // => h.
change (ln x <= x + - 1)%Re; lra.
Qed.

Lemma ln_lt_sub1 (x : R) : 0 < x -> x != 1 -> ln x < x - 1.
Proof.
move=> /RltP hx /eqP nx; apply/RltP.
have nl : ln x <> 0%Re.
  move=> h; apply: nx; have := exp_ln _ hx; rewrite h exp_0 => <- //.
have := exp_ineq1 (ln x) nl; rewrite exp_ln // => h.
change (ln x < x + - 1)%Re; lra.
Qed.

Lemma ln_inj_pos (x y : R) : 0 < x -> 0 < y -> ln x = ln y -> x = y.
Proof. by move=> /RltP hx /RltP hy; apply: ln_inv. Qed.

(* log-determinants of triangular matrices *)
Lemma ln_abs_det_low n (L : 'M[R]_n) : lownz L ->
  ln `|\det L| = \sum_i ln `|L i i|.
Proof.
move=> [tL nL]; rewrite det_trig // normr_prod ln_prod // => i.
by rewrite normr_gt0.
Qed.

(* scalar identities over R by the tactics of the standard library *)
Lemma halfR : (2%:R^-1 : R) = (/ 2)%Re.
Proof.
have E : (2%:R : R) = 2%Re by rewrite natrR /=; lra.
by rewrite E invrR //; lra.
Qed.
Lemma twoR : (2%:R : R) = 2%Re.
Proof. by rewrite natrR /=; lra. Qed.
Ltac rlra := rewrite ?expr2 ?halfR ?twoR; toR_ops; lra.
Ltac rfield := rewrite ?expr2 ?halfR ?twoR; toR_ops; field; try assumption.
