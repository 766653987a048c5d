(* Library file (models no code): the exponential of a square matrix, as a power series,
   and the linear ordinary differential equation it solves. *)
From Coq Require Import Reals Lra.
From mathcomp Require Import all_ssreflect all_algebra.
From Coquelicot Require Import Coquelicot.
From Verif Require Import RealStruct Nat Alg MCalc.
Set Implicit Arguments.
Unset Strict Implicit.
Unset Printing Implicit Defensive.
Import GRing.Theory Num.Theory Order.TTheory.
Local Open Scope ring_scope.

Section Exp.
Variable d : nat.
Implicit Types (M : 'M[R]_d).

(* M^k *)
Definition mpow M (k : nat) : 'M[R]_d := iter k (fun X => M *m X) 1%:M.

(* sum over k of t^k M^k / k! *)
Definition mexp M (t : R) : 'M[R]_d :=
  \matrix_(i, j) PSeries (fun k => (mpow M k i j / INR (fact k))%Re) t.

Lemma mpowS M k : mpow M k.+1 = M *m mpow M k.
Proof. by []. Qed.

Lemma mpowSr M k : mpow M k.+1 = mpow M k *m M.
Proof. by elim: k => [|k IH]; [rewrite /= mulmx1 mul1mx|rewrite mpowS {1}IH mulmxA]. Qed.

Definition msum M : R := \sum_i \sum_j `|M i j|.

Lemma msum_ge0 M : 0 <= msum M.
Proof. by apply: sumr_ge0 => i _; apply: sumr_ge0 => j _; apply: normr_ge0. Qed.

Lemma row_msum M i : \sum_j `|M i j| <= msum M.
Proof.
rewrite /msum [X in _ <= X](bigD1 i) //= ler_addl.
by apply: sumr_ge0 => k _; apply: sumr_ge0 => j _; apply: normr_ge0.
Qed.

Lemma mpow_bound M k i j : `|mpow M k i j| <= msum M ^+ k.
Proof.
elim: k i j => [|k IH] i j.
  by rewrite /= mxE expr0; case: (i == j); rewrite ?normr1 // normr0 ler01.
rewrite mpowS mxE exprS; apply: (le_trans (ler_norm_sum _ _ _)).
apply: (@le_trans _ _ (\sum_l `|M i l| * msum M ^+ k)).
  by apply: ler_sum => l _; rewrite normrM ler_wpmul2l // normr_ge0.
by rewrite -mulr_suml ler_wpmul2r ?row_msum // exprn_ge0 // msum_ge0.
Qed.

Definition ecoef M i j (k : nat) : R := (mpow M k i j / INR (fact k))%Re.

Lemma mexpE M t i j : mexp M t i j = PSeries (ecoef M i j) t.
Proof. by rewrite mxE. Qed.

Lemma exp_term (x : R) n : (0 <= x)%Re -> (x ^ n / INR (fact n) <= exp x)%Re.
Proof.
move=> Hx; apply: Rle_trans (exp_ge_taylor x n Hx).
have pos k : (0 <= x ^ k / INR (fact k))%Re.
  by apply: Rmult_le_pos; [apply: pow_le|apply/Rlt_le/Rinv_0_lt_compat/INR_fact_lt_0].
case: n => [|n] /=; first exact: Rle_refl.
have : (0 <= sum_f_R0 (fun k => x ^ k / INR (fact k)) n)%Re by apply: cond_pos_sum => k; exact: pos.
by rewrite -/(pow x n); lra.
Qed.

Lemma ecoef_radius M i j : CV_radius (ecoef M i j) = p_infty.
Proof.
have H (r : R) : Rbar_le r (CV_radius (ecoef M i j)).
  have [Hub _] := CV_radius_bounded (ecoef M i j); apply: Hub.
  exists (exp (msum M * Rabs r)) => n.
  have Hm : (0 <= msum M * Rabs r)%Re.
    by apply: Rmult_le_pos; [apply/RleP/msum_ge0|apply: Rabs_pos].
  apply: Rle_trans (exp_term n Hm).
  have Hf := INR_fact_lt_0 n.
  rewrite /ecoef Rabs_mult Rabs_div; last by lra.
  rewrite (Rabs_pos_eq (INR _)); last by lra.
  rewrite Rpow_mult_distr.
  have /RleP := mpow_bound M n i j; rewrite exprR -[`|_|]/(Rabs _) => Hb.
  have Hi : (0 <= / INR (fact n))%Re by apply/Rlt_le/Rinv_0_lt_compat.
  have Hr : (0 <= Rabs r ^ n)%Re by apply/pow_le/Rabs_pos.
  rewrite -RPow_abs; set u := Rabs _ in Hb *; set v := (Rabs r ^ n)%Re in Hr *; set w := (msum M ^ n)%Re in Hb *.
  by rewrite /Rdiv; have := Rmult_le_compat_r _ _ _ (Rmult_le_pos _ _ Hr Hi) Hb; lra.
case: (CV_radius _) H => [r|//|] H; last by have := H 0.
by have := H (r + 1)%Re => /=; lra.
Qed.

Lemma ecoef_ex M i j t : ex_pseries (ecoef M i j) t.
Proof. by apply: CV_radius_inside; rewrite ecoef_radius. Qed.

Lemma mexp0 M : mexp M 0 = 1%:M.
Proof. by apply/matrixP => i j; rewrite mexpE PSeries_0 /ecoef /= Rdiv_1. Qed.

Lemma PSeries_sum n (a : 'I_n -> nat -> R) t : (forall l, ex_pseries (a l) t) ->
  ex_pseries (fun k => \sum_l a l k) t /\ PSeries (fun k => \sum_l a l k) t = \sum_l PSeries (a l) t.
Proof.
elim: n a => [|n IH] a Ha.
  have E k : \sum_(l < 0) a l k = 0 by rewrite big_ord0.
  split; last by rewrite big_ord0 (PSeries_ext _ _ _ E) PSeries_const_0.
  have E' k : (fun _ => 0 : R) k = \sum_(l < 0) a l k by rewrite big_ord0.
  apply: (ex_pseries_ext _ _ t E').
  by apply: CV_radius_inside; rewrite CV_radius_const_0.
have E k : \sum_(l < n.+1) a l k = PS_plus (a ord0) (fun k => \sum_(l < n) a (lift ord0 l) k) k.
  by rewrite big_ord_recl.
have [H1 H2] := IH (fun l => a (lift ord0 l)) (fun l => Ha _).
split; first by apply: (ex_pseries_ext _ _ _ (fun k => esym (E k))); apply: ex_pseries_plus.
by rewrite (PSeries_ext _ _ _ E) PSeries_plus // H2 big_ord_recl.
Qed.

Lemma ecoef_deriv M i j k : PS_derive (ecoef M i j) k = (mpow M k.+1 i j / INR (fact k))%Re.
Proof.
rewrite /PS_derive /ecoef fact_simpl mult_INR.
have H1 := INR_fact_neq_0 k; have H2 : INR k.+1 <> 0%Re by apply: not_0_INR.
by rewrite -[INR (Datatypes.S k)]/(INR k.+1); field.
Qed.

Lemma mexp_derivl M t : mderiv (mexp M) t (M *m mexp M t).
Proof.
move=> i j; apply: (@dext (PSeries (ecoef M i j))); first by move=> s; rewrite mexpE.
rewrite mxE; apply/is_derive_Reals.
have -> : \sum_l M i l * mexp M t l j = PSeries (PS_derive (ecoef M i j)) t.
  have E k : PS_derive (ecoef M i j) k = \sum_l PS_scal (M i l) (ecoef M l j) k.
    rewrite ecoef_deriv mpowS mxE.
    transitivity ((\sum_l M i l * mpow M k l j) * (/ INR (fact k))%Re); first by [].
    rewrite mulr_suml.
    by apply: eq_bigr => l _; rewrite -mulrA.
  rewrite (PSeries_ext _ _ _ E).
  have Hx l : ex_pseries ((fun l => PS_scal (M i l) (ecoef M l j)) l) t by apply: (ex_pseries_scal _ _ _ (Rmult_comm _ _)); exact: ecoef_ex.
  have [_ ->] := PSeries_sum Hx.
  by apply: eq_bigr => l _; rewrite PSeries_scal mexpE.
by apply: is_derive_PSeries; rewrite ecoef_radius.
Qed.

Lemma mexp_derivr M t : mderiv (mexp M) t (mexp M t *m M).
Proof.
move=> i j; apply: (@dext (PSeries (ecoef M i j))); first by move=> s; rewrite mexpE.
rewrite mxE; apply/is_derive_Reals.
have -> : \sum_l mexp M t i l * M l j = PSeries (PS_derive (ecoef M i j)) t.
  have E k : PS_derive (ecoef M i j) k = \sum_l PS_scal (M l j) (ecoef M i l) k.
    rewrite ecoef_deriv mpowSr mxE.
    transitivity ((\sum_l mpow M k i l * M l j) * (/ INR (fact k))%Re); first by [].
    rewrite mulr_suml.
    by apply: eq_bigr => l _; rewrite mulrAC mulrC.
  rewrite (PSeries_ext _ _ _ E).
  have Hx l : ex_pseries ((fun l => PS_scal (M l j) (ecoef M i l)) l) t by apply: (ex_pseries_scal _ _ _ (Rmult_comm _ _)); exact: ecoef_ex.
  have [_ ->] := PSeries_sum Hx.
  by apply: eq_bigr => l _; rewrite PSeries_scal mexpE; apply: Rmult_comm.
by apply: is_derive_PSeries; rewrite ecoef_radius.
Qed.

(* e^{-tM} X(t) is constant along solutions *)
Lemma mexpN_deriv M t : mderiv (fun s => mexp M (-1 * s)) t (- (mexp M (-1 * t) *m M)).
Proof. by rewrite -scaleN1r; apply/mderiv_scale/mexp_derivr. Qed.

Lemma ode_const p M (X : R -> 'M[R]_(d, p)) : (forall t, mderiv X t (M *m X t)) ->
  forall t, mexp M (-1 * t) *m X t = X 0.
Proof.
move=> HX t.
have H s : mderiv (fun s => mexp M (-1 * s) *m X s) s 0.
  have := mderivM (mexpN_deriv M s) (HX s).
  by rewrite mulNmx mulmxA addNr.
by rewrite (mderiv0_const H) mulr0 mexp0 mul1mx.
Qed.

Lemma mexp_inv M t : mexp M (-1 * t) *m mexp M t = 1%:M.
Proof. by rewrite (ode_const (mexp_derivl M)) mexp0. Qed.

Lemma mexp_unit M t : mexp M t \in unitmx.
Proof. by have [] := mulmx1_unit (mexp_inv M t). Qed.

(* the solution of X' = M X is e^{tM} X(0) *)
Lemma ode_solution p M (X : R -> 'M[R]_(d, p)) : (forall t, mderiv X t (M *m X t)) ->
  forall t, X t = mexp M t *m X 0.
Proof.
move=> HX t; rewrite -(ode_const HX t) mulmxA.
by rewrite (mulmx1C (mexp_inv M t)) mul1mx.
Qed.

Lemma ode_unique M (X : R -> 'M[R]_d) : X 0 = 1%:M -> (forall t, mderiv X t (M *m X t)) ->
  forall t, X t = mexp M t.
Proof. by move=> X0 HX t; rewrite (ode_solution HX) X0 mulmx1. Qed.

Lemma mexpD M s t : mexp M (s + t) = mexp M t *m mexp M s.
Proof.
have H u : mderiv (fun u => mexp M (u + s)) u (M *m mexp M (u + s)).
  exact/mderiv_comp_add/mexp_derivl.
by rewrite addrC (ode_solution H) add0r.
Qed.
End Exp.
