(* Library file (models no code): if F P + P F^T = - B B^T then P - e^{tF} P e^{tF}^T is
   positive semidefinite for t >= 0, and positive definite for t > 0 when (F, B) is
   controllable. *)
From Coq Require Import Reals Lra.
From mathcomp Require Import all_ssreflect all_algebra.
From Verif Require Import RealStruct Nat Alg Spd MCalc MExp.
Set Implicit Arguments.
Unset Strict Implicit.
Unset Printing Implicit Defensive.
Import GRing.Theory Num.Theory Order.TTheory.
Local Open Scope ring_scope.

Lemma qfB (F : realFieldType) n (K L : 'M[F]_n) x : qf (K - L) x = qf K x - qf L x.
Proof. by rewrite /qf mulmxBr mulmxBl !mxE. Qed.

Section Lyap.
Variables (d r : nat) (FF P : 'M[R]_d) (B : 'M[R]_(d, r)).
Hypothesis HP : P^T = P.
Hypothesis HL : FF *m P + P *m FF^T = - (B *m B^T).

Notation E := (mexp FF).

Lemma lyap_deriv t : mderiv (fun s => E s *m P *m (E s)^T) t (- (E t *m B *m (E t *m B)^T)).
Proof.
have H := mderivM (mderivMr P (mexp_derivr FF t)) (mderiv_tr (mexp_derivr FF t)).
suff -> : - (E t *m B *m (E t *m B)^T) = E t *m FF *m P *m (E t)^T + E t *m P *m (E t *m FF)^T by exact: H.
rewrite !trmx_mul -!mulmxA -mulmxN -mulmxDr; congr (_ *m _).
by rewrite !mulmxA -mulNmx -mulmxDl -HL.
Qed.

Definition lyap_g (x : 'cV[R]_d) (t : R) : R := qf (E t *m P *m (E t)^T) x.
Definition lyap_w (x : 'cV[R]_d) (t : R) : 'cV[R]_r := (E t *m B)^T *m x.

Lemma lyap_g_deriv x t : derivable_pt_lim (lyap_g x) t (- qf 1%:M (lyap_w x t)).
Proof.
have H := mderivMr x (mderivMl x^T (lyap_deriv t)).
have := H 0 0; rewrite mulmxN mulNmx mxE /qf mulmx1 /lyap_w [((_)^T *m x)^T]trmx_mul trmxK !mulmxA.
by apply: dext.
Qed.

Lemma lyap_g_mono x (a b : R) : a <= b -> lyap_g x b <= lyap_g x a.
Proof.
rewrite le_eqVlt => /orP [/eqP ->//|/RltP Hab].
have [c [Hc _]] := MVT_cor2 (lyap_g x) (fun t => - qf 1%:M (lyap_w x t)) a b Hab (fun c _ => lyap_g_deriv x c).
have /RleP Hq := qf1_ge0 (lyap_w x c).
apply/RleP; move: Hc; toR_ops; set q := qf _ _ in Hq *; set u := lyap_g x b; set v := lyap_g x a => Hc.
have Hq' : (0 <= q)%Re := Hq.
have : (0 <= q * (b - a))%Re by apply: Rmult_le_pos => //; lra.
by lra.
Qed.

Lemma lyap_psd t : 0 <= t -> psd (P - E t *m P *m (E t)^T).
Proof.
move=> Ht; split; first by rewrite trmxD trmxN !trmx_mul trmxK HP mulmxA.
move=> x; have := lyap_g_mono x Ht.
by rewrite qfB subr_ge0 {2}/lyap_g mexp0 mul1mx trmx1 mulmx1.
Qed.

Lemma lyap_sym t : (P - E t *m P *m (E t)^T)^T = P - E t *m P *m (E t)^T.
Proof. by rewrite trmxD trmxN !trmx_mul trmxK HP mulmxA. Qed.

Lemma lyap_spd t : (forall y : 'cV[R]_d, (forall k, y^T *m mpow FF k *m B = 0) -> y = 0) ->
  0 < t -> spd (P - E t *m P *m (E t)^T).
Proof.
move=> Hc Ht; split; first exact: lyap_sym.
move=> x Hx; have [_ Hpsd] := lyap_psd (ltW Ht).
rewrite lt_neqAle Hpsd andbT eq_sym; apply/negP => /eqP H0.
have Eg : lyap_g x 0 = lyap_g x t.
  by apply/eqP; rewrite /lyap_g mexp0 mul1mx trmx1 mulmx1 -subr_eq0 -qfB H0.
have Gc s : 0 < s -> s < t -> lyap_g x s = lyap_g x 0.
  move=> H1 H2; apply/eqP; rewrite eq_le (lyap_g_mono x (ltW H1)) Eg.
  exact: lyap_g_mono (ltW H2).
have W0 s : 0 < s -> s < t -> lyap_w x s = 0.
  move=> H1 H2.
  have D1 := lyap_g_deriv x s.
  have D2 : derivable_pt_lim (lyap_g x) s 0.
    have M1 : mderiv (fun _ => (lyap_g x 0)%:M : 'M[R]_1) s 0 by exact: mderiv_const.
    have M2 : mderiv (fun u => (lyap_g x u)%:M : 'M[R]_1) s 0.
      by apply: (mderiv_local H1 H2 _ M1) => u U1 U2; rewrite Gc.
    have := M2 0 0; rewrite mxE; apply: dext => u; by rewrite mxE eqxx mulr1n.
  apply: qf1_eq0; apply/eqP; rewrite -oppr_eq0; apply/eqP.
  exact: uniqueness_limite D1 D2.
have Wk k s : 0 < s -> s < t -> (E s *m mpow FF k *m B)^T *m x = 0.
  elim: k s => [|k IH] s H1 H2; first by have := W0 s H1 H2; rewrite /lyap_w /= mulmx1.
  have D1 : mderiv (fun u => (E u *m mpow FF k *m B)^T *m x) s ((E s *m FF *m mpow FF k *m B)^T *m x).
    by apply/mderivMr/mderiv_tr/mderivMr/mderivMr/mexp_derivr.
  have D2 : mderiv (fun u => (E u *m mpow FF k *m B)^T *m x) s 0.
    by apply: (mderiv_local H1 H2 _ (mderiv_const 0 s)) => u U1 U2; rewrite IH.
  by rewrite mpowS mulmxA; apply: mderiv_uniq D1 D2.
have H1 : 0 < t / 2%:R by rewrite divr_gt0 // ltr0n.
have H2 : t / 2%:R < t by rewrite ltr_pdivr_mulr ?ltr0n // ltr_pmulr // ltr1n.
have Y0 : (E (t / 2%:R))^T *m x = 0.
  apply: Hc => k; have := congr1 trmx (Wk k _ H1 H2).
  by rewrite trmx0 trmx_mul trmxK trmx_mul trmxK !mulmxA.
move/eqP: Hx; apply; have := congr1 (mulmx (invmx (E (t / 2%:R))^T)) Y0.
by rewrite mulmxA mulVmx ?mul1mx ?mulmx0 // unitmx_tr mexp_unit.
Qed.
End Lyap.
