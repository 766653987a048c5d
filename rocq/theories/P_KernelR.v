(* The concrete kernels: transitions, Lyapunov equations, covariance functions. *)
From Coq Require Import Reals Lra.
From mathcomp Require Import all_ssreflect all_algebra.
From Verif Require Import RealStruct Log Nat Alg Lin Ent Spd M_SSMLog M_SSM M_Kernel S_Kernel M_Comb S_Comb P_Kron P_Comb MCalc MExp MLyap M_KernelR P_Matern S_KernelR.
Set Implicit Arguments.
Unset Strict Implicit.
Unset Printing Implicit Defensive.
Import Order.Theory GRing.Theory Num.Theory.
Local Open Scope ring_scope.

Ltac asR := match goal with |- @eq _ ?a ?b => change (@eq R a b) end.
Ltac Rf := asR; rfield.

Lemma mexp_scale d (M : 'M[R]_d) (c t : R) : mexp (c *: M) t = mexp M (c * t).
Proof.
symmetry; apply: (@ode_unique d (c *: M) (fun s => mexp M (c * s))); first by rewrite mulr0 mexp0.
move=> s; have := @mderiv_scale d d (mexp M) s c _ (mexp_derivl M (c * s)).
by rewrite -scalemxAl.
Qed.

Lemma exp_lin_deriv (c t : R) : derivable_pt_lim (fun s => exp (c * s)) t (c * exp (c * t)).
Proof.
have H1 : derivable_pt_lim (fun s => (c * s)%Re) t c.
  have := derivable_pt_lim_scal _ c _ _ (derivable_pt_lim_id t).
  by rewrite Rmult_1_r.
have := derivable_pt_lim_comp _ _ _ _ _ H1 (derivable_pt_lim_exp (c * t)).
by rewrite Rmult_comm.
Qed.

(* exp(F t) when F + l is nilpotent *)
Lemma nilp_exp d (FF : 'M[R]_d) (l : R) : let N := FF + l *: 1%:M in N *m N *m N = 0 ->
  forall t : R, exp (- l * t) *: (1%:M + t *: N + 2%:R^-1 *: (t *: N *m (t *: N))) = mexp FF t.
Proof.
move=> N HN.
pose X (t : R) := exp (- l * t) *: (1%:M + t *: N + 2%:R^-1 *: (t *: N *m (t *: N))).
have XE t : X t = exp (- l * t) *: (1%:M + t *: N + (t ^+ 2 / 2%:R) *: (N *m N)).
  rewrite /X; congr (_ *: (_ + _)); rewrite -scalemxAl -scalemxAr !scalerA; congr (_ *: _).
  by Rf.
have EF : FF = N - l *: 1%:M by rewrite /N addrK.
clearbody N.
apply: (@ode_unique d FF X).
  rewrite XE mulr0 scale0r expr2 mul0r mul0r scale0r !addr0.
  by rewrite -[0]/R0 exp_0 scale1r.
move=> t.
have Hq : derivable_pt_lim (fun s : R => s ^+ 2 / 2%:R) t t.
  have H := derivable_pt_lim_mult _ _ _ _ _ (derivable_pt_lim_id t) (derivable_pt_lim_id t).
  have := derivable_pt_lim_scal _ (/ 2)%Re _ _ H.
  rewrite (_ : (/ 2 * (1 * id t + id t * 1))%Re = t); last by rewrite /id; lra.
  by apply: dext => s; rewrite /mult_real_fct /mult_fct expr2 halfR /Ranalysis1.id; asR; toR_ops; ring.
have H1 := @mderivZ d d (fun s => s) (fun _ => N) t _ _ (derivable_pt_lim_id t) (mderiv_const N t).
have H2 := @mderivZ d d _ (fun _ => N *m N) t _ _ Hq (mderiv_const (N *m N) t).
have H3 := mderivD (mderivD (mderiv_const 1%:M t) H1) H2.
have H4 := mderivZ (exp_lin_deriv (- l) t) H3.
apply: (@mderiv_ext d d _ X t _ (fun s => esym (XE s))).
suff -> : FF *m X t = - l * exp (- l * t) *: (1%:M + t *: N + (t ^+ 2 / 2%:R) *: (N *m N))
    + exp (- l * t) *: (0 + (1 *: N + t *: 0) + (t *: (N *m N) + (t ^+ 2 / 2%:R) *: 0)) by [].
have HY : N *m (1%:M + t *: N + (t ^+ 2 / 2%:R) *: (N *m N)) = N + t *: (N *m N).
  by rewrite !mulmxDr mulmx1 -!scalemxAr mulmxA HN scaler0 addr0.
rewrite XE EF -scalemxAr mulmxBl -[X in _ - X]scalemxAl mul1mx HY.
rewrite !scaler0 !addr0 add0r scale1r scalerBr [RHS]addrC; congr (_ + _).
rewrite -scalerN -scaleNr scalerA; congr (_ *: _); exact: mulrC.
Qed.

(* kernels whose transitions are the exponentials of their feedback matrix *)
Section ExpKernel.
Variables (o d r : nat) (k : skernel Rr o d) (B : 'M[R]_(d, r)).
Hypothesis HA : forall t, sk_A k t = mexp (sk_F k) t.
Hypothesis HP : spd (sk_P k).
Hypothesis HL : sk_F k *m sk_P k + sk_P k *m (sk_F k)^T = - (B *m B^T).

Lemma exp_good : good_kernel k.
Proof.
split=> [a b _ _||a Ha] //; first by rewrite !HA mexpD.
by rewrite /step_cov HA; apply: (lyap_psd (spd_sym HP) HL); apply: ltW.
Qed.

Lemma exp_noisy : (forall y : 'cV[R]_d, (forall j, y^T *m mpow (sk_F k) j *m B = 0) -> y = 0) -> noisy k.
Proof. by move=> H a Ha; rewrite /step_cov HA; apply: (lyap_spd (spd_sym HP) HL). Qed.
End ExpKernel.

Lemma exp_scalar d (FF : 'M[R]_d) (l t : R) : FF + l *: 1%:M = 0 -> (exp (- l * t))%:M = mexp FF t.
Proof.
move=> HN; have H3 : (FF + l *: 1%:M) *m (FF + l *: 1%:M) *m (FF + l *: 1%:M) = 0 by rewrite HN mulmx0.
by rewrite -(nilp_exp H3) HN !scaler0 mul0mx scaler0 !addr0 scalemx1.
Qed.

(* the two kernels with one state *)
Section K1.
Variables (o : nat) (l s2 : R) (k : skernel Rr o 1).
Hypothesis HA : forall t, sk_A k t = (exp (- l * t))%:M.
Hypothesis HF : sk_F k = (- l)%:M.
Hypothesis HP : sk_P k = s2%:M.
Hypotheses (Hl : 0 < l) (Hs : 0 < s2).

Lemma k1_exp t : sk_A k t = mexp (sk_F k) t.
Proof. by rewrite HA HF; apply: exp_scalar; rewrite scalemx1 -raddfD /= addNr raddf0. Qed.

Lemma k1_lyap : sk_F k *m sk_P k + sk_P k *m (sk_F k)^T = - (2%:R * l * s2)%:M.
Proof.
rewrite HF HP tr_scalar_mx -!scalar_mxM -raddfD /= -raddfN /=; congr (_%:M); crng.
Qed.

Lemma k1_lyap' : let B : 'M[R]_1 := (Num.sqrt (2%:R * l * s2))%:M in
  sk_F k *m sk_P k + sk_P k *m (sk_F k)^T = - (B *m B^T).
Proof.
cbv zeta; rewrite k1_lyap tr_scalar_mx -scalar_mxM -expr2 sqr_sqrtr //.
by rewrite ?mulr_ge0 ?ler0n ?ltW.
Qed.

Lemma k1_spd : spd (sk_P k).
Proof. by rewrite HP; apply: spd11. Qed.

Lemma k1_good : good_kernel k.
Proof. exact: (exp_good k1_exp k1_spd k1_lyap'). Qed.

Lemma k1_noisy : noisy k.
Proof.
apply: (exp_noisy k1_exp k1_spd k1_lyap') => y /(_ 0%N).
rewrite /= mulmx1 mul_mx_scalar => /matrixP /(_ 0 0); rewrite !mxE => /eqP.
rewrite mulf_eq0 sqrtr_eq0 leNgt !mulr_gt0 ?ltr0n //= => /eqP E.
by apply/matrixP => i j; rewrite !ord1 [RHS]mxE.
Qed.
End K1.

Lemma m12_A o jitter (l s2 : R) m t : sk_A (matern12 o jitter l s2 m) t = (exp (- l^-1 * t))%:M.
Proof. by rewrite /=; congr (exp _)%:M; crng. Qed.
Lemma m12_F o jitter (l s2 : R) m : sk_F (matern12 o jitter l s2 m) = (- l^-1)%:M.
Proof. by rewrite /= mx_rows1 mulN1r. Qed.
Lemma m12_P o jitter (l s2 : R) m : sk_P (matern12 o jitter l s2 m) = s2%:M.
Proof. by rewrite /= mx_rows1. Qed.

Lemma ou_A o jitter (l q : R) m t : sk_A (ornstein_uhlenbeck o jitter l q m) t = (exp (- l * t))%:M.
Proof. by rewrite /=; congr (exp _)%:M; crng. Qed.
Lemma ou_F o jitter (l q : R) m : sk_F (ornstein_uhlenbeck o jitter l q m) = (- l)%:M.
Proof. by rewrite /= mx_rows1. Qed.
Lemma ou_P o jitter (l q : R) m : sk_P (ornstein_uhlenbeck o jitter l q m) = (2%:R^-1 * q / l)%:M.
Proof. by rewrite /= mx_rows1. Qed.


(* Matern 3/2 *)
Section K32.
Variables (o : nat) (jitter ell s2 : R) (m : 'cV[R]_2).
Hypotheses (He : 0 < ell) (Hs : 0 < s2).
Notation k := (matern32 o jitter ell s2 m).

Lemma lambda32_gt0 : 0 < lambda32 ell.
Proof. rewrite /lambda32 divr_gt0 //; apply/RltP; apply: sqrt_lt_R0; apply/RltP; exact: ltr0n. Qed.

Lemma m32_exp t : sk_A k t = mexp (sk_F k) t.
Proof.
have H := @m32_nilp Rr (lambda32 ell).
rewrite -(@nilp_exp 2 (sk_F k) (lambda32 ell)); last by rewrite [X in X *m _]H mul0mx.
by rewrite [sk_A k t]/= -[in RHS]scalemxAl -[in RHS]scalemxAr [X in _ + _ *: (_ *: (_ *: X))]H !scaler0 addr0.
Qed.

Lemma m32_good : good_kernel k.
Proof. exact: (exp_good m32_exp (@m32_spd Rr _ _ lambda32_gt0 Hs) (@m32_lyap Rr _ _ lambda32_gt0 Hs)). Qed.

Lemma m32_noisy : noisy k.
Proof.
apply: (exp_noisy m32_exp (@m32_spd Rr _ _ lambda32_gt0 Hs) (@m32_lyap Rr _ _ lambda32_gt0 Hs)) => y Hy.
apply: (@m32_controllable Rr _ _ lambda32_gt0 Hs); first by have := Hy 0%N; rewrite [mpow _ _]/= mulmx1.
by have := Hy 1%N; rewrite mpowS [mpow _ _]/= mulmx1.
Qed.
End K32.

(* Matern 5/2 *)
Section K52.
Variables (o : nat) (jitter ell s2 : R) (m : 'cV[R]_3).
Hypotheses (He : 0 < ell) (Hs : 0 < s2).
Notation k := (matern52 o jitter ell s2 m).

Lemma lambda52_gt0 : 0 < lambda52 ell.
Proof. rewrite /lambda52 divr_gt0 //; apply/RltP; apply: sqrt_lt_R0; apply/RltP; exact: ltr0n. Qed.

Lemma m52_exp t : sk_A k t = mexp (sk_F k) t.
Proof. exact: (nilp_exp (@m52_nilp Rr (lambda52 ell))). Qed.

Lemma m52_good : good_kernel k.
Proof. exact: (exp_good m52_exp (@m52_spd Rr _ _ lambda52_gt0 Hs) (@m52_lyap Rr _ _ lambda52_gt0 Hs)). Qed.

Lemma m52_noisy : noisy k.
Proof.
apply: (exp_noisy m52_exp (@m52_spd Rr _ _ lambda52_gt0 Hs) (@m52_lyap Rr _ _ lambda52_gt0 Hs)) => y Hy.
apply: (@m52_controllable Rr _ _ lambda52_gt0 Hs).
- by have := Hy 0%N; rewrite [mpow _ _]/= mulmx1.
- by have := Hy 1%N; rewrite mpowS [mpow _ _]/= mulmx1.
- by have := Hy 2%N; rewrite !mpowS [mpow _ _]/= mulmx1.
Qed.
End K52.

(* Constant *)
Section Kc.
Variables (o : nat) (jitter s2 : R).
Hypothesis Hs : 0 < s2.
Notation k := (constant_kernel o jitter s2).

Lemma const_exp t : sk_A k t = mexp (sk_F k) t.
Proof.
have := @exp_scalar 1 (sk_F k) 0 t; rewrite oppr0 mul0r -[X in exp X]/R0 exp_0 => <- //.
by rewrite scale0r addr0 /= (@mx_rows1 Rr) raddf0.
Qed.

Lemma const_noiseless : noiseless k.
Proof. by move=> a _; rewrite /step_cov /= mul1mx trmx1 mulmx1 subrr. Qed.

Lemma const_good : good_kernel k.
Proof.
split=> [a b _ _||a Ha]; first by rewrite /= mul1mx.
- by rewrite /= (@mx_rows1 Rr); apply: spd11.
- by rewrite const_noiseless //; apply: psd0.
Qed.
End Kc.

(* Harmonic oscillator *)
Section Ho.
Variables (o : nat) (jitter s2 p : R).
Hypothesis Hs : 0 < s2.
Notation k := (harmonic_oscillator o jitter s2 p).
Notation l := (lambda_ho p).

Definition rot (a : R) : 'M[R]_2 := mx_rows (F := [ringType of R]) 2 [:: [:: cos a; - sin a]; [:: sin a; cos a]].

Lemma rot0 : rot 0 = 1%:M.
Proof.
rewrite /rot -[0]/R0 cos_0 sin_0; apply/matrixP; case=> -[|[|?]] // ?; case=> -[|[|?]] // ?; rewrite !mxE //=.
exact: (@oppr0 [zmodType of R]).
Qed.

Lemma rotD a b : rot (a + b) = rot b *m rot a.
Proof.
apply/matrixP; case=> -[|[|?]] // ?; case=> -[|[|?]] // ?; rewrite !mxE !big_ord_recl big_ord0 !mxE /=.
- by rewrite cos_plus; asR; toR_ops; ring.
- by rewrite sin_plus; asR; toR_ops; ring.
- by rewrite sin_plus; asR; toR_ops; ring.
- by rewrite cos_plus; asR; toR_ops; ring.
Qed.

Lemma rot_orth a : rot a *m (rot a)^T = 1%:M.
Proof.
have H := sin2_cos2 a; rewrite /Rsqr in H.
apply/matrixP; case=> -[|[|?]] // ?; case=> -[|[|?]] // ?; rewrite !mxE !big_ord_recl big_ord0 !mxE /= ?mulr1n ?mulr0n; asR; toR_ops; rewrite -?[R1]H; ring.
Qed.

Lemma ho_A t : sk_A k t = rot (t * l).
Proof. by []. Qed.

Lemma rot_deriv t : mderiv (fun s => rot (s * l)) t (sk_F k *m rot (t * l)).
Proof.
have Hl : derivable_pt_lim (fun s : R => s * l) t l.
  have := derivable_pt_lim_scal _ l _ _ (derivable_pt_lim_id t); rewrite Rmult_1_r.
  by apply: dext => s; rewrite /mult_real_fct /Ranalysis1.id; asR; toR_ops; ring.
have Hc : derivable_pt_lim (fun s : R => cos (s * l)) t (- sin (t * l) * l).
  exact: (derivable_pt_lim_comp _ _ _ _ _ Hl (derivable_pt_lim_cos (t * l))).
have Hn : derivable_pt_lim (fun s : R => sin (s * l)) t (cos (t * l) * l).
  exact: (derivable_pt_lim_comp _ _ _ _ _ Hl (derivable_pt_lim_sin (t * l))).
have Hm : derivable_pt_lim (fun s : R => - sin (s * l)) t (- (cos (t * l) * l)).
  exact: (derivable_pt_lim_opp _ _ _ Hn).
case=> -[|[|?]] // ?; case=> -[|[|?]] // ?; rewrite !mxE !big_ord_recl big_ord0 !mxE /=.
- rewrite [X in derivable_pt_lim _ _ X](_ : _ = - sin (t * l) * l); last by asR; toR_ops; ring.
  by apply: (dext _ Hc) => s; rewrite mxE.
- rewrite [X in derivable_pt_lim _ _ X](_ : _ = - (cos (t * l) * l)); last by asR; toR_ops; ring.
  by apply: (dext _ Hm) => s; rewrite mxE.
- rewrite [X in derivable_pt_lim _ _ X](_ : _ = cos (t * l) * l); last by asR; toR_ops; ring.
  by apply: (dext _ Hn) => s; rewrite mxE.
- rewrite [X in derivable_pt_lim _ _ X](_ : _ = - sin (t * l) * l); last by asR; toR_ops; ring.
  by apply: (dext _ Hc) => s; rewrite mxE.
Qed.

Lemma ho_exp t : sk_A k t = mexp (sk_F k) t.
Proof.
apply: (@ode_unique 2 (sk_F k) (fun s => rot (s * l))); first by rewrite mul0r rot0.
exact: rot_deriv.
Qed.

Lemma ho_noiseless : noiseless k.
Proof.
move=> a _; rewrite /step_cov ho_A /= -scalemxAr mulmx1 -scalemxAl rot_orth subrr.
by [].
Qed.

Lemma ho_good : good_kernel k.
Proof.
split=> [a b _ _||a Ha]; first by rewrite !ho_A mulrDl rotD.
- rewrite [sk_P k]/=; split; first by rewrite linearZ /= trmx1.
  move=> x Hx; rewrite /qf -scalemxAr -scalemxAl mxE mulr_gt0 //.
  exact: (@spd1 Rr 2).2.
- by rewrite ho_noiseless //; apply: psd0.
Qed.
End Ho.

(* LEG *)
Section Leg.
Variables (d : nat) (N Rot : 'M[R]_d) (jitter : R).
Notation k := (leg_kernel N Rot jitter).

Lemma leg_exp t : sk_A k t = mexp (sk_F k) t.
Proof. by rewrite /= mexp_scale mulr1. Qed.

Lemma leg_lyap : sk_F k *m sk_P k + sk_P k *m (sk_F k)^T = - (N *m N^T).
Proof.
rewrite /= mulmx1 mul1mx /leg_feedback linearZ /= -scalerDr !(trmxD, trmxN) trmx_mul !trmxK.
rewrite (_ : _ + (_ + Rot^T - Rot) = (N *m N^T) *+ 2); last by rewrite mulr2n; zmod.
by rewrite scaleNr -scaler_nat scalerA mulVf ?scale1r // pnatr_eq0.
Qed.

Lemma leg_good : good_kernel k.
Proof. exact: (exp_good leg_exp (@spd1 Rr d) leg_lyap). Qed.

Lemma leg_noisy : N \in unitmx -> noisy k.
Proof.
move=> HN; apply: (exp_noisy leg_exp (@spd1 Rr d) leg_lyap) => y /(_ 0%N).
rewrite [mpow _ _]/= mulmx1 => H; apply: trmx_inj; rewrite trmx0.
by apply: (mulmx_cancel_r HN); rewrite H mul0mx.
Qed.
End Leg.

(* ---------- covariance functions ---------- *)
Lemma lag_cov o d (k : skernel Rr o d.+1) (c : R -> R) (s t : R) :
  (forall u, sk_H k u = first_emission Rr o d.+1) -> sk_A k 0 = 1%:M ->
  (forall r : R, 0 <= r -> (sk_A k r *m sk_P k) 0 0 = c r) ->
  fcov k s t = const_mx (c `|s - t|).
Proof.
move=> HH H0 Hc; rewrite /fcov !HH first_emissionE; congr const_mx.
case: (ltgtP t s) => Hst.
- by rewrite Hc ?subr_ge0 ?ltW // ger0_norm ?subr_ge0 ?ltW.
- by rewrite mxE Hc ?subr_ge0 ?ltW // ltr0_norm ?subr_lt0 // opprB.
- by rewrite Hst subrr normr0 -Hc // H0 mul1mx.
Qed.

Lemma m12_cov o jitter (l s2 : R) m s t : 0 < l ->
  fcov (matern12 o jitter l s2 m) s t = const_mx (cov_matern12 l s2 `|s - t|).
Proof.
move=> Hl; apply: lag_cov => // [|r Hr].
  by rewrite m12_A mulr0 -[X in exp X]/R0 exp_0.
rewrite m12_A m12_P -scalar_mxM mxE eqxx mulr1n /cov_matern12 mulrC.
have l0 : l <> 0%Re by move/eqP: (lt0r_neq0 Hl).
by rewrite (invrR l0); congr (_ * exp _); asR; toR_ops; field.
Qed.

Lemma ou_cov o jitter (l q : R) m s t : 0 < l ->
  fcov (ornstein_uhlenbeck o jitter l q m) s t = const_mx (cov_ou l q `|s - t|).
Proof.
move=> Hl; apply: lag_cov => // [|r Hr].
  by rewrite ou_A mulr0 -[X in exp X]/R0 exp_0.
rewrite ou_A ou_P -scalar_mxM mxE eqxx mulr1n /cov_ou mulrC.
have l0 : l <> 0%Re by move/eqP: (lt0r_neq0 Hl).
rewrite (invrR l0) halfR; congr (_ * exp _); first by asR; toR_ops; field.
by asR; toR_ops; ring.
Qed.

Lemma const_cov o jitter (s2 : R) s t : fcov (constant_kernel o jitter s2) s t = const_mx s2.
Proof.
by rewrite (@lag_cov _ _ _ (fun _ => s2)) // => r Hr; rewrite /= mul1mx !mxE.
Qed.

Lemma ho_cov o jitter (s2 p : R) s t : 0 < p ->
  fcov (harmonic_oscillator o jitter s2 p) s t = const_mx (cov_cosine s2 p `|s - t|).
Proof.
move=> Hp; apply: lag_cov => // [|r Hr]; first by rewrite ho_A mul0r rot0.
rewrite ho_A [sk_P _]/= -scalemxAr mulmx1 !mxE /= /cov_cosine /lambda_ho.
have l0 : p <> 0%Re by move/eqP: (lt0r_neq0 Hp).
by rewrite (invrR l0) twoR; congr (_ * cos _); asR; toR_ops; field.
Qed.

Lemma lag32 (F : rcfType) (l s2 r : F) :
  ((1%:M + r *: (feedback32 l + l *: 1%:M)) *m steady32 l s2) 0 0 = s2 * (1 + l * r).
Proof. by rewrite !mxE !big_ord_recl big_ord0 !mxE /=; crng. Qed.

Lemma m32_cov o jitter (l s2 : R) m s t : 0 < l ->
  fcov (matern32 o jitter l s2 m) s t = const_mx (cov_matern32 l s2 `|s - t|).
Proof.
move=> Hl; apply: lag_cov => // [|r Hr]; first by rewrite m32_exp mexp0.
rewrite [sk_A _ _]/= [sk_P _]/= -scalemxAl mxE (@lag32 Rr) /cov_matern32 /lambda32.
have l0 : l <> 0%Re by move/eqP: (lt0r_neq0 Hl).
rewrite (invrR l0) (_ : (3%:R : R) = 3%Re); last by rewrite natrR /=; lra.
rewrite mulrC; congr (_ * exp _); asR; toR_ops; field => //.
Qed.

Lemma lag52 (F : rcfType) (l s2 r : F) :
  let N := r *: (feedback52 l + l *: 1%:M) in
  ((1%:M + N + 2%:R^-1 *: (N *m N)) *m steady52 l s2) 0 0 = s2 * (1 + l * r + (l * r) ^+ 2 / 3%:R).
Proof.
cbv zeta; set N := r *: _.
have HN00 : (N *m N) 0 0 = (l * r) ^+ 2.
  by rewrite !mxE !big_ord_recl big_ord0 !mxE /= !mulr1n ?mulr0n; crng.
have HN02 : (N *m N) 0 (lift 0 (lift 0 0)) = r ^+ 2.
  by rewrite !mxE !big_ord_recl big_ord0 !mxE /= ?mulr1n ?mulr0n; crng.
have N0 : N 0 0 = l * r by rewrite !mxE /= mulr1n; crng.
have N2 : N 0 (lift 0 (lift 0 0)) = 0 by rewrite !mxE /= mulr0n; crng.
move: (N *m N) HN00 HN02 => N' HN00 HN02; clearbody N.
rewrite mxE !big_ord_recl big_ord0 /steady52 !mxE /= N0 N2 HN00 HN02 ?mulr1n ?mulr0n.
rewrite mulr0 mulr0 add0r mulr1 !addr0 !add0r mulrN mulrN.
have [w ->] : exists w, l = 3%:R * w by exists (l / 3%:R); rewrite mulrC divfK // pnatr_eq0.
have H3 : (3%:R : F) != 0 by rewrite pnatr_eq0.
have -> : (3%:R * w) ^+ 2 / 3%:R = 3%:R * w ^+ 2 by apply: (canLR (mulfK H3)); crng.
have -> : (3%:R * w * r) ^+ 2 / 3%:R = 3%:R * w ^+ 2 * r ^+ 2 by apply: (canLR (mulfK H3)); crng.
transitivity (s2 * (1 + 3%:R * w * r) + 2%:R^-1 * 2%:R * (3%:R * w ^+ 2 * r ^+ 2 * s2)); first by crng.
by rewrite mulVf ?pnatr_eq0 //; crng.
Qed.

Lemma m52_cov o jitter (l s2 : R) m s t : 0 < l ->
  fcov (matern52 o jitter l s2 m) s t = const_mx (cov_matern52 l s2 `|s - t|).
Proof.
move=> Hl; apply: lag_cov => // [|r Hr]; first by rewrite m52_exp mexp0.
rewrite [sk_A _ _]/= [sk_P _]/= -[X in fun_of_matrix X 0 0 = _]scalemxAl mxE.
rewrite [X in _ * X](@lag52 Rr) /cov_matern52 /lambda52.
have l0 : l <> 0%Re by move/eqP: (lt0r_neq0 Hl).
have E5 : (5%:R : R) = 5%Re by rewrite natrR /=; lra.
have E3 : (3%:R : R) = 3%Re by rewrite natrR /=; lra.
have h3 : 3%Re <> 0%Re by lra.
have H5 : (sqrt 5%Re * sqrt 5%Re = 5)%Re by apply: sqrt_sqrt; lra.
rewrite E5 E3 (invrR l0) (invrR h3) exprR mulrC; congr (_ * exp _)%R; asR; toR_ops.
  rewrite -[X in (X * r ^ 2)%Re]H5.
  by field.
by field.
Qed.
