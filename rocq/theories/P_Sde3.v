(* The two drifts of sde.py, and the drift difference as a KL divergence. *)
From Coq Require Import Reals Lra.
From Coquelicot Require Import Coquelicot.
From mathcomp Require Import all_ssreflect all_algebra.
From Verif Require Import Nat RealStruct Log Alg Lin Spd M_Block M_SSM S_SSM P_SSM P_Trans S_Gauss P_Gauss M_SSMLog P_SSMLog P_SSMKl P_Cond4
  M_Sde S_Sde P_Sde P_Sde2.
Set Implicit Arguments.
Unset Strict Implicit.
Unset Printing Implicit Defensive.
Import GRing.Theory Num.Theory Order.TTheory.
Local Open Scope ring_scope.

Section Values.
Variable F : rcfType.
Variables (H : nat) (node weight : nat -> F).
Hypothesis HG : gauss_hermite H node weight.

Lemma ou_linear decay q times mu cov m0 v0 S n : (0 < H)%N -> (forall k, (k < n)%N -> 0 <= cov k) ->
  linearize_sde H (ou1 decay q) node weight times mu cov m0 v0 = Some S ->
  forall k, (k < n)%N -> let dt := times k.+1 - times k in s_A S k = (1 - dt * decay)%:M /\ s_b S k = 0.
Proof.
move=> H0 Hc [<-] k Hk dt /=.
have E1 : expected_drift H (ou1 decay q) node weight (mu k) (cov k) = - decay * mu k.
  rewrite /expected_drift (@eq_quad _ _ _ _ _ (fun x => ((- decay) *: 'X + 0%:P : {poly F}).[x])); last first.
    by move=> x; rewrite hornerD hornerZ hornerX hornerC addr0.
  rewrite (quad_exact HG); first by rewrite expect_lin ?addr0 ?Hc.
  rewrite polyC0 addr0; apply: leq_trans (size_scale_leq _ _) _; rewrite size_polyX; lia.
have E2 : expected_gradient_drift H (ou1 decay q) node weight (mu k) (cov k) = - decay.
  rewrite /expected_gradient_drift (@eq_quad _ _ _ _ _ (fun x => ((- decay)%:P : {poly F}).[x])); last by move=> x; rewrite hornerC.
  rewrite (quad_exact HG) ?expect_const //.
  by apply: leq_trans (size_polyC_leq1 _) _; lia.
rewrite E1 E2 subrr scale_scalar_mx mulrN raddfB /= raddfN /= addrC; split=> //.
by rewrite raddf0 scaler0.
Qed.

Lemma expect_poly3 (m v : F) : 0 <= v ->
  normal_expect m v (4%:R *: 'X - 4%:R *: 'X^3) = 4%:R * m - 4%:R * (m ^+ 3 + 3%:R * m * v) /\
  normal_expect m v (4%:R%:P - 12%:R *: 'X^2) = 4%:R - 12%:R * (m ^+ 2 + v).
Proof.
move=> Hv; have EX p : normal_expect m v ('X * p) = v * normal_expect m v p^`() + m * normal_expect m v p.
  by have := @expect_mul_lin F m v Hv 1 0 p; rewrite scale1r polyC0 !addr0 !mul1r.
have E2 : normal_expect m v 'X^2 = v + m ^+ 2.
  by rewrite expr2 EX derivX -[1]/(1%:P) expect_const expect_X // mulr1 expr2.
have E3 : normal_expect m v 'X^3 = m ^+ 3 + 3%:R * m * v.
  rewrite exprS EX derivXn E2 -scaler_nat expect_scale expr1 expect_X //; crng.
split.
  by rewrite -scaleNr expect_add !expect_scale E3 expect_X // mulNr.
by rewrite -scaleNr expect_add expect_scale expect_const E2 mulNr [v + _]addrC.
Qed.

Lemma double_well_linear q times mu cov m0 v0 S n : (1 < H)%N -> (forall k, (k < n)%N -> 0 <= cov k) ->
  linearize_sde H (double_well1 q) node weight times mu cov m0 v0 = Some S ->
  forall k, (k < n)%N -> let dt := times k.+1 - times k in
    s_A S k = (1 + dt * (4%:R - 12%:R * (mu k ^+ 2 + cov k)))%:M /\ s_b S k = (dt * (8%:R * mu k ^+ 3))%:M.
Proof.
move=> H1 Hc [<-] k Hk dt /=; have [V1 V2] := expect_poly3 (mu k) (Hc k Hk).
have E1 : expected_drift H (double_well1 q) node weight (mu k) (cov k) =
    4%:R * mu k - 4%:R * (mu k ^+ 3 + 3%:R * mu k * cov k).
  rewrite -V1 /expected_drift (@eq_quad _ _ _ _ _ (fun x => (4%:R *: 'X - 4%:R *: 'X^3 : {poly F}).[x])); last first.
    by move=> x; rewrite hornerD hornerN !hornerZ hornerXn hornerX /= /double_well_drift mulrBr mulr1 -mulrA -exprS.
  rewrite (quad_exact HG) //; apply: leq_trans (size_add _ _) _; rewrite geq_max size_opp.
  rewrite !(leq_trans (size_scale_leq _ _)) // ?size_polyX ?size_polyXn //; lia.
have E2 : expected_gradient_drift H (double_well1 q) node weight (mu k) (cov k) = 4%:R - 12%:R * (mu k ^+ 2 + cov k).
  rewrite -V2 /expected_gradient_drift (@eq_quad _ _ _ _ _ (fun x => (4%:R%:P - 12%:R *: 'X^2 : {poly F}).[x])); last first.
    by move=> x; rewrite hornerD hornerN hornerZ hornerXn hornerC.
  rewrite (quad_exact HG) //; apply: leq_trans (size_add _ _) _; rewrite geq_max size_opp.
  rewrite (leq_trans (size_polyC_leq1 _)) ?(leq_trans (size_scale_leq _ _)) // ?size_polyXn //; lia.
rewrite E1 E2 !scale_scalar_mx raddfD /= addrC; split=> //.
congr (_ * _)%:M; move: (mu k) (cov k) => m v; crng.
Qed.
End Values.

Section Difference.
Variable F : rcfType.
Variables (H : nat) (node weight : nat -> F).
Hypothesis HG : gauss_hermite H node weight.

(* the drift difference, for a polynomial drift *)
Lemma squared_value n (s : sde1 F) (p : {poly F}) (ld : linear_drift F 1) mu cov dt : (1 < H)%N -> (size p <= H)%N ->
  (forall x, drift1 s x = p.[x]) ->
  squared_drift_difference H n s ld node weight mu cov dt =
  2%:R^-1 * (\sum_(k < n) normal_expect (mu k) (cov k) ((ld_A ld k 0 0 *: 'X + (ld_b ld k 0 0)%:P - p) ^+ 2) / q1 s) * dt.
Proof.
move=> H1 Hp Hf; rewrite /squared_drift_difference; congr (_ * _ * _); apply: eq_bigr => k _.
set a := ld_A ld k 0 0; set b := ld_b ld k 0 0; set g := a *: 'X + b%:P - p.
rewrite (@eq_quad _ _ _ _ _ (fun x => ((q1 s)^-1 *: g ^+ 2).[x])); last first.
  move=> x; rewrite hornerZ horner_exp !hornerD hornerN hornerZ hornerX hornerC -Hf expr2 mul1r [a * x]mulrC.
  by rewrite [RHS]mulrC.
have Hg : (size g <= H)%N.
  rewrite /g; apply: leq_trans (size_add _ _) _; rewrite geq_max size_opp Hp andbT.
  apply: leq_trans (size_add _ _) _; rewrite geq_max (leq_trans (size_scale_leq _ _)) ?size_polyX //.
  by apply: leq_trans (size_polyC_leq1 _) _; apply: ltnW.
rewrite (quad_exact HG); first by rewrite expect_scale mulrC.
apply: leq_trans (size_scale_leq _ _) _; rewrite expr2; apply: leq_trans (size_mul_leq _ _) _.
lia.
Qed.
End Difference.

(* one transition in dimension one *)
Lemma tr_step1 (F : fieldType) (a a' w q' : F) : q' != 0 ->
  \tr ((q'^-1)%:M *m (q'%:M + (a%:M - a'%:M) *m w%:M *m (a%:M - a'%:M)^T) : 'M[F]_1) = 1 + (a - a') * w * (a - a') / q'.
Proof.
move=> Hq'; rewrite /mxtrace big_ord1 -rmorphB tr_scalar_mx -!scalar_mxM -rmorphD -scalar_mxM !mxE eqxx mulr1n [LHS]mulrDr mulVf //.
by congr (_ + _); rewrite mulrC.
Qed.
Lemma qf_step1 (F : rcfType) (a a' b b' mu q' : F) :
  qf ((q'^-1)%:M : 'M[F]_1) (a'%:M *m mu%:M + b'%:M - (a%:M *m mu%:M + b%:M)) = (a' * mu + b' - (a * mu + b)) ^+ 2 / q'.
Proof.
rewrite -!scalar_mxM -!rmorphD -rmorphB /qf tr_scalar_mx -!scalar_mxM !mxE eqxx mulr1n.
by rewrite mulrAC expr2.
Qed.
Lemma gauss_step1 (a a' w q' b b' mu : R) : q' != 0 ->
  2%:R^-1 * (\tr (invmx (q'%:M : 'M[R]_1) *m (q'%:M + (a%:M - a'%:M) *m w%:M *m (a%:M - a'%:M)^T))
    + qf (invmx (q'%:M : 'M[R]_1)) (a'%:M *m mu%:M + b'%:M - (a%:M *m mu%:M + b%:M)) - 1%:R
    + ln (\det (q'%:M : 'M[R]_1)) - ln (\det (q'%:M : 'M[R]_1))) =
  2%:R^-1 * (((a - a') * w * (a - a') + (a' * mu + b' - (a * mu + b)) ^+ 2) / q').
Proof.
move=> Hq'; rewrite addrK (@invmx_scalar Rr) (@tr_step1 Rr _ _ _ _ Hq') (@qf_step1 Rr) mulrDl [1%:R]mulr1n.
move: (_ / q') (_ ^+ 2 / q') => u v; rlra.
Qed.

Lemma step1 (dt q a al b be m V : R) : dt != 0 -> q != 0 ->
  2%:R^-1 * ((((a - al) * m + (b - be)) ^+ 2 + (a - al) ^+ 2 * V) / q) * dt =
  2%:R^-1 * (((dt * a + 1 - (dt * al + 1)) * V * (dt * a + 1 - (dt * al + 1)) +
     ((dt * al + 1) * m + dt * be - ((dt * a + 1) * m + dt * b)) ^+ 2) / (dt * q)).
Proof.
move=> /eqP h1 /eqP h2; rewrite (invrR h2) (@invrR (dt * q)); first by rewrite ?expr2 halfR; toR_ops; match goal with |- @eq _ ?a ?b => change (@eq R a b) end; field.
by apply/eqP; apply: mulf_neq0; apply/eqP.
Qed.

Section Affine.
Variable F : rcfType.
Variables (H n : nat) (node weight : nat -> F) (s : sde1 F) (ld : linear_drift F 1) (alpha beta : F).
Variables (times : nat -> F) (dt : F) (m0 : 'cV[F]_1) (c0 : 'M[F]_1) (S S' : ssm F 1).
Hypothesis HG : gauss_hermite (F := F) H node weight.
Hypothesis H1 : (1 < H)%N.
Hypothesis Hf : forall x, drift1 s x = alpha * x + beta.
Hypothesis Hq : 0 < q1 s.
Hypothesis Hdt : 0 < dt.
Hypothesis Ht : forall k, (k < n)%N -> times k.+1 - times k = dt.
Hypothesis Hc : lownz (R := F) c0.
Let q := ext_cholesky (R := F) ((q1 s)%:M : 'M_1).
Hypothesis ES : to_ssm (Some ld) (fun _ => q) times m0 c0 = Some S.
Hypothesis ES' : to_ssm (Some (LinearDrift (fun _ => alpha%:M) (fun _ => beta%:M))) (fun _ => q) times m0 c0 = Some S'.

Lemma q_chol : q *m q^T = (q1 s)%:M. Proof. by apply: chol_mul; apply: (@spd_scalar F). Qed.
Lemma sqrt_dt : 0 < Num.sqrt dt. Proof. by rewrite sqrtr_gt0. Qed.

Lemma q_nz : lownz (R := F) (Num.sqrt dt *: q).
Proof.
have Hq' : lowpos (R := F) q by apply: chol_lowpos; apply: (@spd_scalar F).
have [/is_trig_mxP t p] := Hq'; split.
  by apply/is_trig_mxP => i j Hij; rewrite mxE t // mulr0.
by move=> i; rewrite mxE; apply: lt0r_neq0; apply: mulr_gt0; [exact: sqrt_dt|exact: p].
Qed.

Lemma S_nonsing : ssm_nonsing n S /\ ssm_nonsing n S'.
Proof.
move: ES ES' => [<-] [<-]; split; split=> // k Hk /=; rewrite Ht //; exact: q_nz.
Qed.

Lemma S_Qc k : (k < n)%N -> ssm_Qc S k.+1 = (dt * q1 s)%:M /\ ssm_Qc S' k.+1 = (dt * q1 s)%:M.
Proof.
move=> Hk; have E : (Num.sqrt dt *: q) *m (Num.sqrt dt *: q)^T = (dt * q1 s)%:M.
  by rewrite (scaled_chol _ (ltW Hdt)) q_chol scale_scalar_mx.
by move: ES ES' => [E1] [E2]; split; rewrite -?E1 -?E2 /ssm_Qc /= Ht.
Qed.

Lemma S_A k : (k < n)%N -> s_A S k = (dt * ld_A ld k 0 0 + 1)%:M /\ s_A S' k = (dt * alpha + 1)%:M.
Proof.
move=> Hk; move: ES ES' => [<-] [<-] /=; rewrite Ht //.
by split; rewrite [LHS]mx11_scalar !mxE.
Qed.
Lemma S_b k : (k < n)%N -> s_b S k = (dt * ld_b ld k 0 0)%:M /\ s_b S' k = (dt * beta)%:M.
Proof.
move=> Hk; move: ES ES' => [<-] [<-] /=; rewrite Ht //.
by split; rewrite [LHS]mx11_scalar !mxE.
Qed.

Lemma S_start : s_mu0 S = s_mu0 S' /\ ssm_Qc S 0 = ssm_Qc S' 0.
Proof. by move: ES ES' => [<-] [<-]. Qed.

Lemma squared_affine mu cov : (forall k, (k < n)%N -> 0 <= cov k) -> squared_drift_difference H n s ld node weight mu cov dt =
  2%:R^-1 * (\sum_(k < n) (((ld_A ld k 0 0 - alpha) * mu k + (ld_b ld k 0 0 - beta)) ^+ 2
     + (ld_A ld k 0 0 - alpha) ^+ 2 * cov k) / q1 s) * dt.
Proof.
move=> Hcov; rewrite (@squared_value F H node weight HG n s (alpha *: 'X + beta%:P)) //; last first.
- by move=> x; rewrite hornerD hornerZ hornerX hornerC; exact: Hf.
- apply: leq_trans (size_add _ _) _; rewrite geq_max (leq_trans (size_scale_leq _ _)) ?size_polyX //.
  by apply: leq_trans (size_polyC_leq1 _) _; apply: ltnW.
congr (_ * _ * _); apply: eq_bigr => k _; congr (_ / _).
have -> : ld_A ld k 0 0 *: 'X + (ld_b ld k 0 0)%:P - (alpha *: 'X + beta%:P) =
   (ld_A ld k 0 0 - alpha) *: 'X + (ld_b ld k 0 0 - beta)%:P.
  by rewrite scalerBl polyCB; zmod.
exact: expect_sq_lin (Hcov _ (ltn_ord k)) _ _.
Qed.
End Affine.

Section Girsanov.
Variables (H n : nat) (node weight : nat -> R) (s : sde1 Rr) (ld : linear_drift Rr 1) (alpha beta : R).
Variables (times : nat -> R) (dt : R) (m0 : 'cV[R]_1) (c0 : 'M[R]_1) (S S' : ssm Rr 1).
Variables (m : nat -> 'cV[R]_1) (K : nat -> nat -> 'M[R]_1).
Hypothesis HG : gauss_hermite (F := Rr) H node weight.
Hypothesis H1 : (1 < H)%N.
Hypothesis Hf : forall x, drift1 s x = alpha * x + beta.
Hypothesis Hq : 0 < q1 s.
Hypothesis Hdt : 0 < dt.
Hypothesis Ht : forall k, (k < n)%N -> times k.+1 - times k = dt.
Hypothesis Hc : lownz (R := Rr) c0.
Let q := ext_cholesky (R := Rr) ((q1 s)%:M : 'M_1).
Hypothesis ES : to_ssm (Some ld) (fun _ => q) times m0 c0 = Some S.
Hypothesis ES' : to_ssm (Some (LinearDrift (fun _ => alpha%:M) (fun _ => beta%:M))) (fun _ => q) times m0 c0 = Some S'.
Hypothesis HL : has_law n.+1 n.+1 (ssm_path S) m K.

Lemma girsanov :
  squared_drift_difference H n s ld node weight (fun k => m k 0 0) (fun k => K k k 0 0) dt = ssm_kl_divergence n S S'.
Proof.
have [N1 N2] := @S_nonsing Rr n s ld alpha beta times dt m0 c0 S S' Hq Hdt Ht Hc ES ES'.
have [Em Ev _ _] := @ssm_covariances Rr 1 n S m K N1 HL.
have Hcov k : (k < n)%N -> 0 <= K k k 0 0.
  move=> Hk; apply: ltW; apply: (@spd_diag_gt0 Rr); rewrite -(Ev k (ltnW Hk)) (marginal_covE N1 (ltnW (Hk : (k.+1 < n.+1)%N))).
  by apply: chain_var_spd => l Hl; apply: (ssm_Qc_spd N1); apply: leq_ltn_trans Hl (ltnW (Hk : (k.+1 < n.+1)%N)).
rewrite (@squared_affine Rr H n node weight s ld alpha beta dt HG H1 Hf _ _ Hcov) (kl_steps N1 N2).
have [i1 i2] := @S_start Rr s ld alpha beta times m0 c0 S S' ES ES'.
have [_ [_ ->]] := gauss_kl_ge0 (s_mu0 S) (s_mu0 S') (ssm_Qc_spd N1 (ltn0Sn n)) (ssm_Qc_spd N2 (ltn0Sn n)); last by [].
rewrite add0r big_distrr big_distrl; apply: eq_bigr => k _.
have [h1 h2] := @S_Qc Rr n s ld alpha beta times dt m0 c0 S S' Hq Hdt Ht ES ES' k (ltn_ord k).
have [h3 h4] := @S_A Rr n s ld alpha beta times dt m0 c0 S S' Ht ES ES' k (ltn_ord k).
have [h5 h6] := @S_b Rr n s ld alpha beta times dt m0 c0 S S' Ht ES ES' k (ltn_ord k).
have h7 : chain_var (s_A S) (ssm_Qc S) k = (K k k 0 0)%:M.
  by rewrite -mx11_scalar -(Ev k (ltnW (ltn_ord k))) (marginal_covE N1 (ltnW (ltn_ord k : (k.+1 < n.+1)%N))).
have h8 : ssm_marginal_means n S k = (m k 0 0)%:M by rewrite -mx11_scalar; exact: (Em _ (ltnW (ltn_ord k))).
rewrite /step_kl /dA h1 h2 h3 h4 h5 h6 h7 h8 gauss_step1; last by apply: mulf_neq0; apply: lt0r_neq0.
by apply: step1; apply: lt0r_neq0.
Qed.
End Girsanov.
