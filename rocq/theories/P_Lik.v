(* Proofs about the likelihoods. *)
From Coq Require Import Reals Lra.
From Coquelicot Require Import Coquelicot.
From mathcomp Require Import all_ssreflect all_algebra.
From Verif Require Import RealStruct Log Alg Lin Spd S_Gauss P_Gauss S_Kalman P_Kalman P_KalmanLog P_Elbo M_Block P_Block2 M_SSM M_SSMLog P_SSMLog
  M_Lik S_Lik P_IW.
Set Implicit Arguments.
Unset Strict Implicit.
Unset Printing Implicit Defensive.
Import GRing.Theory Num.Theory Order.TTheory.
Local Open Scope ring_scope.

Section Mvg.
Variables (o : nat) (L : 'M[R]_o).
Hypothesis HL : lownz L.
Let Sg := L *m L^T.

Lemma noise_spd : spd Sg. Proof. exact: (@lownz_spd Rr). Qed.

Lemma mvg_log_prob_ok f y : mvg_log_probability_density L f y = gauss_logpdf f Sg y.
Proof. exact: mvn_tril_gauss. Qed.

Lemma sum_tr (A B : 'M[R]_o) : A^T = A -> \sum_i \sum_j A i j * B i j = \tr (A *m B).
Proof.
move=> HA; rewrite /mxtrace exchange_big; apply: eq_bigr => j _; rewrite mxE; apply: eq_bigr => i _.
by rewrite -{1}HA mxE.
Qed.

Lemma inv_noise : ext_cholesky_solve (R := Rr) L 1%:M = invmx Sg.
Proof. by rewrite (@chol_solveE Rr) ?mulmx1. Qed.

Lemma mvg_veE m S y : mvg_variational_expectations L m S y = gauss_logpdf m Sg y - 2%:R^-1 * \tr (invmx Sg *m S).
Proof.
rewrite /mvg_variational_expectations inv_noise sum_tr ?(spd_sym (spd_inv noise_spd)) //.
by rewrite mvn_tril_gauss // -/Sg addrC mulNr.
Qed.

Lemma mvg_expectation m S y : expects m S (fun f => gauss_logpdf f Sg y) (mvg_variational_expectations L m S y).
Proof.
rewrite mvg_veE; have [c [b [M [E1 E2]]]] := @expected_loglik o o m S Sg 1%:M 0 y noise_spd.
exists c, b, M; split; first by move=> x; rewrite -E1 mul1mx addr0.
by rewrite -E2 trmx1 mulmx1 !mul1mx addr0.
Qed.

Lemma mvg_densityE m S y : psd S -> mvg_predict_density L m S y = gauss_logpdf m (S + Sg) y.
Proof.
move=> HS; have H : spd (S + Sg) by rewrite addrC; exact: (spdD noise_spd HS).
rewrite /mvg_predict_density mvn_tril_gauss; last exact/lowpos_nz/chol_lowpos.
by rewrite chol_mul.
Qed.

Lemma mvg_density m S y : spd S -> exists m' S', spd S' /\
  forall f, gauss_logpdf m S f + gauss_logpdf f Sg y = mvg_predict_density L m S y + gauss_logpdf m' S' f.
Proof.
move=> HS; exists (cond_mean m S 1%:M Sg y), (cond_cov S 1%:M Sg); split.
  by rewrite (@cond_cov_info Rr) //; [apply: (@spd_inv Rr); apply: info_spd => //; exact: noise_spd|exact: noise_spd].
move=> f; have := @gauss_bayes o o m S Sg 1%:M f y HS noise_spd.
rewrite trmx1 mulmx1 !mul1mx => ->; rewrite mvg_densityE; last exact: (@spd_psd Rr).
exact: (@addrC [zmodType of R]).
Qed.

Lemma mvg_bound m S y : psd S -> mvg_variational_expectations L m S y <= mvg_predict_density L m S y.
Proof.
move=> HS; rewrite mvg_veE mvg_densityE //.
have := @titsias o m y 0 Sg S (@psd0 Rr o) noise_spd HS; by rewrite !add0r.
Qed.
Lemma mvg_moments m S m' S' c b M : mvg_predict_mean_and_var L m S = (m', S') ->
  expects m S (fun f => quad_expect f Sg c b M) (quad_expect m' S' c b M).
Proof.
case=> <- <-; exists (c + \tr (M *m Sg)), b, M; split=> [f|].
  by rewrite /quad_expect /quad_fun mulmxDr mxtraceD -qf_tr; zmod.
by rewrite /quad_expect -/Sg !mulmxDr !mxtraceD; zmod.
Qed.
End Mvg.

Section Multi.
Variables (invb invp lgamma : R -> R).
Hypothesis Hb : forall f, 0 < invb f < 1.
Hypothesis Hp : forall f, 0 < invp f.
Hypothesis Hg : lgamma_ok lgamma.
Variables (f0 f1 f2 : R).
Local Notation p0 := (invb f0).
Local Notation p1 := (invb f1).
Local Notation lam := (invp f2).
Local Notation lp := (fun y => multi_log_prob invb invp lgamma f0 f1 f2 y).

Lemma exp_ln' (x : R) : 0 < x -> exp (ln x) = x.
Proof. by move=> /RltP H; apply: exp_ln. Qed.
Lemma exp_add (x y : R) : exp (x + y) = exp x * exp y.
Proof. exact: exp_plus. Qed.

Lemma multi0 : lp 0 = ln p0.
Proof.
rewrite /multi_log_prob /ext_bernoulli_log_prob !eqxx [0 == 1]eq_sym oner_eq0.
have -> : ((2%:R : R) <= 0) = false by rewrite -[0]/(0%:R) ler_nat.
by rewrite !addr0.
Qed.
Lemma multi1 : lp 1 = ln (1 - p0) + ln p1.
Proof.
rewrite /multi_log_prob /ext_bernoulli_log_prob !eqxx oner_eq0 [0 == 1]eq_sym oner_eq0.
have -> : ((2%:R : R) <= 1) = false by rewrite -[1]/(1%:R) ler_nat.
by rewrite addr0 add0r.
Qed.
Lemma multi2 k : lp (k.+2%:R) = ln (1 - p0) + ln (1 - p1) + (k%:R * ln lam - lam - ln (k`!)%:R).
Proof.
rewrite /multi_log_prob /ext_bernoulli_log_prob /ext_poisson_log_prob [0 == 1]eq_sym oner_eq0 !eqxx.
have E1 : ((k.+2)%:R == 1 :> R) = false by rewrite -[1]/(1%:R) eqr_nat.
rewrite pnatr_eq0 E1 ler_nat !add0r.
have E2 : ((k.+2)%:R - 2%:R)%R = k%:R :> R by rewrite -addn2 natrD addrK.
by rewrite E2 Hg.
Qed.

Lemma prob_gt : [/\ 0 < p0, 0 < 1 - p0, 0 < p1 & 0 < 1 - p1].
Proof. by have /andP [a b] := Hb f0; have /andP [a' b'] := Hb f1; rewrite !subr_gt0. Qed.

Lemma multi_zero : exp (lp 0) = p0.
Proof. by have [a b c d] := prob_gt; rewrite multi0 exp_ln'. Qed.
Lemma multi_one : exp (lp 1) = (1 - p0) * p1.
Proof. by have [a b c d] := prob_gt; rewrite multi1 exp_add !exp_ln'. Qed.
Lemma multi_more k : exp (lp (k.+2%:R)) = (1 - p0) * (1 - p1) * poisson_prob lam k.
Proof.
have [a b c d] := prob_gt; rewrite multi2 !exp_add !exp_ln' //; congr (_ * _).
have Hk : 0 < (k`!)%:R :> R by rewrite ltr0n fact_gt0.
rewrite -lnX // -lnV // !exp_ln' ?invr_gt0 ?exprn_gt0 // /poisson_prob.
by congr (_ * _); rewrite mulrC.
Qed.

Lemma factR k : (k`!)%:R = INR (fact k) :> R.
Proof.
rewrite natrR; congr INR; elim: k => // k IH; by rewrite factS IH /= mulSn.
Qed.

Lemma poisson_series : is_series (poisson_prob lam) 1%Re.
Proof.
have H := is_exp_Reals lam; rewrite /is_pseries in H.
have H2 := is_series_scal (exp (- lam)) _ _ H.
have -> : (1 = scal (exp (- lam)) (exp lam))%Re by rewrite /scal /= /mult /= -exp_plus Rplus_opp_l exp_0.
apply: is_series_ext H2 => k.
rewrite /poisson_prob factR exprR invrR; last exact: INR_fact_neq_0.
rewrite /scal /= /mult /= pow_n_pow; toR_ops; ring.
Qed.

Lemma multi_series : is_series (fun y : nat => exp (lp (y%:R))) 1%Re.
Proof.
have [a b c d] := prob_gt.
pose g (k : nat) := exp (lp (k.+2%:R)).
have H : is_series g ((1 - p0) * (1 - p1))%R.
  have H := is_series_scal ((1 - p0) * (1 - p1))%R _ _ poisson_series.
  have -> : ((1 - p0) * (1 - p1))%R = scal ((1 - p0) * (1 - p1))%R 1%Re by rewrite /scal /= /mult /= Rmult_1_r.
  by apply: is_series_ext H => k; rewrite /g multi_more.
have H1 := is_series_decr_1 (fun k : nat => exp (lp (k.+1%:R))) ((1 - p0) * (1 - p1) + (1 - p0) * p1)%R.
have H0 := is_series_decr_1 (fun k : nat => exp (lp (k%:R))) 1%Re.
apply: H0; rewrite mulr0n multi_zero.
have -> : plus 1%Re (opp p0) = ((1 - p0) * (1 - p1) + (1 - p0) * p1)%R.
  by rewrite /plus /opp /=; toR_ops; ring.
apply: H1; rewrite mulr1n multi_one.
by have -> : plus ((1 - p0) * (1 - p1) + (1 - p0) * p1)%R (opp ((1 - p0) * p1)) = ((1 - p0) * (1 - p1))%R
  by rewrite /plus /opp /=; toR_ops; ring.
Qed.

(* the law of sample_y *)
Definition draw_prob (b0 b1 : bool) (l : nat) : R := bernoulli_prob p0 b0 * bernoulli_prob p1 b1 * poisson_prob lam l.

Lemma is_series_one (k : nat) (v : R) : is_series (fun l => if l == k then v else 0%Re) v.
Proof.
elim: k => [|k IH].
  apply: is_series_decr_1; have -> : plus v (opp v) = 0%Re by rewrite /plus /opp /=; ring.
  apply: (is_series_ext (fun _ => 0%Re)) => [l|] //.
  have := is_series_scal 0%Re _ _ poisson_series.
  have -> : scal 0%Re 1%Re = 0%Re by rewrite /scal /= /mult /= Rmult_0_l.
  by apply: is_series_ext => l; rewrite /scal /= /mult /= Rmult_0_l.
apply: is_series_decr_1; have -> : plus v (opp 0%Re) = v by rewrite /plus /opp /=; ring.
exact: IH.
Qed.

Lemma sample_law (y : nat) :
  is_series (fun l => \sum_(b0 : bool) \sum_(b1 : bool) (if multi_sample_y b0 b1 l == y then draw_prob b0 b1 l else 0))
    (exp (lp (y%:R))).
Proof.
have [a b c d] := prob_gt.
pose q b0 b1 := bernoulli_prob p0 b0 * bernoulli_prob p1 b1.
have E w : is_series (fun l => w * poisson_prob lam l) w.
  have := is_series_scal w _ _ poisson_series.
  have -> : scal w 1%Re = w by rewrite /scal /= /mult /= Rmult_1_r.
  by apply: is_series_ext.
case: y => [|[|k]].
- rewrite mulr0n multi_zero; apply: is_series_ext (E p0) => l.
  rewrite !big_bool /multi_sample_y /draw_prob /= addn2 /=.
  by rewrite !addr0 -mulrDl -mulrDr addrCA subrr addr0 mulr1.
- rewrite mulr1n multi_one; apply: is_series_ext (E ((1 - p0) * p1)) => l.
  rewrite !big_bool /multi_sample_y /draw_prob /= addn2 /=.
  by rewrite !addr0 !add0r.
rewrite multi_more; set w := (1 - p0) * (1 - p1) * poisson_prob lam k.
apply: (is_series_ext (fun l => if l == k then w else 0%Re)); last exact: is_series_one.
move=> l.
rewrite !big_bool /multi_sample_y /draw_prob /= !addn2 /=.
rewrite !add0r add0n eqSS eqSS; by case: eqP => [->|].
Qed.

End Multi.

Section MultiVe.
Variables (invb invp lgamma : R -> R) (bern_ve poisson_ve : R -> R -> R -> R).
Variables (finite : (R -> R -> R -> R) -> Prop) (E : (R -> R -> R -> R) -> R).
Variables (m0 m1 m2 v0 v1 v2 : R).
Hypothesis HE : latent_expectation finite E.
Hypothesis H0 : forall y, finite (fun a _ _ => ext_bernoulli_log_prob invb a y) /\
  bern_ve m0 v0 y = E (fun a _ _ => ext_bernoulli_log_prob invb a y).
Hypothesis H1 : forall y, finite (fun _ b _ => ext_bernoulli_log_prob invb b y) /\
  bern_ve m1 v1 y = E (fun _ b _ => ext_bernoulli_log_prob invb b y).
Hypothesis H2 : forall y, finite (fun _ _ c => ext_poisson_log_prob invp lgamma c y) /\
  poisson_ve m2 v2 y = E (fun _ _ c => ext_poisson_log_prob invp lgamma c y).

Let F (f : R -> R -> R -> R) (e : R) := finite f /\ e = E f.
Lemma F_add f g e1 e2 : F f e1 -> F g e2 -> F (fun a b c => f a b c + g a b c) (e1 + e2).
Proof. by move=> [a ->] [b ->]; have [h1 h2] := le_add HE a b; split=> //; rewrite h2. Qed.
Lemma F_if (t : bool) f e : F f e -> F (fun a b c => if t then f a b c else 0) (if t then e else 0).
Proof. by case: t => // _; have [h1 h2] := le_const HE 0; split=> //; rewrite h2. Qed.

Lemma multi_ve_ok y : finite (fun a b c => multi_log_prob invb invp lgamma a b c y) /\
  multi_variational_expectations bern_ve poisson_ve m0 m1 m2 v0 v1 v2 y =
  E (fun a b c => multi_log_prob invb invp lgamma a b c y).
Proof.
rewrite /multi_variational_expectations /multi_log_prob.
apply: F_add; first (apply: F_add; first by apply: F_if; apply: H0).
  by apply: F_if; apply: F_add; [apply: H0|apply: H1].
by apply: F_if; apply: F_add; [apply: F_add; [apply: H0|apply: H1]|apply: H2].
Qed.
End MultiVe.

Section Other.
Variables (invb invp lgamma : R -> R).

Lemma multi_other f0 f1 f2 (y : R) : y < 2%:R -> y != 0 -> y != 1 -> multi_log_prob invb invp lgamma f0 f1 f2 y = 0.
Proof.
move=> H2 H0 H1; rewrite /multi_log_prob (negPf H0) (negPf H1) leNgt H2; by rewrite !addr0.
Qed.
End Other.

(* the default links of the constructor *)
Lemma probit_prob (erf : R -> R) : (forall x, - 1 <= erf x <= 1) -> forall x, 0 < ext_inv_probit erf x < 1.
Proof.
move=> H x; rewrite /ext_inv_probit; set e := erf _; have /andP [h1 h2] : - 1 <= e <= 1 by exact: H.
have -> : (10%:R ^+ 3)^-1 = (/ 1000)%Re :> R.
  rewrite exprR natrR invrR /=; last by lra.
  by congr Rinv; lra.
move/RleP: h1; move/RleP: h2; rewrite halfR twoR; toR_ops => h2 h1.
by apply/andP; split; apply/RltP; toR_ops; lra.
Qed.

Lemma exp_pos' (x : R) : 0 < exp x.
Proof. by apply/RltP; exact: exp_pos. Qed.

(* instances *)
Definition lgamma_nat (x : R) : R := ln (INR (fact (Z.to_nat (Z.sub (up x) (Zpos (xO xH)))))).
Lemma lgamma_nat_ok : lgamma_ok lgamma_nat.
Proof.
move=> k; rewrite /lgamma_nat factR; congr (ln (INR (fact _))).
have -> : up (k%:R + 1) = Z.add (Z.of_nat k) (Zpos (xO xH)).
  symmetry; apply: tech_up; rewrite natrR plus_IZR -INR_IZR_INZ; toR_ops; lra.
by rewrite Z.add_simpl_r Nat2Z.id.
Qed.

Definition two_point (m v : R) (g : R -> R) : R := 2%:R^-1 * (g (m + Num.sqrt v) + g (m - Num.sqrt v)).
Lemma two_point_const m v c : two_point m v (fun _ => c) = c.
Proof. by rewrite /two_point; rlra. Qed.
Definition two_points (m0 m1 m2 v0 v1 v2 : R) (f : R -> R -> R -> R) : R :=
  two_point m0 v0 (fun a => two_point m1 v1 (fun b => two_point m2 v2 (fun c => f a b c))).

Lemma two_points_ok m0 m1 m2 v0 v1 v2 : latent_expectation (fun _ => True) (two_points m0 m1 m2 v0 v1 v2).
Proof.
split=> [f g H _|c|f g _ _]; split=> //.
- by rewrite /two_points /two_point !H.
- by rewrite /two_points !two_point_const.
rewrite /two_points /two_point; set s0 := Num.sqrt v0; set s1 := Num.sqrt v1; set s2 := Num.sqrt v2.
by rewrite !mulrDr; zmod.
Qed.

Definition two_ve (lp : R -> R -> R) (m v y : R) : R := two_point m v (fun a => lp a y).
Lemma two_ve_ok (lb lq : R -> R -> R) m0 m1 m2 v0 v1 v2 : let E := two_points m0 m1 m2 v0 v1 v2 in
  [/\ forall y, True /\ two_ve lb m0 v0 y = E (fun a _ _ => lb a y),
      forall y, True /\ two_ve lb m1 v1 y = E (fun _ b _ => lb b y) &
      forall y, True /\ two_ve lq m2 v2 y = E (fun _ _ c => lq c y)].
Proof.
split=> y; split=> //; rewrite /two_points /two_ve.
- by rewrite /two_point; set t := lb _ y; set u := lb _ y; rlra.
- by rewrite two_point_const /two_point; set t := lb _ y; set u := lb _ y; rlra.
by rewrite two_point_const two_point_const.
Qed.

Lemma noise_example : lownz (\matrix_(i < 2, j < 2) (if (i < j)%N then 0 else - 1) : 'M[R]_2).
Proof.
split; first by apply/is_trig_mxP => i j H; rewrite mxE H.
by move=> i; rewrite mxE ltnn oppr_eq0 oner_eq0.
Qed.
