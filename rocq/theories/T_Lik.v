(* C57, C58: likelihoods. *)
From Coq Require Import Reals.
From Coquelicot Require Import Coquelicot.
From mathcomp Require Import all_ssreflect all_algebra.
From Verif Require Import RealStruct Spd S_Gauss M_Block M_SSM M_SSMLog M_Lik S_Lik P_Lik.
Set Implicit Arguments.
Unset Strict Implicit.
Unset Printing Implicit Defensive.
Import GRing.Theory Num.Theory.
Local Open Scope ring_scope.

(* ---------- C57: multivariate Gaussian likelihood ---------- *)

(* log p(y | f) is the log density of N(f, L L^T) at y *)
Theorem C57_log_density o (L : 'M[R]_o) f y : lownz (R := Rr) L ->
  mvg_log_probability_density L f y = gauss_logpdf f (L *m L^T) y.
Proof. move=> H; exact: mvg_log_prob_ok. Qed.
Print Assumptions C57_log_density.

(* the variational expectation is the expectation of log p(y | f) for f with mean m, covariance S *)
Theorem C57_expectation o (L : 'M[R]_o) m S y : lownz (R := Rr) L ->
  expects m S (fun f => gauss_logpdf f (L *m L^T) y) (mvg_variational_expectations L m S y).
Proof. move=> H; exact: mvg_expectation. Qed.
Print Assumptions C57_expectation.

(* the predictive density p(y) is the normaliser of N(f; m, S) p(y | f) as a density of f: the
   product is p(y) times a Gaussian density of f *)
Theorem C57_density o (L : 'M[R]_o) m S y : lownz (R := Rr) L -> spd (R := Rr) S ->
  exists m' S', spd (R := Rr) S' /\
  forall f, gauss_logpdf m S f + gauss_logpdf f (L *m L^T) y = mvg_predict_density L m S y + gauss_logpdf m' S' f.
Proof. move=> H; exact: mvg_density. Qed.
Print Assumptions C57_density.

(* and it is the density of N(m, S + L L^T) *)
Theorem C57_density_formula o (L : 'M[R]_o) m S y : lownz (R := Rr) L -> psd (R := Rr) S ->
  mvg_predict_density L m S y = gauss_logpdf m (S + L *m L^T) y.
Proof. move=> H; exact: mvg_densityE. Qed.
Print Assumptions C57_density_formula.

(* the predictive moments: the expectation of every quadratic function of y under them is the
   expectation over f of its conditional expectation given f *)
Theorem C57_moments o (L : 'M[R]_o) m S m' S' c b M : mvg_predict_mean_and_var L m S = (m', S') ->
  expects m S (fun f => quad_expect f (L *m L^T) c b M) (quad_expect m' S' c b M).
Proof. exact: mvg_moments. Qed.
Print Assumptions C57_moments.

(* Jensen: the expected log density is at most the log of the expected density *)
Theorem C57_bound o (L : 'M[R]_o) m S y : lownz (R := Rr) L -> psd (R := Rr) S ->
  mvg_variational_expectations L m S y <= mvg_predict_density L m S y.
Proof. move=> H; exact: mvg_bound. Qed.
Print Assumptions C57_bound.

Example C57_case : lownz (R := Rr) (\matrix_(i < 2, j < 2) (if (i < j)%N then 0 else - 1)) /\ spd (R := Rr) (1%:M : 'M_2).
Proof. split; [exact: noise_example|exact: spd1]. Qed.

(* ---------- C58: multi-stage likelihood ---------- *)

(* the links of the two decisions have values in (0, 1), the rate is positive and lgamma is the
   log factorial on counts *)

(* the probabilities of the decision tree *)
Theorem C58_tree (link rate lgamma : R -> R) (f0 f1 f2 : R) : (forall f, 0 < link f < 1) -> (forall f, 0 < rate f) -> lgamma_ok lgamma ->
  let p y := exp (multi_log_prob link rate lgamma f0 f1 f2 y) in
  [/\ p 0 = link f0, p 1 = (1 - link f0) * link f1 &
      forall k : nat, p (k.+2)%:R = (1 - link f0) * (1 - link f1) * poisson_prob (rate f2) k].
Proof. move=> H1 H2 H3 p; split; [exact: multi_zero|exact: multi_one|exact: multi_more]. Qed.
Print Assumptions C58_tree.

(* they are positive and sum to one over the counts *)
Theorem C58_probability (link rate lgamma : R -> R) (f0 f1 f2 : R) : (forall f, 0 < link f < 1) -> (forall f, 0 < rate f) -> lgamma_ok lgamma ->
  let p y := exp (multi_log_prob link rate lgamma f0 f1 f2 y) in
  (forall y, 0 < p y) /\ is_series (fun y : nat => p y%:R) 1%Re.
Proof. move=> H1 H2 H3 p; split=> [y|]; [exact: exp_pos'|exact: multi_series]. Qed.
Print Assumptions C58_probability.

(* sample_y draws the count y with probability p y: the probability of the Bernoulli draws b0,
   b1 and the Poisson draw l, summed over those for which sample_y returns y *)
Theorem C58_sample (link rate lgamma : R -> R) (f0 f1 f2 : R) : (forall f, 0 < link f < 1) -> (forall f, 0 < rate f) -> lgamma_ok lgamma ->
  let p y := exp (multi_log_prob link rate lgamma f0 f1 f2 y) in
  forall y : nat,
  is_series (fun l => \sum_(b0 : bool) \sum_(b1 : bool)
      (if multi_sample_y b0 b1 l == y
       then bernoulli_prob (link f0) b0 * bernoulli_prob (link f1) b1 * poisson_prob (rate f2) l else 0))
    (p y%:R).
Proof. move=> H1 H2 H3 p y; exact: sample_law. Qed.
Print Assumptions C58_sample.

(* the variational expectation is the expectation of the log probability, when the expectations
   of the Bernoulli and Poisson likelihoods are *)
Theorem C58_expectation link rate lgamma (bern_ve poisson_ve : R -> R -> R -> R) finite E m0 m1 m2 v0 v1 v2 :
  latent_expectation finite E ->
  (forall y, finite (fun a _ _ => ext_bernoulli_log_prob link a y) /\
     bern_ve m0 v0 y = E (fun a _ _ => ext_bernoulli_log_prob link a y)) ->
  (forall y, finite (fun _ b _ => ext_bernoulli_log_prob link b y) /\
     bern_ve m1 v1 y = E (fun _ b _ => ext_bernoulli_log_prob link b y)) ->
  (forall y, finite (fun _ _ c => ext_poisson_log_prob rate lgamma c y) /\
     poisson_ve m2 v2 y = E (fun _ _ c => ext_poisson_log_prob rate lgamma c y)) ->
  forall y, finite (fun a b c => multi_log_prob link rate lgamma a b c y) /\
    multi_variational_expectations bern_ve poisson_ve m0 m1 m2 v0 v1 v2 y =
    E (fun a b c => multi_log_prob link rate lgamma a b c y).
Proof. exact: multi_ve_ok. Qed.
Print Assumptions C58_expectation.

(* the default links, inv_probit and exp, give probabilities and rates *)
Theorem C58_default_links (erf : R -> R) : (forall x, - 1 <= erf x <= 1) ->
  forall x, 0 < ext_inv_probit erf x < 1 /\ 0 < exp x.
Proof. move=> H x; split; [exact: probit_prob|exact: exp_pos']. Qed.
Print Assumptions C58_default_links.

(* a value below two that is not a count gets log probability zero for every latent value: it is
   accepted, as an event of probability one *)
Theorem C58_other_values link rate lgamma f0 f1 f2 y : y < 2%:R -> y != 0 -> y != 1 ->
  multi_log_prob link rate lgamma f0 f1 f2 y = 0.
Proof. exact: multi_other. Qed.
Print Assumptions C58_other_values.

Example C58_links_case : (forall x, 0 < ext_inv_probit (fun _ => 2%:R^-1) x < 1) /\ (forall x, 0 < exp x) /\ lgamma_ok lgamma_nat.
Proof.
split; [apply: probit_prob => x|split; [exact: exp_pos'|exact: lgamma_nat_ok]].
apply/andP; split; first by apply: (@Order.POrderTheory.le_trans _ _ 0); rewrite ?oppr_le0 ?ler01 ?invr_ge0 ?ler0n.
by rewrite invf_le1 ?ler1n ?ltr0n.
Qed.
Example C58_expectation_case (lb lq : R -> R -> R) m0 m1 m2 v0 v1 v2 : let E := two_points m0 m1 m2 v0 v1 v2 in
  latent_expectation (fun _ => True) E /\
  [/\ forall y, True /\ two_ve lb m0 v0 y = E (fun a _ _ => lb a y),
      forall y, True /\ two_ve lb m1 v1 y = E (fun _ b _ => lb b y) &
      forall y, True /\ two_ve lq m2 v2 y = E (fun _ _ c => lq c y)].
Proof. split; [exact: two_points_ok|exact: two_ve_ok]. Qed.
