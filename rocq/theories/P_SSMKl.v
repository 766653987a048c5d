(* The chain rule of the KL divergence between two state space models. *)
From Coq Require Import Reals Lra.
From mathcomp Require Import all_ssreflect all_algebra.
From Verif Require Import Nat RealStruct Alg Lin Spd Log M_Block P_Block M_SSM S_SSM P_SSM S_Gauss P_Gauss M_SSMLog P_SSMLog.
Set Implicit Arguments.
Unset Strict Implicit.
Unset Printing Implicit Defensive.
Import GRing.Theory Num.Theory.
Local Open Scope ring_scope.

Section Resid.
Variables (F : rcfType) (d n : nat) (S S' : ssm F d).
Let V := chain_var (s_A S) (ssm_Qc S).
Let K := ssm_cov S.
Let T' := ainv_blocks (s_A S').

Lemma resid_alg (A A' W Q : 'M[F]_d) :
  A *m W *m A^T + Q - A' *m (W *m A^T) - (A *m W - A' *m W) *m A'^T = Q + (A - A') *m W *m (A - A')^T.
Proof. by rewrite raddfB /= !(mulmxBl, mulmxBr) !mulmxA; zmod. Qed.

Definition dA k : 'M[F]_d := s_A S k - s_A S' k.
(* covariance of the residuals of S' under S *)
Definition resid k : 'M[F]_d := if k is l.+1 then ssm_Qc S l.+1 + dA l *m V l *m (dA l)^T else ssm_Qc S 0%N.

Lemma resid_block k : (k < n.+1)%N ->
  \sum_(j < n.+1) (\sum_(i < n.+1) T' k i *m K i j) *m (T' k j)^T = resid k.
Proof.
move=> Hk; pose M j := \sum_(i < n.+1) T' k i *m K i j.
have EM j : M j = K k j - prevb (fun l => s_A S' l *m K l j) k.
  rewrite /M (sum_lower _ _ (fun i => K i j) Hk) mul1mx /prevb; case: (k) => [|l]; first by rewrite subr0 addr0.
  by rewrite mulNmx.
rewrite (eq_bigr (fun j : 'I_n.+1 => (T' k j *m (M j)^T)^T)); last by move=> j _; rewrite trmx_mul trmxK.
rewrite -raddf_sum /= (sum_lower _ _ (fun j => (M j)^T) Hk) mul1mx /resid /prevb.
case: k Hk @M EM => [|k] Hk M EM.
  by rewrite addr0 trmxK EM /= subr0 /K /ssm_cov chain_cov_diag.
rewrite mulNmx [(_ - _)^T]raddfB /= trmx_mul !trmxK !EM /= /K /ssm_cov chain_cov_diag chain_cov_succ chain_cov_diag /=.
rewrite -[chain_cov _ _ k k.+1]trmxK chain_cov_tr; last by move=> j; rewrite ssm_Qc_sym.
rewrite chain_cov_succ trmx_mul chain_var_sym; last by move=> j; rewrite ssm_Qc_sym.
exact: resid_alg.
Qed.

Lemma qf_expand (P E : 'M[F]_d) (c x : 'cV[F]_d) : P^T = P ->
  qf P (c - E *m x) = qf P c - 2%:R * (c^T *m P *m E *m x) 0 0 + qf (E^T *m P *m E) x.
Proof.
move=> sP; set a := (c^T *m P *m E *m x) 0 0.
have E1 : a = (x^T *m E^T *m P *m c) 0 0.
  transitivity ((c^T *m P *m E *m x)^T 0 0); first by rewrite mxE.
  by rewrite !trmx_mul trmxK sP !mulmxA.
rewrite mulr_natl mulr2n {2}E1 /a /qf [(c - _)^T]raddfB /= [(E *m x)^T]trmx_mul !(mulmxBl, mulmxBr) !mulmxA.
set t1 := _ *m c; set t2 := _ *m c; set t3 := _ *m x; set t4 := _ *m x.
move: t1 t2 t3 t4 => t1 t2 t3 t4; by rewrite !mxE; zmod.
Qed.

Lemma lin_term (P E : 'M[F]_d) (c x : 'cV[F]_d) : P^T = P ->
  ((- (E^T *m P *m c))^T *m x) 0 0 = - (c^T *m P *m E *m x) 0 0.
Proof. by move=> sP; rewrite raddfN /= !trmx_mul trmxK sP !mulmxA mulNmx mxE. Qed.
Lemma tr_term (P E Q W : 'M[F]_d) : \tr (P *m (Q + E *m W *m E^T)) = \tr (P *m Q) + \tr (E^T *m P *m E *m W).
Proof. by rewrite mulmxDr mxtraceD; congr (_ + _); rewrite mulmxA [LHS]mxtrace_mulC !mulmxA. Qed.
End Resid.

Lemma scal1 (t1 t2 t3 t4 t5 l w : R) :
  2%:R^-1 * (t1 + (t5 - 2%:R * l + w) - t2 + t3 - t4) = 2%:R^-1 * (t1 - t2 + t3 - t4 + t5) + - l + 2%:R^-1 * w.
Proof. by rlra. Qed.
Lemma scal2 (t1 t6 t2 t3 t4 t5 l w : R) :
  2%:R^-1 * (t1 + t6 + (t5 - 2%:R * l + w) - t2 + t3 - t4) = 2%:R^-1 * (t1 - t2 + t3 - t4 + t5) + - l + 2%:R^-1 * (t6 + w).
Proof. by rlra. Qed.

Lemma mean_alg (V : zmodType) (a b c e f : V) : a + b - (c + e) - (a - f) = f + b - (c + e).
Proof. by zmod. Qed.
Lemma diff_alg (V : zmodType) (a b u v : V) : v + b - (u + a) = b - a - (u - v).
Proof. by zmod. Qed.
Lemma sum_alg (n d : nat) (q0 : R) (a q l' l : nat -> R) :
  \sum_(k < n.+1) a k + (q0 + \sum_(k < n) q k) - (n.+1 * d)%:R + \sum_(k < n.+1) l' k - \sum_(k < n.+1) l k =
  (a 0%N + q0 - d%:R + l' 0%N - l 0%N) + \sum_(k < n) (a k.+1 + q k - d%:R + l' k.+1 - l k.+1).
Proof.
elim: n => [|n IH]; first by rewrite !big_ord1 !big_ord0 !addr0 mul1n.
rewrite [X in _ = _ + X]big_ord_recr /= [RHS]addrA -IH.
have -> : (n.+2 * d)%:R = d%:R + (n.+1 * d)%:R :> R by rewrite -natrD.
rewrite [\sum_(k < n.+2) a k]big_ord_recr [\sum_(k < n.+2) l' k]big_ord_recr [\sum_(k < n.+2) l k]big_ord_recr
  [\sum_(k < n.+1) q k]big_ord_recr /=.
move: (\sum_(k < n.+1) a k) (\sum_(k < n.+1) l' k) (\sum_(k < n.+1) l k) (\sum_(k < n) q k) => t1 t2 t3 t4.
move: ((n.+1 * d)%:R : R) (d%:R : R) (a n.+1) (q n) (l' n.+1) (l n.+1) => u1 u2 u3 u4 u5 u6.
by toR_ops; lra.
Qed.

Lemma kl_parts N (m1 : 'cV[R]_N) K1 m2 K2 t q l2 l1 :
  \tr (invmx K2 *m K1) = t -> qf (invmx K2) (m2 - m1) = q -> ln (\det K2) = l2 -> ln (\det K1) = l1 ->
  gauss_kl m1 K1 m2 K2 = 2%:R^-1 * (t + q - N%:R + l2 - l1).
Proof. by move=> <- <- <- <-. Qed.

Lemma gauss_kl_step d (A A' Q Q' W : 'M[R]_d) (b b' mu : 'cV[R]_d) : (invmx Q')^T = invmx Q' ->
  expects mu W (fun x => gauss_kl (A *m x + b) Q (A' *m x + b') Q')
    (2%:R^-1 * (\tr (invmx Q' *m (Q + (A - A') *m W *m (A - A')^T))
      + qf (invmx Q') (A' *m mu + b' - (A *m mu + b)) - d%:R + ln (\det Q') - ln (\det Q))).
Proof.
set P := invmx Q'; move=> sP; set E := A - A'; set c := b' - b.
pose t := \tr (P *m Q) - d%:R + ln (\det Q') - ln (\det Q).
have Ex x : A' *m x + b' - (A *m x + b) = c - E *m x by rewrite /E /c mulmxBl; move: (A *m x) (A' *m x) => u v; exact: diff_alg.
exists (2%:R^-1 * (t + qf P c)), (- (E^T *m P *m c)), (2%:R^-1 *: (E^T *m P *m E)); split=> [x|].
  rewrite /gauss_kl -/P Ex (@qf_expand Rr) // /quad_fun qfZ (@lin_term Rr) //; exact: scal1.
rewrite Ex (@qf_expand Rr) // /quad_expect (@lin_term Rr) // (@tr_term Rr) -scalemxAl mxtraceZ.
rewrite [_ *m (W + _)]mulmxDr mxtraceD -qf_tr.
exact: scal2.
Qed.

Section Kl.
Variables (d n : nat) (S S' : ssm Rr d).
Hypotheses (H : ssm_nonsing n S) (H' : ssm_nonsing n S').
Let m := ssm_marginal_means n S.
Let V := chain_var (s_A S) (ssm_Qc S).
Let K := ssm_cov S.
Let T' := ainv_blocks (s_A S').

Lemma tr_resid : \tr (invmx (dense n.+1 n.+1 (ssm_cov S')) *m dense n.+1 n.+1 K) =
  \sum_(k < n.+1) \tr (invmx (ssm_Qc S' k) *m resid S S' k).
Proof.
rewrite -(inv_precision H') invmxK precision_dense //.
rewrite -/T'; set D := dense _ _ (bdiag _); set T := dense _ _ T'.
have -> : T^T *m D *m T *m dense n.+1 n.+1 K = T^T *m (D *m (T *m dense n.+1 n.+1 K)) by rewrite !mulmxA.
rewrite mxtrace_mulC -mulmxA /T /D tr_dense mul_dense mul_dense mul_dense tr_dense_diag.
apply: eq_bigr => k _.
rewrite (sum_bdiag_l _ (fun q => \sum_(j < n.+1) (\sum_(i < n.+1) T' q i *m K i j) *m (T' k j)^T)) //.
by rewrite (resid_block S S' (ltn_ord k)).
Qed.

Lemma qf_resid : qf (invmx (dense n.+1 n.+1 (ssm_cov S'))) (flat n.+1 (ssm_marginal_means n S') - flat n.+1 m) =
  qf (invmx (ssm_Qc S' 0%N)) (s_mu0 S' - s_mu0 S) +
  \sum_(k < n) qf (invmx (ssm_Qc S' k.+1)) (s_A S' k *m m k + s_b S' k - (s_A S k *m m k + s_b S k)).
Proof.
rewrite -(inv_precision H') invmxK flatB qf_precision // big_ord_recl; congr (_ + _).
  by rewrite subr0 /m !marginal_meansE.
apply: eq_bigr => k _; rewrite lift0; congr (qf _ _); rewrite /prevb mulmxBr /m.
have [_ E _ _] := ssm_moments_rec H; have [_ E' _ _] := ssm_moments_rec H'.
rewrite (E k (ltn_ord k)) (E' k (ltn_ord k)); exact: mean_alg.
Qed.

Lemma ln_det_sum (U : ssm Rr d) : ssm_nonsing n U ->
  ln (\det (dense n.+1 n.+1 (ssm_cov U))) = \sum_(k < n.+1) ln (\det (ssm_Qc U k)).
Proof.
move=> HU; rewrite ln_det_cov // log_det_precisionE // det_precision // ln_prod; last first.
  by move=> k; apply: (@spd_det_gt0 Rr); apply: (@spd_inv Rr); apply: ssm_Qc_spd HU _ _.
rewrite -sumrN; apply: eq_bigr => k _; rewrite ln_det_inv ?opprK //; exact: (ssm_Qc_spd HU).
Qed.

(* the expected KL divergence of the transition k *)
Definition step_kl k : R :=
  2%:R^-1 * (\tr (invmx (ssm_Qc S' k.+1) *m (ssm_Qc S k.+1 + dA S S' k *m V k *m (dA S S' k)^T))
    + qf (invmx (ssm_Qc S' k.+1)) (s_A S' k *m m k + s_b S' k - (s_A S k *m m k + s_b S k)) - d%:R
    + ln (\det (ssm_Qc S' k.+1)) - ln (\det (ssm_Qc S k.+1))).

Lemma kl_steps : ssm_kl_divergence n S S' =
  gauss_kl (s_mu0 S) (ssm_Qc S 0%N) (s_mu0 S') (ssm_Qc S' 0%N) + \sum_(k < n) step_kl k.
Proof.
rewrite (kl_divergenceE H H') (kl_parts tr_resid qf_resid (ln_det_sum H') (ln_det_sum H)).
rewrite /gauss_kl /step_kl -big_distrr -mulrDr; congr (_ * _).
exact: (sum_alg n d _ (fun k => \tr (invmx (ssm_Qc S' k) *m resid S S' k))
  (fun k => qf (invmx (ssm_Qc S' k.+1)) (s_A S' k *m m k + s_b S' k - (s_A S k *m m k + s_b S k)))
  (fun k => ln (\det (ssm_Qc S' k))) (fun k => ln (\det (ssm_Qc S k)))).
Qed.

Lemma step_expects k : (k < n)%N ->
  expects (m k) (V k) (fun x => gauss_kl (s_A S k *m x + s_b S k) (ssm_Qc S k.+1) (s_A S' k *m x + s_b S' k) (ssm_Qc S' k.+1))
    (step_kl k).
Proof.
move=> Hk; apply: gauss_kl_step.
by apply: (@spd_sym Rr); apply: (@spd_inv Rr); apply: (ssm_Qc_spd H').
Qed.
End Kl.

Lemma kl_chain_rule (d n : nat) (S S' : ssm Rr d) m K : ssm_nonsing n S -> ssm_nonsing n S' ->
  has_law n.+1 n.+1 (ssm_path S) m K ->
  let P0 := s_cholP0 S *m (s_cholP0 S)^T in let P0' := s_cholP0 S' *m (s_cholP0 S')^T in
  let Q k := s_cholQ S k *m (s_cholQ S k)^T in let Q' k := s_cholQ S' k *m (s_cholQ S' k)^T in
  exists e : nat -> R,
    (forall k, (k < n)%N ->
       expects (m k) (K k k) (fun x => gauss_kl (s_A S k *m x + s_b S k) (Q k) (s_A S' k *m x + s_b S' k) (Q' k)) (e k)) /\
    ssm_kl_divergence n S S' = gauss_kl (s_mu0 S) P0 (s_mu0 S') P0' + \sum_(k < n) e k.
Proof.
move=> H H' L; exists (step_kl n S S'); split; last exact: kl_steps.
move=> k Hk; have [Em Ev _ _] := ssm_covariances H L.
have Hk' : (k < n.+1)%N by apply: ltnW.
have := @step_expects d n S S' H' k Hk; rewrite (Em k (ltnW Hk)) -(marginal_covE H Hk') (Ev k (ltnW Hk)); exact.
Qed.
