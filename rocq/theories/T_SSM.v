(* Property theorems C09-C17 and C65: state space models.

   Vocabulary: [ssm_path S eps] runs x_0 = mu_0 + chol_P_0 eps_0,
   x_{k+1} = A_k x_k + b_k + chol_Q_k eps_{k+1} ([gen_path] in S_SSM.v);
   [has_law N' N X m K] (S_SSM.v) says the path X has joint mean m and joint
   covariance K when its N inputs are independent standard normal vectors;
   [ssm_nonsing n S]: chol_P_0 and the n factors chol_Q_k are lower triangular with
   non-zero diagonal; n is the number of transitions, so there are n + 1 states.
   [gauss_logpdf], [gauss_kl], [expects] are in S_Gauss.v. *)
From Coq Require Import Reals.
From mathcomp Require Import all_ssreflect all_algebra.
From Verif Require Import RealStruct Log Nat Alg Lin Ent Spd M_Block S_Block P_Block P_Block2
  M_SSM S_SSM P_SSM M_SSMLog S_Gauss P_Gauss P_SSMLog P_Examples.
Set Implicit Arguments.
Unset Strict Implicit.
Unset Printing Implicit Defensive.
Import GRing.Theory Num.Theory.
Local Open Scope ring_scope.

(* every chain has a joint law, and only one: the hypotheses [has_law] below are
   always satisfiable *)
Theorem C09_law_exists_unique (F : rcfType) (d n : nat) (S : ssm F d) :
  (exists m K, has_law n.+1 n.+1 (ssm_path S) m K) /\
  forall m K m' K', has_law n.+1 n.+1 (ssm_path S) m K -> has_law n.+1 n.+1 (ssm_path S) m' K' ->
    (forall k, (k < n.+1)%N -> m k = m' k) /\
    (forall i j, (i < n.+1)%N -> (j < n.+1)%N -> K i j = K' i j).
Proof.
exact: (conj (ex_intro _ _ (ex_intro _ _ (ssm_has_law n S)))
             (fun m K m' K' => @has_law_unique F d d n.+1 n.+1 (ssm_path S) m K m' K')).
Qed.
Print Assumptions C09_law_exists_unique.

Theorem C09_marginals (F : rcfType) (d n : nat) (S : ssm F d) m K :
  ssm_nonsing n S -> has_law n.+1 n.+1 (ssm_path S) m K ->
  [/\ forall k, (k <= n)%N -> ssm_marginal_means n S k = m k,
      forall k, (k <= n)%N -> ssm_marginal_covariances n S k = K k k,
      forall k, (k <= n)%N -> (ssm_covariance_blocks n S).1 k = K k k &
      forall k, (k < n)%N -> (ssm_covariance_blocks n S).2 k = K k.+1 k].
Proof. exact: ssm_covariances. Qed.
Print Assumptions C09_marginals.

(* the same moments as the textbook recursions *)
Theorem C09_moment_recursions (F : rcfType) (d n : nat) (S : ssm F d) :
  ssm_nonsing n S ->
  [/\ ssm_marginal_means n S 0%N = s_mu0 S,
      forall k, (k < n)%N -> ssm_marginal_means n S k.+1 = s_A S k *m ssm_marginal_means n S k + s_b S k,
      ssm_marginal_covariances n S 0%N = s_cholP0 S *m (s_cholP0 S)^T &
      forall k, (k < n)%N -> ssm_marginal_covariances n S k.+1 =
        s_A S k *m ssm_marginal_covariances n S k *m (s_A S k)^T + s_cholQ S k *m (s_cholQ S k)^T].
Proof. exact: ssm_moments_rec. Qed.
Print Assumptions C09_moment_recursions.

(* random walk with drift b: mean mu + 2 b and covariance 3 after two steps *)
Example C09_example (F : rcfType) (d : nat) (mu b : 'cV[F]_d) :
  ssm_marginal_means 2 (ex_ssm mu b) 2 = mu + b + b /\
  ssm_marginal_covariances 2 (ex_ssm mu b) 2 = 1%:M + 1%:M + 1%:M.
Proof.
have H := ex_ssm_nonsing 2 mu b; rewrite marginal_meansE // marginal_covE //=.
by rewrite !mul1mx /ssm_Qc /= trmx1 !mulmx1.
Qed.

Theorem C10_precision (F : rcfType) (d n : nat) (S : ssm F d) m K :
  ssm_nonsing n S -> has_law n.+1 n.+1 (ssm_path S) m K ->
  btd_to_dense n.+1 true (ssm_precision n S) *m dense n.+1 n.+1 K = 1%:M /\
  dense n.+1 n.+1 K *m btd_to_dense n.+1 true (ssm_precision n S) = 1%:M.
Proof. exact: precision_law. Qed.
Print Assumptions C10_precision.

(* precision of the two step random walk: diagonal 2 2 1, off-diagonal -1 *)
Example C10_example (F : rcfType) (d : nat) (mu b : 'cV[F]_d) :
  let P := ssm_precision 2 (ex_ssm mu b) in
  [/\ ssm_nonsing 2 (ex_ssm mu b), bt_diag P 0%N = 1%:M + 1%:M, bt_diag P 2 = 1%:M &
      osub (bt_sub P) 0%N = - 1%:M].
Proof.
have H := ex_ssm_nonsing 2 mu b.
have E : ext_cholesky_solve 1%:M 1%:M = 1%:M :> 'M[F]_d.
  by rewrite chol_solveE ?trmx1 ?mulmx1 ?invmx1 //; case: H.
split=> //=; rewrite /= ?E ?trmx1 ?mulmx1 ?addr0 //.
Qed.

Theorem C11_log_det_precision (d n : nat) (S : ssm Rr d) m K :
  ssm_nonsing n S -> has_law n.+1 n.+1 (ssm_path S) m K ->
  ssm_log_det_precision n S = ln (\det (btd_to_dense n.+1 true (ssm_precision n S))) /\
  ssm_log_det_precision n S = - ln (\det (dense n.+1 n.+1 K)).
Proof. exact: log_det_precision_law. Qed.
Print Assumptions C11_log_det_precision.

Theorem C12_log_pdf (d n : nat) (S : ssm Rr d) m K x :
  ssm_nonsing n S -> has_law n.+1 n.+1 (ssm_path S) m K ->
  ssm_log_pdf n S x = gauss_logpdf (flat n.+1 m) (dense n.+1 n.+1 K) (flat n.+1 x).
Proof. exact: log_pdf_law. Qed.
Print Assumptions C12_log_pdf.

(* the hypotheses of C11-C16 are met by a random walk of any length *)
Example C12_example (d n : nat) (mu b : 'cV[R]_d) :
  ssm_nonsing n (ex_ssm (F := Rr) mu b) /\
  exists m K, has_law n.+1 n.+1 (ssm_path (ex_ssm (F := Rr) mu b)) m K.
Proof.
split; first exact: ex_ssm_nonsing.
by do 2 eexists; apply: ssm_has_law.
Qed.

(* C13, C14.  [expects m K f e]: e is the expectation of the quadratic f under
   N(m, K); the divergence is E_1[log p_1 - log p_2]. *)
Theorem C13_kl_divergence (d n : nat) (S S' : ssm Rr d) m K m' K' :
  ssm_nonsing n S -> ssm_nonsing n S' ->
  has_law n.+1 n.+1 (ssm_path S) m K -> has_law n.+1 n.+1 (ssm_path S') m' K' ->
  ssm_kl_divergence n S S' =
    gauss_kl (flat n.+1 m) (dense n.+1 n.+1 K) (flat n.+1 m') (dense n.+1 n.+1 K').
Proof. exact: (fun H H' L L' => let: And4 a _ _ _ := kl_law H H' L L' in a). Qed.
Print Assumptions C13_kl_divergence.

Theorem C13_kl_expectation (d n : nat) (S S' : ssm Rr d) m K m' K' :
  ssm_nonsing n S -> ssm_nonsing n S' ->
  has_law n.+1 n.+1 (ssm_path S) m K -> has_law n.+1 n.+1 (ssm_path S') m' K' ->
  expects (flat n.+1 m) (dense n.+1 n.+1 K)
    (fun v => ssm_log_pdf n S (unflat v) - ssm_log_pdf n S' (unflat v))
    (ssm_kl_divergence n S S').
Proof. exact: (fun H H' L L' => let: And4 _ a _ _ := kl_law H H' L L' in a). Qed.
Print Assumptions C13_kl_expectation.

Theorem C14_kl_nonneg (d n : nat) (S S' : ssm Rr d) m K m' K' :
  ssm_nonsing n S -> ssm_nonsing n S' ->
  has_law n.+1 n.+1 (ssm_path S) m K -> has_law n.+1 n.+1 (ssm_path S') m' K' ->
  0 <= ssm_kl_divergence n S S' /\
  (ssm_kl_divergence n S S' = 0 <->
     (forall k, (k <= n)%N -> m k = m' k) /\
     (forall i j, (i <= n)%N -> (j <= n)%N -> K i j = K' i j)).
Proof. exact: (fun H H' L L' => let: And4 _ _ a b := kl_law H H' L L' in conj a b). Qed.
Print Assumptions C14_kl_nonneg.

(* two random walks with different drifts *)
Example C14_example d (mu b b' : 'cV[R]_d) : b != b' ->
  0 < ssm_kl_divergence 1 (ex_ssm (F := Rr) mu b) (ex_ssm (F := Rr) mu b').
Proof. exact: kl_example. Qed.

Theorem C15_sample (F : rcfType) (d n : nat) (S : ssm F d) :
  (forall eps k, (k <= n)%N -> ssm_sample n S eps k = ssm_path S eps k) /\
  forall m K, has_law n.+1 n.+1 (ssm_path S) m K -> has_law n.+1 n.+1 (ssm_sample n S) m K.
Proof. exact: (conj (fun eps k Hk => sampleE S eps Hk) (fun m K => @sample_law F d n S m K)). Qed.
Print Assumptions C15_sample.

Example C15_example (F : rcfType) (d : nat) (mu b : 'cV[F]_d) (eps : nat -> 'cV[F]_d) :
  ssm_sample 1 (ex_ssm mu b) eps 1%N = mu + eps 0%N + b + eps 1%N.
Proof. by rewrite sampleE //= !mul1mx. Qed.

Theorem C16_normalizer (d n : nat) (S : ssm Rr d) m K :
  ssm_nonsing n S -> has_law n.+1 n.+1 (ssm_path S) m K ->
  ssm_normalizer n S =
  2%:R^-1 * ((n.+1 * d)%:R * ln (2%:R * PI) + ln (\det (dense n.+1 n.+1 K))
             + qf (invmx (dense n.+1 n.+1 K)) (flat n.+1 m)).
Proof. exact: normalizer_law. Qed.
Print Assumptions C16_normalizer.

(* [chain_cov A Qc] is the covariance of a chain with transitions A and noise
   covariances Qc (S_SSM.v) *)
Theorem C17_from_covariances (F : rcfType) (d n : nat) mu0 (P0 : 'M[F]_d) A b (Q : nat -> 'M[F]_d) :
  let S := ssm_from_covariances mu0 P0 A b Q in
  (spd P0 \/ P0 = 0) -> (forall k, (k < n)%N -> spd (Q k) \/ Q k = 0) ->
  [/\ ssm_initial_covariance S = P0,
      forall k, (k < n)%N -> s_cholQ S k *m (s_cholQ S k)^T = Q k,
      forall k, (k < n)%N -> Q k = 0 -> s_cholQ S k = 0,
      P0 = 0 -> s_cholP0 S = 0 &
      has_law n.+1 n.+1 (ssm_path S) (ssm_marginal_means n S) (chain_cov A (tcons P0 Q))].
Proof. exact: from_covariances_law. Qed.
Print Assumptions C17_from_covariances.

(* a chain with a deterministic step between two noisy ones *)
Example C17_example (F : rcfType) (d : nat) :
  let Q k : 'M[F]_d := if k == 1%N then 0 else 1%:M in
  forall k, (k < 3)%N -> spd (Q k) \/ Q k = 0.
Proof. by move=> Q [|[|k]] _; [left; apply: spd1 | right | left; apply: spd1]. Qed.

(* C65.  A chain with a single time point (no transitions) cannot be used: the
   constructor of the block bidiagonal matrix rejects it; any positive number of
   transitions is accepted. *)
Theorem C65_single_time_point (F : rcfType) (d n : nat) (S : ssm F d) :
  ssm_ok n S = (0 < n)%N.
Proof. exact: ssm_okE. Qed.
Print Assumptions C65_single_time_point.
