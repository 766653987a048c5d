(* Property theorems C23-C25: natural and expectation parameters.

   Vocabulary (S_Trans.v): [same_ssm n], [same_triple n] compare the parameters that
   exist; [ssm_chol n S]: the Cholesky arguments are lower triangular with positive
   diagonal; [nat_exponent n t x] = theta^T x + sum_k x_k^T Theta_kk x_k
   + sum_k x_{k+1}^T Theta_{k+1,k} x_k; [nat_valid], [cond_valid], [exp_valid]: the
   parameters of a non degenerate Gaussian.  [has_law] and [gauss_logpdf] as in T_SSM. *)
From Coq Require Import Reals.
From mathcomp Require Import all_ssreflect all_algebra.
From Verif Require Import RealStruct Log Nat Alg Lin Ent Spd M_Block S_Block P_Block P_Block2
  M_SSM S_SSM P_SSM M_SSMLog S_Gauss P_Gauss P_SSMLog M_Trans S_Trans P_Trans P_TransLog.
Set Implicit Arguments.
Unset Strict Implicit.
Unset Printing Implicit Defensive.
Import GRing.Theory Num.Theory.
Local Open Scope ring_scope.
Local Arguments ext_triangular_solve : simpl never.
Local Arguments ext_cholesky_solve : simpl never.

(* the density of the chain is exp(theta^T x + <Theta, x x^T> - normalizer()) *)
Theorem C23_naturals_density (d n : nat) (S : ssm Rr d) m K (x : nat -> 'cV[R]_d) :
  ssm_nonsing n S -> has_law n.+1 n.+1 (ssm_path S) m K ->
  gauss_logpdf (flat n.+1 m) (dense n.+1 n.+1 K) (flat n.+1 x) =
    nat_exponent n (ssm_to_naturals n S) x - ssm_normalizer n S /\
  ssm_log_pdf n S x = nat_exponent n (ssm_to_naturals n S) x - ssm_normalizer n S.
Proof. exact: density_naturals. Qed.
Print Assumptions C23_naturals_density.

(* and, starting from the natural parameters, the chain built from them has the
   density they denote *)
Theorem C23_density_of_naturals (d n : nat) (t : triple Rr d) :
  (0 < n)%N -> nat_valid n t ->
  exists S, [/\ naturals_to_ssm n t = Some S, ssm_chol n S &
    forall m K (x : nat -> 'cV[R]_d), has_law n.+1 n.+1 (ssm_path S) m K ->
    gauss_logpdf (flat n.+1 m) (dense n.+1 n.+1 K) (flat n.+1 x) = nat_exponent n t x - ssm_normalizer n S].
Proof. exact: naturals_density. Qed.
Print Assumptions C23_density_of_naturals.

(* the random walk with unit noise: theta, Theta_00 and Theta_10 *)
Example C23_example (F : rcfType) (d : nat) (mu b : 'cV[F]_d) :
  let t := ssm_to_naturals 1 (ex_ssm mu b) in
  [/\ ssm_nonsing 1 (ex_ssm mu b), nat_valid 1 t, t_lin t 0%N = mu - b /\ t_lin t 1%N = b,
      t_diag t 0%N = - 2%:R^-1 *: (1%:M + 1%:M) & t_sub t 0%N = 1%:M].
Proof.
have H := ex_ssm_nonsing 1 mu b; have HL := lowpos_nz (lowpos1 F d).
split=> //; first exact: naturals_valid.
- by rewrite /= !chol_solveE // trmx1 !mulmx1 invmx1 !mul1mx.
- by rewrite /= chol_solveE // tri_solveE // trmx1 !mulmx1 invmx1 trmx1 mul1mx.
- by rewrite /= !tri_solveE // trmx1 invmx1 !mul1mx.
Qed.

(* C24: model -> naturals -> model *)
Theorem C24_model_naturals_model (F : rcfType) (d n : nat) (S : ssm F d) :
  (0 < n)%N -> ssm_chol n S ->
  exists2 S', naturals_to_ssm n (ssm_to_naturals n S) = Some S' & same_ssm n S' S.
Proof. exact: naturals_round_trip_chol. Qed.
Print Assumptions C24_model_naturals_model.

(* factors with diagonal entries of any sign: the same transitions and offsets come
   back, and the Cholesky factors of the same covariances *)
Theorem C24_model_naturals_model_any_factor (F : rcfType) (d n : nat) (S : ssm F d) :
  (0 < n)%N -> ssm_nonsing n S -> exists S',
  [/\ naturals_to_ssm n (ssm_to_naturals n S) = Some S', s_mu0 S' = s_mu0 S,
      s_cholP0 S' = chol (s_cholP0 S *m (s_cholP0 S)^T) &
      forall k, (k < n)%N -> [/\ s_A S' k = s_A S k, s_b S' k = s_b S k &
                                s_cholQ S' k = chol (s_cholQ S k *m (s_cholQ S k)^T)]].
Proof. exact: naturals_round_trip. Qed.
Print Assumptions C24_model_naturals_model_any_factor.

(* naturals -> model -> naturals *)
Theorem C24_naturals_model_naturals (F : rcfType) (d n : nat) (t : triple F d) :
  (0 < n)%N -> nat_valid n t ->
  exists S, [/\ naturals_to_ssm n t = Some S, ssm_chol n S & same_triple n (ssm_to_naturals n S) t].
Proof. exact: naturals_of_ssm_of. Qed.
Print Assumptions C24_naturals_model_naturals.

(* the no-smoothing pair *)
Theorem C24_no_smoothing (F : rcfType) (d n : nat) (S : ssm F d) : ssm_chol n S ->
  same_ssm n (naturals_to_ssm_no_smoothing (ssm_to_naturals_no_smoothing S)) S.
Proof. exact: no_smoothing_round_trip. Qed.
Print Assumptions C24_no_smoothing.

Theorem C24_no_smoothing_naturals (F : rcfType) (d n : nat) (t : triple F d) : cond_valid n t ->
  ssm_chol n (naturals_to_ssm_no_smoothing t) /\
  same_triple n (ssm_to_naturals_no_smoothing (naturals_to_ssm_no_smoothing t)) t.
Proof. exact: no_smoothing_round_trip'. Qed.
Print Assumptions C24_no_smoothing_naturals.

(* the natural parameters of every model are valid: the hypotheses above are met *)
Example C24_example (F : rcfType) (d n : nat) (mu b : 'cV[F]_d) :
  [/\ ssm_chol n (ex_ssm mu b), nat_valid n (ssm_to_naturals n (ex_ssm mu b)) &
      cond_valid n (ssm_to_naturals_no_smoothing (ex_ssm mu b))].
Proof.
have H := ex_ssm_nonsing n mu b.
by split; [exact: ex_ssm_chol|exact: naturals_valid|exact: no_smoothing_valid].
Qed.

(* C25: the three outputs are E x_k, E x_k x_k^T and E x_{k+1} x_k^T *)
Theorem C25_expectations (F : rcfType) (d n : nat) (S : ssm F d) m K :
  ssm_nonsing n S -> has_law n.+1 n.+1 (ssm_path S) m K ->
  let t := ssm_to_expectations n S in
  [/\ forall k, (k <= n)%N -> t_lin t k = m k,
      forall k, (k <= n)%N -> t_diag t k = K k k + m k *m (m k)^T &
      forall k, (k < n)%N -> t_sub t k = K k.+1 k + m k.+1 *m (m k)^T].
Proof. exact: expectations_law. Qed.
Print Assumptions C25_expectations.

Theorem C25_model_expectations_model (F : rcfType) (d n : nat) (S : ssm F d) : ssm_chol n S ->
  same_ssm n (expectations_to_ssm (ssm_to_expectations n S)) S.
Proof. exact: expectations_round_trip. Qed.
Print Assumptions C25_model_expectations_model.

Theorem C25_expectations_model_expectations (F : rcfType) (d n : nat) (t : triple F d) : exp_valid n t ->
  ssm_chol n (expectations_to_ssm t) /\ same_triple n (ssm_to_expectations n (expectations_to_ssm t)) t.
Proof. exact: expectations_of_ssm_of. Qed.
Print Assumptions C25_expectations_model_expectations.

Example C25_example (F : rcfType) (d : nat) (mu b : 'cV[F]_d) :
  let t := ssm_to_expectations 1 (ex_ssm mu b) in
  [/\ ssm_chol 1 (ex_ssm mu b), exp_valid 1 t, t_lin t 1%N = mu + b &
      t_sub t 0%N = 1%:M + (mu + b) *m mu^T].
Proof.
have H := ex_ssm_nonsing 1 mu b; split; [exact: ex_ssm_chol|exact: expectations_valid|..].
- by rewrite /= marginal_meansE //= !mul1mx.
- by rewrite /= !marginal_meansE //= marginal_covE //= !mul1mx /ssm_Qc /= trmx1 mulmx1.
Qed.
