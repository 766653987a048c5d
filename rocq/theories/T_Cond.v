(* Property theorems C26-C30, C35, C40, C42, C62 and C67: kernels as Markov processes,
   conditional statistics, prediction and pathwise sampling.

   Vocabulary: S_SSM.v ([has_law N' N X m K]: the N' vectors X eps, affine in N standard
   normal vectors eps, have means m and covariances K), S_Kalman.v ([cond_mean],
   [cond_cov]), S_Kernel.v ([markov_kernel]: transitions compose over consecutive
   intervals; [state_cov k s t] = Cov(x(s), x(t)); [increasing]; [insert_time];
   [skip_blocks]: the states of the original grid within the refined grid).  n is a
   number of transitions, n + 1 a number of time points. *)
From Coq Require Import Reals.
From mathcomp Require Import all_ssreflect all_algebra.
From Verif Require Import RealStruct Nat Alg Lin Ent Spd M_Block S_Block P_Block P_Block2 M_SSM S_SSM P_SSM M_SSMLog P_SSMLog
  S_Kalman M_Kalman P_Kalman P_Kalman2 P_Trans M_Kernel S_Kernel P_Kernel M_Cond P_Cond P_Cond2 P_Cond3 P_Cond4 P_CondR P_Extra P_Examples P_Cases.
Set Implicit Arguments.
Unset Strict Implicit.
Unset Printing Implicit Defensive.
Import GRing.Theory Num.Theory Order.TTheory.
Local Open Scope ring_scope.

(* in any chain, x_(k+1) - D x_k - E x_(k+2) is uncorrelated with every other state
   and has covariance T; its mean is zero when the offsets are *)
Theorem C26_conditional_statistics (F : rcfType) d n (S : ssm F d) m K k D E T :
  ssm_nonsing n S -> (k.+1 < n)%N -> has_law n.+1 n.+1 (ssm_path S) m K ->
  cond_stats_from_transitions (s_A S k) (s_cholQ S k *m (s_cholQ S k)^T)
    (s_A S k.+1) (s_cholQ S k.+1 *m (s_cholQ S k.+1)^T) = (D, E, T) ->
  [/\ forall j, (j <= n)%N -> j != k.+1 -> K k.+1 j - D *m K k j - E *m K k.+2 j = 0,
      K k.+1 k.+1 - D *m K k k.+1 - E *m K k.+2 k.+1 = T,
      spd T &
      m k.+1 - D *m m k - E *m m k.+2 = s_b S k - E *m (s_A S k.+1 *m s_b S k + s_b S k.+1)].
Proof. exact: (fun H => @chain_conditional F d n S H m K k D E T). Qed.
Print Assumptions C26_conditional_statistics.

Theorem C26_conditional_precision (F : rcfType) d (A Q A' Q' : 'M[F]_d) : spd Q -> spd Q' ->
  spd (cond_precision_from_transitions Q A' Q') /\
  invmx (cond_precision_from_transitions Q A' Q') = (cond_stats_from_transitions A Q A' Q').2.
Proof. exact: (fun H H' => conj (cond_prec_spd A' H H') (cond_T_prec A A' H H')). Qed.
Print Assumptions C26_conditional_precision.

Example C26_example (F : rcfType) d n (mu b : 'cV[F]_d) : ssm_nonsing n.+2 (ex_ssm mu b) /\ (0.+1 < n.+2)%N.
Proof. by split=> //; apply: ex_ssm_nonsing. Qed.

(* prediction from the prior: the marginal of the chain that includes the new time *)
Theorem C27_predict_prior (F : rcfType) d (ker : sde_kernel F d) n z k t t0 prior aug m K :
  markov_kernel ker -> k_mean0 ker = 0 -> increasing n.+1 z -> (k < n)%N -> z k < t -> t < z k.+1 ->
  kernel_ssm n ker z = Some prior -> kernel_ssm n.+1 ker (insert_time z k t) = Some aug ->
  has_law n.+2 n.+2 (ssm_path aug) m K ->
  predict_state ker n prior z t0 t = (m k.+1, K k.+1 k.+1).
Proof.
exact: (fun H H0 Hz Hk H1 H2 => @predict_prior F d ker n z H H0 Hz k t t0 Hk H1 H2 prior aug m K).
Qed.
Print Assumptions C27_predict_prior.

(* prediction from any model whose law is that of the prior conditioned on noisy linear
   observations G x + noise of the states: the marginal of the chain that includes the
   new time, conditioned on the same observations *)
Theorem C27_predict_posterior (F : rcfType) d (ker : sde_kernel F d) n z k t t0 prior post aug m' K' m K ma Ka
    p (G : 'M[F]_(p, n.+1 * d)) Sg y :
  markov_kernel ker -> k_mean0 ker = 0 -> increasing n.+1 z -> (k < n)%N -> z k < t -> t < z k.+1 ->
  ssm_nonsing n post -> has_law n.+1 n.+1 (ssm_path post) m' K' ->
  kernel_ssm n ker z = Some prior -> has_law n.+1 n.+1 (ssm_path prior) m K ->
  flat n.+1 m' = cond_mean (flat n.+1 m) (dense n.+1 n.+1 K) G Sg y ->
  dense n.+1 n.+1 K' = cond_cov (dense n.+1 n.+1 K) G Sg ->
  kernel_ssm n.+1 ker (insert_time z k t) = Some aug -> has_law n.+2 n.+2 (ssm_path aug) ma Ka ->
  let Ga := G *m dense n.+1 n.+2 (@skip_blocks F d k) in
  predict_state ker n post z t0 t =
    (unflat (cond_mean (flat n.+2 ma) (dense n.+2 n.+2 Ka) Ga Sg y) k.+1,
     blk (cond_cov (dense n.+2 n.+2 Ka) Ga Sg) k.+1 k.+1).
Proof.
exact: (fun H H0 Hz Hk H1 H2 => @predict_core F d ker n z H H0 Hz k t t0 Hk H1 H2 post m' K' p G Sg y
  prior aug m K ma Ka).
Qed.
Print Assumptions C27_predict_posterior.

(* ... in particular from the posterior of the Kalman filter *)
Theorem C27_predict_kalman (F : rcfType) d e (ker : sde_kernel F d) n z k t t0 prior aug ma Ka
    (H : nat -> 'M[F]_(e, d)) obs (cholR : 'M[F]_e) :
  markov_kernel ker -> k_mean0 ker = 0 -> increasing n.+1 z -> (k < n)%N -> z k < t -> t < z k.+1 ->
  lownz cholR -> kernel_ssm n ker z = Some prior ->
  kernel_ssm n.+1 ker (insert_time z k t) = Some aug -> has_law n.+2 n.+2 (ssm_path aug) ma Ka ->
  exists2 post, kf_posterior n (kf_plain prior H obs cholR) = Some post &
  let Ga := dense n.+1 n.+1 (rdiag H) *m dense n.+1 n.+2 (@skip_blocks F d k) in
  let Sg := dense n.+1 n.+1 (rdiag (fun _ => cholR *m cholR^T)) in
  predict_state ker n post z t0 t =
    (unflat (cond_mean (flat n.+2 ma) (dense n.+2 n.+2 Ka) Ga Sg (flat n.+1 obs)) k.+1,
     blk (cond_cov (dense n.+2 n.+2 Ka) Ga Sg) k.+1 k.+1).
Proof.
exact: (fun H' H0 Hz Hk H1 H2 => @predict_kalman F d ker n z H' H0 Hz k t t0 Hk H1 H2 e H obs cholR prior aug ma Ka).
Qed.
Print Assumptions C27_predict_kalman.

(* the hypotheses of C27: a Brownian motion run by an increasing clock, any dimension *)
Example C27_example (F : rcfType) d n k :
  let z i : F := i%:R in let t := k%:R + 2%:R^-1 in
  [/\ markov_kernel (clock_kernel F d), k_mean0 (clock_kernel F d) = 0, increasing n.+1 z, z k < t & t < z k.+1].
Proof.
move=> z t; split=> //; first exact: clock_markov.
- by move=> i _; rewrite ltr_nat.
- by rewrite /t /z ltr_addl invr_gt0 ltr0n.
- by rewrite /t /z -[k.+1]addn1 natrD ltr_add2l invf_lt1 ?ltr0n // ltr1n.
Qed.

(* the neighbours used for a query *)
Theorem C28_neighbours (F : rcfType) d (ker : sde_kernel F d) N z t :
  (forall i, (i.+1 < N)%N -> z i <= z i.+1) -> - APPROX_INF F < t -> t <= APPROX_INF F ->
  let i := (conditional_statistics ker N z t).2 in
  let minus := augment_times N z i in let plus := augment_times N z i.+1 in
  [/\ minus < t, t <= plus,
      forall j, (j < N)%N -> z j <= minus \/ plus <= z j,
      forall j, (j < N)%N -> z j = t -> plus = t &
      (i <= N)%N].
Proof. exact: neighbours. Qed.
Print Assumptions C28_neighbours.

Example C28_example (F : rcfType) : let z i : F := if i is 0%N then 0 else 1 in
  [/\ forall i, (i.+1 < 3)%N -> z i <= z i.+1, - APPROX_INF F < (1 : F), (1 : F) <= APPROX_INF F &
      (conditional_statistics (clock_kernel F 1) 3 z 1).2 = 1%N].
Proof. exact: neighbours_example. Qed.

Theorem C29_at_training_time (F : rcfType) d (ker : sde_kernel F d) n z k t0 post m K :
  increasing n.+1 z -> (k < n)%N ->
  k_trans ker (z k.+1) 0 = 1%:M -> k_cov ker (z k.+1) 0 = 0 -> spd (k_cov ker (z k) (z k.+1 - z k)) ->
  ssm_nonsing n post -> has_law n.+1 n.+1 (ssm_path post) m K ->
  predict_state ker n post z t0 (z k.+1) = (m k.+1, K k.+1 k.+1).
Proof. exact: (fun Hz => @predict_at_train F d ker n z Hz k t0 post m K). Qed.
Print Assumptions C29_at_training_time.

Theorem C29_at_first_training_time (F : rcfType) d (ker : sde_kernel F d) n z t0 post m K :
  increasing n.+1 z -> - APPROX_INF F < z 0%N ->
  k_trans ker (z 0%N) 0 = 1%:M -> k_cov ker (z 0%N) 0 = 0 ->
  spd (k_cov ker (- APPROX_INF F) (z 0%N + APPROX_INF F)) ->
  ssm_nonsing n post -> has_law n.+1 n.+1 (ssm_path post) m K ->
  predict_state ker n post z t0 (z 0%N) = (m 0%N, K 0%N 0%N).
Proof. exact: (fun Hz => @predict_at_first F d ker n z Hz t0 post m K). Qed.
Print Assumptions C29_at_first_training_time.

Example C29_example (F : rcfType) d n k (mu b : 'cV[F]_d) : let z i : F := i%:R in let ker := clock_kernel F d in
  [/\ increasing n.+1 z, k_trans ker (z k.+1) 0 = 1%:M, k_cov ker (z k.+1) 0 = 0,
      spd (k_cov ker (z k) (z k.+1 - z k)) & ssm_nonsing n (ex_ssm mu b)].
Proof.
have H := clock_markov F d; split.
- by move=> i _; rewrite ltr_nat.
- by [].
- exact: mk_cov0.
- by apply: mk_cov_spd => //; rewrite subr_gt0 ltr_nat.
- exact: ex_ssm_nonsing.
Qed.

(* the returned tensors F and G do not have the documented shapes: the slices act on the
   state axis, not on the time axis *)
Theorem C30_cyclic_shape_refuted (F : rcfType) : exists d (ker : sde_kernel F d) ne nc te tc F3 G3 L3,
  [/\ markov_kernel ker, increasing ne te, increasing nc tc,
      (forall k, (k < nc)%N -> te k < tc k /\ ((k.+1 < ne)%N -> tc k < te k.+1)) &
      [/\ cyclic_reduction_conditional_statistics ker ne nc te tc = Some (F3, G3, L3),
      t3_shape F3 <> (nc, d, d) & t3_shape G3 <> (ne.-1, d, d)]].
Proof. exact: cyclic_refuted. Qed.
Print Assumptions C30_cyclic_shape_refuted.

(* before that slice: L is the Cholesky factor of the conditional precision and
   - L^-T (G^T x_- + F^T x_+) is the conditional mean D x_- + E x_+ *)
Theorem C30_cyclic_meaning_partial (F : rcfType) d (ker : sde_kernel F d) nc te tc k Ft Gt L :
  let minus := augment_times nc tc k in let plus := augment_times nc tc k.+1 in
  spd (k_cov ker minus (te k - minus)) -> spd (k_cov ker (te k) (plus - te k)) ->
  cyclic_statistics ker nc te tc k = (Ft, Gt, L) ->
  let: (D, E, T) := cond_stats_from_transitions (k_trans ker minus (te k - minus)) (k_cov ker minus (te k - minus))
     (k_trans ker (te k) (plus - te k)) (k_cov ker (te k) (plus - te k)) in
  [/\ lowpos L, L *m L^T = invmx T &
   forall x y : 'cV[F]_d, - (invmx L^T *m (Gt^T *m x + Ft^T *m y)) = D *m x + E *m y].
Proof. exact: cyclic_meaning. Qed.
Print Assumptions C30_cyclic_meaning_partial.

(* a Brownian motion with a curved clock, between two conditioning points *)
Example C30_example (F : rcfType) d : let ker := clock_kernel F d in let te i : F := i.*2.+1%:R in let tc i : F := i.*2%:R in
  let minus := augment_times 2 tc 1 in let plus := augment_times 2 tc 2 in
  [/\ markov_kernel ker, minus = 0 /\ plus = 2%:R,
      spd (k_cov ker minus (te 0%N - minus)) & spd (k_cov ker (te 0%N) (plus - te 0%N))].
Proof. exact: cyclic_example. Qed.

(* the prior of a kernel on any grid is the process with covariance function state_cov;
   in particular it does not depend on the other grid points *)
Theorem C35_prior_law (F : rcfType) d (ker : sde_kernel F d) n z :
  markov_kernel ker -> increasing n.+1 z ->
  exists S, [/\ kernel_ssm n ker z = Some S, ssm_nonsing n S &
    has_law n.+1 n.+1 (ssm_path S) (fun _ => k_mean0 ker) (fun i j => state_cov ker (z i) (z j))].
Proof. exact: kernel_law. Qed.
Print Assumptions C35_prior_law.

Theorem C35_grid_refinement (F : rcfType) d (A : F -> 'M[F]_d) P mean n z n' (sub : nat -> nat) S S' m K m' K' :
  A 0 = 1%:M -> (forall a b, 0 <= a -> 0 <= b -> A (a + b) = A b *m A a) -> spd P ->
  (forall a, 0 < a -> spd (P - A a *m P *m (A a)^T)) ->
  increasing n.+1 z -> (forall i, (i < n')%N -> (sub i < sub i.+1)%N) -> (sub n' <= n)%N ->
  kernel_ssm n (stationary_kernel A P 0 mean) z = Some S -> has_law n.+1 n.+1 (ssm_path S) m K ->
  kernel_ssm n' (stationary_kernel A P 0 mean) (fun i => z (sub i)) = Some S' ->
  has_law n'.+1 n'.+1 (ssm_path S') m' K' ->
  (forall i, (i <= n')%N -> m' i = m (sub i)) /\
  (forall i j, (i <= n')%N -> (j <= n')%N -> K' i j = K (sub i) (sub j)).
Proof. exact: grid_refinement. Qed.
Print Assumptions C35_grid_refinement.

(* the clock kernel; the even integers among the integers.  C40_example has the matrices *)
Example C35_example (F : rcfType) d n : let z i : F := i%:R in let sub i := (2 * i)%N in
  [/\ markov_kernel (clock_kernel F d), increasing (2 * n).+1 z, forall i, (i < n)%N -> (sub i < sub i.+1)%N & (sub n <= 2 * n)%N].
Proof. exact: case_refine. Qed.

Theorem C40_stationary (F : rcfType) d (A : F -> 'M[F]_d) P mean n z S :
  A 0 = 1%:M -> (forall a b, 0 <= a -> 0 <= b -> A (a + b) = A b *m A a) -> spd P ->
  (forall a, 0 < a -> spd (P - A a *m P *m (A a)^T)) -> increasing n.+1 z ->
  kernel_ssm n (stationary_kernel A P 0 mean) z = Some S ->
  forall k, (k <= n)%N -> ssm_marginal_means n S k = mean /\ ssm_marginal_covariances n S k = P.
Proof. exact: stationary_marginals. Qed.
Print Assumptions C40_stationary.

(* the hypotheses of C35 and C40: the exponential kernel, any dimension *)
Example C40_example d : let A (a : Rr) : 'M[Rr]_d := (exp (- a))%:M in
  [/\ A 0 = 1%:M, forall a b, 0 <= a -> 0 <= b -> A (a + b) = A b *m A a, spd (1%:M : 'M[Rr]_d) &
      forall a, 0 < a -> spd (1%:M - A a *m 1%:M *m (A a)^T)].
Proof. exact: exp_stationary. Qed.

(* to_delta_time does not reject repeated times *)
Theorem C42_to_delta_time_refuted (F : rcfType) : exists N (z : nat -> F),
  ~ increasing N z /\ to_delta_time N z <> None.
Proof. exact: delta_refuted. Qed.
Print Assumptions C42_to_delta_time_refuted.

(* it accepts exactly the non decreasing vectors and then returns the differences *)
Theorem C42_to_delta_time_partial (F : rcfType) N (z : nat -> F) :
  (to_delta_time N z <> None <-> forall i, (i.+1 < N)%N -> z i <= z i.+1) /\
  (forall dt, to_delta_time N z = Some dt -> forall i, (i.+1 < N)%N -> z i + dt i = z i.+1).
Proof. exact: delta_spec. Qed.
Print Assumptions C42_to_delta_time_partial.

(* outside the range: propagation of the last (first) marginal, when the kernel forgets
   everything over the distance to the artificial end point +-1e10 *)
Theorem C62_right_of_data_partial (F : rcfType) d (ker : sde_kernel F d) n z t t0 post m K :
  markov_kernel ker -> increasing n.+1 z -> z n < t -> t < APPROX_INF F ->
  k_trans ker t (APPROX_INF F - t) = 0 ->
  ssm_nonsing n post -> has_law n.+1 n.+1 (ssm_path post) m K ->
  let A := k_trans ker (z n) (t - z n) in let Q := k_cov ker (z n) (t - z n) in
  predict_state ker n post z t0 t = (A *m m n, A *m K n n *m A^T + Q).
Proof. exact: (fun Hk Hz => @predict_right_limit F d ker n z Hk Hz t t0 post m K). Qed.
Print Assumptions C62_right_of_data_partial.

Theorem C62_left_of_data_partial (F : rcfType) d (ker : sde_kernel F d) n z t t0 post m K :
  markov_kernel ker -> increasing n.+1 z -> - APPROX_INF F < t -> t < z 0%N ->
  k_trans ker (- APPROX_INF F) (t + APPROX_INF F) = 0 ->
  ssm_nonsing n post -> has_law n.+1 n.+1 (ssm_path post) m K ->
  let B := state_cov ker t (z 0%N) *m invmx (k_P0 ker (z 0%N)) in
  predict_state ker n post z t0 t =
   (B *m m 0%N, k_P0 ker t - B *m state_cov ker (z 0%N) t + B *m K 0%N 0%N *m B^T).
Proof. exact: (fun Hk Hz => @predict_left_limit F d ker n z Hk Hz t t0 post m K). Qed.
Print Assumptions C62_left_of_data_partial.

(* a process with an independent restart at time c > t (right) and at c = t (left) *)
Example C62_example (F : rcfType) d c t : t < c -> c < APPROX_INF F ->
  markov_kernel (reset_kernel c d) /\ k_trans (reset_kernel c d) t (APPROX_INF F - t) = 0.
Proof.
move=> H1 H2; split; first exact: reset_markov.
by rewrite /= /keep H1 addrC addrNK ltW //= raddf0.
Qed.

Example C62_example_left (F : rcfType) d t : - APPROX_INF F < t ->
  markov_kernel (reset_kernel t d) /\ k_trans (reset_kernel t d) (- APPROX_INF F) (t + APPROX_INF F) = 0.
Proof.
move=> H1; split; first exact: reset_markov.
by rewrite /= /keep H1 addrC addrK lexx /= raddf0.
Qed.

(* what is computed to the right of the data in general *)
Theorem C62_right_of_data_formula_partial (F : rcfType) d (ker : sde_kernel F d) n z t t0 post m K :
  markov_kernel ker -> increasing n.+1 z -> z n < t -> t < APPROX_INF F ->
  ssm_nonsing n post -> has_law n.+1 n.+1 (ssm_path post) m K ->
  let A := k_trans ker (z n) (t - z n) in let Q := k_cov ker (z n) (t - z n) in
  let A' := k_trans ker t (APPROX_INF F - t) in let Q' := k_cov ker t (APPROX_INF F - t) in
  let E := Q *m A'^T *m invmx (Q' + A' *m Q *m A'^T) in
  predict_state ker n post z t0 t =
   (A *m m n + E *m (k_mean0 ker - A' *m (A *m m n)),
    (1%:M - E *m A') *m Q + (1%:M - E *m A') *m (A *m K n n *m A^T) *m (1%:M - E *m A')^T
      + E *m k_P0 ker t0 *m E^T).
Proof. exact: (fun Hk Hz => @predict_right F d ker n z Hk Hz t t0 post m K). Qed.
Print Assumptions C62_right_of_data_formula_partial.

(* how far the predictions outside the range are from the propagated marginals, for every
   kernel with stationary state covariance P and zero mean: if only a fraction r <= 1/2 of
   the stationary variance is remembered over the distance to the artificial end point, the
   mean is off by at most 2 r and the covariance by at most 8 r (1 + v), relative to P.
   [post] is any state-space model; its marginal variance is at most v P *)
Theorem C62_right_of_data_bound (F : rcfType) d (ker : sde_kernel F d) n z P post m K r v t t0 :
  markov_kernel ker -> k_mean0 ker = 0 -> (forall s, k_P0 ker s = P) -> increasing n.+1 z ->
  ssm_nonsing n post -> has_law n.+1 n.+1 (ssm_path post) m K ->
  0 < r -> r <= 2%:R^-1 -> 0 < v -> z n < t -> t < APPROX_INF F ->
  let A := k_trans ker (z n) (t - z n) in let A' := k_trans ker t (APPROX_INF F - t) in
  psd (r *: P - A' *m P *m A'^T) -> psd (v *: P - K n n) ->
  let p := predict_state ker n post z t0 t in let X := A *m K n n *m A^T + k_cov ker (z n) (t - z n) in
  [/\ qf (invmx P) (p.1 - A *m m n) <= (2%:R * r) ^+ 2 * qf (invmx P) (A *m m n),
      psd ((8%:R * r * (1 + v)) *: P + (p.2 - X)) & psd ((8%:R * r * (1 + v)) *: P - (p.2 - X))].
Proof.
exact: (fun H1 H2 H3 H4 H5 H6 => @right_bound F d ker n z P H1 H2 H3 H4 post m K H5 H6 r v t t0).
Qed.
Print Assumptions C62_right_of_data_bound.

Theorem C62_left_of_data_bound (F : rcfType) d (ker : sde_kernel F d) n z P post m K r v t t0 :
  markov_kernel ker -> k_mean0 ker = 0 -> (forall s, k_P0 ker s = P) -> increasing n.+1 z ->
  ssm_nonsing n post -> has_law n.+1 n.+1 (ssm_path post) m K ->
  0 < r -> r <= 2%:R^-1 -> 0 < v -> - APPROX_INF F < t -> t < z 0%N ->
  let A1 := k_trans ker (- APPROX_INF F) (t + APPROX_INF F) in
  psd (r *: P - A1 *m P *m A1^T) -> psd (v *: P - K 0%N 0%N) ->
  let p := predict_state ker n post z t0 t in let B := state_cov ker t (z 0%N) *m invmx P in
  let X := P - B *m state_cov ker (z 0%N) t + B *m K 0%N 0%N *m B^T in
  [/\ qf (invmx P) (p.1 - B *m m 0%N) <= (2%:R * r) ^+ 2 * qf (invmx P) (m 0%N),
      psd ((8%:R * r * (1 + v)) *: P + (p.2 - X)) & psd ((8%:R * r * (1 + v)) *: P - (p.2 - X))].
Proof.
exact: (fun H1 H2 H3 H4 H5 H6 => @left_bound F d ker n z P H1 H2 H3 H4 post m K H5 H6 r v t t0).
Qed.
Print Assumptions C62_left_of_data_bound.

(* pathwise sampling: q new points inside the range and the n + 1 conditioning points z,
   both part of the sorted joint grid tau; the posterior model [post] has the law of the
   prior conditioned on y = G x(z) + noise.  The samples at the new points and the
   conditioning points jointly have the law of x given y. *)
Theorem C67_pathwise_sampling (F : rcfType) d (ker : sde_kernel F d) n nt q p (z tau : nat -> F)
    (pos_z pos_t : nat -> nat) prior joint post m' K' (G : 'M[F]_(p, n.+1 * d)) Sg y :
  markov_kernel ker -> increasing n.+1 z -> increasing nt.+1 tau ->
  (forall j, (j < n.+1)%N -> (pos_z j < nt.+1)%N /\ tau (pos_z j) = z j) ->
  (forall i, (i < q)%N -> (pos_t i < nt.+1)%N /\
     exists k, [/\ (k < n)%N, z k < tau (pos_t i) & tau (pos_t i) < z k.+1]) ->
  kernel_ssm n ker z = Some prior -> kernel_ssm nt ker tau = Some joint ->
  has_law n.+1 n.+1 (ssm_path post) m' K' ->
  let Kzz := dense n.+1 n.+1 (fun i j => state_cov ker (z i) (z j)) in
  let mz := flat n.+1 (fun _ => k_mean0 ker) in
  flat n.+1 m' = cond_mean mz Kzz G Sg y -> dense n.+1 n.+1 K' = cond_cov Kzz G Sg ->
  let t i := tau (pos_t i) in
  let sample eps i :=
    let post_z := ssm_sample n post (fun l => eps (nt.+1 + l)%N) in
    let prior_all := ssm_sample nt joint eps in
    if (i < q)%N then sample_state ker n z (t i) (prior_all (pos_t i)) (fun j => prior_all (pos_z j)) post_z
    else post_z (i - q)%N in
  let u i := if (i < q)%N then t i else z (i - q)%N in
  let Kuz := dense (q + n.+1) n.+1 (fun i j => state_cov ker (u i) (z j)) in
  let Kuu := dense (q + n.+1) (q + n.+1) (fun i j => state_cov ker (u i) (u j)) in
  let W := invmx (G *m Kzz *m G^T + Sg) in
  has_law (q + n.+1) (nt.+1 + n.+1) sample
    (unflat (flat (q + n.+1) (fun _ => k_mean0 ker) + Kuz *m G^T *m W *m (y - G *m mz)))
    (blk (Kuu - Kuz *m G^T *m W *m G *m Kuz^T)).
Proof. exact: sample_law_core. Qed.
Print Assumptions C67_pathwise_sampling.

(* the grids of C67: z = 0, 1, ..., n and new points between them *)
Example C67_example (F : rcfType) n : let z i : F := i%:R in let tau i : F := i%:R / 2%:R in
  let pos_z j := (2 * j)%N in let pos_t i := (2 * i + 1)%N in
  [/\ increasing n.+1 z, increasing (2 * n).+1 tau,
      forall j, (j < n.+1)%N -> (pos_z j < (2 * n).+1)%N /\ tau (pos_z j) = z j &
      forall i, (i < n)%N -> (pos_t i < (2 * n).+1)%N /\
     exists k, [/\ (k < n)%N, z k < tau (pos_t i) & tau (pos_t i) < z k.+1]].
Proof. exact: half_grid. Qed.
