(* Property theorems C31-C34, C36-C39, C62, C66, C68-C71: the concrete kernels and their
   combinations.

   Vocabulary: M_Comb.v (a kernel is a record: [sk_A] state_transitions, [sk_F]
   feedback_matrix, [sk_P] steady_state_covariance, [sk_H] emission matrix, [sk_mean0]
   initial_mean), S_KernelR.v ([library_kernel b k]: k is one of the concrete kernels with
   positive hyperparameters, or a ConcatKernel/Sum/IndependentMultiOutput/
   FactorAnalysisKernel of such kernels, or, if b is true, a Product of such kernels;
   [generates F A]: A(0) = 1 and dA/dt = F A; [cov_matern12] ...: the covariance
   functions), MExp.v ([mexp M t]: the exponential series of t M), S_Comb.v ([step_cov k a]
   = P - A(a) P A(a)^T; [noisy], [noiseless]: it is positive definite, zero for every
   a > 0; [prior_f_law k n z m K]: the prior of f = H x at the n + 1 times z exists and has
   means m and covariances K; [plain_kernel]: a stationary process with zero mean, no
   jitter). *)
From Coq Require Import Reals.
From mathcomp Require Import all_ssreflect all_algebra.
From Verif Require Import RealStruct Nat Alg Lin Ent Spd M_SSM S_SSM P_SSM M_SSMLog P_SSMLog M_Kernel S_Kernel P_Kernel M_Cond P_Cond P_Cond4
  M_Comb S_Comb P_Kron P_Comb P_Comb2 P_Comb3 MCalc MExp MLyap M_KernelR S_KernelR P_KernelR P_KernelR2 P_KernelR3 P_KernelR4 P_ExtraR P_Examples.
Set Implicit Arguments.
Unset Strict Implicit.
Unset Printing Implicit Defensive.
Import GRing.Theory Num.Theory Order.TTheory.
Local Open Scope ring_scope.

Theorem C31_semigroup o d (k : skernel Rr o d) : library_kernel true k ->
  sk_A k 0 = 1%:M /\ forall s t, 0 <= s -> 0 <= t -> sk_A k (s + t) = sk_A k t *m sk_A k s.
Proof. exact: lib_semigroup. Qed.
Print Assumptions C31_semigroup.

(* StackKernel: composition holds, the identity at zero does not (C71) *)
Theorem C31_stack_compose (F : rcfType) d e (k : skernel F 1 d) (m : 'cV[F]_(d + e)) jitter s t :
  semigroup k -> 0 <= s -> 0 <= t ->
  sk_A (stack_kernel k m jitter) (s + t) = sk_A (stack_kernel k m jitter) t *m sk_A (stack_kernel k m jitter) s.
Proof. exact: stack_compose. Qed.
Print Assumptions C31_stack_compose.

(* a sum of a Matern 3/2, and a product of a cosine and a Matern 1/2 kernel *)
Example C31_example : library_kernel true (sum_kernel
  [:: mkchild (matern32 1 0 2%:R 1 0);
      mkchild (product_kernel [:: mkchild (harmonic_oscillator 1 0 1 1); mkchild (matern12 1 0 1 1 0)] 0)] 0).
Proof.
apply: lib_concat => k [<-|[<-|[]]]; first by apply: lib_matern32; rewrite ?ltr0n ?ltr01.
by apply: lib_product => // k' [<-|[<-|[]]]; [apply: lib_harmonic|apply: lib_matern12]; apply: ltr01.
Qed.

Theorem C32_generator o d (k : skernel Rr o d) : library_kernel false k ->
  forall t, sk_A k t = mexp (sk_F k) t.
Proof. exact: lib_exp. Qed.
Print Assumptions C32_generator.

(* the exponential series solves the differential equation, and nothing else does *)
Theorem C32_exponential d (M : 'M[R]_d) (A : R -> 'M[R]_d) :
  generates M A <-> forall t, A t = mexp M t.
Proof. exact: (fun d M A => conj (@generates_exp d M A) (@exp_generates d M A)). Qed.
Print Assumptions C32_exponential.

Example C32_example : library_kernel false (matern52 1 0 2%:R 3%:R 0) /\
  library_kernel false (sum_kernel [:: mkchild (matern52 1 0 2%:R 3%:R 0); mkchild (constant_kernel 1 0 1)] 0).
Proof.
split; first by apply: lib_matern52; rewrite ltr0n.
by apply: lib_concat => k /= [<-|[<-|[]]] /=; [apply: lib_matern52|apply: lib_constant]; rewrite ?ltr0n ?ltr01.
Qed.

Theorem C33_lyapunov o d (k : skernel Rr o d) : library_kernel false k ->
  exists r (B : 'M[R]_(d, r)), sk_F k *m sk_P k + sk_P k *m (sk_F k)^T = - (B *m B^T).
Proof. exact: lib_lyapunov. Qed.
Print Assumptions C33_lyapunov.

Theorem C33_process_covariance o d (k : skernel Rr o d) : library_kernel true k -> spd (sk_P k) /\
  forall s a, 0 < a ->
    psd (sk_P k - sk_A k a *m sk_P k *m (sk_A k a)^T) /\
    k_cov (to_sde k) s a = sk_P k - sk_A k a *m sk_P k *m (sk_A k a)^T + sk_jitter k *: 1%:M.
Proof. exact: lib_process_covariance. Qed.
Print Assumptions C33_process_covariance.

Theorem C33_positive_or_zero (o d : nat) (jitter l s2 : R) m1 m2 m3 (N Rot : 'M[R]_d) : 0 < l -> 0 < s2 ->
  [/\ noisy (matern12 o jitter l s2 m1), noisy (ornstein_uhlenbeck o jitter l s2 m1),
      noisy (matern32 o jitter l s2 m2) & noisy (matern52 o jitter l s2 m3)] /\
  [/\ N \in unitmx -> noisy (leg_kernel N Rot jitter), noiseless (constant_kernel o jitter s2) &
      noiseless (harmonic_oscillator o jitter s2 l)].
Proof. exact: base_noise. Qed.
Print Assumptions C33_positive_or_zero.

Theorem C33_combined (F : rcfType) o o' (ks : seq (child F o)) (E : F -> 'M[F]_(o', concat_dim ks)) (ps : seq (child F 1)) jitter :
  [/\ every (fun d k => noisy k) ks -> noisy (concat_kernel E jitter),
      every (fun d k => noiseless k) ks -> noiseless (concat_kernel E jitter),
      every (fun d k => good_kernel k) ps -> some (fun d k => noisy k) ps -> noisy (product_kernel ps jitter) &
      every (fun d k => noiseless k) ps -> noiseless (product_kernel ps jitter)].
Proof. exact: (And4 (@concat_noisy F o o' ks E jitter) (@concat_noiseless F o o' ks E jitter) (@product_noisy F ps jitter) (@product_noiseless F ps jitter)). Qed.
Print Assumptions C33_combined.

Example C33_example (l s2 : R) : 0 < l -> 0 < s2 ->
  every (fun d k => noisy k) [:: mkchild (matern12 1 0 l s2 0); mkchild (matern32 1 0 l s2 0)].
Proof. by move=> Hl Hs k /= [<-|[<-|[]]] /=; [apply: m12_noisy|apply: m32_noisy]. Qed.

(* the priors of the concrete kernels; every output of a kernel with o outputs is the
   same process *)
Theorem C34_covariance_function (o n : nat) (l s2 : R) m1 m2 m3 z : 0 < l -> 0 < s2 -> increasing (F := Rr) n.+1 z ->
  let law d (k : skernel Rr o d) (mean : R) (c : R -> R) :=
    prior_f_law k n z (fun _ => const_mx mean) (fun i j => const_mx (c `|z i - z j|)) in
  [/\ law _ (matern12 o 0 l s2 m1) (m1 0 0) (cov_matern12 l s2),
      law _ (ornstein_uhlenbeck o 0 l s2 m1) (m1 0 0) (cov_ou l s2),
      law _ (matern32 o 0 l s2 m2) (m2 0 0) (cov_matern32 l s2) &
      law _ (matern52 o 0 l s2 m3) (m3 0 0) (cov_matern52 l s2)] /\
  [/\ law _ (constant_kernel o 0 s2) 0 (fun _ => s2) &
      law _ (harmonic_oscillator o 0 s2 l) 0 (cov_cosine s2 l)].
Proof. exact: base_laws. Qed.
Print Assumptions C34_covariance_function.

Theorem C34_variance (l s2 : R) : 0 < l ->
  [/\ cov_matern12 l s2 0 = s2, cov_ou l s2 0 = s2 / (2%:R * l), cov_matern32 l s2 0 = s2 & cov_matern52 l s2 0 = s2] /\
  cov_cosine s2 l 0 = s2.
Proof. exact: cov_at0. Qed.
Print Assumptions C34_variance.

(* the latent exponentially generated kernel: Cov(x(s), x(t)) = exp((s - t) F) for s > t,
   seen through the library's emission matrix *)
Theorem C34_leg d n (N Rot : 'M[R]_d.+1) z : N \in unitmx -> increasing (F := Rr) n.+1 z ->
  prior_f_law (leg_kernel N Rot 0) n z (fun _ => 0)
    (fun i j => const_mx (mexp (leg_feedback N Rot) `|z i - z j| 0 0)).
Proof. exact: leg_law. Qed.
Print Assumptions C34_leg.

Example C34_example n : increasing (F := Rr) n.+1 (fun i => i%:R).
Proof. by move=> i _; rewrite ltr_nat. Qed.

(* the covariance of a Sum is the sum of the covariances of the children *)
Theorem C36_sum (F : rcfType) n z o (ks : seq (child F o)) (K : child F o -> nat -> nat -> 'M[F]_o) :
  increasing n.+1 z -> every (fun d k => plain_kernel k) ks ->
  every (fun d k => noisy k) ks \/ every (fun d k => noiseless k) ks ->
  (forall k, List.In k ks -> prior_f_law (projT2 k) n z (fun _ => 0) (K k)) ->
  prior_f_law (sum_kernel ks 0) n z (fun _ => 0) (fun i j => \sum_(k <- ks) K k i j).
Proof. exact: (fun Hz => @sum_children F n z Hz o ks K). Qed.
Print Assumptions C36_sum.

(* IndependentMultiOutput: the children are independent outputs *)
Theorem C36_independent_outputs (F : rcfType) n z o (ks : seq (child F o)) (K : child F o -> nat -> nat -> 'M[F]_o) :
  increasing n.+1 z -> every (fun d k => plain_kernel k) ks ->
  every (fun d k => noisy k) ks \/ every (fun d k => noiseless k) ks ->
  (forall k, List.In k ks -> prior_f_law (projT2 k) n z (fun _ => 0) (K k)) ->
  prior_f_law (indep_kernel ks 0) n z (fun _ => 0)
    (fun i j => diag_children ks (fun d k => K (mkchild k) i j)).
Proof. exact: (fun Hz => @indep_children F n z Hz o ks K). Qed.
Print Assumptions C36_independent_outputs.

(* FactorAnalysisKernel: independent processes mixed by the weights at the two times *)
Theorem C36_factor_analysis (F : rcfType) n z o (ks : seq (child F o)) (K : child F o -> nat -> nat -> 'M[F]_o)
    o' (weight : F -> 'M[F]_(o', size ks * o)) (B : 'M[F]_(size ks * o)) :
  increasing n.+1 z -> every (fun d k => plain_kernel k) ks ->
  every (fun d k => noisy k) ks \/ every (fun d k => noiseless k) ks ->
  (forall k, List.In k ks -> prior_f_law (projT2 k) n z (fun _ => 0) (K k)) ->
  prior_f_law (factor_kernel weight B 0) n z (fun _ => 0)
    (fun i j => (weight (z i) *m B) *m diag_children ks (fun d k => K (mkchild k) i j) *m (weight (z j) *m B)^T).
Proof. exact: (fun Hz Hg HQ HK => @factor_children F n z Hz o ks K Hg HQ HK o' weight B). Qed.
Print Assumptions C36_factor_analysis.

(* IndependentMultiOutputStack: padding a child does not change its process *)
Theorem C36_stack (F : rcfType) n z d e (k : skernel F 1 d) K :
  increasing n.+1 z -> plain_kernel k -> noisy k ->
  prior_f_law k n z (fun _ => 0) K -> prior_f_law (stack_kernel (e := e) k 0 0) n z (fun _ => 0) K.
Proof. exact: (fun Hz => @stack_children F n z Hz d e k K). Qed.
Print Assumptions C36_stack.

Theorem C36_library_children o d (k : skernel Rr o d) : library_kernel true k ->
  sk_jitter k = 0 -> sk_mean0 k = 0 -> plain_kernel k.
Proof. exact: lib_plain. Qed.
Print Assumptions C36_library_children.

(* Matern 1/2 plus Matern 3/2 *)
Example C36_example (l s2 : R) n z : 0 < l -> 0 < s2 -> increasing (F := Rr) n.+1 z ->
  prior_f_law (sum_kernel [:: mkchild (matern12 1 0 l s2 0); mkchild (matern32 1 0 l s2 0)] 0) n z
    (fun _ => 0) (fun i j => const_mx (cov_matern12 l s2 `|z i - z j|) + const_mx (cov_matern32 l s2 `|z i - z j|)).
Proof.
move=> Hl Hs Hz; have := @C36_sum Rr n z 1 [:: mkchild (matern12 1 0 l s2 0); mkchild (matern32 1 0 l s2 0)].
move=> /(_ (fun k i j => fcov (projT2 k) (z i) (z j)) Hz) H.
have Hp : every (fun d k => plain_kernel k) [:: mkchild (matern12 1 0 l s2 0); mkchild (matern32 1 0 l s2 0)].
  by move=> k /= [<-|[<-|[]]] /=; apply: lib_plain => //; [apply: lib_matern12|apply: lib_matern32].
have Hn : every (fun d k => noisy k) [:: mkchild (matern12 1 0 l s2 0); mkchild (matern32 1 0 l s2 0)].
  exact: C33_example.
apply: (prior_f_law_ext (H Hp (or_introl Hn) _)) => //.
  by move=> k Hk; apply: plain_law => //; [apply: Hp|left; apply: Hn].
by move=> i j _ _; rewrite !big_cons big_nil addr0 m12_cov // m32_cov.
Qed.

(* the covariance of a Product is the product of the covariances of the children *)
Theorem C37_product (F : rcfType) n z (ks : seq (child F 1)) (K : child F 1 -> nat -> nat -> 'M[F]_1) :
  increasing n.+1 z -> every (fun d k => plain_kernel k) ks ->
  every (fun d k => noisy k \/ noiseless k) ks ->
  (forall k, List.In k ks -> prior_f_law (projT2 k) n z (fun _ => 0) (K k)) ->
  prior_f_law (product_kernel ks 0) n z (fun _ => 0) (fun i j => (\prod_(k <- ks) K k i j 0 0)%:M).
Proof. exact: (fun Hz => @product_children F n z Hz ks K). Qed.
Print Assumptions C37_product.

(* the quasi-periodic kernel: cosine times Matern 1/2 *)
Example C37_example (l s2 p : R) n z : 0 < l -> 0 < s2 -> 0 < p -> increasing (F := Rr) n.+1 z ->
  prior_f_law (product_kernel [:: mkchild (harmonic_oscillator 1 0 1 p); mkchild (matern12 1 0 l s2 0)] 0) n z
    (fun _ => 0) (fun i j => (cov_cosine 1 p `|z i - z j| * cov_matern12 l s2 `|z i - z j|)%:M).
Proof.
move=> Hl Hs Hpp Hz; have := @C37_product Rr n z [:: mkchild (harmonic_oscillator 1 0 1 p); mkchild (matern12 1 0 l s2 0)].
move=> /(_ (fun k i j => fcov (projT2 k) (z i) (z j)) Hz) H.
have Hp : every (fun d k => plain_kernel k) [:: mkchild (harmonic_oscillator 1 0 1 p); mkchild (matern12 1 0 l s2 0)].
  by move=> k /= [<-|[<-|[]]] /=; apply: lib_plain => //; [apply: lib_harmonic => //; apply: ltr01|apply: lib_matern12].
have Hn : every (fun d k => noisy k \/ noiseless k) [:: mkchild (harmonic_oscillator 1 0 1 p); mkchild (matern12 1 0 l s2 0)].
  by move=> k /= [<-|[<-|[]]] /=; [right; apply: ho_noiseless|left; apply: m12_noisy].
apply: (prior_f_law_ext (H Hp Hn _)) => //.
  by move=> k Hk; apply: plain_law => //; [apply: Hp|apply: Hn].
by move=> i j _ _; rewrite !big_cons big_nil mulr1 m12_cov // ho_cov // !mxE.
Qed.

(* Product.feedback_matrix does not generate Product.state_transitions: two Matern 1/2 *)
Theorem C38_product_feedback_refuted : exists ks : seq (child Rr 1),
  (forall k, List.In k ks -> library_kernel false (projT2 k)) /\
  forall t, 0 < t -> sk_A (product_kernel ks 0) t <> mexp (sk_F (product_kernel ks 0)) t.
Proof. exact: product_feedback_refuted. Qed.
Print Assumptions C38_product_feedback_refuted.

(* the matrix that does generate them is the Kronecker sum of the children's *)
Theorem C38_kronecker_sum (ks : seq (child Rr 1)) jitter :
  (forall k, List.In k ks -> library_kernel false (projT2 k)) ->
  forall t, sk_A (product_kernel ks jitter) t = mexp (kron_sum ks) t.
Proof. exact: product_kron_sum. Qed.
Print Assumptions C38_kronecker_sum.

Example C38_example : forall k : child Rr 1, List.In k (two_m12 1 1) -> library_kernel false (projT2 k).
Proof. by move=> k /= [<-|[<-|[]]] /=; apply: lib_matern12; apply: ltr01. Qed.

(* a kernel that is not a combination keeps its mean at every time point *)
Theorem C39_single_kernel (F : rcfType) o d (A : F -> 'M[F]_d) Fb P m n z (k := base_kernel o A Fb P m 0) :
  good_kernel k -> noisy k \/ noiseless k -> increasing n.+1 z ->
  prior_f_law k n z (fun _ => first_emission F o d *m m) (fun i j => fcov k (z i) (z j)).
Proof. exact: (fun H1 H2 Hz => comb_law H1 H2 erefl Hz (base_steady o A Fb P m 0)). Qed.
Print Assumptions C39_single_kernel.

(* the exact mean of a Sum: the mean of every child decays from the first time point *)
Theorem C39_sum_mean (F : rcfType) o (ks : seq (child F o)) jitter n z :
  every (fun d k => good_kernel k) ks -> every (fun d k => sk_A k 0 = 1%:M) ks ->
  ((every (fun d k => noisy k) ks \/ every (fun d k => noiseless k) ks) /\ jitter = 0) \/ 0 < jitter ->
  increasing n.+1 z ->
  prior_f_law (sum_kernel ks jitter) n z
    (fun i => \sum_(k <- ks) sk_H (projT2 k) (z i) *m (sk_A (projT2 k) (z i - z 0%N) *m sk_mean0 (projT2 k)))
    (fun i j => fcov_jitter (sum_kernel ks jitter) z i j).
Proof. exact: sum_law. Qed.
Print Assumptions C39_sum_mean.

(* a Sum of one Matern 1/2 kernel with mean m <> 0: the prior mean is m at the first time
   point only; the same kernel in a stack: zero at the first point only *)
Theorem C39_sum_mean_refuted (l s2 : R) (m : 'cV[R]_1) n z mf K : 0 < l -> 0 < s2 -> m != 0 ->
  increasing (F := Rr) n.+2 z ->
  prior_f_law (sum_kernel [:: mkchild (matern12 1 0 l s2 m)] 0) n.+1 z mf K ->
  mf 0%N = m /\ forall i, (i <= n)%N -> mf i.+1 <> m.
Proof. exact: sum_mean_decays. Qed.
Print Assumptions C39_sum_mean_refuted.

Theorem C39_stack_mean_refuted (l s2 : R) (m : 'cV[R]_1) e n z mf K : 0 < l -> 0 < s2 -> m != 0 ->
  increasing (F := Rr) n.+2 z ->
  prior_f_law (stack_kernel (e := e) (matern12 1 0 l s2 m) 0 0) n.+1 z mf K ->
  mf 0%N = 0 /\ forall i, (i <= n)%N -> mf i.+1 <> 0.
Proof. exact: stack_mean_rises. Qed.
Print Assumptions C39_stack_mean_refuted.

(* the laws assumed by the two refutations exist *)
Example C39_example (l s2 : R) (m : 'cV[R]_1) e n z : 0 < l -> 0 < s2 -> increasing (F := Rr) n.+2 z ->
  (exists mf K, prior_f_law (sum_kernel [:: mkchild (matern12 1 0 l s2 m)] 0) n.+1 z mf K) /\
  (exists mf K, prior_f_law (stack_kernel (e := e) (matern12 1 0 l s2 m) 0 0) n.+1 z mf K).
Proof. exact: mean_laws_exist. Qed.

(* to the right of the data the Matern 1/2 prediction is never exactly the propagation of
   the last marginal, for any posterior with a non-zero last mean *)
Theorem C62_right_of_data_refuted (l s2 : R) n z (t t0 : R) post m' K' : 0 < l -> 0 < s2 ->
  increasing (F := Rr) n.+1 z -> z n < t -> t < APPROX_INF Rr ->
  ssm_nonsing n post -> has_law n.+1 n.+1 (ssm_path post) m' K' -> m' n != 0 ->
  let k := matern12 1 0 l s2 0 in
  (predict_state (to_sde k) n post z t0 t).1 <> sk_A k (t - z n) *m m' n.
Proof. exact: m12_extrapolate. Qed.
Print Assumptions C62_right_of_data_refuted.

Example C62_refuted_example : increasing (F := Rr) 2 (fun i => i%:R) /\
  exists m' K', [/\ ssm_nonsing 1 (ex_ssm (F := Rr) (d := 1) 1%:M 0),
    has_law 2 2 (ssm_path (ex_ssm (F := Rr) (d := 1) 1%:M 0)) m' K' & m' 1%N != 0].
Proof. exact: extrapolate_example. Qed.

(* but for the three Matern kernels, at every t at least a thousand lengthscales away from
   +-1e10, the difference is below 2^-897: on the right from the propagation of the last
   marginal, on the left from the propagation back in time of the first one *)
Theorem C62_matern_bound (o : nat) (l s2 : R) : 0 < l -> 0 < s2 ->
  let eps : Rr := 2%:R ^- 897 in
  let close d (k : skernel Rr o d) := forall n (z : nat -> Rr) (t t0 v : Rr) post m K,
    increasing n.+1 z -> ssm_nonsing n post -> has_law n.+1 n.+1 (ssm_path post) m K -> 0 < v ->
    let P := sk_P k in let p := predict_state (to_sde k) n post z t0 t in
    (z n < t -> t + 1000%:R * l <= APPROX_INF Rr -> psd (v *: P - K n n) ->
     let A := sk_A k (t - z n) in let X := A *m K n n *m A^T + (P - A *m P *m A^T) in
     [/\ qf (invmx P) (p.1 - A *m m n) <= eps ^+ 2 * qf (invmx P) (A *m m n),
         psd ((eps * (1 + v)) *: P + (p.2 - X)) & psd ((eps * (1 + v)) *: P - (p.2 - X))]) /\
    (t < z 0%N -> - APPROX_INF Rr + 1000%:R * l <= t -> psd (v *: P - K 0%N 0%N) ->
     let A := sk_A k (z 0%N - t) in let B := P *m A^T *m invmx P in
     let X := P - B *m A *m P + B *m K 0%N 0%N *m B^T in
     [/\ qf (invmx P) (p.1 - B *m m 0%N) <= eps ^+ 2 * qf (invmx P) (m 0%N),
         psd ((eps * (1 + v)) *: P + (p.2 - X)) & psd ((eps * (1 + v)) *: P - (p.2 - X))]) in
  [/\ close _ (matern12 o 0 l s2 0), close _ (matern32 o 0 l s2 0) & close _ (matern52 o 0 l s2 0)].
Proof. exact: matern_bound. Qed.
Print Assumptions C62_matern_bound.

Example C62_bound_example (l s2 : R) n : 0 < l -> 0 < s2 -> 1000%:R * l <= 1 -> n.+2%:R <= APPROX_INF Rr ->
  let k := matern52 1 0 l s2 0 in let z i : Rr := i%:R in let t := z n + 2%:R^-1 in let t' := - 2%:R^-1 : Rr in
  exists post m K,
    [/\ increasing n.+1 z, ssm_nonsing n post, has_law n.+1 n.+1 (ssm_path post) m K,
        psd (1 *: sk_P k - K n n) /\ psd (1 *: sk_P k - K 0%N 0%N) &
        (z n < t /\ t + 1000%:R * l <= APPROX_INF Rr) /\ (t' < z 0%N /\ - APPROX_INF Rr + 1000%:R * l <= t')].
Proof. exact: bound_example. Qed.

(* the prior of a Matern 1/2 kernel has mean m at 0 and 2; the prediction at 1 made from
   that very prior has a different mean *)
Theorem C66_prediction_mean_refuted (l s2 : R) (m : 'cV[R]_1) : 0 < l -> 0 < s2 -> m != 0 ->
  let K := to_sde (matern12 1 0 l s2 m) in let z i : R := if i is 0%N then 0 else 2%:R in
  exists2 S, kernel_ssm 1 K z = Some S &
    has_law 2 2 (ssm_path S) (fun _ => m) (fun i j => state_cov K (z i) (z j)) /\
    forall t0, (predict_state K 1 S z t0 1).1 <> m.
Proof. exact: prediction_forgets. Qed.
Print Assumptions C66_prediction_mean_refuted.

(* what is predicted from the prior, for every kernel: the offsets b over the two parts
   of the interval are left out *)
Theorem C66_prediction_mean_error (F : rcfType) d (ker : sde_kernel F d) n z k t t0 S :
  markov_kernel ker -> increasing n.+1 z -> (k < n)%N -> z k < t -> t < z k.+1 ->
  kernel_ssm n ker z = Some S ->
  let a := t - z k in let b := z k.+1 - t in
  let Q := k_cov ker (z k) a in let A' := k_trans ker t b in let Q' := k_cov ker t b in
  let E := Q *m A'^T *m invmx (Q' + A' *m Q *m A'^T) in
  (predict_state ker n S z t0 t).1 =
    k_mean0 ker - (k_off ker (z k) a - E *m (A' *m k_off ker (z k) a + k_off ker t b)).
Proof. exact: predict_prior_mean. Qed.
Print Assumptions C66_prediction_mean_error.

(* the prior of a Matern 1/2 kernel with mean m *)
Example C66_example (l v : R) (m : 'cV[R]_1) n : 0 < l -> 0 < v ->
  let ker := to_sde (matern12 1 0 l v m) in let z i : R := i%:R in
  [/\ markov_kernel ker, k_mean0 ker = m, increasing (F := Rr) n.+1 z & exists S, kernel_ssm n ker z = Some S].
Proof. exact: forget_example. Qed.

(* the jitter is added at every time point and accumulates: a Constant kernel *)
Theorem C68_jitter_accumulates o (jitter s2 : R) n z : 0 < s2 -> 0 <= jitter -> increasing (F := Rr) n.+1 z ->
  prior_f_law (constant_kernel o jitter s2) n z (fun _ => 0)
    (fun i j => const_mx (s2 + (minn i j).+1%:R * jitter)).
Proof. exact: const_jitter_law. Qed.
Print Assumptions C68_jitter_accumulates.

(* the law of any stationary kernel with a jitter *)
Theorem C68_jitter_law (F : rcfType) o d (A : F -> 'M[F]_d) Fb P m jitter n z (k := base_kernel o A Fb P m jitter) :
  good_kernel k -> A 0 = 1%:M -> 0 < jitter -> increasing n.+1 z ->
  prior_f_law k n z (fun _ => first_emission F o d *m m)
    (fun i j => fcov k (z i) (z j) + jitter *: (first_emission F o d *m
       (\sum_(l < (minn i j).+1) A (z i - z l) *m (A (z j - z l))^T) *m (first_emission F o d)^T)).
Proof. exact: base_jitter_law. Qed.
Print Assumptions C68_jitter_law.

Example C68_example (l v jitter : R) (m : 'cV[R]_1) : 0 < l -> 0 < v ->
  let k := matern12 2 jitter l v m in good_kernel k /\ sk_A k 0 = 1%:M.
Proof. exact: jitter_example. Qed.

(* generate_emission_model of a Product fails for kernels with several outputs *)
Theorem C69_product_outputs (F : rcfType) o (ks : seq (child F o.+1)) : (0 < size ks)%N ->
  product_emission_shape ks <> None <-> (o = 0%N \/ size ks = 1%N).
Proof. exact: product_shape. Qed.
Print Assumptions C69_product_outputs.

Example C69_example : product_emission_shape [:: mkchild (matern12 2 0 1 1 0); mkchild (matern12 2 0 1 1 0)] = None.
Proof. by rewrite /product_emission_shape /prod_rows !big_cons big_nil. Qed.

(* combining a noisy and a noiseless child without jitter: the process covariance is
   neither zero nor has a Cholesky factor *)
Theorem C70_degenerate_combination (F : rcfType) o o' (ks : seq (child F o)) (E : F -> 'M[F]_(o', concat_dim ks)) s (a : F) :
  0 < a -> some (fun d k => noisy k /\ (0 < d)%N) ks -> some (fun d k => noiseless k /\ (0 < d)%N) ks ->
  let Q := k_cov (to_sde (concat_kernel E 0)) s a in
  Q <> 0 /\ forall L, lownz L -> L *m L^T <> Q.
Proof. exact: concat_no_factor. Qed.
Print Assumptions C70_degenerate_combination.

Theorem C70_degenerate_stack (F : rcfType) d e (k : skernel F 1 d.+1) (m : 'cV[F]_(d.+1 + e.+1)) s (a : F) :
  0 < a -> noiseless k ->
  let Q := k_cov (to_sde (stack_kernel k m 0)) s a in
  Q <> 0 /\ forall L, lownz L -> L *m L^T <> Q.
Proof. exact: stack_no_factor. Qed.
Print Assumptions C70_degenerate_stack.

(* Matern 1/2 plus Constant, Matern 3/2 plus Cosine *)
Example C70_example (l s2 : R) : 0 < l -> 0 < s2 ->
  let ks := [:: mkchild (matern12 1 0 l s2 0); mkchild (constant_kernel 1 0 s2)] in
  some (fun d k => noisy k /\ (0 < d)%N) ks /\ some (fun d k => noiseless k /\ (0 < d)%N) ks.
Proof.
move=> Hl Hs; split.
  by exists (mkchild (matern12 1 0 l s2 0)); [left|split=> //; apply: m12_noisy].
by exists (mkchild (constant_kernel 1 0 s2)); [right; left|split=> //; apply: const_noiseless].
Qed.

(* a padded stack of kernels is not the identity over zero time *)
Theorem C71_stack_identity_refuted (F : rcfType) d e (k : skernel F 1 d) (m : 'cV[F]_(d + e.+1)) jitter :
  sk_A (stack_kernel k m jitter) 0 != 1%:M.
Proof. exact: stack_A0. Qed.
Print Assumptions C71_stack_identity_refuted.

(* and its feedback matrix does not generate its transitions *)
Theorem C71_stack_feedback_refuted d e (k : skernel Rr 1 d) (m : 'cV[R]_(d + e.+1)) jitter t :
  sk_A (stack_kernel k m jitter) t <> mexp (sk_F (stack_kernel k m jitter)) t.
Proof. exact: stack_not_exp. Qed.
Print Assumptions C71_stack_feedback_refuted.
