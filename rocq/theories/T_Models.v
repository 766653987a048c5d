(* Property theorems C48, C56, C61, C76, C105, C106: Gaussian process regression and the variational
   lower bounds.

   Vocabulary: S_GP.v ([f_cov] = k(s, t), the covariance function of f; [f_gram], [fx_gram],
   [x_gram], covariance matrices of f and of the states); S_Gauss.v ([gauss_logpdf],
   [gauss_kl]); S_Kalman.v ([cond_mean], [cond_cov]: x ~ N(m, K) given y = G x + noise);
   S_Kernel.v ([markov_kernel], [increasing]); S_SSM.v ([has_law]).  flat stacks a sequence
   of vectors, brow a row of blocks, dense N N (rdiag D) is block diagonal. *)
From Coq Require Import Reals.
From mathcomp Require Import all_ssreflect all_algebra.
From Verif Require Import RealStruct Nat Alg Lin Ent Spd Log M_Block M_SSM S_SSM P_SSM M_SSMLog P_SSMLog S_Gauss
  S_Kalman M_Kalman M_Kernel S_Kernel M_Cond M_Emission M_Sort M_Models S_GP P_Models P_Models2 P_Models3
  M_Comb S_Comb M_KernelR S_KernelR P_Units P_Effect P_Cases.
Set Implicit Arguments.
Unset Strict Implicit.
Unset Printing Implicit Defensive.
Import GRing.Theory Num.Theory Order.TTheory.
Local Open Scope ring_scope.

(* ---------- C61: regression ---------- *)

(* the log likelihood of the observations y at the times z, with noise covariance cR cR^T *)
Theorem C61_log_likelihood o d (ker : sde_kernel Rr d) (emission : R -> 'M[R]_(o, d)) mean :
  markov_kernel ker -> k_mean0 ker = 0 -> forall n z y (cR : 'M[R]_o), increasing n.+1 z -> lownz cR ->
  gpr_log_likelihood ker emission mean n z y cR =
  Some (gauss_logpdf (flat n.+1 (fun k => mean (z k)))
    (f_gram ker emission n.+1 n.+1 z z + dense n.+1 n.+1 (rdiag (fun _ => cR *m cR^T))) (flat n.+1 y)).
Proof. exact: gpr_evidence. Qed.
Print Assumptions C61_log_likelihood.

(* loss *)
Theorem C61_loss o d (ker : sde_kernel Rr d) (emission : R -> 'M[R]_(o, d)) mean :
  markov_kernel ker -> k_mean0 ker = 0 -> forall n z y (cR : 'M[R]_o), increasing n.+1 z -> lownz cR ->
  gpr_loss ker emission mean n z y cR =
  Some (- gauss_logpdf (flat n.+1 (fun k => mean (z k)))
    (f_gram ker emission n.+1 n.+1 z z + dense n.+1 n.+1 (rdiag (fun _ => cR *m cR^T))) (flat n.+1 y)).
Proof. exact: gpr_loss_ok. Qed.
Print Assumptions C61_loss.

(* predict_f at any time between the first and the last observation, the observation times
   included *)
Theorem C61_predict o d (ker : sde_kernel Rr d) (emission : R -> 'M[R]_(o, d)) mean :
  markov_kernel ker -> k_mean0 ker = 0 -> forall n z y (cR : 'M[R]_o), increasing n.+1 z -> lownz cR ->
  forall new i, (0 < n)%N -> - APPROX_INF Rr < z 0%N -> z 0%N <= new i -> new i <= z n ->
  let Kt := brow n.+1 (fun j => f_cov ker emission (new i) (z j)) in
  let W := invmx (f_gram ker emission n.+1 n.+1 z z + dense n.+1 n.+1 (rdiag (fun _ => cR *m cR^T))) in
  omap (fun p => p i) (gpr_predict_f ker emission mean n z y cR new) =
  Some (mean (new i) + Kt *m W *m (flat n.+1 y - flat n.+1 (fun k => mean (z k))),
        f_cov ker emission (new i) (new i) - Kt *m W *m Kt^T).
Proof. exact: gpr_predict. Qed.
Print Assumptions C61_predict.

(* the same for the stationary kernels of the library, by their covariance functions *)
Theorem C61_library o d (k : skernel Rr o d) mean n z y cR new i :
  library_kernel true k -> sk_jitter k = 0 -> sk_mean0 k = 0 -> noisy k ->
  increasing n.+1 z -> lownz cR ->
  let mu := flat n.+1 (fun k => mean (z k)) in
  let Kyy := dense n.+1 n.+1 (fun i j => fcov k (z i) (z j)) + dense n.+1 n.+1 (rdiag (fun _ => cR *m cR^T)) in
  let Kt := brow n.+1 (fun j => fcov k (new i) (z j)) in
  gpr_log_likelihood (to_sde k) (sk_H k) mean n z y cR = Some (gauss_logpdf mu Kyy (flat n.+1 y)) /\
  ((0 < n)%N -> - APPROX_INF Rr < z 0%N -> z 0%N <= new i -> new i <= z n ->
   omap (fun p => p i) (gpr_predict_f (to_sde k) (sk_H k) mean n z y cR new) =
   Some (mean (new i) + Kt *m invmx Kyy *m (flat n.+1 y - mu),
         fcov k (new i) (new i) - Kt *m invmx Kyy *m Kt^T)).
Proof. exact: gpr_library. Qed.
Print Assumptions C61_library.

(* the hypotheses of C61_library, with the covariance functions, for the Matern kernels *)
Example C61_matern (o : nat) (l s2 : R) : 0 < l -> 0 < s2 ->
  let ready d (k : skernel Rr o d) (c : R -> R) :=
    [/\ library_kernel true k, sk_jitter k = 0, sk_mean0 k = 0, noisy k &
        forall s t, fcov k s t = const_mx (c `|s - t|)] in
  [/\ ready _ (matern12 o 0 l s2 0) (cov_matern12 l s2),
      ready _ (matern32 o 0 l s2 0) (cov_matern32 l s2) &
      ready _ (matern52 o 0 l s2 0) (cov_matern52 l s2)].
Proof. exact: matern_ready. Qed.

(* ---------- C105: origin, direction and units of time and observations ---------- *)

(* all times moved by c: any library kernel whose emission matrix does not depend on time *)
Theorem C105_shift o d (k : skernel Rr o d) mean mean' n z y cR new i c :
  library_kernel true k -> sk_jitter k = 0 -> sk_mean0 k = 0 -> noisy k -> (forall s t, sk_H k s = sk_H k t) ->
  increasing n.+1 z -> lownz cR -> (0 < n)%N -> z 0%N <= new i <= z n ->
  - APPROX_INF Rr < z 0%N -> - APPROX_INF Rr < z 0%N + c -> (forall t, mean' (t + c) = mean t) ->
  exists e m C,
  [/\ gpr_log_likelihood (to_sde k) (sk_H k) mean n z y cR = Some e,
      gpr_log_likelihood (to_sde k) (sk_H k) mean' n (fun j => z j + c) y cR = Some e,
      omap (fun p => p i) (gpr_predict_f (to_sde k) (sk_H k) mean n z y cR new) = Some (m, C) &
      omap (fun p => p i) (gpr_predict_f (to_sde k) (sk_H k) mean' n (fun j => z j + c) y cR (fun j => new j + c)) = Some (m, C)].
Proof.
exact (fun H1 H2 H3 H4 H5 H6 H7 H8 H9 Ha Hb Hc => @regression_shift o d k (And4 H1 H2 H3 H4) mean mean' n z y cR new i c H6 H7 H8 Ha H9 H5 Hc Hb).
Qed.
Print Assumptions C105_shift.

(* time running backwards: kernels whose covariance is a function of the distance *)
Theorem C105_reversal o d (k : skernel Rr o d) (cov : R -> R) mean mean' n z y cR new i c :
  library_kernel true k -> sk_jitter k = 0 -> sk_mean0 k = 0 -> noisy k -> (forall s t, fcov k s t = const_mx (cov `|s - t|)) ->
  increasing n.+1 z -> lownz cR -> (0 < n)%N -> z 0%N <= new i <= z n ->
  - APPROX_INF Rr < z 0%N -> - APPROX_INF Rr < c - z n -> (forall t, mean' (c - t) = mean t) ->
  exists e m C,
  [/\ gpr_log_likelihood (to_sde k) (sk_H k) mean n z y cR = Some e,
      gpr_log_likelihood (to_sde k) (sk_H k) mean' n (fun j => c - z (n - j)%N) (fun j => y (n - j)%N) cR = Some e,
      omap (fun p => p i) (gpr_predict_f (to_sde k) (sk_H k) mean n z y cR new) = Some (m, C) &
      omap (fun p => p i) (gpr_predict_f (to_sde k) (sk_H k) mean' n (fun j => c - z (n - j)%N) (fun j => y (n - j)%N) cR
        (fun j => c - new j)) = Some (m, C)].
Proof.
exact (fun H1 H2 H3 H4 H5 H6 H7 H8 H9 Ha Hb Hc => @regression_reversal o d k (And4 H1 H2 H3 H4) mean mean' n z y cR new i c H6 H7 H8 Ha H9 cov H5 Hc Hb).
Qed.
Print Assumptions C105_reversal.

(* times and length scale multiplied by a; observations, noise and mean function by b and the
   variance by b^2: the log likelihood loses ln b for every number observed, the predicted
   means are multiplied by b and the covariances by b^2 *)
Theorem C105_units o (l s2 a b : R) mean mean' n z y (cR : 'M[R]_o) new i :
  0 < l -> 0 < s2 -> 0 < a -> 0 < b -> (forall t, mean' (a * t) = b *: mean t) ->
  increasing (F := Rr) n.+1 z -> lownz cR -> (0 < n)%N -> - APPROX_INF Rr < z 0%N -> - APPROX_INF Rr < a * z 0%N ->
  z 0%N <= new i <= z n ->
  let same d (k k' : skernel Rr o d) := exists e m C,
    [/\ gpr_log_likelihood (to_sde k) (sk_H k) mean n z y cR = Some e,
        gpr_log_likelihood (to_sde k') (sk_H k') mean' n (fun j => a * z j) (fun j => b *: y j) (b *: cR) = Some (e - (n.+1 * o)%:R * ln b),
        omap (fun p => p i) (gpr_predict_f (to_sde k) (sk_H k) mean n z y cR new) = Some (m, C) &
        omap (fun p => p i) (gpr_predict_f (to_sde k') (sk_H k') mean' n (fun j => a * z j) (fun j => b *: y j) (b *: cR) (fun j => a * new j)) =
          Some (b *: m, b ^+ 2 *: C)] in
  [/\ same _ (matern12 o 0 l s2 0) (matern12 o 0 (a * l) (b ^+ 2 * s2) 0),
      same _ (matern32 o 0 l s2 0) (matern32 o 0 (a * l) (b ^+ 2 * s2) 0) &
      same _ (matern52 o 0 l s2 0) (matern52 o 0 (a * l) (b ^+ 2 * s2) 0)].
Proof. exact (fun H1 H2 H3 H4 H5 H6 H7 H8 H9 Ha Hb => @regression_units o l s2 a b H1 H2 H3 H4 mean mean' n z y cR new i H5 H6 H7 H8 H9 Ha Hb). Qed.
Print Assumptions C105_units.

(* the hypotheses on the kernel hold for a Matern kernel (C61_matern) and on the times for the
   whole numbers *)
Example C105_example (o : nat) (l s2 : R) n : 0 < l -> 0 < s2 ->
  let k := matern32 o 0 l s2 0 in let z i : R := i%:R in
  [/\ library_kernel true k, sk_jitter k = 0, sk_mean0 k = 0, noisy k &
      forall s t, fcov k s t = const_mx (cov_matern32 l s2 `|s - t|)] /\
  [/\ forall s t, sk_H k s = sk_H k t, increasing (F := Rr) n.+1 z, - APPROX_INF Rr < z 0%N & - APPROX_INF Rr < n%:R - z n].
Proof. exact: units_example. Qed.

(* ---------- C48: the bound of the variational model, Gaussian likelihood ---------- *)

(* bound + KL from q to the posterior of the regression model = log likelihood of the
   regression model, for every state space model q *)
Theorem C48_elbo_identity o d (ker : sde_kernel Rr d) (emission : R -> 'M[R]_(o, d)) mean :
  markov_kernel ker -> k_mean0 ker = 0 -> forall n z y s2, increasing n.+1 z -> 0 < s2 ->
  forall q : ssm Rr d, (0 < n)%N -> - APPROX_INF Rr < z 0%N -> ssm_nonsing n q ->
  exists e l post,
  [/\ vgp_elbo ker emission mean (ext_gaussian_ve s2) n z y q = Some e,
      gpr_log_likelihood ker emission mean n z y (Num.sqrt s2)%:M = Some l,
      gpr_posterior ker emission mean n z y (Num.sqrt s2)%:M = Some post &
      e + ssm_kl_divergence n q post = l].
Proof. exact: vgp_evidence. Qed.
Print Assumptions C48_elbo_identity.

(* so it is a lower bound of the log evidence, reached exactly when q is the posterior of
   the states given the observations *)
Theorem C48_elbo_bound o d (ker : sde_kernel Rr d) (emission : R -> 'M[R]_(o, d)) mean n z y (s2 : R) (q : ssm Rr d) m K :
  markov_kernel ker -> k_mean0 ker = 0 -> increasing n.+1 z ->
  0 < s2 -> (0 < n)%N -> - APPROX_INF Rr < z 0%N -> ssm_nonsing n q -> has_law n.+1 n.+1 (ssm_path q) m K ->
  exists e l,
  [/\ vgp_elbo ker emission mean (ext_gaussian_ve s2) n z y q = Some e,
      l = gauss_logpdf (flat n.+1 (fun k => mean (z k))) (f_gram ker emission n.+1 n.+1 z z + s2%:M) (flat n.+1 y),
      e <= l &
      e = l <->
      (let Hd := dense n.+1 n.+1 (rdiag (fun k => emission (z k))) in
       let r := flat n.+1 (fun k => y k - mean (z k)) in
       flat n.+1 m = cond_mean 0 (x_gram ker n.+1 z) Hd s2%:M r /\
       dense n.+1 n.+1 K = cond_cov (x_gram ker n.+1 z) Hd s2%:M)].
Proof. exact: vgp_bound. Qed.
Print Assumptions C48_elbo_bound.

Example C48_example (l s2 : R) n (mu b : 'cV[R]_2) : 0 < l -> 0 < s2 ->
  let k := matern32 1 0 l s2 0 in let z i : R := i%:R in
  [/\ markov_kernel (to_sde k), k_mean0 (to_sde k) = 0, increasing (F := Rr) n.+1 z, - APPROX_INF Rr < z 0%N &
      ssm_nonsing n (ex_ssm (F := Rr) mu b)].
Proof. exact: models_example. Qed.

(* ---------- C76: the sparse bound, Gaussian likelihood ---------- *)

(* N data points in any order, with repetitions, between the first and the last of the
   n + 1 inducing points *)
Theorem C76_sparse_elbo o d (ker : sde_kernel Rr d) (emission : R -> 'M[R]_(o, d)) mean n z N X Y (s2 : R) (q : ssm Rr d) m K :
  markov_kernel ker -> k_mean0 ker = 0 -> increasing n.+1 z ->
  0 < s2 -> - APPROX_INF Rr < z 0%N -> (forall i, (i < N)%N -> z 0%N <= X i <= z n) ->
  ssm_nonsing n q -> has_law n.+1 n.+1 (ssm_path q) m K ->
  let Kzz := x_gram ker n.+1 z in let Kfz := fx_gram ker emission N n.+1 X z in
  let Kff := f_gram ker emission N N X X in let Qff := Kfz *m invmx Kzz *m Kfz^T in
  let G := Kfz *m invmx Kzz in
  let r := flat N (fun k => Y k - mean (X k)) in
  exists e,
  [/\ svgp_elbo ker emission mean (ext_gaussian_ve s2) n z None N X Y q = Some e,
      e = gauss_logpdf 0 (Qff + s2%:M) r - (2%:R * s2)^-1 * \tr (Kff - Qff)
          - gauss_kl (flat n.+1 m) (dense n.+1 n.+1 K) (cond_mean 0 Kzz G s2%:M r) (cond_cov Kzz G s2%:M) &
      e <= gauss_logpdf (flat N (fun k => mean (X k))) (Kff + s2%:M) (flat N Y)].
Proof. exact: svgp_collapsed. Qed.
Print Assumptions C76_sparse_elbo.

(* a Matern 3/2 kernel, integer inducing points, data in decreasing order that repeat the first inducing point *)
Example C76_example (l s2 : R) n (mu b : 'cV[R]_2) : 0 < l -> 0 < s2 ->
  let k := matern32 1 0 l s2 0 in let z i : R := i%:R in let X i : R := (n - i)%N%:R in
  [/\ markov_kernel (to_sde k), k_mean0 (to_sde k) = 0, increasing (F := Rr) n.+1 z & - APPROX_INF Rr < z 0%N] /\
  [/\ ssm_nonsing n (ex_ssm (F := Rr) mu b), exists m K, has_law n.+1 n.+1 (ssm_path (ex_ssm (F := Rr) mu b)) m K &
      forall N i, (i < N)%N -> z 0%N <= X i <= z n].
Proof. exact: case_sparse. Qed.

(* ---------- C56: minibatches ---------- *)

(* k batches of b data points, chosen so that every one of the N data points is used the
   same number of times; any likelihood; a kernel with a constant initial covariance, or data
   in the range of the inducing points *)
Theorem C56_minibatch o d (ker : sde_kernel Rr d) (emission : R -> 'M[R]_(o, d)) mean ve
    n z N b k (bt : nat -> nat -> nat) c X Y (q : ssm Rr d) :
  (forall i, (i < n)%N -> z i <= z i.+1) ->
  (forall s t, k_P0 ker s = k_P0 ker t) \/
  [/\ markov_kernel ker, k_mean0 ker = 0, increasing n.+1 z, - APPROX_INF Rr < z 0%N & ssm_nonsing n q] /\
  (forall i, (i < N)%N -> z 0%N <= X i <= z n) ->
  (0 < b)%N -> (0 < k)%N ->
  (forall B i, (B < k)%N -> (i < b)%N -> (bt B i < N)%N) ->
  (forall j, (j < N)%N -> (\sum_(B < k) \sum_(i < b) (bt B i == j))%N = c) ->
  exists e (eb : nat -> R),
  [/\ svgp_elbo ker emission mean ve n z (Some N%:R) N X Y q = Some e,
      forall B, (B < k)%N ->
        svgp_elbo ker emission mean ve n z (Some N%:R) b (fun i => X (bt B i)) (fun i => Y (bt B i)) q = Some (eb B) &
      (\sum_(B < k) eb B) / k%:R = e].
Proof. exact: minibatch. Qed.
Print Assumptions C56_minibatch.

(* consecutive batches use every data point once *)
Example C56_example k b :
  (forall B i, (B < k)%N -> (i < b)%N -> (B * b + i < k * b)%N) /\
  (forall j, (j < k * b)%N -> (\sum_(B < k) \sum_(i < b) (B * b + i == j))%N = 1%N).
Proof. exact: partition_balanced. Qed.

(* ---------- C106: what the data can do to predictions ---------- *)

(* more data (every old time is kept): no predicted covariance grows, and none exceeds the prior's *)
Theorem C106_more_data o d (ker : sde_kernel Rr d) (emission : R -> 'M[R]_(o, d)) mean n z y n' z' y' (cR : 'M[R]_o) new i :
  markov_kernel ker -> k_mean0 ker = 0 -> lownz cR -> increasing n.+1 z -> increasing n'.+1 z' ->
  (0 < n)%N -> - APPROX_INF Rr < z' 0%N -> z 0%N <= new i <= z n ->
  (forall j, (j < n.+1)%N -> exists2 l, (l < n'.+1)%N & z' l = z j) ->
  exists m C m' C', [/\ omap (fun p => p i) (gpr_predict_f ker emission mean n z y cR new) = Some (m, C),
    omap (fun p => p i) (gpr_predict_f ker emission mean n' z' y' cR new) = Some (m', C'),
    psd C', psd (C - C') & psd (f_cov ker emission (new i) (new i) - C)].
Proof. exact (fun Hk Hm HR H1 H2 H3 H4 H5 H6 => @more_data o d ker emission Hk Hm cR HR mean n z y n' z' y' new i H1 H2 H3 H4 H5 H6). Qed.
Print Assumptions C106_more_data.

(* more noise never lowers a predicted covariance *)
Theorem C106_more_noise o d (ker : sde_kernel Rr d) (emission : R -> 'M[R]_(o, d)) (cR cR' : 'M[R]_o) mean mean' n z y y' new i :
  markov_kernel ker -> k_mean0 ker = 0 -> lownz cR -> lownz cR' -> psd (cR' *m cR'^T - cR *m cR^T) ->
  increasing n.+1 z -> (0 < n)%N -> - APPROX_INF Rr < z 0%N -> z 0%N <= new i <= z n ->
  exists m C m' C', [/\ omap (fun p => p i) (gpr_predict_f ker emission mean n z y cR new) = Some (m, C),
    omap (fun p => p i) (gpr_predict_f ker emission mean' n z y' cR' new) = Some (m', C') & psd (C' - C)].
Proof. exact: more_noise. Qed.
Print Assumptions C106_more_noise.

(* predicted means are linear in the observations and the mean function together, predicted
   covariances depend on neither *)
Theorem C106_linear o d (ker : sde_kernel Rr d) (emission : R -> 'M[R]_(o, d)) mean mean' n z y y' (cR : 'M[R]_o) (a b : R) new i :
  markov_kernel ker -> k_mean0 ker = 0 -> lownz cR -> increasing n.+1 z -> (0 < n)%N -> - APPROX_INF Rr < z 0%N ->
  z 0%N <= new i <= z n ->
  exists m m' C, [/\ omap (fun p => p i) (gpr_predict_f ker emission mean n z y cR new) = Some (m, C),
    omap (fun p => p i) (gpr_predict_f ker emission mean' n z y' cR new) = Some (m', C) &
    omap (fun p => p i) (gpr_predict_f ker emission (fun t => a *: mean t + b *: mean' t) n z (fun j => a *: y j + b *: y' j) cR new) =
      Some (a *: m + b *: m', C)].
Proof. exact (fun Hk Hm HR H1 H2 H3 H4 => @linear_data o d ker emission Hk Hm cR HR mean mean' n z y y' a b new i H1 H2 H3 H4). Qed.
Print Assumptions C106_linear.

(* data at even numbers, then at all numbers; a prediction at time 1 *)
Example C106_example (l v s2 : R) n : 0 < l -> 0 < v -> 0 < s2 -> (0 < n)%N ->
  let ke := to_sde (matern32 1 0 l v 0) in let z i : R := (2 * i)%:R in let z' i : R := i%:R in
  [/\ markov_kernel ke, k_mean0 ke = 0, lownz ((Num.sqrt s2)%:M : 'M[R]_1), increasing (F := Rr) n.+1 z &
      increasing (F := Rr) (2 * n).+1 z' ] /\
  [/\ - APPROX_INF Rr < z' 0%N, z 0%N <= 1 <= z n & forall j, (j < n.+1)%N -> exists2 l, (l < (2 * n).+1)%N & z' l = z j].
Proof. exact: effect_example. Qed.
