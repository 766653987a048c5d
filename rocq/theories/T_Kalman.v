(* Property theorems C18-C22: Kalman filtering.

   Vocabulary as in T_SSM.v; in S_Kalman.v, [rdiag H] are the blocks of the block
   diagonal matrix with the emission matrices H, [cond_mean], [cond_cov] are the
   moments of x given y = G x + noise for x ~ N(m, K) and noise ~ N(0, S),
   [pick_blocks H idx] are the blocks of the matrix whose j-th block row reads
   H (idx j) x_(idx j).  n is the number of transitions. *)
From Coq Require Import Reals.
From mathcomp Require Import all_ssreflect all_algebra.
From Verif Require Import RealStruct Log Nat Alg Lin Ent Spd M_Block S_Block P_Block P_Block2
  M_SSM S_SSM P_SSM M_SSMLog S_Gauss P_Gauss P_SSMLog S_Kalman M_Kalman P_Kalman P_KalmanLog P_Kalman2 P_Repeat.
Set Implicit Arguments.
Unset Strict Implicit.
Unset Printing Implicit Defensive.
Import GRing.Theory Num.Theory.
Local Open Scope ring_scope.

(* KalmanFilter: the posterior state space model has the conditional law *)
Theorem C18_posterior (F : rcfType) d e n (S : ssm F d) (H : nat -> 'M[F]_(e, d)) obs (cholR : 'M[F]_e) m K :
  (0 < n)%N -> ssm_nonsing n S -> lownz cholR -> has_law n.+1 n.+1 (ssm_path S) m K ->
  exists post,
  [/\ kf_posterior n (kf_plain S H obs cholR) = Some post, ssm_nonsing n post &
      forall m' K', has_law n.+1 n.+1 (ssm_path post) m' K' ->
      let G := dense n.+1 n.+1 (rdiag H) in
      let Sg := dense n.+1 n.+1 (rdiag (fun _ => cholR *m cholR^T)) in
      flat n.+1 m' = cond_mean (flat n.+1 m) (dense n.+1 n.+1 K) G Sg (flat n.+1 obs) /\
      dense n.+1 n.+1 K' = cond_cov (dense n.+1 n.+1 K) G Sg].
Proof. exact: plain_posterior_gen. Qed.
Print Assumptions C18_posterior.

(* information form, for any filter: time varying and possibly singular observation
   precisions *)
Theorem C18_posterior_information (F : rcfType) d e n (S : ssm F d) (H : nat -> 'M[F]_(e, d))
    (rinv : nat -> 'M[F]_e) obs m K :
  (0 < n)%N -> ssm_nonsing n S -> (forall k, (k <= n)%N -> psd (rinv k)) ->
  has_law n.+1 n.+1 (ssm_path S) m K ->
  exists post,
  [/\ kf_posterior n (Kf S H rinv obs) = Some post, ssm_nonsing n post &
      forall m' K', has_law n.+1 n.+1 (ssm_path post) m' K' ->
      let G := dense n.+1 n.+1 (rdiag H) in
      let Si := dense n.+1 n.+1 (rdiag rinv) in
      let L := invmx (dense n.+1 n.+1 K) + G^T *m Si *m G in
      [/\ L \in unitmx, dense n.+1 n.+1 K' = invmx L &
          L *m flat n.+1 m' = G^T *m Si *m flat n.+1 obs + invmx (dense n.+1 n.+1 K) *m flat n.+1 m]].
Proof. exact: posterior_info. Qed.
Print Assumptions C18_posterior_information.

(* Bayes' rule: posterior density times evidence is prior density times likelihood *)
Theorem C18_bayes d e n (S : ssm Rr d) (H : nat -> 'M[R]_(e, d)) obs (cholR : 'M[R]_e) :
  lownz (R := Rr) cholR -> (0 < n)%N -> ssm_nonsing n S ->
  exists post,
  [/\ kf_posterior n (kf_plain (F := Rr) S H obs cholR) = Some post, ssm_nonsing n post &
      forall x, ssm_log_pdf n post x + kf_plain_log_likelihood n S H obs cholR =
        ssm_log_pdf n S x + \sum_(k < n.+1) gauss_logpdf (H k *m x k) (cholR *m cholR^T) (obs k)].
Proof. exact: plain_bayes. Qed.
Print Assumptions C18_bayes.

Theorem C19_log_likelihood d e n (S : ssm Rr d) (H : nat -> 'M[R]_(e, d)) obs (cholR : 'M[R]_e) m K :
  lownz (R := Rr) cholR -> ssm_nonsing n S -> has_law n.+1 n.+1 (ssm_path S) m K ->
  kf_plain_log_likelihood n S H obs cholR =
  gauss_logpdf (dense n.+1 n.+1 (rdiag H) *m flat n.+1 m)
    (dense n.+1 n.+1 (rdiag H) *m dense n.+1 n.+1 K *m (dense n.+1 n.+1 (rdiag H))^T
      + dense n.+1 n.+1 (rdiag (fun _ => cholR *m cholR^T)))
    (flat n.+1 obs).
Proof. exact: (fun HR => @plain_log_likelihood d e n S H obs cholR HR m K). Qed.
Print Assumptions C19_log_likelihood.

(* the hypotheses of C18 and C19 hold for a random walk with unit noise of any
   positive length, dimension and emission *)
Example C18_example (F : rcfType) d e n (mu b : 'cV[F]_d) :
  (0 < n.+1)%N /\ ssm_nonsing n.+1 (ex_ssm mu b) /\ lownz (1%:M : 'M[F]_e).
Proof. by split=> //; split; [apply: ex_ssm_nonsing | have [] := ex_ssm_nonsing 0 (0 : 'cV[F]_e) 0]. Qed.

(* KalmanFilterWithSites: the conditional law given observations - nat1 / (2 nat2)
   with variances 1 / (- 2 nat2), and the natural parameters of the posterior *)
Theorem C20_sites_posterior (F : rcfType) d n (S : ssm F d) (H : nat -> 'M[F]_(1, d)) (s : sites F) m K :
  (forall k, (k < n.+1)%N -> st_nat2 s k < 0) -> (0 < n)%N -> ssm_nonsing n S ->
  has_law n.+1 n.+1 (ssm_path S) m K ->
  exists post,
  [/\ kf_posterior n (kf_sites S H s) = Some post, ssm_nonsing n post &
      forall m' K', has_law n.+1 n.+1 (ssm_path post) m' K' ->
      let G := dense n.+1 n.+1 (rdiag H) in
      let Sg := dense n.+1 n.+1 (rdiag (fun k => ((- 2%:R * st_nat2 s k)^-1)%:M)) in
      let y := flat n.+1 (fun k => (- st_nat1 s k / (2%:R * st_nat2 s k))%:M) in
      [/\ flat n.+1 m' = cond_mean (flat n.+1 m) (dense n.+1 n.+1 K) G Sg y,
          dense n.+1 n.+1 K' = cond_cov (dense n.+1 n.+1 K) G Sg,
          invmx (dense n.+1 n.+1 K') = invmx (dense n.+1 n.+1 K) +
            G^T *m dense n.+1 n.+1 (rdiag (fun k => (- 2%:R * st_nat2 s k)%:M)) *m G &
          invmx (dense n.+1 n.+1 K') *m flat n.+1 m' =
            invmx (dense n.+1 n.+1 K) *m flat n.+1 m + G^T *m flat n.+1 (fun k => (st_nat1 s k)%:M)]].
Proof. exact: (fun Hs => @sites_posterior F d n S H s Hs m K). Qed.
Print Assumptions C20_sites_posterior.

Theorem C20_sites_log_likelihood d n (S : ssm Rr d) (H : nat -> 'M[R]_(1, d)) (s : sites Rr) m K :
  ssm_nonsing n S -> (forall k, (k <= n)%N -> st_nat2 s k < 0) ->
  has_law n.+1 n.+1 (ssm_path S) m K ->
  kf_sites_log_likelihood n S H s =
  gauss_logpdf (flat n.+1 (fun k => H k *m m k))
    (dense n.+1 n.+1 (fun i j => H i *m K i j *m (H j)^T +
        (if i == j then ((- 2%:R * st_nat2 s i)^-1)%:M else 0)))
    (flat n.+1 (fun k => (- st_nat1 s k / (2%:R * st_nat2 s k))%:M)).
Proof. exact: (fun HS Hs => @sites_log_likelihood_law d n S H s HS Hs m K). Qed.
Print Assumptions C20_sites_log_likelihood.

(* the posterior is the prior times the site factors exp (nat1 f + nat2 f^2), up to a
   constant *)
Theorem C20_sites_factors d n (S : ssm Rr d) (H : nat -> 'M[R]_(1, d)) (s : sites Rr) :
  ssm_nonsing n S -> (forall k, (k <= n)%N -> st_nat2 s k < 0) -> (0 < n)%N ->
  exists post c,
  [/\ kf_posterior n (kf_sites (F := Rr) S H s) = Some post, ssm_nonsing n post &
      forall x, ssm_log_pdf n post x =
        ssm_log_pdf n S x + \sum_(k < n.+1) (let f := (H k *m x k) 0 0 in
          st_nat1 s k * f + st_nat2 s k * f ^+ 2) + c].
Proof. exact: (@sites_factor d n S H s). Qed.
Print Assumptions C20_sites_factors.

Example C20_example (F : rcfType) (g : nat -> F) n :
  forall k, (k < n.+1)%N -> st_nat2 (Sites g (fun j => - j.+1%:R)) k < 0.
Proof. by move=> k _ /=; rewrite oppr_lt0 ltr0n. Qed.

(* KalmanFilterWithSparseSites, m observations at distinct grid indices *)
Theorem C21_sparse_posterior (F : rcfType) d n m (S : ssm F d) (H : nat -> 'M[F]_(1, d)) (s : sites F)
    idx obs mu K :
  (forall j, (j < m)%N -> st_nat2 s j < 0) ->
  (forall i j, (i < m)%N -> (j < m)%N -> idx i = idx j -> i = j) ->
  (0 < n)%N -> ssm_nonsing n S -> has_law n.+1 n.+1 (ssm_path S) mu K ->
  exists post,
  [/\ kf_posterior n (kf_sparse S H m s idx obs) = Some post, ssm_nonsing n post &
      forall m' K', has_law n.+1 n.+1 (ssm_path post) m' K' ->
      let G := dense m n.+1 (pick_blocks H idx) in
      let Sg := dense m m (rdiag (fun j => ((- 2%:R * st_nat2 s j)^-1)%:M)) in
      flat n.+1 m' = cond_mean (flat n.+1 mu) (dense n.+1 n.+1 K) G Sg (flat m obs) /\
      dense n.+1 n.+1 K' = cond_cov (dense n.+1 n.+1 K) G Sg].
Proof. exact: (fun Hs inj => @sparse_posterior F d n m S H s idx obs Hs inj mu K). Qed.
Print Assumptions C21_sparse_posterior.

(* the evidence of the observed states alone *)
Theorem C21_sparse_log_likelihood d n m (S : ssm Rr d) (H : nat -> 'M[R]_(1, d)) (s : sites Rr)
    idx obs mu K :
  ssm_nonsing n S -> (forall j, (j < m)%N -> st_nat2 s j < 0) ->
  (forall i j, (i < m)%N -> (j < m)%N -> idx i = idx j -> i = j) ->
  (forall j, (j < m)%N -> (idx j <= n)%N) ->
  has_law n.+1 n.+1 (ssm_path S) mu K ->
  kf_sparse_log_likelihood n S H m s idx obs =
  gauss_logpdf (flat m (fun j => H (idx j) *m mu (idx j)))
    (dense m m (fun i j => H (idx i) *m K (idx i) (idx j) *m (H (idx j))^T +
        (if i == j then ((- 2%:R * st_nat2 s i)^-1)%:M else 0)))
    (flat m obs).
Proof. exact: (fun HS Hs inj Hi => @sparse_log_likelihood_law d n m S H s idx obs HS Hs inj Hi mu K). Qed.
Print Assumptions C21_sparse_log_likelihood.

Theorem C21_sparse_bayes d n m (S : ssm Rr d) (H : nat -> 'M[R]_(1, d)) (s : sites Rr) idx obs :
  ssm_nonsing n S -> (forall j, (j < m)%N -> st_nat2 s j < 0) ->
  (forall i j, (i < m)%N -> (j < m)%N -> idx i = idx j -> i = j) ->
  (forall j, (j < m)%N -> (idx j <= n)%N) -> (0 < n)%N ->
  exists post,
  [/\ kf_posterior n (kf_sparse (F := Rr) S H m s idx obs) = Some post, ssm_nonsing n post &
      forall x, ssm_log_pdf n post x + kf_sparse_log_likelihood n S H m s idx obs =
        ssm_log_pdf n S x +
        \sum_(j < m) gauss_logpdf (H (idx j) *m x (idx j)) ((- 2%:R * st_nat2 s j)^-1)%:M (obs j)].
Proof. exact: (@sparse_bayes d n m S H s idx obs). Qed.
Print Assumptions C21_sparse_bayes.

(* two grids whose observed states have the same law give the same evidence *)
Theorem C21_grid_independence d m s obs n (S : ssm Rr d) idx H mu K n' (S' : ssm Rr d) idx' H' mu' K' :
  (forall j, (j < m)%N -> st_nat2 s j < 0) ->
  ssm_nonsing n S -> (forall i j, (i < m)%N -> (j < m)%N -> idx i = idx j -> i = j) ->
  (forall j, (j < m)%N -> (idx j <= n)%N) ->
  ssm_nonsing n' S' -> (forall i j, (i < m)%N -> (j < m)%N -> idx' i = idx' j -> i = j) ->
  (forall j, (j < m)%N -> (idx' j <= n')%N) ->
  has_law n.+1 n.+1 (ssm_path S) mu K -> has_law n'.+1 n'.+1 (ssm_path S') mu' K' ->
  (forall j, (j < m)%N -> H (idx j) = H' (idx' j) /\ mu (idx j) = mu' (idx' j)) ->
  (forall i j, (i < m)%N -> (j < m)%N -> K (idx i) (idx j) = K' (idx' i) (idx' j)) ->
  kf_sparse_log_likelihood n S H m s idx obs = kf_sparse_log_likelihood n' S' H' m s idx' obs.
Proof. exact: sparse_grid. Qed.
Print Assumptions C21_grid_independence.

(* observations at every second point of a grid of 2 n + 1 points *)
Example C21_example n : let idx j := (2 * j)%N in
  (forall i j, (i < n)%N -> (j < n)%N -> idx i = idx j -> i = j) /\
  (forall j, (j < n)%N -> (idx j <= 2 * n)%N).
Proof. by split=> [i j _ _|j Hj]; rewrite /=; lia. Qed.

(* C22.  With a repeated index the posterior is not the conditional law: two unit
   noise observations of one state. *)
Theorem C22_repeated_index_refuted (F : rcfType) :
  exists (n d m : nat) (S : ssm F d) H s idx obs,
  [/\ (0 < n)%N, ssm_nonsing n S, forall j, (j < m)%N -> st_nat2 s j < 0,
      forall j, (j < m)%N -> (idx j <= n)%N &
      forall mu K, has_law n.+1 n.+1 (ssm_path S) mu K ->
        exists2 post, kf_posterior n (kf_sparse S H m s idx obs) = Some post &
        forall m' K', has_law n.+1 n.+1 (ssm_path post) m' K' ->
        flat n.+1 m' <> cond_mean (flat n.+1 mu) (dense n.+1 n.+1 K) (dense m n.+1 (pick_blocks H idx))
           (dense m m (rdiag (fun j => ((- 2%:R * st_nat2 s j)^-1)%:M))) (flat m obs)].
Proof. exact: repeated_index. Qed.
Print Assumptions C22_repeated_index_refuted.

(* What is computed for any index vector: the covariance is always right; the mean is off by
   the posterior covariance times H^T (sum of precisions * sum of observations - sum of
   precision * observation), so it is right exactly if this vanishes at every grid point
   that is observed *)
Theorem C22_posterior (F : rcfType) d n m (S : ssm F d) (H : nat -> 'M[F]_(1, d)) (s : sites F) idx
    (obs : nat -> 'cV[F]_1) mu K :
  (forall j, (j < m)%N -> st_nat2 s j < 0) -> (0 < n)%N -> ssm_nonsing n S -> has_law n.+1 n.+1 (ssm_path S) mu K ->
  let G := dense m n.+1 (pick_blocks H idx) in
  let r j : F := - 2%:R * st_nat2 s j in
  let Sg : 'M[F]_(m * 1) := dense m m (rdiag (fun j => (r j)^-1%:M)) in
  let gap k := (\sum_(j < m | idx j == k) r j) *: (\sum_(j < m | idx j == k) obs j)
               - \sum_(j < m | idx j == k) r j *: obs j in
  exists post,
  [/\ kf_posterior n (kf_sparse S H m s idx obs) = Some post, ssm_nonsing n post &
      forall m' K', has_law n.+1 n.+1 (ssm_path post) m' K' ->
      [/\ dense n.+1 n.+1 K' = cond_cov (dense n.+1 n.+1 K) G Sg,
          flat n.+1 m' = cond_mean (flat n.+1 mu) (dense n.+1 n.+1 K) G Sg (flat m obs)
             + dense n.+1 n.+1 K' *m flat n.+1 (fun k => (H k)^T *m gap k) &
          flat n.+1 m' = cond_mean (flat n.+1 mu) (dense n.+1 n.+1 K) G Sg (flat m obs) <->
          (forall k, (k <= n)%N -> H k = 0 \/ gap k = 0)]].
Proof. exact: (fun Hs => @merge_posterior F d n m S H s idx obs Hs mu K). Qed.
Print Assumptions C22_posterior.

(* and the log likelihood: the evidence of the m observations plus an error term *)
Theorem C22_log_likelihood d n m (S : ssm Rr d) (H : nat -> 'M[R]_(1, d)) (s : sites Rr) idx
    (obs : nat -> 'cV[R]_1) mu K :
  (forall j, (j < m)%N -> st_nat2 s j < 0) -> (forall j, (j < m)%N -> (idx j <= n)%N) ->
  ssm_nonsing n S -> has_law n.+1 n.+1 (ssm_path S) mu K ->
  let G : 'M[Rr]_(m * 1, n.+1 * d) := dense m n.+1 (pick_blocks H idx) in
  let r j : Rr := - 2%:R * st_nat2 s j in
  let Sg : 'M[Rr]_(m * 1) := dense m m (rdiag (fun j => (r j)^-1%:M)) in
  let gap k : 'cV[Rr]_1 := (\sum_(j < m | idx j == k) r j) *: (\sum_(j < m | idx j == k) obs j)
               - \sum_(j < m | idx j == k) r j *: obs j in
  let C := cond_cov (dense n.+1 n.+1 K) G Sg in
  let w := G^T *m invmx Sg *m (flat m obs - G *m flat n.+1 mu) in
  kf_sparse_log_likelihood n S H m s idx obs =
  gauss_logpdf (G *m flat n.+1 mu) (G *m dense n.+1 n.+1 K *m G^T + Sg) (flat m obs)
  + 2%:R^-1 * (qf C (w + flat n.+1 (fun k => (H k)^T *m gap k)) - qf C w).
Proof. exact: (fun Hs Hi => @merge_log_likelihood d n m S H s idx obs Hs Hi mu K). Qed.
Print Assumptions C22_log_likelihood.

(* two observations of state 0 with precision one: the gap is y_0 + y_1 *)
Example C22_example (F : rcfType) (y : nat -> 'cV[F]_1) : let s := Sites (fun _ => 0) (fun _ => - 2%:R^-1) : sites F in
  let r j : F := - 2%:R * st_nat2 s j in
  (forall j, (j < 2)%N -> st_nat2 s j < 0) /\
  (\sum_(j < 2 | 0%N == 0%N :> nat) r j) *: (\sum_(j < 2 | 0%N == 0%N :> nat) y j)
     - \sum_(j < 2 | 0%N == 0%N :> nat) r j *: y j = y 0%N + y 1%N.
Proof.
split=> [j _ /=|]; first by rewrite oppr_lt0 invr_gt0 ltr0n.
have E : - 2%:R * - 2%:R^-1 = 1 :> F by rewrite mulrNN divff // pnatr_eq0.
by rewrite !big_ord_recl !big_ord0 /= !E !addr0 !scale1r scalerDl scale1r addrK.
Qed.
