(* Theorems about batch_base_conditional and the spatio-temporal models.

   mixed_mean, mixed_var (S_Space.v): the law of g1 when g2 has mean f and covariance C and
   g1 given g2 is that of the prior.  st_cov: the product covariance.  weights_on_states: the
   row that gives a weighted sum of the conditional means of the outputs at a time from the
   states at the inducing times. *)
From Coq Require Import Reals.
From mathcomp Require Import all_ssreflect all_algebra.
From Verif Require Import RealStruct Alg Lin Ent Spd S_Gauss M_SSM M_SSMLog S_SSM P_SSM M_Kernel S_Kernel M_Comb S_Comb M_KernelR S_KernelR
  P_KernelR2 M_Cond P_Cond4 P_Sort M_Kalman S_GP S_Kalman M_Models M_Cvi S_Cvi M_Space S_Space P_Space P_Space2 P_Space3 P_SpaceElbo P_SpaceEx P_Cases.
Set Implicit Arguments.
Unset Strict Implicit.
Unset Printing Implicit Defensive.
Import GRing.Theory Num.Theory Order.TTheory.
Local Open Scope ring_scope.

(* ---------- C63: batch_base_conditional ---------- *)

(* the mean, for any q_sqrt *)
Theorem C63_mean (F : rcfType) m (Kmm : 'M[F]_m) (k : 'cV[F]_m) knn (f : 'cV[F]_m) : spd Kmm -> forall q,
  (batch_base_conditional k Kmm knn f q false).1 = mixed_mean Kmm k f.
Proof. exact: bbc_mean. Qed.
Print Assumptions C63_mean.

(* the variance without q_sqrt and with the diagonal form *)
Theorem C63_variance (F : rcfType) m (Kmm : 'M[F]_m) (k : 'cV[F]_m) knn (f : 'cV[F]_m) : spd Kmm ->
  (batch_base_conditional k Kmm knn f (QNone F m) false).2 = mixed_var Kmm k knn 0 /\
  forall c : 'cV[F]_m, (batch_base_conditional k Kmm knn f (QDiag c) false).2 =
    mixed_var Kmm k knn (diag_mx (\row_i c i 0 ^+ 2)).
Proof. exact: (fun H => conj (bbc_none _ _ _ H) (bbc_diag _ _ _ H)). Qed.
Print Assumptions C63_variance.

(* white: g2 = Lm v with Lm the Cholesky factor of Kmm, and f, q_sqrt describe v *)
Theorem C63_white (F : rcfType) m (Kmm : 'M[F]_m) (k : 'cV[F]_m) knn (f : 'cV[F]_m) (Lm : 'M[F]_m) : spd Kmm ->
  lowpos Lm -> Lm *m Lm^T = Kmm ->
  [/\ forall q, (batch_base_conditional k Kmm knn f q true).1 = mixed_mean Kmm k (Lm *m f),
      (batch_base_conditional k Kmm knn f (QNone F m) true).2 = mixed_var Kmm k knn 0 &
      forall c : 'cV[F]_m, (batch_base_conditional k Kmm knn f (QDiag c) true).2 =
        mixed_var Kmm k knn (Lm *m diag_mx (\row_i c i 0 ^+ 2) *m Lm^T)].
Proof. exact: bbc_white. Qed.
Print Assumptions C63_white.

(* the triangular form uses L^T L where the documentation has L L^T; the upper triangle of
   the argument is not read *)
Theorem C63_triangular_partial (F : rcfType) m (Kmm : 'M[F]_m) (k : 'cV[F]_m) knn (f : 'cV[F]_m) (Q L : 'M[F]_m) :
  spd Kmm -> (forall i j : 'I_m, L i j = if (j <= i)%N then Q i j else 0) ->
  (batch_base_conditional k Kmm knn f (QTri Q) false).2 = mixed_var Kmm k knn (L^T *m L) /\
  (L^T *m L = L *m L^T ->
   (batch_base_conditional k Kmm knn f (QTri Q) false).2 = mixed_var Kmm k knn (L *m L^T)).
Proof. exact: bbc_triangular. Qed.
Print Assumptions C63_triangular_partial.

Theorem C63_triangular_refuted (F : rcfType) : exists (k : 'cV[F]_2) (L : 'M[F]_2),
  spd (1%:M : 'M[F]_2) /\ lowpos L /\
  (batch_base_conditional k 1%:M 1 0 (QTri L) false).2 = 2%:R /\ mixed_var 1%:M k 1 (L *m L^T) = 1.
Proof. exact: bbc_refuted. Qed.
Print Assumptions C63_triangular_refuted.

Example C63_example (c : R) : c ^+ 2 < 1 -> spd (st_Kmm (F := Rr) (bspace c) (matern12 1 0 1 1 0) 2 bpoints).
Proof. exact: bspace_two. Qed.

(* ---------- C89: the spatio-temporal kernel ---------- *)

(* Z a: spatial inducing points; z i: times.  Output a at time z i is f(Z a, z i) *)
Theorem C89_prior (F : rcfType) (S : Type) (space : S -> S -> F) d (kt : skernel F 1 d) Ms Z n z :
  increasing n.+1 z -> plain_kernel kt -> noisy kt \/ noiseless kt -> spd (st_Kmm space kt Ms Z) ->
  prior_f_law (st_kernel space kt Ms Z) n z (fun _ => 0)
    (fun i j => \matrix_(a, b) st_cov space kt (Z a) (z i) (Z b) (z j)).
Proof. exact: st_law. Qed.
Print Assumptions C89_prior.

Example C89_example (l v c : R) n : 0 < l -> 0 < v -> c ^+ 2 < 1 ->
  let kt := matern12 1 0 l v 0 in let z i : R := i%:R in
  [/\ increasing (F := Rr) n.+1 z, plain_kernel kt, noisy kt & spd (st_Kmm (F := Rr) (bspace c) kt 2 bpoints)].
Proof. exact: st_example. Qed.

(* ---------- C90: projections ---------- *)

(* P s(t) = K(x, Z) K(Z, Z)^-1 f(Z, t) where f(Z, t) = H(t) s(t) *)
Theorem C90_space (F : rcfType) (S : Type) (space : S -> S -> F) d (kt : skernel F 1 d) Ms Z x t :
  spd (st_Kmm space kt Ms Z) -> forall s : 'cV[F]_(concat_dim (st_children kt Ms)),
  st_state_to_space space kt Ms Z x t *m s =
  (\row_j space x (Z j)) *m invmx (st_Kmm space kt Ms Z) *m (sk_H (st_kernel space kt Ms Z) t *m s).
Proof. exact: state_to_space_state. Qed.
Print Assumptions C90_space.

(* projection_inducing_states_to_observations, applied to the states at the two neighbours of
   the time, is the conditional mean given all the inducing states *)
Theorem C90_space_time (S : Type) (space : S -> S -> R) d (kt : skernel Rr 1 d) Ms Z n z :
  plain_kernel kt -> noisy kt -> spd (st_Kmm (F := Rr) space kt Ms Z) -> increasing (F := Rr) n.+1 z ->
  forall N x t, (forall k, (k < N)%N -> covered (F := Rr) n z (t k)) -> forall k u, (k < N)%N ->
  let K := st_kernel (F := Rr) space kt Ms Z in
  (st_projection space kt Ms Z n z (x k) (t k) *m pair_at n u (ext_searchsorted (F := Rr) n.+1 z (t k))) 0 0 =
  (weights_on_states (to_sde K) (sk_H K) n z ((\row_j space (x k) (Z j)) *m invmx (st_Kmm (F := Rr) space kt Ms Z)) (t k)
     *m flat n.+1 u) 0 0.
Proof. exact: st_projectionE. Qed.
Print Assumptions C90_space_time.

(* ---------- C64: predictions ---------- *)

(* the mean, from any posterior q of the inducing states with means m' *)
Theorem C64_mean (F : rcfType) (S : Type) (space : S -> S -> F) d (kt : skernel F 1 d) Ms Z :
  (forall x y, space x y = space y x) -> forall n z q m' K',
  plain_kernel kt -> noisy kt -> spd (st_Kmm space kt Ms Z) -> increasing n.+1 z -> ssm_nonsing n q ->
  has_law n.+1 n.+1 (ssm_path q) m' K' -> forall mf x t i, covered n z (t i) ->
  let K := st_kernel space kt Ms Z in
  (st_predict_f space Z mf n q z x t i).1 =
  (weights_on_states (to_sde K) (sk_H K) n z ((\row_j space (x i) (Z j)) *m invmx (st_Kmm space kt Ms Z)) (t i)
     *m flat n.+1 m') 0 0 + (if mf is Some m then m (x i) (t i) else 0).
Proof. exact: st_predict_mean. Qed.
Print Assumptions C64_mean.

(* the variance when q is the prior, for spatial inducing points whose Cholesky factor commutes
   with its transpose (one point, or uncorrelated points): right if and only if the temporal
   variance is one or the point of space is determined by the inducing points *)
Theorem C64_prior_partial (F : rcfType) (S : Type) (space : S -> S -> F) d (kt : skernel F 1 d) Ms Z n z q mf x t i
    (v := fcov kt (t i) (t i) 0 0) (Kmm := st_Kmm space kt Ms Z) (Kxm := st_Knm space kt Ms Z (x i)) :
  (forall x y, space x y = space y x) -> plain_kernel kt -> noisy kt -> spd Kmm -> increasing n.+1 z -> covered n z (t i) ->
  0 < v -> kernel_ssm n (to_sde (st_kernel space kt Ms Z)) z = Some q -> (chol Kmm)^T *m chol Kmm = Kmm ->
  let Q := (Kxm *m invmx Kmm *m Kxm^T) 0 0 in
  (st_predict_f space Z mf n q z x t i).2 = space (x i) (x i) + (v - 1) * Q /\
  ((st_predict_f space Z mf n q z x t i).2 = st_cov space kt (x i) (t i) (x i) (t i) <-> v = 1 \/ space (x i) (x i) = Q).
Proof. exact: st_prior_value. Qed.
Print Assumptions C64_prior_partial.

(* two spatial inducing points and prediction at the first of them: too large by
   v K10^2 / K00 whenever the two points are correlated *)
Theorem C64_two_points_refuted (F : rcfType) (S : Type) (space : S -> S -> F) d (kt : skernel F 1 d) Z n z q mf x t i
    (v := fcov kt (t i) (t i) 0 0) :
  plain_kernel kt -> noisy kt -> spd (st_Kmm space kt 2 Z) -> increasing n.+1 z -> covered n z (t i) ->
  0 < v -> kernel_ssm n (to_sde (st_kernel space kt 2 Z)) z = Some q -> x i = Z 0%N -> space (Z 1%N) (Z 0%N) != 0 ->
  let right := st_cov space kt (x i) (t i) (x i) (t i) in
  (st_predict_f space Z mf n q z x t i).2 = right + v * (space (Z 1%N) (Z 0%N) ^+ 2 / space (Z 0%N) (Z 0%N)) /\
  right < (st_predict_f space Z mf n q z x t i).2.
Proof. exact: two_points_wrong. Qed.
Print Assumptions C64_two_points_refuted.

Example C64_example (l v c : R) n : 0 < l -> 0 < v -> c ^+ 2 < 1 -> c != 0 ->
  let kt := matern12 1 0 l v 0 in let z i : R := i%:R in
  [/\ covered (F := Rr) n z 0, fcov kt 0 0 0 0 = v, bspace c (bpoints 1) (bpoints 0) != 0,
      forall x y, bspace c x y = bspace c y x &
      exists q, kernel_ssm n (to_sde (st_kernel (F := Rr) (bspace c) kt 2 bpoints)) z = Some q] /\
  (forall Z, spd (st_Kmm (F := Rr) (bspace c) kt 1 Z) /\
    (chol (st_Kmm (F := Rr) (bspace c) kt 1 Z))^T *m chol (st_Kmm (F := Rr) (bspace c) kt 1 Z) = st_Kmm (F := Rr) (bspace c) kt 1 Z).
Proof. exact: st_example2. Qed.

(* one inducing point of space and any posterior: the predicted variance is the variance of the
   process under the posterior plus (1 - v) times the spatial variance that the inducing point
   leaves, with v the variance of the temporal kernel *)
Theorem C64_one_point_partial (S : Type) (space : S -> S -> R) d (kt : skernel Rr 1 d) Z mf n z
    (q : ssm Rr (concat_dim (st_children kt 1))) m K' (x : nat -> S) (t : nat -> R) i :
  covariance_function (F := Rr) space -> plain_kernel kt -> noisy kt -> spd (st_Kmm (F := Rr) space kt 1 Z) -> increasing (F := Rr) n.+1 z ->
  ssm_nonsing n q -> has_law n.+1 n.+1 (ssm_path q) m K' -> covered (F := Rr) n z (t i) ->
  let K := st_kernel (F := Rr) space kt 1 Z in
  let row := weights_on_states (to_sde K) (sk_H K) n z ((\row_j space (x i) (Z j)) *m invmx (st_Kmm (F := Rr) space kt 1 Z)) (t i) in
  (st_predict_f (F := Rr) space Z mf n q z x t i).2 =
  st_cov (F := Rr) space kt (x i) (t i) (x i) (t i) - (row *m x_gram (to_sde K) n.+1 z *m row^T) 0 0 + (row *m dense n.+1 n.+1 K' *m row^T) 0 0
    + (1 - fcov kt (t i) (t i) 0 0) *
      (space (x i) (x i) - ((\row_j space (x i) (Z j)) *m invmx (st_Kmm (F := Rr) space kt 1 Z) *m (\row_j space (x i) (Z j))^T) 0 0).
Proof. exact: st_one_var. Qed.
Print Assumptions C64_one_point_partial.

(* ---------- C91: SpatioTemporalSparseCVI ---------- *)

(* update_sites for any likelihood whose variance gradient is not positive *)
Theorem C91_update (S : Type) (space : S -> S -> R) d (kt : skernel Rr 1 d) Ms Z mf n z :
  plain_kernel kt -> noisy kt -> spd (st_Kmm (F := Rr) space kt Ms Z) -> increasing (F := Rr) n.+1 z -> (0 < n)%N ->
  forall N x t (Y : nat -> R), (forall k, (k < N)%N -> covered (F := Rr) n z (t k)) ->
  forall gm gv lr s, 0 <= lr <= 1 -> (forall mu v y, gv mu v y <= 0) -> valid_pairs n s ->
  let K := st_kernel (F := Rr) space kt Ms Z in
  let row k := weights_on_states (to_sde K) (sk_H K) n z ((\row_j space (x k) (Z j)) *m invmx (st_Kmm (F := Rr) space kt Ms Z)) (t k) in
  exists q s', [/\ st_dist_q space Z n z s = Some q, st_update_sites space Z mf n z gm gv lr N x t Y s = Some s', valid_pairs n s' &
   let g k := st_gradients mf gm gv (st_predict_f (F := Rr) space Z mf n q z x t k) (x k) (t k) (Y k) in
   forall u, pairs_exponent n s' u = (1 - lr) * pairs_exponent n s u +
     lr * \sum_(k < N) (let f := (row k *m flat n.+1 u) 0 0 in (g k).1 * f + (g k).2 * f ^+ 2)].
Proof. exact: st_update. Qed.
Print Assumptions C91_update.

(* Gaussian likelihood, learning rate 1, from any sites: dist_q is the optimal Gaussian for the
   inducing states given the observations minus the mean function *)
Theorem C91_unit_step (S : Type) (space : S -> S -> R) d (kt : skernel Rr 1 d) Ms Z mf n z :
  plain_kernel kt -> noisy kt -> spd (st_Kmm (F := Rr) space kt Ms Z) -> increasing (F := Rr) n.+1 z -> (0 < n)%N ->
  forall N x t (Y : nat -> R), (forall k, (k < N)%N -> covered (F := Rr) n z (t k)) ->
  forall gm gv (s2 : R), 0 < s2 -> gradients_of (ext_gaussian_ve1 s2) gm gv -> forall s, valid_pairs n s ->
  let K := st_kernel (F := Rr) space kt Ms Z in
  let row k := weights_on_states (to_sde K) (sk_H K) n z ((\row_j space (x k) (Z j)) *m invmx (st_Kmm (F := Rr) space kt Ms Z)) (t k) in
  let Kzz := x_gram (to_sde K) n.+1 z in let G := bcol N row in
  let Yv := flat N (fun k => const_mx (Y k - (if mf is Some m then m (x k) (t k) else 0)) : 'cV[R]_1) in
  exists s' q, [/\ st_update_sites space Z mf n z gm gv 1 N x t Y s = Some s', st_dist_q space Z n z s' = Some q, ssm_nonsing n q &
    forall m K, has_law n.+1 n.+1 (ssm_path q) m K ->
      flat n.+1 m = cond_mean 0 Kzz G s2%:M Yv /\ dense n.+1 n.+1 K = cond_cov Kzz G s2%:M].
Proof. exact: st_unit_step. Qed.
Print Assumptions C91_unit_step.

(* r updates with learning rate lr *)
Theorem C91_rate (S : Type) (space : S -> S -> R) d (kt : skernel Rr 1 d) Ms Z mf n z :
  plain_kernel kt -> noisy kt -> spd (st_Kmm (F := Rr) space kt Ms Z) -> increasing (F := Rr) n.+1 z -> (0 < n)%N ->
  forall N x t (Y : nat -> R), (forall k, (k < N)%N -> covered (F := Rr) n z (t k)) ->
  forall gm gv (s2 : R), 0 < s2 -> gradients_of (ext_gaussian_ve1 s2) gm gv -> forall lr s r, 0 <= lr <= 1 -> valid_pairs n s ->
  let K := st_kernel (F := Rr) space kt Ms Z in
  let row k := weights_on_states (to_sde K) (sk_H K) n z ((\row_j space (x k) (Z j)) *m invmx (st_Kmm (F := Rr) space kt Ms Z)) (t k) in
  let target u := \sum_(k < N) (let f := (row k *m flat n.+1 u) 0 0 in
    (Y k - (if mf is Some m then m (x k) (t k) else 0)) / s2 * f + - (2%:R * s2)^-1 * f ^+ 2) in
  exists s', [/\ iter r (obind (st_update_sites space Z mf n z gm gv lr N x t Y)) (Some s) = Some s', valid_pairs n s' &
   forall u, pairs_exponent n s' u - target u = (1 - lr) ^+ r * (pairs_exponent n s u - target u)].
Proof. exact: st_iterates. Qed.
Print Assumptions C91_rate.

(* the sites of a new model: the hypothesis of the theorems holds and they are flat *)
Theorem C91_new_model n d (kt : skernel Rr 1 d) Ms :
  valid_pairs n (st_initial_sites kt Ms) /\ forall u, pairs_exponent n (st_initial_sites kt Ms) u = 0.
Proof. exact: st_initial_thm. Qed.
Print Assumptions C91_new_model.

(* the hypotheses of C90 and C91: two correlated points of space, a Matern 1/2 kernel, integer inducing times, data anywhere in their
   range, the Gaussian likelihood and a new model *)
Example C91_example (l v c s2 : R) n N (t : nat -> R) : 0 < l -> 0 < v -> c ^+ 2 < 1 -> 0 < s2 ->
  (forall k, (k < N)%N -> 0 <= t k <= n%:R) ->
  let kt := matern12 1 0 l v 0 in let z i : R := i%:R in
  [/\ increasing (F := Rr) n.+1 z, plain_kernel kt, noisy kt, spd (st_Kmm (F := Rr) (bspace c) kt 2 bpoints) &
      forall k, (k < N)%N -> covered (F := Rr) n z (t k)] /\
  gradients_of (ext_gaussian_ve1 s2) (fun mu _ y => (y - mu) / s2) (fun _ _ _ => - (2%:R * s2)^-1) /\
  valid_pairs n (st_initial_sites kt 2).
Proof. exact: case_space_time. Qed.

(* ---------- C92: the lower bound ---------- *)

(* a new SpatioTemporalSparseVariational with one spatial inducing point, one observation at an
   uncorrelated point of space, temporal variance 3: the bound exceeds the log evidence *)
Theorem C92_bound_refuted : let kt := matern12 1 0 1 3%:R 0 in
  let Z (_ : nat) := false in let x (_ : nat) := true in let t (_ : nat) : R := 0 in let z i : R := i%:R in
  exists q e, [/\ st_initial_q (bspace 0) kt 1 Z 1 z = Some q,
    st_elbo (bspace 0) Z None 1 z (ext_gaussian_ve1 1) None 1 x t (fun _ => 0) q = Some e,
    st_loss (bspace 0) Z None 1 z (ext_gaussian_ve1 1) None 1 x t (fun _ => 0) q = Some (- e) &
    gauss_logpdf (0 : 'cV[R]_1) (st_cov (F := Rr) (bspace 0) kt true 0 true 0 + 1)%:M 0 < e].
Proof. exact: elbo_refuted. Qed.
Print Assumptions C92_bound_refuted.

(* the exact value for a Gaussian likelihood and any posterior: the log evidence of the model in
   which only the inducing states are uncertain, less the part of the predicted variances that
   does not come from the inducing states, less the divergence from the optimal posterior *)
Theorem C92_value (S : Type) (space : S -> S -> R) d (kt : skernel Rr 1 d) Ms Z mf n z :
  (forall x y, space x y = space y x) -> plain_kernel kt -> noisy kt -> spd (st_Kmm (F := Rr) space kt Ms Z) -> increasing (F := Rr) n.+1 z ->
  forall N x t (Y : nat -> R), (forall k, (k < N)%N -> covered (F := Rr) n z (t k)) ->
  forall (q : ssm Rr (concat_dim (st_children kt Ms))) m K' (s2 : R), ssm_nonsing n q -> has_law n.+1 n.+1 (ssm_path q) m K' -> 0 < s2 ->
  let K := st_kernel (F := Rr) space kt Ms Z in
  let row k := weights_on_states (to_sde K) (sk_H K) n z ((\row_j space (x k) (Z j)) *m invmx (st_Kmm (F := Rr) space kt Ms Z)) (t k) in
  let Kzz := x_gram (to_sde K) n.+1 z in let G := bcol N row in
  let Yv := flat N (fun k => const_mx (Y k - (if mf is Some m then m (x k) (t k) else 0)) : 'cV[R]_1) in
  let var k := (st_predict_f (F := Rr) space Z mf n q z x t k).2 in
  st_elbo space Z mf n z (ext_gaussian_ve1 s2) None N x t Y q =
  Some (gauss_logpdf 0 (G *m Kzz *m G^T + s2%:M) Yv
    - (2%:R * s2)^-1 * (\sum_(k < N) (var k - (row k *m dense n.+1 n.+1 K' *m (row k)^T) 0 0))
    - gauss_kl (flat n.+1 m) (dense n.+1 n.+1 K') (cond_mean 0 Kzz G s2%:M Yv) (cond_cov Kzz G s2%:M)).
Proof. exact: st_elbo_value. Qed.
Print Assumptions C92_value.

(* the bound holds whenever no predicted variance at the data is below the variance of the process
   under the posterior; missing: the code does not ensure it (refuted above) *)
Theorem C92_bound_partial (S : Type) (space : S -> S -> R) d (kt : skernel Rr 1 d) Ms Z mf n z :
  (forall x y, space x y = space y x) -> plain_kernel kt -> noisy kt -> spd (st_Kmm (F := Rr) space kt Ms Z) -> increasing (F := Rr) n.+1 z ->
  forall N x t (Y : nat -> R), (forall k, (k < N)%N -> covered (F := Rr) n z (t k)) ->
  forall (q : ssm Rr (concat_dim (st_children kt Ms))) m K' (s2 : R), ssm_nonsing n q -> has_law n.+1 n.+1 (ssm_path q) m K' -> 0 < s2 ->
  covariance_function (F := Rr) space ->
  let K := st_kernel (F := Rr) space kt Ms Z in
  let row k := weights_on_states (to_sde K) (sk_H K) n z ((\row_j space (x k) (Z j)) *m invmx (st_Kmm (F := Rr) space kt Ms Z)) (t k) in
  let var k := (st_predict_f (F := Rr) space Z mf n q z x t k).2 in
  (forall k, (k < N)%N ->
    st_cov (F := Rr) space kt (x k) (t k) (x k) (t k) - (row k *m x_gram (to_sde K) n.+1 z *m (row k)^T) 0 0
      + (row k *m dense n.+1 n.+1 K' *m (row k)^T) 0 0 <= var k) ->
  forall e, st_elbo space Z mf n z (ext_gaussian_ve1 s2) None N x t Y q = Some e ->
  e <= gauss_logpdf 0 (dense N N (fun i j => (st_cov (F := Rr) space kt (x i) (t i) (x j) (t j))%:M : 'M[R]_1) + s2%:M)
         (flat N (fun k => const_mx (Y k - (if mf is Some m then m (x k) (t k) else 0)) : 'cV[R]_1)).
Proof. exact: st_elbo_bound. Qed.
Print Assumptions C92_bound_partial.

(* so it holds for one inducing point of space when the variance of the temporal kernel is at
   most 1, for every posterior, data set and mean function *)
Theorem C92_one_point_partial (S : Type) (space : S -> S -> R) d (kt : skernel Rr 1 d) Z mf n z N (x : nat -> S) (t Y : nat -> R)
    (q : ssm Rr (concat_dim (st_children kt 1))) (s2 : R) e :
  covariance_function (F := Rr) space -> plain_kernel kt -> noisy kt -> spd (st_Kmm (F := Rr) space kt 1 Z) -> increasing (F := Rr) n.+1 z ->
  (forall k, (k < N)%N -> covered (F := Rr) n z (t k) /\ fcov kt (t k) (t k) 0 0 <= 1) ->
  ssm_nonsing n q -> 0 < s2 ->
  st_elbo space Z mf n z (ext_gaussian_ve1 s2) None N x t Y q = Some e ->
  e <= gauss_logpdf 0 (dense N N (fun i j => (st_cov (F := Rr) space kt (x i) (t i) (x j) (t j))%:M : 'M[R]_1) + s2%:M)
         (flat N (fun k => const_mx (Y k - (if mf is Some m then m (x k) (t k) else 0)) : 'cV[R]_1)).
Proof. exact: st_one_bound. Qed.
Print Assumptions C92_one_point_partial.

(* the hypotheses hold for two correlated points of space, a Matern 1/2 kernel of variance at most 1
   and a new model *)
Example C92_example (l v c : R) n N (t : nat -> R) : 0 < l -> 0 < v -> v <= 1 -> c ^+ 2 < 1 ->
  (forall k, (k < N)%N -> 0 <= t k <= n%:R) ->
  let kt := matern12 1 0 l v 0 in let z i : R := i%:R in let Z (_ : nat) := false in
  [/\ covariance_function (F := Rr) (bspace c), plain_kernel kt, noisy kt, spd (st_Kmm (F := Rr) (bspace c) kt 1 Z) & increasing (F := Rr) n.+1 z] /\
  (forall k, (k < N)%N -> covered (F := Rr) n z (t k) /\ fcov kt (t k) (t k) 0 0 <= 1) /\
  exists2 q, st_initial_q (bspace c) kt 1 Z n z = Some q & ssm_nonsing n q.
Proof. exact: st_bound_example. Qed.

(* ---------- C56: minibatches of the spatio-temporal models ---------- *)

(* k batches of b data points that use every one of the N data points the same number of times,
   any likelihood, kernel and posterior *)
Theorem C56_space_time_minibatch (S : Type) (space : S -> S -> R) d (kt : skernel Rr 1 d) Ms Z mf ve n z N b k (bt : nat -> nat -> nat) c x t Y
    (q : ssm Rr (concat_dim (st_children kt Ms))) :
  (forall i, (i < n)%N -> z i <= z i.+1) -> (0 < b)%N -> (0 < k)%N ->
  (forall B i, (B < k)%N -> (i < b)%N -> (bt B i < N)%N) ->
  (forall j, (j < N)%N -> (\sum_(B < k) \sum_(i < b) (bt B i == j))%N = c) ->
  exists e (eb : nat -> R),
  [/\ st_elbo space Z mf n z ve (Some N%:R) N x t Y q = Some e,
      st_elbo space Z mf n z ve None N x t Y q = Some e,
      forall B, (B < k)%N -> st_elbo space Z mf n z ve (Some N%:R) b
          (fun i => x (bt B i)) (fun i => t (bt B i)) (fun i => Y (bt B i)) q = Some (eb B) &
      (\sum_(B < k) eb B) / k%:R = e].
Proof. exact: st_minibatch. Qed.
Print Assumptions C56_space_time_minibatch.
