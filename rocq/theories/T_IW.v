(* C46, C47, C77, C78, C93: importance weighting. *)
From Coq Require Import Reals.
From Coquelicot Require Import Coquelicot.
From mathcomp Require Import all_ssreflect all_algebra.
From Verif Require Import RealStruct M_Block Lin Spd S_SSM M_SSM M_SSMLog M_Kernel M_Emission M_IW S_Kernel S_Gauss S_IW Stein MCalc S_Dregs P_SSM P_IW P_IW2 P_IW3 P_IW4 P_SSMLog M_Comb M_KernelR P_Examples.
Set Implicit Arguments.
Unset Strict Implicit.
Unset Printing Implicit Defensive.
Import GRing.Theory Num.Theory.
Local Open Scope ring_scope.

(* ---------- C46: importance weights ---------- *)

(* the weights of K draws: positive, at most one, sum to one, unchanged by a shift *)
Theorem C46_weights K (lw : nat -> R) : (0 < K)%N ->
  [/\ forall k, 0 < ext_softmax K lw k,
      \sum_(k < K) ext_softmax K lw k = 1,
      forall k c, ext_softmax K (fun j => lw j + c) k = ext_softmax K lw k &
      forall k, (k < K)%N -> ext_softmax K lw k <= 1].
Proof. exact: softmax_ok. Qed.
Print Assumptions C46_weights.

(* the weight w of a draw with states s at the data points, s' at the (one or more) new
   points and u at the conditioning points: w * q(u) = p(y | s) * p(u), where p(u) is the
   density of the prior, q(u) that of the proposal with mean mq and covariance Kq *)
Theorem C46_weight_formula o d (kernel : sde_kernel Rr d) (emission : R -> 'M[R]_(o, d)) (mean : R -> 'cV[R]_o)
    (log_prob : 'cV[R]_o -> 'cV[R]_o -> R) n z (q : ssm Rr d) mq Kq X Y (s s' : seq 'cV[R]_d) u :
  markov_kernel kernel -> increasing (F := Rr) n.+1 z ->
  ssm_nonsing n q -> has_law n.+1 n.+1 (ssm_path q) mq Kq -> (0 < size s')%N ->
  exists lw, iw_log_weight kernel emission mean log_prob n z q (size s') X Y (s ++ s') u = Some lw /\
  exp lw * exp (gauss_logpdf (flat n.+1 mq) (dense n.+1 n.+1 Kq) (flat n.+1 u)) =
     exp (\sum_(i < size s) log_prob (emission (X i) *m nth 0 s i + mean (X i)) (Y i)) *
     exp (gauss_logpdf (flat n.+1 (fun _ => k_mean0 kernel)) (dense n.+1 n.+1 (fun i j => state_cov kernel (z i) (z j))) (flat n.+1 u)).
Proof. exact: iw_weight_ok. Qed.
Print Assumptions C46_weight_formula.

(* a Matern 3/2 prior and a random walk as the proposal *)
Example C46_example (l v : R) n (mu b : 'cV[R]_2) : 0 < l -> 0 < v ->
  let k := matern32 1 0 l v 0 in let q := ex_ssm (F := Rr) mu b in
  [/\ markov_kernel (to_sde k), increasing (F := Rr) n.+1 (fun i => i%:R), ssm_nonsing n q &
      exists m K, has_law n.+1 n.+1 (ssm_path q) m K].
Proof. exact: iw_example. Qed.

(* expected_value e of one entry g of func at m >= 1 new points: the weighted average of g
   at the function values of the draws, between their minimum and maximum, and the expected
   value of g at the states picked by the resampling *)
Theorem C46_expected_value o d (emission : R -> 'M[R]_(o, d)) (mean : R -> 'cV[R]_o)
    K (lw : nat -> R) new (s s' : nat -> seq 'cV[R]_d) m g : (0 < K)%N -> (0 < m)%N ->
  (forall k, (k < K)%N -> size (s' k) = m) ->
  let e := iw_expected_value emission mean K lw m new (fun k => s k ++ s' k) g in
  let f k := g (mkseq (fun i => emission (new i) *m nth 0 (s' k) i + mean (new i)) m) in
  [/\ (\sum_(k < K) exp (lw k)) * e = \sum_(k < K) exp (lw k) * f k,
      forall lo, (forall k, (k < K)%N -> lo <= f k) -> lo <= e,
      forall hi, (forall k, (k < K)%N -> f k <= hi) -> e <= hi &
      \sum_(k < K) ext_softmax K lw k *
        g (mkseq (fun i => emission (new i) *m nth 0 (iw_resample m (fun k => s k ++ s' k) (fun _ _ => 0) k).1 i + mean (new i)) m) = e].
Proof. exact: iw_expected_ok. Qed.
Print Assumptions C46_expected_value.

(* C78: without new points the states at the data points are lost: the slice [:-0] is empty, and
   the weight no longer depends on the data *)
Theorem C78_no_new_points_refuted : exists (s : seq 'cV[R]_1), iw_samples_data 0 (s ++ [::]) <> s.
Proof. by exists [:: 0]. Qed.
Print Assumptions C78_no_new_points_refuted.

(* then the weight of a draw is the same for all data and all states at the data points *)
Theorem C78_weight_without_data_refuted o d (kernel : sde_kernel Rr d) (emission : R -> 'M[R]_(o, d)) (mean : R -> 'cV[R]_o)
    (log_prob : 'cV[R]_o -> 'cV[R]_o -> R) n z (q : ssm Rr d) X X' Y Y' (s s' : seq 'cV[R]_d) u :
  iw_log_weight kernel emission mean log_prob n z q 0 X Y s u = iw_log_weight kernel emission mean log_prob n z q 0 X' Y' s' u.
Proof. exact: iw_weight_no_data. Qed.
Print Assumptions C78_weight_without_data_refuted.

(* missing: no new points; with m >= 1 new points the weights see exactly the states at the data
   points and the resampling exactly the states at the new points *)
Theorem C78_slices_partial d (s s' : seq 'cV[R]_d) : (0 < size s')%N ->
  iw_samples_data (size s') (s ++ s') = s /\ iw_samples_new (size s') (s ++ s') = s'.
Proof. exact: iw_slices. Qed.
Print Assumptions C78_slices_partial.

(* ---------- C47: the bound of K draws ---------- *)

(* E is the expectation over N interchangeable draws, lw the log weight of a draw: the
   expected bound of one draw is the expected log weight; it does not decrease with the
   number of draws and is at most the log of the expected weight *)
Theorem C47_bound (T : Type) N (finite : ((nat -> T) -> R) -> Prop) (E : ((nat -> T) -> R) -> R) (lw : T -> R) :
  expectation N finite E ->
  let L K (x : nat -> T) := iw_elbo K (fun k => lw (x k)) in
  let w (x : nat -> T) := exp (lw (x 0%N)) in
  (0 < N)%N -> finite w -> (forall K, (0 < K <= N)%N -> finite (L K)) ->
  [/\ E (L 1%N) = E (fun x => lw (x 0%N)),
      forall K, (0 < K)%N -> (K < N)%N -> E (L K) <= E (L K.+1) &
      forall K, (0 < K)%N -> (K <= N)%N -> E (L K) <= ln (E w)].
Proof. exact: iw_bound. Qed.
Print Assumptions C47_bound.

(* without expectations: the bound of K + 1 draws is at least the average of the bounds of K
   draws, one draw left out each time (the last draw takes the place of the one left out) *)
Theorem C47_leave_one_out K (lw : nat -> R) : (0 < K)%N ->
  (\sum_(j < K.+1) iw_elbo K (swap_draws j K lw)) / K.+1%:R <= iw_elbo K.+1 lw.
Proof. exact: elbo_leave_one_out. Qed.
Print Assumptions C47_leave_one_out.

(* independent draws of a latent variable with m + 1 values: the expected weight is the
   evidence *)
Example C47_finite N m (pr lik q : 'I_m.+1 -> R) : (0 < N)%N ->
  (forall t, 0 < pr t) -> (forall t, 0 < lik t) -> (forall t, 0 < q t) -> \sum_t q t = 1 ->
  let lw t := ln (lik t * pr t / q t) in
  expectation N (fun _ => True) (iid_expect N q) /\
  iid_expect N q (fun x => exp (lw (x 0%N))) = \sum_t lik t * pr t.
Proof. exact: iid_evidence. Qed.

(* ---------- C77: the constructor of the importance weighted model ---------- *)

(* the initial distribution given to the constructor is not used: whatever it is, the
   variational distribution starts at the prior (and num_data holds the distribution) *)
Theorem C77_initial_distribution_refuted : exists (d n : nat) (kernel : sde_kernel Rr d) (inducing : nat -> R) (d0 : ssm Rr d),
  markov_kernel kernel /\ increasing (F := Rr) n.+1 inducing /\
  svgp_dist_q (svgp_init kernel n inducing PyNone (PyDist d0)) = Some d0 /\
  svgp_dist_q (iwvi_init kernel n inducing (PyDist d0)) <> Some d0.
Proof. exact: iwvi_initial. Qed.
Print Assumptions C77_initial_distribution_refuted.

Theorem C77_starts_at_prior d (kernel : sde_kernel Rr d) n (inducing : nat -> R) (d0 : ssm Rr d) :
  svgp_dist_q (iwvi_init kernel n inducing (PyDist d0)) = kernel_ssm n kernel inducing.
Proof. exact: iwvi_ignores. Qed.
Print Assumptions C77_starts_at_prior.

(* ---------- C93: the doubly reparameterised gradient ---------- *)

(* x: the K draws; flow h y: the draw y when the variational parameter moves by h and the noise
   stays; lw h y: the log weight of y, with the density of the proposal moved by h; s y: the
   derivative of the log density of the proposal at a fixed y; g y: the derivative of the log
   weight along the path with that density fixed (the stopped gradient).
   The gradient De of the bound is the gradient Dd of dregs_objective plus, for each draw, the
   derivative of its weight along its path minus weight times s.  Its expectation is zero: see
   C93_zero_mean *)
Theorem C93_gradient (T : Type) K (x : nat -> T) (flow : R -> T -> T) (lw : R -> T -> R) (g s : T -> R) : (0 < K)%N ->
  (forall y, flow 0 y = y) ->
  (forall k, (k < K)%N -> is_derive (fun h => lw 0 (flow h (x k))) 0 (g (x k))) ->
  (forall k, (k < K)%N -> is_derive (fun h => lw h (flow h (x k))) 0 (g (x k) - s (x k))) ->
  let w k (x : nat -> T) := exp (lw 0 (x k)) / \sum_(j < K) exp (lw 0 (x j)) in
  exists De Dd D, [/\ is_derive (fun h => iw_elbo K (fun k => lw h (flow h (x k)))) 0 De,
    is_derive (fun h => iw_dregs K (fun k => lw 0 (x k)) (fun k => lw 0 (flow h (x k)))) 0 Dd,
    forall k, (k < K)%N -> is_derive (fun h => w k (move_draw flow k h x)) 0 (D k) &
    De = Dd + \sum_(k < K) (D k - w k x * s (x k))].
Proof. exact: dregs_gradient. Qed.
Print Assumptions C93_gradient.

(* The expectation of the correction.  The draws have mean M h and Cholesky factor C h when the
   parameter is h, and come from standard normal noise e; lp is the log density of the model.
   The correction of draw k (D minus weight times s, as above) is a sum over the components of its
   noise: term i has expectation zero over component i, whatever the rest of the noise *)
Theorem C93_zero_mean d K k (M : R -> 'cV[R]_d) (C : R -> 'M[R]_d) M1 C1 (lp : 'cV[R]_d -> R) G :
  (forall h, lowpos (C h : 'M[Rr]_d)) -> mderiv M 0 M1 -> mderiv C 0 C1 -> has_gradient lp G -> (k < K)%N ->
  let logq h y := gauss_logpdf (M h) (C h *m (C h)^T) y in let lw h y := lp y - logq h y in
  let flow := normal_flow M C in let x (e : nat -> 'cV[R]_d) j := normal_draw M C (e j) in
  let w (x : nat -> 'cV[R]_d) := exp (lw 0 (x k)) / \sum_(j < K) exp (lw 0 (x j)) in
  exists (g s : 'cV[R]_d -> R) (D : (nat -> 'cV[R]_d) -> R) (c : 'I_d -> (nat -> 'cV[R]_d) -> R), [/\ forall y, flow 0 y = y /\ is_derive (fun h => logq h y) 0 (s y),
    forall y, is_derive (fun h => lw 0 (flow h y)) 0 (g y) /\ is_derive (fun h => lw h (flow h y)) 0 (g y - s y),
    forall e, is_derive (fun h => w (move_draw flow k h (x e))) 0 (D e),
    forall e, D e - w (x e) * s (x e k) = \sum_i c i e &
    forall i e, integral (fun t => c i (set_noise k i t e) * normal_density 0 1 t) 0].
Proof. move=> HC DM DC HG Hk; exact (dregs_zero HC DM DC HG Hk). Qed.
Print Assumptions C93_zero_mean.

(* a standard normal state observed with unit noise; the proposal moves its mean along v and
   scales all its noise *)
Example C93_zero_mean_example d (a v : 'cV[R]_d) :
  [/\ forall h : R, lowpos ((exp h)%:M : 'M[Rr]_d), mderiv (fun h => h *: v) 0 v, mderiv (fun h => (exp h)%:M : 'M[R]_d) 0 1%:M &
      has_gradient (fun y => - 2%:R^-1 * sq y - 2%:R^-1 * sq (a - y)) (fun y => a - y - y)].
Proof. exact: dregs_zero_example. Qed.

(* one observation y with variance 1/2 of a latent normal variable, normal proposal *)
Example C93_example (y t : R) :
  let flow h u : R := u + h in let lw (h u : R) : R := - (y - u) ^+ 2 + (u - h) ^+ 2 / 2%:R in
  [/\ forall u, flow 0 u = u,
      is_derive (fun h => lw 0 (flow h t)) 0 (2%:R * (y - t) + t) &
      is_derive (fun h => lw h (flow h t)) 0 (2%:R * (y - t) + t - t)].
Proof. exact: dregs_example. Qed.
