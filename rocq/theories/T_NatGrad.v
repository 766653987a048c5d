(* Property theorems C55, C86, C87, C88, C110: natural gradients (SSMNaturalGradient).

   Vocabulary: S_NatGrad.v ([tdot], the sum of the products of all entries of two parameter
   lists; [exp_gradient] and [nat_gradient], the gradient of a function of the model with
   respect to its expectation and its natural parameters; [loss_of], minus a lower bound;
   [avg_weight], [avg_number], [avg_triple], normalised exponentially weighted averages);
   S_Trans.v ([ssm_chol], [same_triple], [nat_valid]); S_SSM.v ([has_law]); S_Kernel.v
   ([markov_kernel], [increasing]).  [triple_lincomb a t b u] is a t + b u, entry by entry. *)
From Coq Require Import Reals.
From Coquelicot Require Import Derive_2d.
From mathcomp Require Import all_ssreflect all_algebra.
From Verif Require Import RealStruct Nat Alg Lin Spd M_Block M_SSM S_SSM P_SSM M_SSMLog S_Gauss M_Trans S_Trans
  P_TransLog P_SSMLog S_Kalman M_Kalman M_Kernel S_Kernel M_Cond M_Emission M_Sort M_Models S_GP M_Comb S_Comb M_KernelR
  M_Cvi S_Cvi P_Cvi4 M_NatGrad S_NatGrad P_NatGrad3 P_NatGrad4 P_NatGrad5 P_NatGrad6 P_NatGrad7 P_NatGrad8 P_NatGrad10 P_NatGrad11.
Set Implicit Arguments.
Unset Strict Implicit.
Unset Printing Implicit Defensive.
Import GRing.Theory Num.Theory Order.TTheory.
Local Open Scope ring_scope.

(* ---------- C55: steps without momentum ---------- *)

(* one step moves the natural parameters by - gamma g; the buffers do not change *)
Theorem C55_step d n (gamma beta1 beta2 epsilon : R) : (0 < n)%N -> forall (g g' : triple Rr d) q st,
  nat_valid n (triple_lincomb 1 (ssm_to_naturals n q) (- gamma) g) ->
  exists q', [/\ natgrad_step n gamma beta1 beta2 epsilon false g g' q st = Some (q', st), ssm_chol n q' &
    same_triple n (ssm_to_naturals n q') (triple_lincomb 1 (ssm_to_naturals n q) (- gamma) g)].
Proof. exact: step_plain. Qed.
Print Assumptions C55_step.

(* regression: for the variational model of a Gaussian likelihood, r steps from any q leave
   (1 - gamma)^r of the distance between the natural parameters of q and those of the exact
   posterior; the lower bound does not decrease and stays below the log evidence; one step
   with gamma = 1 reaches the log evidence *)
Theorem C55_regression o d (ker : sde_kernel Rr d) (emission : R -> 'M[R]_(o, d)) (mean : R -> 'cV[R]_o) :
  markov_kernel ker -> k_mean0 ker = 0 -> forall n z y (s2 : R), increasing (F := Rr) n.+1 z -> 0 < s2 -> (0 < n)%N ->
  - APPROX_INF Rr < z 0%N -> forall gamma beta1 beta2 epsilon : R, 0 <= gamma <= 1 ->
  let elbo := vgp_elbo ker emission mean (ext_gaussian_ve s2) n z y in
  forall grads, (forall q, ssm_chol n q -> exp_gradient n (loss_of elbo) q (grads q).1) ->
  exists post l, [/\ gpr_posterior ker emission mean n z y (Num.sqrt s2)%:M = Some post,
    gpr_log_likelihood ker emission mean n z y (Num.sqrt s2)%:M = Some l &
    forall r q st, ssm_chol n q ->
    exists q' e e', [/\ natgrad_run n gamma beta1 beta2 epsilon false grads r q st = Some (q', st), ssm_chol n q',
      same_triple n (ssm_to_naturals n q')
        (triple_lincomb ((1 - gamma) ^+ r) (ssm_to_naturals n q) (1 - (1 - gamma) ^+ r) (ssm_to_naturals n post)) &
      [/\ elbo q = Some e, elbo q' = Some e', e <= e' <= l & (gamma = 1 -> (0 < r)%N -> e' = l)]]].
Proof. exact: vgp_natgrad. Qed.
Print Assumptions C55_regression.

(* such gradients exist, for every kernel of C55_regression *)
Example C55_example o d (ker : sde_kernel Rr d) (emission : R -> 'M[R]_(o, d)) (mean : R -> 'cV[R]_o) :
  markov_kernel ker -> k_mean0 ker = 0 -> forall n z y (s2 : R), increasing (F := Rr) n.+1 z -> 0 < s2 -> (0 < n)%N ->
  - APPROX_INF Rr < z 0%N ->
  exists grads : ssm Rr d -> triple Rr d * triple Rr d, forall q, ssm_chol n q ->
    exp_gradient n (loss_of (vgp_elbo ker emission mean (ext_gaussian_ve s2) n z y)) q (grads q).1.
Proof. exact: vgp_grads. Qed.

(* and a kernel, times and a distribution *)
Example C55_example_kernel (l v : R) n : 0 < l -> 0 < v -> 
  let k := matern32 1 0 l v 0 in let z i : R := i%:R in
  [/\ markov_kernel (to_sde k), k_mean0 (to_sde k) = 0, increasing (F := Rr) n.+1 z, - APPROX_INF Rr < z 0%N &
      ssm_chol n (ex_ssm 0 0 : ssm Rr 2)].
Proof.
by move=> l0 v0 k z; have [H1 H2 H3 H4 _] := cvi_example n l0 v0 ltr01; split=> //; apply: ex_ssm_chol.
Qed.

(* ---------- C87: the gradient of a divergence ---------- *)

(* the gradient of KL(q || p) in the expectation parameters of q is the difference of the
   natural parameters of q and p; no other g is a gradient *)
Theorem C87_kl_gradient d n (q p : ssm Rr d) : ssm_chol n q -> ssm_nonsing n p ->
  let loss q' := ssm_kl_divergence n q' p in
  let g := triple_lincomb 1 (ssm_to_naturals n q) (-1) (ssm_to_naturals n p) in
  exp_gradient n loss q g /\ forall g', exp_gradient n loss q g' -> same_triple n g' g.
Proof. by move=> Cq Np loss g; split; [exact: kl_is_gradient|move=> g' Hg; exact: kl_gradient]. Qed.
Print Assumptions C87_kl_gradient.

(* r steps on KL(q || p), without momentum *)
Theorem C87_run d n (gamma beta1 beta2 epsilon : R) : (0 < n)%N -> 0 <= gamma <= 1 ->
  forall (loss : ssm Rr d -> R) c p grads, ssm_nonsing n p ->
  (forall q, ssm_chol n q -> ssm_kl_divergence n q p = loss q + c) ->
  (forall q, ssm_chol n q -> exp_gradient n loss q (grads q).1) ->
  forall r q st, ssm_chol n q ->
  exists q', [/\ natgrad_run n gamma beta1 beta2 epsilon false grads r q st = Some (q', st), ssm_chol n q' &
    same_triple n (ssm_to_naturals n q')
      (triple_lincomb ((1 - gamma) ^+ r) (ssm_to_naturals n q) (1 - (1 - gamma) ^+ r) (ssm_to_naturals n p))].
Proof. exact: run_kl. Qed.
Print Assumptions C87_run.

Example C87_example d n (mu b mu' b' : 'cV[R]_d) :
  ssm_chol n (ex_ssm mu b : ssm Rr d) /\ ssm_nonsing n (ex_ssm mu' b' : ssm Rr d).
Proof. by split; [apply: ex_ssm_chol|apply: ex_ssm_nonsing]. Qed.

(* ---------- C88: natural gradients and CVI ---------- *)

(* from the same distribution, r natural gradient steps with learning rate gamma on the bound
   of the variational model, and r site updates of CVI with learning rate gamma, give the same
   joint distribution of the states *)
Theorem C88_cvi d (ker : sde_kernel Rr d) (emission : R -> 'M[R]_(1, d)) : markov_kernel ker -> k_mean0 ker = 0 ->
  forall n z, increasing (F := Rr) n.+1 z -> (0 < n)%N -> - APPROX_INF Rr < z 0%N ->
  forall (ve gm gv : R -> R -> R -> R) y,
  (forall mu v k, 0 < v -> (k <= n)%N ->
    differentiable_pt_lim (fun m v => ve m v (y k)) mu v (gm mu v (y k)) (gv mu v (y k))) ->
  (forall k, (k <= n)%N -> emission (z k) != 0) ->
  forall gamma beta1 beta2 epsilon : R,
  let elbo := vgp_elbo ker emission (fun _ => 0) (fun fmu fvar v => ve (fmu 0 0) (fvar 0 0) (v 0 0)) n z
    (fun k => const_mx (y k)) in
  forall s q st grads, 0 <= gamma <= 1 -> (forall mu v u, gv mu v u <= 0) ->
  (forall k, (k <= n)%N -> st_nat2 s k <= 0) -> cvi_dist_q ker emission n z s = Some q ->
  (forall q', ssm_chol n q' -> exp_gradient n (loss_of elbo) q' (grads q').1) ->
  forall r, exists s' q' q'', [/\ iter r (obind (cvi_update_sites ker emission gm gv n z y gamma)) (Some s) = Some s',
    cvi_dist_q ker emission n z s' = Some q'', natgrad_run n gamma beta1 beta2 epsilon false grads r q st = Some (q', st) &
    forall m K, has_law n.+1 n.+1 (ssm_path q') m K <-> has_law n.+1 n.+1 (ssm_path q'') m K].
Proof. exact: cvi_natgrad_run. Qed.
Print Assumptions C88_cvi.

(* such gradients exist *)
Example C88_example d (ker : sde_kernel Rr d) (emission : R -> 'M[R]_(1, d)) : markov_kernel ker ->
  forall n z, increasing (F := Rr) n.+1 z -> - APPROX_INF Rr < z 0%N ->
  forall (ve gm gv : R -> R -> R -> R) y,
  (forall mu v k, 0 < v -> (k <= n)%N ->
    differentiable_pt_lim (fun m v => ve m v (y k)) mu v (gm mu v (y k)) (gv mu v (y k))) ->
  (forall k, (k <= n)%N -> emission (z k) != 0) ->
  exists grads : ssm Rr d -> triple Rr d * triple Rr d, forall q', ssm_chol n q' -> exp_gradient n (loss_of (vgp_elbo ker emission (fun _ => 0)
    (fun fmu fvar v => ve (fmu 0 0) (fvar 0 0) (v 0 0)) n z (fun k => const_mx (y k)))) q' (grads q').1.
Proof. exact: dense_grads. Qed.

(* ---------- C110: natural gradients and sparse CVI ---------- *)

(* from the same distribution of the states at the inducing points, r natural gradient steps with
   learning rate gamma on the bound of the sparse variational model, and r site updates of sparse
   CVI with learning rate gamma, give the same joint distribution; the data may lie anywhere
   between the inducing points *)
Theorem C110_sparse_cvi d (ker : sde_kernel Rr d) (emission : R -> 'M[R]_(1, d)) : markov_kernel ker -> k_mean0 ker = 0 ->
  forall n z, increasing (F := Rr) n.+1 z -> (0 < n)%N ->
  forall N X, - APPROX_INF Rr < z 0%N -> z n < APPROX_INF Rr -> (forall k, (k < N)%N -> z 0%N <= X k <= z n) ->
  forall (ve gm gv : R -> R -> R -> R) y,
  (forall mu v k, 0 < v -> (k < N)%N ->
    differentiable_pt_lim (fun m v => ve m v (y k)) mu v (gm mu v (y k)) (gv mu v (y k))) ->
  (forall k, (k < N)%N -> emission (X k) != 0) ->
  forall gamma beta1 beta2 epsilon : R,
  let elbo := svgp_elbo ker emission (fun _ => 0) (fun fmu fvar v => ve (fmu 0 0) (fvar 0 0) (v 0 0)) n z None N X
    (fun k => const_mx (y k)) in
  forall s q st grads, 0 <= gamma <= 1 -> (forall mu v u, gv mu v u <= 0) ->
  valid_pairs n s -> scvi_dist_q ker n z s = Some q ->
  (forall q', ssm_chol n q' -> exp_gradient n (loss_of elbo) q' (grads q').1) ->
  forall r, exists s' q' q'', [/\ iter r (obind (scvi_update_sites ker emission gm gv n z gamma N X y)) (Some s) = Some s',
    scvi_dist_q ker n z s' = Some q'', natgrad_run n gamma beta1 beta2 epsilon false grads r q st = Some (q', st) &
    forall m K, has_law n.+1 n.+1 (ssm_path q') m K <-> has_law n.+1 n.+1 (ssm_path q'') m K].
Proof. exact: scvi_natgrad_run. Qed.
Print Assumptions C110_sparse_cvi.

(* regression with a Matern kernel and inducing points 0 .. n; the gradients exist *)
Example C110_example (l v s2 : R) n (N : nat) (X y : nat -> R) : 0 < l -> 0 < v -> 0 < s2 ->
  n%:R < APPROX_INF Rr -> (forall k, (k < N)%N -> 0 <= X k <= n%:R) ->
  let ke := matern32 1 0 l v 0 in let z i : R := i%:R in
  [/\ [/\ markov_kernel (to_sde ke), k_mean0 (to_sde ke) = 0, increasing (F := Rr) n.+1 z, - APPROX_INF Rr < z 0%N & z n < APPROX_INF Rr],
      forall t, sk_H ke t != 0, valid_pairs n (scvi_initial_sites 2),
      forall mu v y, differentiable_pt_lim (fun m v => ext_gaussian_ve1 s2 m v y) mu v ((y - mu) / s2) (- (2%:R * s2)^-1) &
      exists grads : ssm Rr 2 -> triple Rr 2 * triple Rr 2, forall q', ssm_chol n q' ->
        exp_gradient n (loss_of (svgp_elbo (to_sde ke) (sk_H ke) (fun _ => 0)
          (fun fmu fvar v => ext_gaussian_ve1 s2 (fmu 0 0) (fvar 0 0) (v 0 0)) n z None N X (fun k => const_mx (y k)))) q' (grads q').1].
Proof. exact: sparse_natgrad_example. Qed.

(* ---------- C86: steps with momentum ---------- *)

(* the weights of the averages are positive and sum to one *)
Theorem C86_weights (b : R) r : 0 <= b -> b < 1 ->
  (forall i, 0 <= avg_weight b r i) /\ \sum_(i < r.+1) avg_weight b r i = 1.
Proof. by move=> b0 b1; split; [move=> i; exact: avg_weight_ge0|exact: avg_weight_sum]. Qed.
Print Assumptions C86_weights.

(* a history of r + 1 steps from fresh buffers, with any gradients: step r moves the natural
   parameters along the debiased average of all gradients so far; the division is by the root of
   the debiased average of the norms *)
Theorem C86_momentum d n (gamma beta1 beta2 epsilon : R) : (0 < n)%N ->
  forall (q : nat -> ssm Rr d) st g gt, st 0%N = ng_init d -> forall r,
  (forall i, (i <= r)%N -> natgrad_step n gamma beta1 beta2 epsilon true (g i) (gt i) (q i) (st i) = Some (q i.+1, st i.+1)) ->
  0 <= beta1 < 1 -> 0 <= beta2 < 1 -> 0 < epsilon ->
  let norm := avg_number r (fun i => natgrad_norm n (g i) (gt i)) beta2 in
  let rate := gamma / (Num.sqrt norm + epsilon / Num.sqrt (1 - beta2 ^+ r.+1)) in
  let theta := triple_lincomb 1 (ssm_to_naturals n (q r)) (- rate) (avg_triple r g beta1) in
  nat_valid n theta ->
  0 <= norm /\ same_triple n (ssm_to_naturals n (q r.+1)) theta.
Proof. exact: momentum_step. Qed.
Print Assumptions C86_momentum.

(* the same for r calls of minimize from a new optimiser, with gradients that depend on the
   current model: q i is the model after i calls *)
Theorem C86_run d n (gamma beta1 beta2 epsilon : R) (grads : ssm Rr d -> triple Rr d * triple Rr d) r q0 q' st' :
  (0 < n)%N -> 0 <= beta1 < 1 -> 0 <= beta2 < 1 -> 0 < epsilon ->
  natgrad_run n gamma beta1 beta2 epsilon true grads r q0 (ng_init d) = Some (q', st') ->
  exists q, [/\ q 0%N = q0, q r = q' &
  forall i, (i < r)%N ->
  let norm := avg_number i (fun j => natgrad_norm n (grads (q j)).1 (grads (q j)).2) beta2 in
  let rate := gamma / (Num.sqrt norm + epsilon / Num.sqrt (1 - beta2 ^+ i.+1)) in
  let theta := triple_lincomb 1 (ssm_to_naturals n (q i)) (- rate) (avg_triple i (fun j => (grads (q j)).1) beta1) in
  nat_valid n theta -> 0 <= norm /\ same_triple n (ssm_to_naturals n (q i.+1)) theta].
Proof. exact: momentum_run. Qed.
Print Assumptions C86_run.

(* the norm is not the one of the natural gradient, which is the sum of the products of the two
   gradients and positive: it can be negative, and the first step then gives NaN *)
Theorem C86_norm_refuted (gamma beta1 beta2 epsilon : R) : 0 <= beta2 < 1 ->
  exists (loss : ssm Rr 1 -> R) q g gt,
  [/\ ssm_chol 1 q, exp_gradient 1 loss q g, nat_gradient 1 loss q gt, 0 < tdot 1 g gt &
      natgrad_norm 1 g gt < 0 /\ natgrad_step 1 gamma beta1 beta2 epsilon true g gt q (ng_init 1) = None].
Proof.
by move=> Hb; have [loss [q [g [gt [H1 H2 H3 H4 H5]]]]] := w_refuted; exists loss, q, g, gt; split=> //; split=> //;
  apply: neg_norm_fails.
Qed.
Print Assumptions C86_norm_refuted.

(* the hypotheses of C86_momentum: for the gradients of the sum of the means, from any
   distribution, every step of a history of any length succeeds *)
Example C86_example d n (gamma beta1 beta2 epsilon : R) : (0 < n)%N -> 0 <= beta2 < 1 -> forall q0 : ssm Rr d, ssm_chol n q0 ->
  let g : triple Rr d := Triple (fun _ => const_mx 1) (fun _ => 0) (fun _ => 0) in
  exists q st, [/\ q 0%N = q0, st 0%N = ng_init d &
  forall i, natgrad_step n gamma beta1 beta2 epsilon true g g (q i) (st i) = Some (q i.+1, st i.+1)].
Proof. exact: momentum_history. Qed.
