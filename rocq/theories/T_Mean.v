(* Property theorems C43, C44 and C74: emission models and mean functions.

   Vocabulary: S_SSM.v ([has_law]), S_Comb.v ([semigroup]), S_KernelR.v ([generates M A]:
   A(0) = 1 and dA/dt = M A; [library_kernel]), S_Mean.v ([response M N tau input jump x]:
   x is zero up to the first of the N actions, follows dx/dt = M x + input_k after action
   k, and jumps by jump_k just after action k), [increasing N tau]: the first N times are
   strictly increasing. *)
From Coq Require Import Reals.
From mathcomp Require Import all_ssreflect all_algebra.
From Verif Require Import RealStruct Alg Lin S_SSM M_SSMLog M_Kernel S_Kernel M_Comb S_Comb MCalc MExp M_KernelR S_KernelR
  P_KernelR2 P_KernelR3 M_Emission P_Emission M_Mean S_Mean P_Mean P_Mean2 P_Examples.
Set Implicit Arguments.
Unset Strict Implicit.
Unset Printing Implicit Defensive.
Import GRing.Theory Num.Theory Order.TTheory.
Local Open Scope ring_scope.

(* H m, H P H^T and its diagonal *)
Theorem C43_projection (F : comRingType) o d (H : nat -> 'M[F]_(o, d)) m P k :
  [/\ project_state_to_f H m k = H k *m m k,
      project_cov_full H P k = H k *m P k *m (H k)^T,
      forall i, project_cov_diag H P k i 0 = (H k *m P k *m (H k)^T) i i,
      (project_marginals_full H m P).1 k = H k *m m k /\ (project_marginals_full H m P).2 k = H k *m P k *m (H k)^T &
      (project_marginals_diag H m P).1 k = H k *m m k /\
        forall i, (project_marginals_diag H m P).2 k i 0 = (H k *m P k *m (H k)^T) i i].
Proof.
exact: (And5 erefl (cov_fullE H P k) (cov_diagE H P k) (conj erefl (cov_fullE H P k)) (conj erefl (cov_diagE H P k))).
Qed.
Print Assumptions C43_projection.

(* for a process of states: the projected means and covariances are those of f = H x *)
Theorem C43_law (F : comRingType) o d e (H : nat -> 'M[F]_(o, d)) N' N (X : (nat -> 'cV[F]_e) -> nat -> 'cV[F]_d) m K :
  has_law N' N X m K ->
  exists C, has_law N' N (fun eps k => H k *m X eps k) (project_state_to_f H m) C /\
    forall k, C k k = project_cov_full H (fun k => K k k) k.
Proof. exact: (fun HL => ex_intro _ _ (conj (project_law H HL) (fun k => esym (cov_fullE H (fun k => K k k) k)))). Qed.
Print Assumptions C43_law.

(* the composed model projects in two steps *)
Theorem C43_composed (F : comRingType) o l d (outer : nat -> 'M[F]_(o, l)) (inner : nat -> 'M[F]_(l, d)) x C k :
  [/\ project_state_to_f (composed_matrix outer inner) x k = project_state_to_f outer (project_state_to_g inner x) k,
      project_cov_full (composed_matrix outer inner) C k = project_cov_full outer (project_cov_to_g_full inner C) k,
      project_cov_diag (composed_matrix outer inner) C k = project_cov_diag outer (project_cov_to_g_full inner C) k,
      composed_matrix outer inner k = outer k *m inner k &
      forall i, project_cov_to_g_diag inner C k i 0 = (inner k *m C k *m (inner k)^T) i i].
Proof.
exact: (And5 (composed_state outer inner x k) (composed_full outer inner C k) (composed_diag outer inner C k) (composedE outer inner k)
  (cov_diagE inner C k)).
Qed.
Print Assumptions C43_composed.

(* stacked independent processes, each driven by its own noise: output i is H_i x_i,
   different outputs are uncorrelated *)
Theorem C43_stack (F : comRingType) m d e (H : 'I_m -> nat -> 'M[F]_(1, d)) N' N
    (X : 'I_m -> (nat -> 'cV[F]_e) -> nat -> 'cV[F]_d) mu K :
  (forall i, has_law N' N (X i) (mu i) (K i)) ->
  let noise (i : 'I_m) (eps : nat -> 'cV[F]_(m * e)) l : 'cV[F]_e := \col_s eps l (mxvec_index i s) 0 in
  exists C, [/\
    has_law N' N (fun eps k => \col_i (H i k *m X i (noise i eps) k) 0 0) (stack_project_state H mu) C,
    forall k, C k k = stack_project_cov_full H (fun i k => K i k k) k &
    forall k i, C k k i i = stack_project_cov_diag H (fun i k => K i k k) k i 0].
Proof. exact: stack_law_marginals. Qed.
Print Assumptions C43_stack.

Example C43_example (F : rcfType) : project_cov_full (fun _ : nat => row_mx 1 1 : 'M[F]_(1, 1 + 1)) (fun _ => 1%:M) 0%N = 2%:R%:M.
Proof. exact: emission_example. Qed.

(* the impulse mean: the sum of all earlier impulses, each carried to t *)
Theorem C44_impulse_sum (F : rcfType) o d (kernel : skernel F o d) N tau u t :
  semigroup kernel -> (forall k, (k.+1 < N)%N -> tau k <= tau k.+1) ->
  impulse_mean kernel N tau u t = sk_H kernel t *m \sum_(k < N | tau k < t) sk_A kernel (t - tau k) *m u k.
Proof. exact: (fun Hs Ht => impulse_conv Hs Ht u t). Qed.
Print Assumptions C44_impulse_sum.

(* the same as the solution of the differential equation with jumps *)
Theorem C44_impulse_response o d (kernel : skernel Rr o d) N tau u :
  (0 < N)%N -> increasing (F := Rr) N tau -> generates (sk_F kernel) (sk_A kernel) ->
  exists2 x, response (sk_F kernel) N tau (fun _ => 0) u x &
    forall t, impulse_mean kernel N tau u t = sk_H kernel t *m x t.
Proof. exact: impulse_response. Qed.
Print Assumptions C44_impulse_response.

Theorem C44_step_response o d (kernel : skernel Rr o d) N tau u :
  (0 < N)%N -> increasing (F := Rr) N tau -> generates (sk_F kernel) (sk_A kernel) -> sk_F kernel \in unitmx ->
  exists2 x, response (sk_F kernel) N tau u (fun _ => 0) x &
    forall t, step_mean kernel N tau u t = sk_H kernel t *m x t.
Proof. exact: step_response. Qed.
Print Assumptions C44_step_response.

(* there is only one response *)
Theorem C44_response_unique d (M : 'M[R]_d) N tau input jump x y :
  (0 < N)%N -> increasing (F := Rr) N tau ->
  response M N tau input jump x -> response M N tau input jump y -> forall t, x t = y t.
Proof. exact: (fun HN Ht => @response_unique d M N tau input jump HN Ht x y). Qed.
Print Assumptions C44_response_unique.

(* every library kernel except Product meets the hypothesis *)
Theorem C44_library o d (k : skernel Rr o d) : library_kernel false k -> generates (sk_F k) (sk_A k).
Proof. exact: (fun H => exp_generates (lib_exp H)). Qed.
Print Assumptions C44_library.

(* LinearMeanFunction: linear in time, with the coefficient as value at time one *)
Theorem C44_linear (F : rcfType) o (a : F) : linear_mean o a 1 = const_mx a /\
  forall b s t, linear_mean o a (b * s + t) = b *: linear_mean o a s + linear_mean o a t.
Proof. exact: linear_ok. Qed.
Print Assumptions C44_linear.

Example C44_example : generates (sk_F (matern12 1 0 1 1 0)) (sk_A (matern12 1 0 1 1 0)) /\
  sk_F (matern12 1 0 1 1 0) \in unitmx /\ increasing (F := Rr) 3 (fun i => i%:R).
Proof. exact: mean_example. Qed.

(* for a Product the step mean is not the response of the process it describes *)
Theorem C74_step_product_refuted : exists ks : seq (child Rr 1),
  [/\ forall k, List.In k ks -> library_kernel false (projT2 k),
      generates (kron_sum ks) (sk_A (product_kernel ks 0)),
      sk_F (product_kernel ks 0) \in unitmx &
      ~ exists x, response (kron_sum ks) 1 (fun _ => 0) (fun _ => const_mx 1) (fun _ => 0) x /\
        forall t, step_mean (product_kernel ks 0) 1 (fun _ => 0) (fun _ => const_mx 1) t = sk_H (product_kernel ks 0) t *m x t].
Proof. exact: step_product_wrong. Qed.
Print Assumptions C74_step_product_refuted.

(* it is wrong for every product of two Matern 1/2 kernels *)
Theorem C74_two_matern12_refuted (l1 l2 : R) : 0 < l1 -> 0 < l2 ->
  let ks := [:: mkchild (matern12 1 0 l1 1 0); mkchild (matern12 1 0 l2 1 0)] in
  [/\ forall k, List.In k ks -> library_kernel false (projT2 k),
      generates (kron_sum ks) (sk_A (product_kernel ks 0)),
      sk_F (product_kernel ks 0) \in unitmx &
      ~ exists x, response (kron_sum ks) 1 (fun _ => 0) (fun _ => const_mx 1) (fun _ => 0) x /\
        forall t, step_mean (product_kernel ks 0) 1 (fun _ => 0) (fun _ => const_mx 1) t = sk_H (product_kernel ks 0) t *m x t].
Proof. exact: two_m12_wrong. Qed.
Print Assumptions C74_two_matern12_refuted.

(* missing: the other steps; right for the steps on which the Kronecker product of the feedback
   matrices acts like their Kronecker sum *)
Theorem C74_step_product_partial ks N tau u : every (fun d k => library_kernel false k) ks ->
  let k := product_kernel ks 0 in
  (0 < N)%N -> increasing (F := Rr) N tau -> sk_F k \in unitmx ->
  (forall i, (i < N)%N -> kron_sum ks *m (invmx (sk_F k) *m u i) = u i) ->
  exists2 x, response (kron_sum ks) N tau u (fun _ => 0) x & forall t, step_mean k N tau u t = sk_H k t *m x t.
Proof. exact: step_product. Qed.
Print Assumptions C74_step_product_partial.

(* these are all steps for a product of one kernel *)
Theorem C74_one_child d (k : skernel Rr 1 d) (u : 'cV[R]_(prod_dim [:: mkchild k])) : sk_F k \in unitmx ->
  let p := product_kernel [:: mkchild k] 0 in
  sk_F p \in unitmx /\ kron_sum [:: mkchild k] *m (invmx (sk_F p) *m u) = u.
Proof. exact: one_child_steps. Qed.
Print Assumptions C74_one_child.

(* a product of one Matern 1/2 kernel, any steps *)
Example C74_example (u : nat -> 'cV[R]_(prod_dim [:: mkchild (matern12 1 0 1 1 0 : skernel Rr 1 1)])) :
  let ks := [:: mkchild (matern12 1 0 1 1 0 : skernel Rr 1 1)] in
  [/\ every (fun d k => library_kernel false k) ks, sk_F (product_kernel ks 0) \in unitmx &
      forall i, kron_sum ks *m (invmx (sk_F (product_kernel ks 0)) *m u i) = u i].
Proof. exact: one_step_example. Qed.
