(* Cases that meet the hypotheses of property theorems. *)
From Coq Require Import Reals.
From mathcomp Require Import all_ssreflect all_algebra.
From Verif Require Import RealStruct Nat Alg Lin Ent Spd Log M_Block M_SSM S_SSM P_SSM M_SSMLog S_Gauss P_SSMLog
  S_Kalman M_Kalman M_Kernel S_Kernel P_Kernel M_Cond P_Cond P_Cond4 M_Emission M_Models P_Models3 M_Comb S_Comb P_Comb2
  M_KernelR S_KernelR P_KernelR P_KernelR2 P_KernelR3 M_Piece S_Piece P_Piece2 P_PieceR MExp M_Mean P_Mean P_Mean2
  M_Cvi S_Cvi P_Cvi4 P_SparseDense.
Set Implicit Arguments.
Unset Strict Implicit.
Unset Printing Implicit Defensive.
Import GRing.Theory Num.Theory Order.TTheory.
Local Open Scope ring_scope.

(* two random walks with different drifts *)
Lemma kl_example d (mu b b' : 'cV[R]_d) : b != b' ->
  0 < ssm_kl_divergence 1 (ex_ssm (F := Rr) mu b) (ex_ssm (F := Rr) mu b').
Proof.
move=> Hb; set S := ex_ssm _ b; set S' := ex_ssm _ b'.
have [_ _ H0 HE] := kl_law (ex_ssm_nonsing 1 mu b) (ex_ssm_nonsing 1 mu b') (ssm_has_law 1 S) (ssm_has_law 1 S').
rewrite lt_def H0 andbT; apply/eqP => /HE [Hm _].
have := Hm 1%N isT; rewrite !(@marginal_meansE Rr d 1) //= !mul1mx => /addrI E.
by move/eqP: Hb.
Qed.

(* a Brownian motion with a curved clock, between two conditioning points *)
Lemma cyclic_example (F : rcfType) d : let ker := clock_kernel F d in let te i : F := i.*2.+1%:R in let tc i : F := i.*2%:R in
  let minus := augment_times 2 tc 1 in let plus := augment_times 2 tc 2 in
  [/\ markov_kernel ker, minus = 0 /\ plus = 2%:R,
      spd (k_cov ker minus (te 0%N - minus)) & spd (k_cov ker (te 0%N) (plus - te 0%N))].
Proof.
move=> ker te tc minus plus; have H := @clock_markov F d; split=> //.
  by apply: (mk_cov_spd H); rewrite /minus /te /tc /= subr0 ltr01.
by apply: (mk_cov_spd H); rewrite /plus /te /tc /= subr_gt0 ltr_nat.
Qed.

(* a Matern 3/2 prior and a random walk as the proposal *)
Lemma iw_example (l v : R) n (mu b : 'cV[R]_2) : 0 < l -> 0 < v ->
  let k := matern32 1 0 l v 0 in let q := ex_ssm (F := Rr) mu b in
  [/\ markov_kernel (to_sde k), increasing (F := Rr) n.+1 (fun i => i%:R), ssm_nonsing n q &
      exists m K, has_law n.+1 n.+1 (ssm_path q) m K].
Proof.
move=> Hl Hv k q; have [H1 H2 H3 H4 H5] := models_example n mu b Hl Hv; split=> //.
by exists (ssm_marginal_means n q), (ssm_cov q); exact: ssm_has_law.
Qed.

(* the prior of a Matern 1/2 kernel with mean m *)
Lemma forget_example (l v : R) (m : 'cV[R]_1) n : 0 < l -> 0 < v ->
  let ker := to_sde (matern12 1 0 l v m) in let z i : R := i%:R in
  [/\ markov_kernel ker, k_mean0 ker = m, increasing (F := Rr) n.+1 z & exists S, kernel_ssm n ker z = Some S].
Proof.
move=> Hl Hv ker z; have H1 : markov_kernel ker by apply: m12_markov.
have H2 : increasing (F := Rr) n.+1 z by move=> i _; rewrite /z ltr_nat.
by split=> //; have [S [ES _ _]] := kernel_law H1 H2; exists S.
Qed.

Lemma jitter_example (l v jitter : R) (m : 'cV[R]_1) : 0 < l -> 0 < v ->
  let k := matern12 2 jitter l v m in good_kernel k /\ sk_A k 0 = 1%:M.
Proof.
move=> Hl Hv k; split; first by apply: lib_good; exact: lib_matern12.
by rewrite m12_A mulr0 -[X in exp X]/R0 exp_0.
Qed.

(* two Matern 1/2 kernels that change at time 1: the grids 0, 2 and 0, 1, 2 *)
Lemma piece_example (l1 l2 : R) : 0 < l1 -> 0 < l2 ->
  let kernels := [:: matern12 1 0 l1 1 0; matern12 1 0 l2 1 0] : seq (skernel Rr 1 1) in
  (exists S m K, pw_state_space_model kernels [:: (1 : Rr)] 0 [:: (0 : Rr); 2%:R] = Some S /\ has_law 2 2 (ssm_path S) m K) /\
  (exists S m K, pw_state_space_model kernels [:: (1 : Rr)] 0 [:: (0 : Rr); 1; 2%:R] = Some S /\ has_law 3 3 (ssm_path S) m K).
Proof.
move=> H1 H2 kernels.
have Ha := pair_args l1 l2; have Hp k (Hk : List.In k kernels) : pw_good k by have [] := pair_process H1 H2 Hk.
have R0 := @range_nat 0 isT; have R1 := @range_nat 1 isT; have R2 := @range_nat 2 isT.
have K0 := matern12 1 0 l1 1 0 : skernel Rr 1 1.
split.
  have [//|/=|/=|S [m [K [E _ L _]]]] := @pw_law_rec Rr 1 1 kernels [:: (1 : Rr)] K0 0 1 [:: (0 : Rr); 2%:R] Ha Hp (lexx 0).
  - by rewrite andbT ltr0n.
  - by rewrite R0 R2.
  by exists S, m, K.
have [//|/=|/=|S [m [K [E _ L _]]]] := @pw_law_rec Rr 1 1 kernels [:: (1 : Rr)] K0 0 2 [:: (0 : Rr); 1; 2%:R] Ha Hp (lexx 0).
- by rewrite andbT ltr01 ltr1n.
- by rewrite R0 R1 R2.
by exists S, m, K.
Qed.

(* a product of one Matern 1/2 kernel, any steps *)
Lemma one_step_example (u : nat -> 'cV[R]_(prod_dim [:: mkchild (matern12 1 0 1 1 0 : skernel Rr 1 1)])) :
  let ks := [:: mkchild (matern12 1 0 1 1 0 : skernel Rr 1 1)] in
  [/\ every (fun d k => library_kernel false k) ks, sk_F (product_kernel ks 0) \in unitmx &
      forall i, kron_sum ks *m (invmx (sk_F (product_kernel ks 0)) *m u i) = u i].
Proof.
move=> ks; have [_ [U _]] := mean_example; split.
- by move=> k [<-|[]]; apply: lib_matern12; exact: ltr01.
- by have [] := one_child_steps (u 0%N) U.
by move=> i; have [] := one_child_steps (u i) U.
Qed.

(* the sites of a Gaussian likelihood and pair sites with the same factors *)
Lemma sparse_dense_example (l v s2 : R) n (y : nat -> R) : 0 < l -> 0 < v -> 0 < s2 ->
  let k := matern32 1 0 l v 0 in let z i : R := i%:R in
  let s := Sites (fun i => y i / s2) (fun _ => - (2%:R * s2)^-1) in
  [/\ markov_kernel (to_sde k), k_mean0 (to_sde k) = 0, increasing (F := Rr) n.+1 z, - APPROX_INF Rr < z 0%N &
   [/\ forall i, st_nat2 s i < 0, forall mu v y : R, (fun _ _ _ => - (2%:R * s2)^-1) mu v y <= 0 &
       exists2 p, valid_pairs n p & forall u, pairs_exponent n p u = sites_exponent n (fun k' => sk_H k (z k')) s u]].
Proof.
move=> Hl Hv Hs k z s; have [H1 H2 H3 H4 _] := models_example n 0 0 Hl Hv.
have g : - (2%:R * s2)^-1 < 0 by rewrite oppr_lt0 invr_gt0 mulr_gt0 // ltr0n.
split=> //; split=> //; first by move=> *; exact: ltW.
by apply: (matching_pairs (sk_H k) H1 H3 H4) => i _; exact: ltW.
Qed.
