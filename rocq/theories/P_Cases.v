(* Concrete cases that meet the hypotheses of property theorems. *)
From Coq Require Import Reals.
From mathcomp Require Import all_ssreflect all_algebra.
From Verif Require Import RealStruct Nat Alg Lin Ent Spd Log M_Block M_SSM S_SSM P_SSM M_SSMLog P_SSMLog S_Gauss M_Kalman M_Kernel S_Kernel M_Cond P_Cond
  P_Cond4 P_CondR M_Emission M_Sort P_Sort M_Models S_GP P_Models P_Models3 M_Comb S_Comb M_KernelR S_KernelR P_KernelR2 M_Cvi S_Cvi P_Cvi P_Cvi4
  M_Pep S_Pep M_SPep S_SPep P_SPep P_SPep8 M_Space S_Space P_Space P_Space2 P_Space3 P_SpaceElbo P_SpaceEx.
Set Implicit Arguments.
Unset Strict Implicit.
Unset Printing Implicit Defensive.
Import GRing.Theory Num.Theory Order.TTheory.
Local Open Scope ring_scope.

Lemma case_space_time (l v c s2 : R) n N (t : nat -> R) : 0 < l -> 0 < v -> c ^+ 2 < 1 -> 0 < s2 ->
  (forall k, (k < N)%N -> 0 <= t k <= n%:R) ->
  let kt := matern12 1 0 l v 0 in let z i : R := i%:R in
  [/\ increasing (F := Rr) n.+1 z, plain_kernel kt, noisy kt, spd (st_Kmm (F := Rr) (bspace c) kt 2 bpoints) &
      forall k, (k < N)%N -> covered (F := Rr) n z (t k)] /\
  gradients_of (ext_gaussian_ve1 s2) (fun mu _ y => (y - mu) / s2) (fun _ _ _ => - (2%:R * s2)^-1) /\
  valid_pairs n (st_initial_sites kt 2).
Proof.
move=> Hl Hv Hc Hs Ht kt z; have [H1 H2 H3 H4] := st_example n Hl Hv Hc; split; last first.
  by split; [exact: gauss_has_grad | have [] := st_initial_thm n kt 2].
split; [exact: H1 | exact: H2 | exact: H3 | exact: H4 |].
move=> k Hk; have /andP [A B] := Ht k Hk.
apply: (@covered_range Rr); [exact: H1 | | exact: A | exact: B].
by rewrite /z oppr_lt0; exact: (lt_trans ltr01 (inf_gt1 Rr)).
Qed.

Lemma case_refine (F : rcfType) d n : let z i : F := i%:R in let sub i := (2 * i)%N in
  [/\ markov_kernel (P_Cond4.clock_kernel F d), increasing (2 * n).+1 z, forall i, (i < n)%N -> (sub i < sub i.+1)%N & (sub n <= 2 * n)%N].
Proof.
move=> z sub; split; [exact: P_Cond4.clock_markov | by move=> i _; rewrite ltr_nat | | by []].
by move=> i _; rewrite /sub; lia.
Qed.

Lemma case_half n j : (j < n)%N -> below n (fun i => i%:R) (j%:R + 2%:R^-1) = j.+1.
Proof.
move=> Hj; have H2 : (0 : R) < 2%:R^-1 by rewrite invr_gt0 ltr0n.
have H3 : (2%:R^-1 : R) <= 1 by rewrite invf_le1 ?ltr0n // ler1n.
rewrite below_searchsorted; last by move=> i _; rewrite ltr_nat.
apply: (@searchsorted_inner Rr); [by move=> i _; rewrite ltr_nat | by [] | by rewrite ltr_addl |].
by rewrite -[j.+1]addn1 natrD ler_add2l.
Qed.

Lemma case_intervals (l v : R) n : 0 < l -> 0 < v -> v < (10 ^ 10)%N%:R / 2%:R ->
  let k := matern12 1 0 l v 0 in let z i : R := i%:R in let X i : R := i%:R + 2%:R^-1 in
  [/\ markov_kernel (to_sde k), k_mean0 (to_sde k) = 0, increasing (F := Rr) n.+1 z & - APPROX_INF Rr < z 0%N] /\
  [/\ valid_pairs n (sp_sites (spep_initial 1)), first_site (to_sde k) (sp_sites (spep_initial 1)),
      forall i, (i < n)%N -> z 0%N <= X i <= z n & forall m, (share n z n X m <= 1)%N].
Proof.
move=> Hl Hv Hv' k z X; have [H1 H2 H3 H4 [H5 H6]] := spep_example n Hl Hv Hv'; split.
  by split; [exact: H1 | exact: H2 | exact: H3 | exact: H4].
have Hh : (0 : R) < 2%:R^-1 by rewrite invr_gt0 ltr0n.
have Hh' : (2%:R^-1 : R) <= 1 by rewrite invf_le1 ?ltr0n // ler1n.
split; [exact: H5 | exact: H6 | |].
  move=> i Hi; apply/andP; split; first by apply: addr_ge0; [exact: ler0n | exact: ltW].
  apply: (@le_trans _ _ (i.+1%:R : R)); last by rewrite ler_nat.
  by rewrite -[i.+1]addn1 natrD ler_add2l.
move=> m; rewrite /share (eq_in_count (a2 := fun j => j.+1 == m)); last first.
  by move=> j; rewrite mem_iota add0n => /andP [_ Hj]; rewrite (case_half Hj).
case: m => [|m]; first by rewrite (eq_count (a2 := pred0)) // count_pred0.
rewrite (eq_count (a2 := pred1 m)) => [|j]; last by rewrite /= eqSS.
by rewrite count_uniq_mem ?iota_uniq // leq_b1.
Qed.

Lemma case_sparse (l s2 : R) n (mu b : 'cV[R]_2) : 0 < l -> 0 < s2 ->
  let k := matern32 1 0 l s2 0 in let z i : R := i%:R in let X i : R := (n - i)%N%:R in
  [/\ markov_kernel (to_sde k), k_mean0 (to_sde k) = 0, increasing (F := Rr) n.+1 z & - APPROX_INF Rr < z 0%N] /\
  [/\ ssm_nonsing n (ex_ssm (F := Rr) mu b), exists m K, has_law n.+1 n.+1 (ssm_path (ex_ssm (F := Rr) mu b)) m K &
      forall N i, (i < N)%N -> z 0%N <= X i <= z n].
Proof.
move=> Hl Hs k z X; have [H1 H2 H3 H4 H5] := models_example n mu b Hl Hs; split.
  by split; [exact: H1 | exact: H2 | exact: H3 | exact: H4].
split; first exact: H5.
  by eexists; eexists; exact: ssm_has_law.
by move=> N i _; rewrite /z /X ler0n ler_nat leq_subr.
Qed.

Lemma case_exact_sites (s2 : R) n (y : nat -> R) : 0 < s2 -> let s := Sites (fun i => y i / s2) (fun _ => - (2%:R * s2)^-1) in
  [/\ forall j, st_nat2 s j <= 0, forall j, st_nat1 s j = y j / s2, forall j, st_nat2 s j = - (2%:R * s2)^-1,
      uniq (iota 0 n.+1) & forall k, (k <= n)%N -> k \in iota 0 n.+1].
Proof.
move=> Hs s; split=> [j|j|j||k Hk]; [| by [] | by [] | exact: iota_uniq | by rewrite mem_iota add0n].
by rewrite oppr_le0 invr_ge0; apply: mulr_ge0; [exact: ler0n | exact: ltW].
Qed.
