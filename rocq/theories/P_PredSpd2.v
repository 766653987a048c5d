(* Predictive log densities of the models. *)
From Coq Require Import Reals Lra FunctionalExtensionality.
From mathcomp Require Import all_ssreflect all_algebra.
From Verif Require Import RealStruct Nat Alg Lin Ent Spd M_Block S_Block M_SSM S_SSM P_SSM M_SSMLog M_Kernel S_Kernel P_Kernel M_Comb P_Comb M_Cond P_Cond P_Cond2 P_Cond3 P_Cond4
  M_Trans S_Trans S_Kalman M_Kalman M_Emission P_Emission M_Sort P_Sort M_KernelR M_Models M_Cvi S_Cvi P_Cvi4 M_Pep P_Pep2 M_SPep P_SPep M_Lik Stein M_Density P_GaussInt P_PredSpd.
Set Implicit Arguments.
Unset Strict Implicit.
Unset Printing Implicit Defensive.
Import GRing.Theory Num.Theory Order.TTheory.
Local Open Scope ring_scope.

Section Pld.
Variables (d : nat) (ker : sde_kernel Rr d).
Hypothesis Hker : markov_kernel ker.
Variables (n : nat) (z : nat -> R).
Hypothesis Hz : increasing n.+1 z.

Lemma var_gt0 o (H : nat -> 'M[R]_(o, d)) mean q new i r : ssm_nonsing n q -> - APPROX_INF Rr < new i ->
  new i < APPROX_INF Rr -> row r (H i) != 0 -> 0 < (@predict_f_diag Rr d o ker H mean n q z new i).2 r 0.
Proof.
move=> Nq H1 H2 Hr.
have [_ _ _ /(_ r)[-> V]] := @predict_f_spd Rr d ker n z Hker Hz q Nq o H mean new i H1 H2.
exact: (proj2 V Hr).
Qed.

Lemma svgp_pld o (emission : R -> 'M[R]_(o, d)) mean q new (y : nat -> 'cV[R]_o) (s2 : R) i : ssm_nonsing n q ->
  - APPROX_INF Rr < new i -> new i < APPROX_INF Rr -> (forall r, row r (emission (new i)) != 0) -> 0 < s2 ->
  exists l : 'I_o -> R, svgp_predict_log_density ker emission mean (@ext_gaussian_pld_outputs o s2) n q z new y i = \sum_r l r /\
  forall r, let f := model_predict_f_diag ker emission mean n q z new i in 0 < f.2 r 0 /\
    integral (fun x => normal_density x (Num.sqrt s2) (y i r 0) * normal_density (f.1 r 0) (Num.sqrt (f.2 r 0)) x) (exp (l r)).
Proof.
move=> Nq H1 H2 Hr S2.
exists (fun r => let f := model_predict_f_diag ker emission mean n q z new i in ext_gaussian_pld s2 (f.1 r 0) (f.2 r 0) (y i r 0)).
split; first by [].
move=> r f; have V : 0 < f.2 r 0 by exact: (var_gt0 _ Nq H1 H2 (Hr r)).
by split; last exact: pld_integral.
Qed.

Section Sites.
Variables (emission : R -> 'M[R]_(1, d)).
Hypothesis Hm0 : k_mean0 ker = 0.
Hypothesis Hn : (0 < n)%N.
Variables (new y : nat -> R) (s2 : R) (i : nat).
Hypothesis H1 : - APPROX_INF Rr < new i.
Hypothesis H2 : new i < APPROX_INF Rr.
Hypothesis HH : emission (new i) != 0.
Hypothesis S2 : 0 < s2.

Lemma scalar_pld q : ssm_nonsing n q -> let f := cvi_predict_f ker emission n q z new i in 0 < f.2 /\
  integral (fun x => normal_density x (Num.sqrt s2) (y i) * normal_density f.1 (Num.sqrt f.2) x)
    (exp (ext_gaussian_pld s2 f.1 f.2 (y i))).
Proof.
move=> Nq f; have V : 0 < f.2.
  apply: (var_gt0 _ Nq H1 H2); apply: contraNneq HH => E; apply/eqP/rowP => j.
  by move: E => /rowP/(_ j); rewrite !mxE.
by split; last exact: pld_integral.
Qed.

Lemma cvi_pld s mean : (forall j, (j <= n)%N -> st_nat2 s j <= 0) ->
  exists m v l, [/\ omap (fun f => f i) (cvi_posterior_predict_f ker emission n z mean s new) = Some (m, v),
    omap (fun p => p i) (cvi_predict_log_density ker emission n z mean (ext_gaussian_pld s2) s new y) = Some l, 0 < v &
    integral (fun x => normal_density x (Num.sqrt s2) (y i) * normal_density m (Num.sqrt v) x) (exp l)].
Proof.
move=> Hs; have [q E Nq] := dist_q_exists emission Hker Hm0 Hz Hn Hs.
have := scalar_pld Nq; set f := cvi_predict_f _ _ _ _ _ _ _ => -[V I].
exists f.1, f.2, (ext_gaussian_pld s2 f.1 f.2 (y i)).
split=> //; first by rewrite /cvi_posterior_predict_f E [LHS]/= -surjective_pairing.
by rewrite /cvi_predict_log_density /cvi_posterior_predict_f E.
Qed.

Lemma scvi_pld s : valid_pairs n s ->
  exists q l, let f := cvi_predict_f ker emission n q z new i in [/\ scvi_dist_q ker n z s = Some q,
    omap (fun p => p i) (scvi_predict_log_density ker emission n z (ext_gaussian_pld s2) s new y) = Some l,
    omap (fun p => p i) (spep_predict_log_density ker emission n z (ext_gaussian_pld s2) s new y) = Some l, 0 < f.2 &
    integral (fun x => normal_density x (Num.sqrt s2) (y i) * normal_density f.1 (Num.sqrt f.2) x) (exp l)].
Proof.
move=> Hs; have [q E Nq] := spep_q_exists Hker Hm0 Hz Hn Hs.
have [V I] := scalar_pld Nq.
exists q; exists (let f := cvi_predict_f ker emission n q z new i in ext_gaussian_pld s2 f.1 f.2 (y i)); move=> f.
split=> //; first by rewrite /scvi_predict_log_density E.
by rewrite /spep_predict_log_density spep_dist_qE E.
Qed.
End Sites.
End Pld.

Lemma pld_example (l v : R) n : 0 < l -> 0 < v ->
  let ke := matern32 1 0 l v 0 in let z i : R := i%:R in
  [/\ markov_kernel (to_sde ke), increasing (F := Rr) n.+1 z, exists2 q, kernel_ssm n (to_sde ke) z = Some q & ssm_nonsing n q,
      forall t r, row r (sk_H ke t) != 0 & valid_pairs n (scvi_initial_sites 2)].
Proof.
move=> Hl Hv ke z; have [E1 E2 E3 _ _] := @cvi_example l v 1 n Hl Hv ltr01.
split=> //; first by have [S [A B _]] := kernel_law E1 E3; exists S.
  by move=> t r; apply/eqP => /rowP/(_ ord0); rewrite !mxE /=; apply/eqP; rewrite oner_eq0.
by case: (@scvi_example 2 n (fun _ => 0) 0 (fun k Hk => ltac:(by []))).
Qed.
