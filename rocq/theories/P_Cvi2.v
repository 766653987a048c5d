(* Predictions of the CVI model after a unit step with a Gaussian likelihood. *)
From Coq Require Import Reals Lra FunctionalExtensionality.
From mathcomp Require Import all_ssreflect all_algebra.
From Verif Require Import MCalc RealStruct Nat Alg Lin Ent Spd Log M_Block S_Block P_Block P_Block2 M_SSM S_SSM P_SSM M_SSMLog P_SSMLog S_Gauss P_Gauss
  M_Trans S_Trans P_Trans P_TransLog S_Kalman M_Kalman P_Kalman P_KalmanLog P_Kalman2 M_Kernel S_Kernel P_Kernel M_Cond P_Cond P_Cond2 P_Cond3 P_Cond4
  M_Emission P_Emission M_Sort P_Sort M_Models S_GP P_Elbo P_Models P_Models2 M_Cvi S_Cvi P_Cvi.
Set Implicit Arguments.
Unset Strict Implicit.
Unset Printing Implicit Defensive.
Import GRing.Theory Num.Theory Order.TTheory.
Local Open Scope ring_scope.

Lemma const_add (a : R) (X : 'M[R]_1) : (const_mx a + X) 0 0 = a + X 0 0.
Proof. by rewrite mxE [const_mx _ _ _]mxE. Qed.

Lemma const_sub (a : R) (X : 'M[R]_1) : (const_mx a - X) 0 0 = a - X 0 0.
Proof. by rewrite !mxE. Qed.
Lemma mul_sub p (A : 'M[R]_(1, p)) (X Y : 'cV[R]_p) : (A *m (X - Y)) 0 0 = (A *m X) 0 0 - (A *m Y) 0 0.
Proof. by move: (mulmxBr A X Y) => ->; move: (A *m X) (A *m Y) => U V; rewrite !mxE. Qed.

Section Predict.
Variables (d : nat) (ker : sde_kernel Rr d) (emission : R -> 'M[R]_(1, d)).
Hypothesis Hker : markov_kernel ker.
Hypothesis Hm0 : k_mean0 ker = 0.
Variables (n : nat) (z : nat -> R).
Hypothesis Hz : increasing n.+1 z.
Hypothesis Hn : (0 < n)%N.
Hypothesis Hinf : - APPROX_INF Rr < z 0%N.
Variables (s2 : R) (y : nat -> R).
Hypothesis s2_gt0 : 0 < s2.
Let Y := flat n.+1 (fun k => const_mx (y k) : 'cV[R]_1).
Let Kff : 'M[R]_(n.+1 * 1) := f_gram ker emission n.+1 n.+1 z z.
Let W : 'M[R]_(n.+1 * 1) := invmx (Kff + s2%:M).
Let Kt (t : R) : 'M[R]_(1, n.+1 * 1) := brow n.+1 (fun j => f_cov ker emission t (z j)).
Let Hd := dense n.+1 n.+1 (rdiag (fun k => emission (z k))).

Lemma Sg_scalar o : dense n.+1 n.+1 (rdiag (fun _ => (Num.sqrt s2)%:M *m (Num.sqrt s2)%:M^T : 'M[R]_o)) = s2%:M.
Proof. by rewrite -[RHS](@dense_scalar Rr); apply: eq_dense => i j _ _; rewrite /rdiag cR_mul. Qed.

(* predictions from a distribution at z that has the law of the posterior *)
Lemma predict_law q m K new i : ssm_nonsing n q -> has_law n.+1 n.+1 (ssm_path q) m K ->
  flat n.+1 m = cond_mean 0 (x_gram ker n.+1 z) Hd s2%:M Y ->
  dense n.+1 n.+1 K = cond_cov (x_gram ker n.+1 z) Hd s2%:M ->
  z 0%N <= new i -> new i <= z n ->
  cvi_predict_f ker emission n q z new i =
    ((Kt (new i) *m W *m Y) 0 0, (f_cov ker emission (new i) (new i) - Kt (new i) *m W *m (Kt (new i))^T) 0 0).
Proof.
move=> Nq L Em EK H1 H2.
have Hc : covered n z (new i) by apply: covered_range.
have [_ E] := predict_f_covered (fun i => emission (new i)) (fun _ => 0) Hker Hm0 Hz Hc Nq L.
rewrite /cvi_predict_f E {E} Em EK.
have [p [G1 G2 G3]] := gpr_post emission (fun _ => 0) Hker Hm0 (fun k => const_mx (y k)) Hz (@cR_low 1 s2 s2_gt0) Hn.
have Lp := ssm_has_law n p; have [Fm FK] := G3 _ _ Lp.
have E0 : flat n.+1 (fun k : nat => (fun _ : R => 0 : 'cV[R]_1) (z k)) = 0 by exact: bcol0.
rewrite Sg_scalar E0 subr0 in Fm; rewrite Sg_scalar in FK.
have [E _] := predict_f_covered (fun i => emission (new i)) (fun _ => 0) Hker Hm0 Hz Hc G2 Lp.
have := gpr_predict emission (fun _ => 0) Hker Hm0 (fun k => const_mx (y k)) Hz (@cR_low 1 s2 s2_gt0) Hn Hinf H1 H2.
rewrite /gpr_predict_f G1 /Option.map /Option.bind /Option.apply; cbv zeta; rewrite /model_predict_f_full E {E} Fm FK.
rewrite E0 Sg_scalar subr0 add0r => /Some_inj Q.
have Q1 := congr1 (fun r : 'cV[R]_1 * 'M[R]_1 => r.1 0 0) Q; have Q2 := congr1 (fun r : 'cV[R]_1 * 'M[R]_1 => r.2 0 0) Q.
by congr pair; [exact: Q1|rewrite mxE; exact: Q2].
Qed.

Lemma cvi_exact_predict s mean new i :
  (forall k, (k <= n)%N -> st_nat1 s k = y k / s2) -> (forall k, (k <= n)%N -> st_nat2 s k = - (2%:R * s2)^-1) ->
  z 0%N <= new i -> new i <= z n ->
  omap (fun f => f i) (cvi_posterior_predict_f ker emission n z mean s new) =
  Some ((Kt (new i) *m W *m Y) 0 0, (f_cov ker emission (new i) (new i) - Kt (new i) *m W *m (Kt (new i))^T) 0 0).
Proof.
move=> E1 E2 H1 H2.
have [q [Eq Nq Lq]] := exact_posterior emission Hker Hz Hn s2_gt0 Hm0 E1 E2.
have L := ssm_has_law n q; have [Em EK] := Lq _ _ L.
rewrite /cvi_posterior_predict_f Eq /Option.map /Option.bind /Option.apply; congr Some.
exact: (predict_law Nq L Em EK H1 H2).
Qed.

(* the regression model with a mean function agrees at the training points only without it *)
Lemma cvi_mean_ignored s mean :
  (forall k, (k <= n)%N -> st_nat1 s k = y k / s2) -> (forall k, (k <= n)%N -> st_nat2 s k = - (2%:R * s2)^-1) ->
  (forall i, (i <= n)%N ->
    omap (fun f => (f i).1) (cvi_posterior_predict_f ker emission n z mean s z) =
    omap (fun f : nat -> 'cV[R]_1 * 'M[R]_1 => (f i).1 0 0) (gpr_predict_f ker emission (fun t => const_mx (mean t)) n z (fun k => const_mx (y k))
      (Num.sqrt s2)%:M z)) <->
  (forall i, (i <= n)%N -> mean (z i) = 0).
Proof.
move=> E1 E2.
pose M := flat n.+1 (fun k => const_mx (mean (z k)) : 'cV[R]_1).
have Hr i : (i <= n)%N -> z 0%N <= z i /\ z i <= z n.
  by move=> Hi; split; apply: (increasing_le Hz).
have A i : (i <= n)%N -> omap (fun f => (f i).1) (cvi_posterior_predict_f ker emission n z mean s z) =
  Some ((Kt (z i) *m W *m Y) 0 0).
  move=> Hi; have [H1 H2] := Hr i Hi; have := cvi_exact_predict mean E1 E2 H1 H2.
  case: (cvi_posterior_predict_f _ _ _ _ _ _ _) => // f.
  by rewrite /Option.map /Option.bind /Option.apply => /Some_inj ->.
have B i : (i <= n)%N -> omap (fun f : nat -> 'cV[R]_1 * 'M[R]_1 => (f i).1 0 0) (gpr_predict_f ker emission (fun t => const_mx (mean t)) n z
    (fun k => const_mx (y k)) (Num.sqrt s2)%:M z) = Some (mean (z i) + (Kt (z i) *m W *m (Y - M)) 0 0).
  move=> Hi; have [H1 H2] := Hr i Hi.
  have := gpr_predict emission (fun t => const_mx (mean t)) Hker Hm0 (fun k => const_mx (y k)) Hz (@cR_low 1 s2 s2_gt0) Hn Hinf H1 H2.
  cbv zeta; rewrite Sg_scalar; case: (gpr_predict_f _ _ _ _ _ _ _ _) => // f.
  rewrite /Option.map /Option.bind /Option.apply => /Some_inj ->; congr Some.
  by apply: (etrans (const_add _ _)).
have uW : Kff + s2%:M \in unitmx.
  apply: (@spd_unit Rr); rewrite /Kff f_gram_Hd.
  apply: obs_cov_spd; [exact: Kzz_spd|exact: spd_scalar].
have C : M - Kff *m W *m M = s2 *: (W *m M).
  have -> : Kff *m W = 1%:M - s2 *: W.
    by rewrite -(mulmxV uW) -/W mulmxDl mul_scalar_mx addrK.
  by rewrite mulmxBl mul1mx opprB addrC subrK -scalemxAl.
have D : M - Kff *m W *m M = bcol n.+1 (fun i => const_mx (mean (z i)) - Kt (z i) *m W *m M).
  have -> : Kff *m W *m M = bcol n.+1 (fun i => Kt (z i) *m W *m M).
    by rewrite -[Kff]/(bcol n.+1 (fun i => Kt (z i))) !mul_bcol_mx.
  exact: bcolB.
have s0 : s2 != 0 by apply: lt0r_neq0.
have N0 : forall m' : nat -> R, (flat n.+1 (fun k => const_mx (m' k) : 'cV[R]_1) = 0) <-> forall i, (i <= n)%N -> m' i = 0.
  move=> m'; split.
    move=> E i Hi; have := congr1 (fun v : 'cV[R]_(n.+1 * 1) => (unflat v i : 'cV[R]_1) 0 0) E.
    by rewrite unflat_bcol // unflat0 !mxE.
  move=> E; rewrite -[RHS](@bcol0 R_ringType 1 1 n.+1); by apply: eq_bcol => i Hi; rewrite (E i Hi).
split=> H.
  have Z : M - Kff *m W *m M = 0.
    rewrite D -[RHS](@bcol0 R_ringType 1 1 n.+1); apply: eq_bcol => i Hi.
    apply/matrixP => a b; rewrite (ord1 a) (ord1 b) (const_sub _ _) [RHS]mxE.
    have := H i Hi; rewrite A // B // => /Some_inj; rewrite mul_sub.
    move: ((Kt (z i) *m W *m Y) 0 0) (mean (z i)) ((Kt (z i) *m W *m M) 0 0) => u v w; toR_ops => Q; lra.
  apply/N0; have := congr1 (fun v => (Kff + s2%:M) *m v) (etrans (esym C) Z).
  rewrite mulmx0 -scalemxAr mulmxA mulmxV // mul1mx => /eqP; rewrite scaler_eq0 (negbTE s0) => /eqP; exact.
move=> i Hi; rewrite A // B // H // add0r; congr (Some _).
have -> : M = 0 by apply/N0.
by rewrite subr0.
Qed.
End Predict.
