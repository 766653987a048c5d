(* Data in the range of the inducing points in any order, and the effect of the first data point outside that range. *)
From Coq Require Import Reals.
From mathcomp Require Import all_ssreflect all_algebra all_fingroup.
From Verif Require Import RealStruct Nat Alg Lin Ent Spd Log M_Block S_Block M_SSM S_SSM P_SSM M_SSMLog P_SSMLog M_Kalman M_Kernel
  S_Kernel P_Kernel M_Cond P_Cond P_Cond2 P_Cond3 P_Cond4 M_Emission M_Sort P_Sort M_Models S_GP P_Models M_Trans M_Cvi S_Order P_Order.
From Verif Require P_PieceR.
Set Implicit Arguments.
Unset Strict Implicit.
Unset Printing Implicit Defensive.
Import GRing.Theory Num.Theory Order.TTheory.
Local Open Scope ring_scope.

Lemma first_covered (F : rcfType) d (ker : sde_kernel F d) n z t t0 t0' q :
  markov_kernel ker -> k_mean0 ker = 0 -> increasing n.+1 z -> covered n z t -> ssm_nonsing n q ->
  predict_state ker n q z t0 t = predict_state ker n q z t0' t.
Proof.
move=> Hk H0 Hz Hc Hq; have L := ssm_has_law n q.
by rewrite (predict_covered t0 Hk H0 Hz Hc Hq L) (predict_covered t0' Hk H0 Hz Hc Hq L).
Qed.

Lemma svgp_order_covered N (s : {perm 'I_N}) o d (ker : sde_kernel Rr d) (emission : R -> 'M[R]_(o, d)) mean ve n z num_data X X' Y Y' q :
  markov_kernel ker -> k_mean0 ker = 0 -> increasing n.+1 z -> - APPROX_INF Rr < z 0%N ->
  (forall k, (k < N)%N -> z 0%N <= X k <= z n) -> ssm_nonsing n q ->
  reordered s X X' -> reordered s Y Y' ->
  svgp_elbo ker emission mean ve n z num_data N X' Y' q = svgp_elbo ker emission mean ve n z num_data N X Y q.
Proof.
move=> Hk H0 Hz Hi Hr Hq HX HY; apply: eq_omapf => p; apply: (congr1 (fun v => v * _ - _)).
pose f X Y k := let f := model_predict_f_diag ker emission mean n q z X in ve (f k).1 (f k).2 (Y k).
apply: (@reorder_sum1 _ N s (f X Y) (f X' Y')) => k; rewrite /f HY.
rewrite /model_predict_f_diag /predict_f_diag /project_state_to_f /project_cov_diag HX.
have /andP [H1 H2] := Hr _ (ltn_ord (s k)).
have Hc : covered n z (X (s k)) by apply: (@covered_range Rr).
by rewrite (@first_covered Rr d ker n z (X (s k)) (X' 0%N) (X 0%N) q Hk H0 Hz Hc Hq).
Qed.

(* a Brownian motion with another clock *)
Section Clock.
Variables (F : rcfType) (g : F -> F).
Hypothesis g0 : forall s, 0 < g s.
Hypothesis gi : forall s t, s < t -> g s < g t.

Definition clock_kernel : sde_kernel F 1 :=
  SdeKernel (fun _ _ => 1%:M) (fun s a => (g (s + a) - g s)%:M) (fun _ _ => 0) 0 (fun s => (g s)%:M).

Lemma clock_markov : markov_kernel clock_kernel.
Proof.
split=> //=.
- by move=> s; rewrite addr0 subrr raddf0.
- by move=> s a b _ _; rewrite mulmx1.
- move=> s a b _ _; rewrite mul1mx trmx1 mulmx1 -raddfD addrA; congr (_%:M); zmod.
- by move=> s a Ha; apply: (@P_Cond4.spd_scalar F); rewrite subr_gt0; apply: gi; rewrite ltr_addl.
- by move=> s; apply: (@P_Cond4.spd_scalar F).
- by move=> s a _; rewrite mul1mx trmx1 mulmx1 -raddfD; congr (_%:M); zmod.
- by move=> s a _; rewrite mulmx0 addr0.
Qed.

(* to the right of the conditioning points the prediction depends on the first point *)
Lemma clock_right n z t q : increasing n.+1 z -> z n < t -> t < APPROX_INF F -> ssm_nonsing n q ->
  exists m v e, e != 0 /\ forall t0, predict_state clock_kernel n q z t0 t = (m, v + (e ^+ 2 * g t0)%:M).
Proof.
move=> Hz H1 H2 Hq; have L := ssm_has_law n q.
have H := predict_right clock_markov Hz _ H1 H2 Hq L.
pose Q := g t - g (z n); pose Q' := g (APPROX_INF F) - g t.
have HQ : 0 < Q by rewrite subr_gt0; apply: gi.
have HQ' : 0 < Q' by rewrite subr_gt0; apply: gi.
eexists; eexists; exists (Q / (Q' + Q)); split; last first.
  move=> t0; rewrite H; congr (_, _ + _).
  have E1 : k_cov clock_kernel (z n) (t - z n) = Q%:M by rewrite /= (addrC (z n)) subrK.
  have E2 : k_cov clock_kernel t (APPROX_INF F - t) = Q'%:M by rewrite /= (addrC t) subrK.
  have E3 : k_trans clock_kernel t (APPROX_INF F - t) = 1%:M by [].
  have E4 : k_P0 clock_kernel t0 = (g t0)%:M by [].
  rewrite E1 E2 E3 E4 !trmx1 !mulmx1 mul1mx -raddfD.
  by rewrite invmx_scalar -scalar_mxM tr_scalar_mx -!scalar_mxM; congr (_%:M); rewrite expr2 mulrAC.
apply: mulf_neq0; first exact: lt0r_neq0.
by rewrite invr_eq0; apply: lt0r_neq0; apply: addr_gt0.
Qed.
End Clock.

Definition exp_clock : sde_kernel Rr 1 := clock_kernel (F := Rr) exp.

Lemma exp_clock_markov : markov_kernel exp_clock.
Proof.
apply: (@clock_markov Rr) => [s|s t /RltP H]; apply/RltP; [exact: exp_pos|exact: exp_increasing].
Qed.

Lemma omap_at (A B : Type) (f g : A -> B) x p : x = Some p -> omap f x = omap g x -> f p = g p.
Proof. by move=> ->; case. Qed.

Lemma svgp_at o d (ker : sde_kernel Rr d) (emission : R -> 'M[R]_(o, d)) mean ve n z N X X' Y Y' q p :
  kernel_ssm n ker z = Some p ->
  svgp_elbo ker emission mean ve n z None N X' Y' q = svgp_elbo ker emission mean ve n z None N X Y q ->
  let f X k := let f := model_predict_f_diag ker emission mean n q z X k in ve f.1 f.2 in
  \sum_(k < N) f X' k (Y' k) = \sum_(k < N) f X k (Y k).
Proof.
by move=> Ep E f; have := omap_at Ep E; cbv beta zeta; rewrite !mulr1 => H; exact: (addIr _ H).
Qed.

Lemma sum2 (F : zmodType) (f : nat -> F) : \sum_(k < 2) f k = f 0%N + f 1%N.
Proof. by rewrite big_ord_recl big_ord1. Qed.

Lemma svgp_at2 o d (ker : sde_kernel Rr d) (emission : R -> 'M[R]_(o, d)) mean ve n z X X' Y Y' q p :
  kernel_ssm n ker z = Some p ->
  svgp_elbo ker emission mean ve n z None 2 X' Y' q = svgp_elbo ker emission mean ve n z None 2 X Y q ->
  let f X k := model_predict_f_diag ker emission mean n q z X k in
  ve (f X' 0%N).1 (f X' 0%N).2 (Y' 0%N) + ve (f X' 1%N).1 (f X' 1%N).2 (Y' 1%N) =
  ve (f X 0%N).1 (f X 0%N).2 (Y 0%N) + ve (f X 1%N).1 (f X 1%N).2 (Y 1%N).
Proof.
move=> Ep E f; have := svgp_at Ep E; cbv zeta.
by rewrite (sum2 (fun k => ve (f X' k).1 (f X' k).2 (Y' k))) (sum2 (fun k => ve (f X k).1 (f X k).2 (Y k))).
Qed.

Lemma diag_one (F : comRingType) (v : nat -> 'M[F]_1) k : project_cov_diag (fun _ => 1%:M : 'M[F]_1) v k = v k.
Proof. by apply/matrixP => i j; rewrite !mxE !big_ord1 !mxE !ord1 eqxx !mul1r. Qed.

Lemma diag_at n q z X k m (v : 'M[R]_1) : predict_state exp_clock n q z (X 0%N) (X k) = (m, v) ->
  model_predict_f_diag exp_clock (fun _ => 1%:M : 'M[R]_1) (fun _ => 0) n q z X k = (m, v).
Proof.
move=> E; rewrite /model_predict_f_diag /predict_f_diag (@diag_one Rr) E.
by rewrite /project_state_to_f E mul1mx addr0.
Qed.

Lemma ve_at (m y : 'cV[R]_1) : exists a : R, forall v, ext_gaussian_ve 1 m v y = a - 2%:R^-1 * v 0 0.
Proof.
exists (- 2%:R^-1 * ln (2%:R * PI) - 2%:R^-1 * ln 1 - 2%:R^-1 * (y 0 0 - m 0 0) ^+ 2) => v.
rewrite /ext_gaussian_ve big_ord1 divr1; move: (_ ^+ 2) (v 0 0) (_ * _ - _) => a b c.
by rewrite mulrDr opprD addrA.
Qed.

Lemma order_gap (F : rcfType) (a b c d e2 e3 u v g2 g3 : F) : e2 != 0 -> g2 < g3 ->
  (a - 2%:R^-1 * (u + e3 ^+ 2 * g3)) + (b - 2%:R^-1 * (v + e2 ^+ 2 * g3)) <>
  (b - 2%:R^-1 * (v + e2 ^+ 2 * g2)) + (a - 2%:R^-1 * (u + e3 ^+ 2 * g2)).
Proof.
move=> N2 H E; have : 2%:R^-1 * ((e2 ^+ 2 + e3 ^+ 2) * (g3 - g2)) = 0.
  have -> : 2%:R^-1 * ((e2 ^+ 2 + e3 ^+ 2) * (g3 - g2)) =
   (b - 2%:R^-1 * (v + e2 ^+ 2 * g2)) + (a - 2%:R^-1 * (u + e3 ^+ 2 * g2)) -
   ((a - 2%:R^-1 * (u + e3 ^+ 2 * g3)) + (b - 2%:R^-1 * (v + e2 ^+ 2 * g3))).
    by move: (2%:R^-1) => h; crng.
  by rewrite E subrr.
move/eqP; rewrite mulf_eq0 invr_eq0 pnatr_eq0 /= mulf_eq0 subr_eq0 (gt_eqF H) orbF gt_eqF //.
by rewrite ltr_paddr ?sqr_ge0 // lt_neqAle eq_sym sqrf_eq0 N2 sqr_ge0.
Qed.

Lemma two_points_order : exists (X X' Y : nat -> R) (q : ssm Rr 1) (s : {perm 'I_2}),
  let z i : R := i%:R in
  [/\ markov_kernel exp_clock, increasing (F := Rr) 2 z, reordered s X X', reordered s Y Y &
   svgp_elbo exp_clock (fun _ => 1%:M : 'M[R]_1) (fun _ => 0) (ext_gaussian_ve 1) 1 z None 2 X' (fun k => (Y k)%:M) q <>
   svgp_elbo exp_clock (fun _ => 1%:M : 'M[R]_1) (fun _ => 0) (ext_gaussian_ve 1) 1 z None 2 X (fun k => (Y k)%:M) q].
Proof.
pose z i : R := i%:R.
have Hz : increasing (F := Rr) 2 z by case=> [|[|i]] //= _; rewrite (@ltr_nat Rr).
have Hm := exp_clock_markov; have [p [Ep Np Lp]] := kernel_law Hm Hz.
have [X [z2 z3 I2 I3 H12]] : exists X : nat -> R, [/\ z 1%N < X 0%N, z 1%N < X 1%N, X 0%N < APPROX_INF Rr, X 1%N < APPROX_INF Rr & X 0%N < X 1%N].
  by exists (fun k => k.+2%:R); split; rewrite ?(@ltr_nat Rr) //; exact: P_PieceR.inf_gt.
have [X' [X0 X1]] : exists X' : nat -> R, X' 0%N = X 1%N /\ X' 1%N = X 0%N by exists (fun k => X (1 - k)%N).
exists X, X', (fun _ => 0), p, (tperm ord0 (lift ord0 ord0)); cbv zeta; split; [exact: Hm|exact: Hz| |by []|].
  by move=> k; case: k => [[|[|k]] Hk] //=; rewrite ?permE.
move=> E.
have {E} := @svgp_at2 1 1 exp_clock (fun _ => 1%:M) (fun _ => 0) (ext_gaussian_ve 1) 1 z X X' (fun _ => 0%:M) (fun _ => 0%:M) p p Ep E.
cbv zeta beta.
have G0 (s : R) : 0 < exp s by apply/RltP; exact: exp_pos.
have Gi (s t : R) : s < t -> exp s < exp t by move=> /RltP H; apply/RltP; exact: exp_increasing.
have [m2 [v2 [e2 [N2 P2]]]] := @clock_right Rr exp G0 Gi 1 z _ p Hz z2 I2 Np.
have [m3 [v3 [e3 [N3 P3]]]] := @clock_right Rr exp G0 Gi 1 z _ p Hz z3 I3 Np.
have [a2 A2] := ve_at m2 (0%:M); have [a3 A3] := ve_at m3 (0%:M).
have D0 := @diag_at 1 p z X 0%N _ _ (P2 (X 0%N)); have D1 := @diag_at 1 p z X 1%N _ _ (P3 (X 0%N)).
have D0' : model_predict_f_diag exp_clock (fun _ => 1%:M : 'M[R]_1) (fun _ => 0) 1 p z X' 0%N = (m3, v3 + (e3 ^+ 2 * exp (X 1%N))%:M).
  by apply: diag_at; rewrite X0; exact: P3.
have D1' : model_predict_f_diag exp_clock (fun _ => 1%:M : 'M[R]_1) (fun _ => 0) 1 p z X' 1%N = (m2, v2 + (e2 ^+ 2 * exp (X 1%N))%:M).
  by apply: diag_at; rewrite X0 X1; exact: P2.
have H23 : exp (X 0%N) < exp (X 1%N) by exact: Gi.
rewrite D0 D1 D0' D1' !A2 !A3.
have S (v : 'M[R]_1) (x : R) : (v + x%:M) 0 0 = v 0 0 + x by rewrite !mxE eqxx mulr1n.
rewrite !S; exact: (@order_gap Rr a3 a2 0 0 e2 e3 _ _ _ _ N2 H23).
Qed.
