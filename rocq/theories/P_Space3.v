(* Witnesses and examples for the spatio-temporal models. *)
From Coq Require Import Reals Lra.
From mathcomp Require Import all_ssreflect all_algebra.
From Verif Require Import MCalc RealStruct Nat Alg Lin Ent Spd Log M_Block S_Block P_Block P_Block2 M_SSM S_SSM P_SSM M_SSMLog P_SSMLog S_Gauss P_Gauss
  M_Trans S_Trans P_Trans P_TransLog S_Kalman M_Kalman P_Kalman P_KalmanLog P_Kalman2 M_Kernel S_Kernel P_Kernel M_Comb S_Comb P_Comb P_Comb2 P_Comb3
  M_KernelR S_KernelR P_Matern P_KernelR P_KernelR2 P_KernelR3 M_Cond P_Cond P_Cond2 P_Cond3 P_Cond4
  M_Emission P_Emission M_Sort P_Sort M_Models S_GP P_Elbo P_Models P_Models2 P_Models3 M_Cvi S_Cvi P_Cvi P_Cvi3 M_Space S_Space P_NatGrad3 P_Space P_Space2.
Set Implicit Arguments.
Unset Strict Implicit.
Unset Printing Implicit Defensive.
Import GRing.Theory Num.Theory Order.TTheory.
Local Open Scope ring_scope.

Section Two.
Variable F : rcfType.

Lemma delta_qf m (M : 'M[F]_m.+1) : ((delta_mx 0 0 : 'cV[F]_m.+1)^T *m M *m (delta_mx 0 0 : 'cV[F]_m.+1)) 0 0 = M 0 0.
Proof. by rewrite trmx_delta -rowE -colE !mxE. Qed.

Lemma mixed_at m (Kmm C : 'M[F]_m.+1) knn : spd Kmm ->
  mixed_var Kmm (Kmm *m delta_mx 0 0) knn C = knn - Kmm 0 0 + C 0 0.
Proof.
move=> HK; have u := spd_unit HK; have [sK _] := HK.
rewrite /mixed_var trmx_mul sK mulmxK // mulmxA delta_qf; congr (_ + _).
by rewrite -[_ *m invmx Kmm *m (_ *m _)]mulmxA mulKmx // delta_qf.
Qed.

Variables (S : Type) (space : S -> S -> F) (d : nat) (kt : skernel F 1 d) (Z : nat -> S).

Lemma two_points n z q mf x t i (v := fcov kt (t i) (t i) 0 0) :
  plain_kernel kt -> noisy kt -> spd (st_Kmm space kt 2 Z) -> increasing n.+1 z -> covered n z (t i) ->
  0 < v -> kernel_ssm n (to_sde (st_kernel space kt 2 Z)) z = Some q -> x i = Z 0%N ->
  (st_predict_f space Z mf n q z x t i).2 =
  v * space (Z 0%N) (Z 0%N) + v * (space (Z 1%N) (Z 0%N) ^+ 2 / space (Z 0%N) (Z 0%N)).
Proof.
move=> Hp Hn HK Hz Ht Hv Eq Ex.
rewrite (st_prior_var (Ms := 2) mf x Hp Hn HK Hz Ht Hv Eq) Ex -/v.
have -> : st_Kmn space kt 2 Z (Z 0%N) = st_Kmm space kt 2 Z *m delta_mx 0 0.
  by rewrite -colE; apply/matrixP => a b; rewrite !mxE.
have -> := mixed_at (m := 1) (v *: ((chol (st_Kmm space kt 2 Z))^T *m chol (st_Kmm space kt 2 Z))) (space (Z 0%N) (Z 0%N)) HK.
have Ez (a : F) (M : 'M[F]_2) : (a *: M) 0 0 = a * M 0 0 by rewrite mxE.
rewrite Ez (chol_two HK).
have E0 : st_Kmm space kt 2 Z 0 0 = space (Z 0%N) (Z 0%N) by rewrite mxE.
have E1 : st_Kmm space kt 2 Z (lift 0 0) 0 = space (Z 1%N) (Z 0%N) by rewrite mxE.
by rewrite E0 E1 subrr add0r mulrDr.
Qed.
End Two.

Section Real.

(* two points of space with covariance c *)
Definition bspace (c : R) (x y : bool) : R := if x == y then 1 else c.
Definition bpoints (i : nat) : bool := if i is 0%N then false else true.

Lemma bspace_sym c x y : bspace c x y = bspace c y x.
Proof. by rewrite /bspace eq_sym. Qed.


Lemma unit_diag_spd (F : rcfType) (K : 'M[F]_2) (c : F) : K 0 0 = 1 -> K (lift ord0 ord0) (lift ord0 ord0) = 1 ->
  K 0 (lift ord0 ord0) = c -> K (lift ord0 ord0) 0 = c -> c ^+ 2 < 1 -> K^T = K -> spd K.
Proof.
move=> E00 E11 E01 E10 Hc Hs; split=> // x x0.
have -> : qf K x = (x 0 0 + c * x (lift ord0 ord0) 0) ^+ 2 + (1 - c ^+ 2) * x (lift ord0 ord0) 0 ^+ 2.
  by rewrite qf2E E00 E11 E01 E10; crng.
have H1 : 0 < 1 - c ^+ 2 by rewrite subr_gt0.
have [E|N1] := eqVneq (x (lift ord0 ord0) 0) 0.
  have N0 : x 0 0 != 0 by apply: contraNneq x0 => E0; rewrite (col2_eq0 E0 E).
  rewrite E mulr0 addr0 expr0n mulr0 addr0; by rewrite lt_neqAle sqr_ge0 andbT eq_sym sqrf_eq0.
apply: ltr_paddl; first exact: sqr_ge0.
by apply: mulr_gt0 => //; rewrite lt_neqAle sqr_ge0 andbT eq_sym sqrf_eq0.
Qed.

Lemma bspace_two d (kt : skernel Rr 1 d) (c : R) : c ^+ 2 < 1 -> spd (st_Kmm (F := Rr) (bspace c) kt 2 bpoints).
Proof.
move=> Hc; set K := st_Kmm _ _ _ _.
apply: (unit_diag_spd (F := Rr) (c := c)) => //; try by rewrite mxE.
by apply/matrixP => a b; rewrite !mxE bspace_sym.
Qed.

Notation m12 l v := (matern12 1 0 l v 0).

Lemma m12_plain (l v : R) : 0 < l -> 0 < v -> plain_kernel (m12 l v).
Proof. by move=> Hl Hv; apply: lib_plain => //; exact: lib_matern12. Qed.

Lemma m12_var (l v t : R) : 0 < l -> fcov (m12 l v) t t 0 0 = v.
Proof.
move=> Hl; rewrite m12_cov // mxE subrr normr0 /cov_matern12.
by rewrite (_ : (- (0 / l))%Re = 0%Re) ?exp_0 ?Rmult_1_r //; rewrite /Rdiv Rmult_0_l Ropp_0.
Qed.

(* one inducing point of space, data at a point of space that is not correlated with it *)
Let grid (i : nat) : R := i%:R.
Let sp := bspace 0.
Let Z1 (_ : nat) := false.
Let x1 (_ : nat) := true.
Let t1 (_ : nat) : R := 0.

Lemma grid_inc n : increasing (F := Rr) n.+1 grid.
Proof. by move=> i _; rewrite /grid ltr_nat. Qed.
Lemma grid_covered n : covered (F := Rr) n grid 0.
Proof. by right; exists 0%N => //; split=> //; rewrite oppr_lt0; exact: (lt_trans ltr01 (inf_gt1 Rr)). Qed.

Lemma one_spd (kt : skernel Rr 1 1) : spd (st_Kmm (F := Rr) sp kt 1 Z1).
Proof. by apply: (@spd_mx1 Rr); rewrite mxE /sp /bspace eqxx ltr01. Qed.

Let kt := m12 1 3%:R.
Let ker := to_sde (st_kernel (F := Rr) sp kt 1 Z1).

Lemma ln4_gt1 : 1 < ln 4%:R.
Proof.
apply/RltP; rewrite -[X in Rlt X _](ln_exp R1); apply: ln_increasing; first exact: exp_pos.
have -> : (4%:R : R) = 4%Re by rewrite natrR; cbn [INR]; lra.
have H : Rle (exp R1) 3%Re := exp_le_3; lra.
Qed.

Lemma elbo_refuted : exists q e, [/\ st_initial_q sp kt 1 Z1 1 grid = Some q,
  st_elbo sp Z1 None 1 grid (ext_gaussian_ve1 1) None 1 x1 t1 (fun _ => 0) q = Some e,
  st_loss sp Z1 None 1 grid (ext_gaussian_ve1 1) None 1 x1 t1 (fun _ => 0) q = Some (- e) &
  gauss_logpdf (0 : 'cV[R]_1) (st_cov (F := Rr) sp kt true 0 true 0 + 1)%:M 0 < e].
Proof.
have v0 : (0 : R) < 3%:R by rewrite ltr0n.
have Hp : plain_kernel kt by apply: m12_plain; rewrite ?ltr01.
have Hn : noisy kt by apply: m12_noisy; rewrite ?ltr01.
have HK := one_spd kt.
have Hz := @grid_inc 1%N; have Ht := grid_covered 1%N.
have [Hker H0 _] := plain_markov (st_plain sp 1%N Z1 Hp) (st_noisy sp 1%N Z1 Hn).
have Ek : kernel_ssm 1 ker grid = Some (kssm ker grid) by exact: kernel_ssmE.
have Nq : ssm_nonsing 1 (kssm ker grid) by exact: kssm_nonsing.
have Lq := kssm_law Hker Hz.
have Hv : fcov kt (t1 0%N) (t1 0%N) 0 0 = 3%:R by apply: m12_var; exact: ltr01.
have Hv0 : 0 < fcov kt (t1 0%N) (t1 0%N) 0 0 by rewrite Hv.
have Eq0 : (st_Knm (F := Rr) sp kt 1 Z1 true) = 0 by apply/matrixP => a b; rewrite !mxE.
have [Ev _] := @st_prior_value Rr bool sp 1 kt 1 Z1 1 grid (kssm ker grid) None x1 t1 0%N (bspace_sym 0) Hp Hn HK Hz Ht Hv0 Ek (chol_one HK).
have Em := @st_predict_mean Rr bool sp 1 kt 1 Z1 (bspace_sym 0) 1 grid (kssm ker grid) _ _ Hp Hn HK Hz Nq Lq None x1 t1 0%N Ht.
have Ee : st_elbo sp Z1 None 1 grid (ext_gaussian_ve1 1) None 1 x1 t1 (fun _ => 0) (kssm ker grid) = Some (ext_gaussian_ve1 1 0 1 0).
  rewrite /st_elbo Ek; congr Some; rewrite big_ord1 mulr1 kl_self // subr0.
  rewrite Em Ev Eq0 mul0mx mul0mx; congr (ext_gaussian_ve1 1 _ _ 0).
    by rewrite /weights_on_states !mul0mx [(0 : 'M[R]_1) 0 0]mxE addr0.
  by rewrite [(0 : 'M[R]_1) 0 0]mxE mulr0 addr0 /sp /bspace eqxx.
exists (kssm ker grid), (ext_gaussian_ve1 1 0 1 0); split; [exact: Ek|exact: Ee|by rewrite /st_loss Ee|].
have E4 : st_cov (F := Rr) sp kt true 0 true 0 + 1 = 4%:R.
  have Hv' : fcov kt 0 0 0 0 = 3%:R by exact: Hv.
  by rewrite /st_cov Hv' /sp /bspace eqxx mul1r -[(4%:R : R)]/((3 + 1)%N%:R) natrD.
rewrite E4 gauss_logpdf_scalar ?ltr0n // big_ord1 !mxE subr0 expr0n mul0r addr0.
rewrite /ext_gaussian_ve1 /ext_gaussian_ve big_ord1 !mxE subr0 expr0n add0r invr1 !mulr1.
have := ln4_gt1; have -> : ln 1 = 0 by exact: ln_1.
move: (ln 4%:R) (ln (2%:R * PI)) => a b /RltP H; apply/RltP; move: H.
by rewrite halfR; toR_ops => H; lra.
Qed.
End Real.

Lemma bbc_white (F : rcfType) m (Kmm : 'M[F]_m) (k : 'cV[F]_m) knn (f : 'cV[F]_m) (Lm : 'M[F]_m) : spd Kmm ->
  lowpos Lm -> Lm *m Lm^T = Kmm ->
  [/\ forall q, (batch_base_conditional k Kmm knn f q true).1 = mixed_mean Kmm k (Lm *m f),
      (batch_base_conditional k Kmm knn f (QNone F m) true).2 = mixed_var Kmm k knn 0 &
      forall c : 'cV[F]_m, (batch_base_conditional k Kmm knn f (QDiag c) true).2 =
        mixed_var Kmm k knn (Lm *m diag_mx (\row_i c i 0 ^+ 2) *m Lm^T)].
Proof.
move=> HK HL EL; have -> : Lm = chol Kmm by apply: chol_unique; rewrite ?EL ?chol_mul //; exact: chol_lowpos.
by split; [exact: bbc_white_mean | exact: bbc_white_none | exact: bbc_white_diag].
Qed.

Lemma bbc_triangular (F : rcfType) m (Kmm : 'M[F]_m) (k : 'cV[F]_m) knn (f : 'cV[F]_m) (Q L : 'M[F]_m) :
  spd Kmm -> (forall i j : 'I_m, L i j = if (j <= i)%N then Q i j else 0) ->
  (batch_base_conditional k Kmm knn f (QTri Q) false).2 = mixed_var Kmm k knn (L^T *m L) /\
  (L^T *m L = L *m L^T ->
   (batch_base_conditional k Kmm knn f (QTri Q) false).2 = mixed_var Kmm k knn (L *m L^T)).
Proof.
move=> HK EL; have E : tril Q = L by apply/matrixP => i j; rewrite EL mxE.
by split; rewrite bbc_tri // E // => ->.
Qed.

Lemma state_to_space_state (F : rcfType) (S : Type) (space : S -> S -> F) d (kt : skernel F 1 d) Ms Z x t :
  spd (st_Kmm space kt Ms Z) -> forall s : 'cV[F]_(concat_dim (st_children kt Ms)),
  st_state_to_space space kt Ms Z x t *m s =
  (\row_j space x (Z j)) *m invmx (st_Kmm space kt Ms Z) *m (sk_H (st_kernel space kt Ms Z) t *m s).
Proof. by move=> HK s; rewrite state_to_spaceE // mulmxA. Qed.

Lemma two_points_wrong (F : rcfType) (S : Type) (space : S -> S -> F) d (kt : skernel F 1 d) Z n z q mf x t i
    (v := fcov kt (t i) (t i) 0 0) :
  plain_kernel kt -> noisy kt -> spd (st_Kmm space kt 2 Z) -> increasing n.+1 z -> covered n z (t i) ->
  0 < v -> kernel_ssm n (to_sde (st_kernel space kt 2 Z)) z = Some q -> x i = Z 0%N -> space (Z 1%N) (Z 0%N) != 0 ->
  let right := st_cov space kt (x i) (t i) (x i) (t i) in
  (st_predict_f space Z mf n q z x t i).2 = right + v * (space (Z 1%N) (Z 0%N) ^+ 2 / space (Z 0%N) (Z 0%N)) /\
  right < (st_predict_f space Z mf n q z x t i).2.
Proof.
move=> Hp Hn HK Hz Ht Hv Eq Ex Hc right.
have K0 : 0 < space (Z 0%N) (Z 0%N).
  have [_ H] := HK; have := H (delta_mx 0 0).
  have E : qf (st_Kmm space kt 2 Z) (delta_mx 0 0) = space (Z 0%N) (Z 0%N).
    by rewrite /qf (delta_qf (m := 1)) mxE.
  rewrite E; apply; apply/eqP => /matrixP /(_ 0 0); rewrite !mxE /=; exact/eqP/oner_neq0.
have E := two_points mf Hp Hn HK Hz Ht Hv Eq Ex; rewrite -/v in E.
have -> : right = v * space (Z 0%N) (Z 0%N) by rewrite /right /st_cov Ex mulrC.
split=> //; rewrite E ltr_addl mulr_gt0 // divr_gt0 // lt_neqAle sqr_ge0 andbT eq_sym sqrf_eq0 //.
Qed.

Lemma st_example (l v c : R) n : 0 < l -> 0 < v -> c ^+ 2 < 1 ->
  let kt := matern12 1 0 l v 0 in let z i : R := i%:R in
  [/\ increasing (F := Rr) n.+1 z, plain_kernel kt, noisy kt & spd (st_Kmm (F := Rr) (bspace c) kt 2 bpoints)].
Proof.
move=> Hl Hv Hc kt z; split; [exact: grid_inc | exact: m12_plain | exact: m12_noisy | exact: bspace_two].
Qed.

Lemma st_example2 (l v c : R) n : 0 < l -> 0 < v -> c ^+ 2 < 1 -> c != 0 ->
  let kt := matern12 1 0 l v 0 in let z i : R := i%:R in
  [/\ covered (F := Rr) n z 0, fcov kt 0 0 0 0 = v, bspace c (bpoints 1) (bpoints 0) != 0,
      forall x y, bspace c x y = bspace c y x &
      exists q, kernel_ssm n (to_sde (st_kernel (F := Rr) (bspace c) kt 2 bpoints)) z = Some q] /\
  (forall Z, spd (st_Kmm (F := Rr) (bspace c) kt 1 Z) /\
    (chol (st_Kmm (F := Rr) (bspace c) kt 1 Z))^T *m chol (st_Kmm (F := Rr) (bspace c) kt 1 Z) = st_Kmm (F := Rr) (bspace c) kt 1 Z).
Proof.
move=> Hl Hv Hc Hc0 kt z; split.
  split; [exact: grid_covered | exact: m12_var | by [] | exact: bspace_sym |].
  by exists (kssm (to_sde (st_kernel (F := Rr) (bspace c) kt 2 bpoints)) z); apply: kernel_ssmE; exact: grid_inc.
move=> Z; have H : spd (st_Kmm (F := Rr) (bspace c) kt 1 Z).
  by apply: (@spd_mx1 Rr); rewrite mxE /bspace eqxx ltr01.
by split=> //; exact: (@chol_one Rr).
Qed.

Lemma st_initial_flat n d (kt : skernel Rr 1 d) Ms u : pairs_exponent n (st_initial_sites kt Ms) u = 0.
Proof. by apply: big1 => m _; rewrite /= trmx0 mul0mx /qf mulmx0 mul0mx !mxE addr0. Qed.

Lemma st_initial_valid n d (kt : skernel Rr 1 d) Ms : valid_pairs n (st_initial_sites kt Ms).
Proof. by move=> m _; split=> [|v]; rewrite /= ?trmx0 // /qf mulmx0 mul0mx mxE. Qed.

Lemma st_initial_thm n d (kt : skernel Rr 1 d) Ms :
  valid_pairs n (st_initial_sites kt Ms) /\ forall u, pairs_exponent n (st_initial_sites kt Ms) u = 0.
Proof. by split; [exact: st_initial_valid | exact: st_initial_flat]. Qed.
