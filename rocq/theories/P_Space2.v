(* Proofs for SpatioTemporalSparseCVI. *)
From Coq Require Import Reals Lra.
From mathcomp Require Import all_ssreflect all_algebra.
From Verif Require Import MCalc RealStruct Nat Alg Lin Ent Spd Log M_Block S_Block P_Block P_Block2 M_SSM S_SSM P_SSM M_SSMLog P_SSMLog S_Gauss P_Gauss
  M_Trans S_Trans P_Trans P_TransLog S_Kalman M_Kalman P_Kalman P_KalmanLog P_Kalman2 M_Kernel S_Kernel P_Kernel M_Comb S_Comb P_Comb P_Comb2 P_Comb3 M_Cond P_Cond P_Cond2 P_Cond3 P_Cond4
  M_Emission P_Emission M_Sort P_Sort M_Models S_GP P_Elbo P_Models P_Models2 P_Models3 M_Cvi S_Cvi P_Cvi P_Cvi3 M_Space S_Space P_Space.
Set Implicit Arguments.
Unset Strict Implicit.
Unset Printing Implicit Defensive.
Import GRing.Theory Num.Theory Order.TTheory.
Local Open Scope ring_scope.

(* sites built from one row per data point *)
Section Rows.
Variables (d : nat) (ker : sde_kernel Rr d).
Hypothesis Hker : markov_kernel ker.
Hypothesis Hm0 : k_mean0 ker = 0.
Variables (n : nat) (z : nat -> R).
Hypothesis Hz : increasing n.+1 z.
Hypothesis Hn : (0 < n)%N.
Let Kzz := x_gram ker n.+1 z.
Variables (N : nat) (h : nat -> 'M[R]_(1, d)) (t : nat -> R).
Hypothesis Ht : forall k, (k < N)%N -> covered n z (t k).
Let idx k := ext_searchsorted n.+1 z (t k).
Let HP k := h k *m (conditional_statistics ker n.+1 z (t k)).1.1.
Let proj k (u : nat -> 'cV[R]_d) : R :=
  (h k *m brow n.+1 (fun j => state_cov ker (t k) (z j)) *m invmx Kzz *m flat n.+1 u) 0 0.
Definition row_sites (a b : nat -> R) : pair_sites d :=
  PairSites (fun m => \sum_(k < N | idx k == m) (back_project_nats (a k) (b k) (HP k)).1)
            (fun m => \sum_(k < N | idx k == m) (back_project_nats (a k) (b k) (HP k)).2).

Lemma row_proj k u : (k < N)%N -> (HP k *m pair_at n u (idx k)) 0 0 = proj k u.
Proof.
move=> Hk; have E := project_pair Hker Hz u (Ht Hk).
have E' : HP k *m pair_at n u (idx k) = h k *m brow n.+1 (fun j => state_cov ker (t k) (z j)) *m invmx Kzz *m flat n.+1 u.
  by apply: (etrans (esym (mulmxA _ _ _))); rewrite /idx E !mulmxA.
by rewrite E'.
Qed.

Lemma row_exponent a b u : pairs_exponent n (row_sites a b) u = \sum_(k < N) (a k * proj k u + b k * proj k u ^+ 2).
Proof.
pose G m k := a k * (HP k *m pair_at n u m) 0 0 + b k * (HP k *m pair_at n u m) 0 0 ^+ 2.
transitivity (\sum_(m < n.+2) \sum_(k < N | idx k == m) G m k).
  rewrite /pairs_exponent; apply: eq_bigr => m _; rewrite lin_sum qf_sum -big_split; apply: eq_bigr => k _.
  rewrite bp_lin bp_qf; reflexivity.
rewrite (exchange_big_dep xpredT) //; apply: eq_bigr => k _.
have Hk : (idx k < n.+2)%N by rewrite ltnS; exact: searchsorted_le.
rewrite (big_pred1 (Ordinal Hk)); last by move=> m; rewrite /= eq_sym -val_eqE.
change (G (idx k) k = a k * proj k u + b k * proj k u ^+ 2).
by rewrite /G (row_proj u (ltn_ord k)).
Qed.

Lemma row_sym a b m : (ps_nat2 (row_sites a b) m)^T = ps_nat2 (row_sites a b) m.
Proof.
rewrite /row_sites linear_sum; apply: eq_bigr => k _.
by rewrite bp_quad /= trmxZ trmx_mul trmxK.
Qed.
Lemma row_neg a b m v : (forall k, (k < N)%N -> b k <= 0) -> qf (ps_nat2 (row_sites a b) m) v <= 0.
Proof.
move=> Hb; rewrite qf_sum -oppr_ge0 -sumrN; apply: sumr_ge0 => k _; rewrite oppr_ge0 bp_qf.
by apply: mulr_le0_ge0; [exact: (Hb k (ltn_ord k)) | rewrite sqr_ge0].
Qed.

(* the damped update *)
Lemma row_update lr (s s' : pair_sites d) a b : 0 <= lr <= 1 -> valid_pairs n s -> (forall k, (k < N)%N -> b k <= 0) ->
  (forall m, ps_nat1 s' m = (1 - lr) *: ps_nat1 s m + lr *: ps_nat1 (row_sites a b) m) ->
  (forall m, ps_nat2 s' m = (1 - lr) *: ps_nat2 s m + lr *: ps_nat2 (row_sites a b) m) ->
  valid_pairs n s' /\ forall u, pairs_exponent n s' u = (1 - lr) * pairs_exponent n s u +
    lr * \sum_(k < N) (a k * proj k u + b k * proj k u ^+ 2).
Proof.
move=> Hlr Hs Hb E1 E2; split.
  move=> m Hm; have [S1 S2] := Hs m Hm; split.
    by rewrite E2 trmxD !trmxZ S1 row_sym.
  move=> v; have /andP [l0 l1] := Hlr.
  rewrite E2 (@qfD Rr) !(@qfZ Rr) -[0]addr0; apply: ler_add.
    by rewrite mulr_ge0_le0 ?subr_ge0.
  by rewrite mulr_ge0_le0 // row_neg.
by move=> u; rewrite -row_exponent; exact: pairs_comb.
Qed.

Section Exact.
Variables (Y : nat -> R) (s2 : R).
Hypothesis s2_gt0 : 0 < s2.
Let target u := \sum_(k < N) (Y k / s2 * proj k u + - (2%:R * s2)^-1 * proj k u ^+ 2).
Let g k : 'rV[R]_(n.+1 * d) := h k *m brow n.+1 (fun j => state_cov ker (t k) (z j)) *m invmx Kzz.
Let G := bcol N g.
Let Yv := flat N (fun k => const_mx (Y k) : 'cV[R]_1).
Variable s : pair_sites d.
Hypothesis Hs : valid_pairs n s.
Hypothesis Es : forall u, pairs_exponent n s u = target u.

Lemma row_G_flat u : G *m flat n.+1 u = flat N (fun k => (const_mx (proj k u) : 'cV[R]_1)).
Proof.
rewrite /G mul_bcol_mx /flat; apply: eq_bcol => k _.
by apply/matrixP => i j; rewrite [RHS]mxE (ord1 i) (ord1 j).
Qed.

Lemma row_loglik : exists c, forall u, gauss_logpdf (G *m flat n.+1 u) s2%:M Yv = target u + c.
Proof.
exists (\sum_(k < N) (- 2%:R^-1 * (ln (2%:R * PI) + ln s2 + Y k ^+ 2 / s2))) => x.
rewrite row_G_flat -(@dense_scalar Rr N 1 s2) gauss_logpdf_rdiag; last first.
  by move=> k _; apply: spd_scalar.
rewrite /target -big_split; apply: eq_bigr => k _.
rewrite [RHS]/=.
rewrite gauss_logpdf_scalar // big_ord1 [const_mx _ _ _]mxE [const_mx _ _ _]mxE invfM.
move: (proj _ _) (s2^-1) (ln _) (ln _) => f w l1 l2; toR_ops; rewrite !exprR halfR; field.
Qed.

Lemma row_exact : exists q, [/\ scvi_dist_q ker n z s = Some q, ssm_nonsing n q &
  forall m K, has_law n.+1 n.+1 (ssm_path q) m K ->
  flat n.+1 m = cond_mean 0 Kzz G s2%:M Yv /\ dense n.+1 n.+1 K = cond_cov Kzz G s2%:M].
Proof.
have [||q [c [F1 F2 F3]]] := @scvi_posterior_density d ker Hker Hm0 n z Hz Hn s; [by move=> m /Hs [] | by move=> m v /Hs [] |].
have Nq := ssm_chol_nonsing F2.
exists q; split=> // m K L.
have [c' E] := row_loglik.
have PK : spd Kzz by exact: Kzz_spd.
have PS : spd (s2%:M : 'M[R]_(N * 1)) by apply: spd_scalar.
pose l := gauss_logpdf (G *m 0) (G *m Kzz *m G^T + s2%:M) Yv.
apply: (gauss_logpdf_inj (c := c - c' + l)).
- by have [_ ->] := ssm_lawE L; exact: cov_spd.
- by rewrite (@cond_cov_info Rr) //; apply: (@spd_inv Rr); exact: info_spd.
- move=> v; have := F3 m K (unflat v) L; have := @gauss_bayes _ _ 0 Kzz s2%:M G v Yv PK PS.
  have := E (unflat v); rewrite -Es flat_unflat -/l => ->.
  move: (gauss_logpdf _ _ v) (gauss_logpdf _ _ v) (gauss_logpdf _ _ v) (pairs_exponent _ _ _) l.
  move=> a1 a2 a3 a4 a5; toR_ops => U V; lra.
Qed.
End Exact.
End Rows.

Section SpaceTime.
Variables (S : Type) (space : S -> S -> R) (d : nat) (kt : skernel Rr 1 d) (Ms : nat) (Z : nat -> S).
Variables (mf : option (S -> R -> R)).
Variables (n : nat) (z : nat -> R).
Notation K := (st_kernel (F := Rr) space kt Ms Z).
Notation Kmm := (st_Kmm (F := Rr) space kt Ms Z).
Notation Knm := (st_Knm (F := Rr) space kt Ms Z).
Hypothesis Hsym : forall x y, space x y = space y x.
Hypothesis Hp : plain_kernel kt.
Hypothesis Hnoisy : noisy kt.
Hypothesis HK : spd Kmm.
Hypothesis Hz : increasing n.+1 z.
Hypothesis Hn : (0 < n)%N.
Variables (N : nat) (x : nat -> S) (t Y : nat -> R).
Hypothesis Ht : forall k, (k < N)%N -> covered n z (t k).
Let ker := to_sde K.
Let Hker : markov_kernel ker.
Proof. by have [] := plain_markov (st_plain space Ms Z Hp) (st_noisy space Ms Z Hnoisy). Qed.
Let Hm0 : k_mean0 ker = 0.
Proof. by have [] := plain_markov (st_plain space Ms Z Hp) (st_noisy space Ms Z Hnoisy). Qed.
Let w k := Knm (x k) *m invmx Kmm.
Let h k := w k *m st_emission (F := Rr) space kt Ms Z (t k).
Let row k := weights_on_states ker (st_emission (F := Rr) space kt Ms Z) n z (w k) (t k).

Lemma st_projectionE k u : (k < N)%N ->
  (st_projection space kt Ms Z n z (x k) (t k) *m pair_at n u (ext_searchsorted n.+1 z (t k))) 0 0 = (row k *m flat n.+1 u) 0 0.
Proof.
move=> Hk; rewrite /st_projection (state_to_spaceE _ _ HK) -/(w k).
exact: (@row_proj _ ker Hker n z Hz N h t Ht k u Hk).
Qed.

Section Update.
Variables (gm gv : R -> R -> R -> R).

Lemma st_update lr s : 0 <= lr <= 1 -> (forall mu v y, gv mu v y <= 0) -> valid_pairs n s -> exists q s',
  [/\ st_dist_q space Z n z s = Some q, st_update_sites space Z mf n z gm gv lr N x t Y s = Some s', valid_pairs n s' &
   let g k := st_gradients mf gm gv (st_predict_f (F := Rr) space Z mf n q z x t k) (x k) (t k) (Y k) in
   forall u, pairs_exponent n s' u = (1 - lr) * pairs_exponent n s u +
     lr * \sum_(k < N) (let f := (row k *m flat n.+1 u) 0 0 in (g k).1 * f + (g k).2 * f ^+ 2)].
Proof.
move=> Hlr Hgv Hs.
have [||q [E1 E2 _]] := @scvi_density _ ker Hker Hm0 n z Hz Hn s; [by move=> m /Hs [] | by move=> m v /Hs [] |].
pose g k := st_gradients mf gm gv (st_predict_f (F := Rr) space Z mf n q z x t k) (x k) (t k) (Y k).
have Ep k : st_projection space kt Ms Z n z (x k) (t k) = h k *m (conditional_statistics ker n.+1 z (t k)).1.1.
  by rewrite /st_projection (state_to_spaceE _ _ HK).
have Hg k : (g k).2 <= 0 by exact: Hgv.
pose c := row_sites ker n z N h t (fun k => (g k).1) (fun k => (g k).2).
pose s' := PairSites (fun m => (1 - lr) *: ps_nat1 s m + lr *: ps_nat1 c m)
  (fun m => (1 - lr) *: ps_nat2 s m + lr *: ps_nat2 c m).
have [F1 F2] := @row_update _ ker Hker n z Hz N h t Ht lr s s' _ _ Hlr Hs (fun k _ => Hg k) (fun _ => erefl) (fun _ => erefl).
exists q, s'; split=> //.
rewrite /st_update_sites /st_dist_q E1; congr (Some _).
have E3 m : \sum_(k < N | ext_searchsorted n.+1 z (t k) == m) (back_project_nats (g k).1 (g k).2 (st_projection space kt Ms Z n z (x k) (t k))).1 = ps_nat1 c m.
  by apply: eq_bigr => k _; rewrite Ep.
have E4 m : \sum_(k < N | ext_searchsorted n.+1 z (t k) == m) (back_project_nats (g k).1 (g k).2 (st_projection space kt Ms Z n z (x k) (t k))).2 = ps_nat2 c m.
  by apply: eq_bigr => k _; rewrite Ep.
rewrite /s'; congr PairSites; apply: FunctionalExtensionality.functional_extensionality => m; [rewrite -E3|rewrite -E4]; reflexivity.
Qed.

Variable s2 : R.
Hypothesis s2_gt0 : 0 < s2.
Hypothesis Hg : gradients_of (ext_gaussian_ve1 s2) gm gv.
Let res k := Y k - (if mf is Some m then m (x k) (t k) else 0).
Let target u := \sum_(k < N) (let f := (row k *m flat n.+1 u) 0 0 in res k / s2 * f + - (2%:R * s2)^-1 * f ^+ 2).

Lemma st_gauss_gradients f k : st_gradients mf gm gv f (x k) (t k) (Y k) = (res k / s2, - (2%:R * s2)^-1).
Proof.
rewrite /st_gradients /gradient_mean_var_to_expectation.
have [-> ->] := gauss_grad s2_gt0 Hg f.1 f.2 (Y k); congr pair; rewrite [LHS]/=.
have key (a b c : R) : (a - b) * s2^-1 - 2%:R * - (2%:R * s2)^-1 * (b - c) = (a - c) * s2^-1.
  rewrite invfM mulrN mulrA divff ?two_neq0 // mul1r; move: (s2^-1) => si; crng.
by rewrite /res; case: mf => [m|]; [exact: key | rewrite -[X in _ - _ * X]subr0; exact: key].
Qed.

Lemma st_gauss_update lr s : 0 <= lr <= 1 -> valid_pairs n s -> exists s',
  [/\ st_update_sites space Z mf n z gm gv lr N x t Y s = Some s', valid_pairs n s' &
   forall u, pairs_exponent n s' u = (1 - lr) * pairs_exponent n s u + lr * target u].
Proof.
move=> Hlr Hs; have [q [s' [E1 E2 E3 E4]]] := st_update Hlr (gauss_gv_le0 s2_gt0 Hg) Hs.
exists s'; split=> // u; rewrite E4; congr (_ + _ * _); apply: eq_bigr => k _.
by rewrite st_gauss_gradients.
Qed.

Lemma st_iterates lr s r : 0 <= lr <= 1 -> valid_pairs n s -> exists s',
  [/\ iter r (obind (st_update_sites space Z mf n z gm gv lr N x t Y)) (Some s) = Some s', valid_pairs n s' &
   forall u, pairs_exponent n s' u - target u = (1 - lr) ^+ r * (pairs_exponent n s u - target u)].
Proof.
move=> Hlr Hs; elim: r => [|r [s' [E1 E2 E3]]].
  by exists s; split=> // u; rewrite expr0 mul1r.
have [s'' [F1 F2 F3]] := st_gauss_update Hlr E2.
exists s''; split=> //; first by rewrite iterS E1.
by move=> u; rewrite F3 exprS -mulrA -E3; crng.
Qed.

Lemma st_unit_step s : valid_pairs n s ->
  let Kzz := x_gram ker n.+1 z in let G := bcol N row in
  let Yv := flat N (fun k => const_mx (res k) : 'cV[R]_1) in
  exists s' q, [/\ st_update_sites space Z mf n z gm gv 1 N x t Y s = Some s', st_dist_q space Z n z s' = Some q, ssm_nonsing n q &
    forall m K, has_law n.+1 n.+1 (ssm_path q) m K ->
      flat n.+1 m = cond_mean 0 Kzz G s2%:M Yv /\ dense n.+1 n.+1 K = cond_cov Kzz G s2%:M].
Proof.
move=> Hs Kzz G Yv.
have H1 : 0 <= (1 : R) <= 1 by rewrite ler01 lexx.
have [s' [E1 E2 E3]] := st_gauss_update H1 Hs.
have E4 u : pairs_exponent n s' u = target u by rewrite E3 subrr mul0r add0r mul1r.
have [q [F1 F2 F3]] := @row_exact _ ker Hker Hm0 n z Hz Hn N h t res s2 s2_gt0 s' E2 E4.
by exists s', q; split.
Qed.
End Update.
End SpaceTime.
