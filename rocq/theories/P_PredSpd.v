(* Predicted covariances are positive definite. *)
From mathcomp Require Import all_ssreflect all_algebra.
From Verif Require Import Nat Alg Lin Ent Spd M_Block S_Block M_SSM S_SSM P_SSM M_Kernel S_Kernel P_Kernel M_Comb P_Comb M_Cond P_Cond P_Cond2 P_Cond3 P_Cond4
  M_Emission P_Emission M_Sort P_Sort.
Set Implicit Arguments.
Unset Strict Implicit.
Unset Printing Implicit Defensive.
Import GRing.Theory Num.Theory Order.TTheory.
Local Open Scope ring_scope.

Section Pick.
Variables (F : rcfType) (d N : nat).
Let E k := brow N (fun l => if l == k then 1%:M else 0 : 'M[F]_d).

Lemma pick_col q (c : nat -> 'M[F]_(d, q)) k : (k < N)%N -> E k *m bcol N c = c k.
Proof. by move=> Hk; rewrite /E mul_brow_bcol -[RHS]mul1mx -(sum_pick 1%:M c Hk). Qed.

Lemma pick_cov (K : nat -> nat -> 'M[F]_d) k l : (k < N)%N -> (l < N)%N -> E k *m dense N N K *m (E l)^T = K k l.
Proof.
move=> Hk Hl; rewrite /dense pick_col //; apply: trmx_inj; rewrite trmx_mul trmxK tr_brow.
by rewrite (pick_col (fun j => (K k j)^T)).
Qed.

Lemma pair_psd (K : nat -> nat -> 'M[F]_d) k l : psd (dense N N K) -> (k < N)%N -> (l < N)%N ->
  psd (block_mx (K k k) (K k l) (K l k) (K l l)).
Proof.
move=> H Hk Hl.
have -> : block_mx (K k k) (K k l) (K l k) (K l l) = col_mx (E k) (E l) *m dense N N K *m (col_mx (E k) (E l))^T.
  by rewrite tr_col_mx mul_col_mx mul_col_row !pick_cov.
exact: psd_congr'.
Qed.

Lemma block_spd (K : nat -> nat -> 'M[F]_d) k : spd (dense N N K) -> (k < N)%N -> spd (K k k).
Proof.
move=> [H1 H2] Hk; rewrite -(pick_cov K Hk Hk); split.
  by rewrite !trmx_mul trmxK H1 mulmxA.
move=> x Hx.
have -> : qf (E k *m dense N N K *m (E k)^T) x = qf (dense N N K) ((E k)^T *m x).
  by rewrite /qf trmx_mul trmxK !mulmxA.
apply: H2; apply: contra_neq Hx => H0.
have E1 : E k *m (E k)^T = 1%:M.
  have -> : (E k)^T = bcol N (fun l => if l == k then 1%:M else 0).
    by rewrite /E tr_brow; apply: eq_bcol => l _; case: eqP => _; rewrite ?trmx1 ?trmx0.
  by rewrite pick_col // eqxx.
by rewrite -[x]mul1mx -E1 -mulmxA H0 mulmx0.
Qed.
End Pick.

Section Pred.
Variables (F : rcfType) (d : nat) (ker : sde_kernel F d) (n : nat) (z : nat -> F).
Hypothesis Hker : markov_kernel ker.
Hypothesis Hz : increasing n.+1 z.
Variable post : ssm F d.
Hypothesis NP : ssm_nonsing n post.
Notation INF := (APPROX_INF F).

Let K := ssm_cov post.
Let L : has_law n.+1 n.+1 (ssm_path post) (ssm_marginal_means n post) K := ssm_has_law n post.

Lemma pairs_psd t0 i : (i <= n.+1)%N -> psd ((pairwise_marginals n post (k_mean0 ker) (k_P0 ker t0)).2 i).
Proof.
have HK : spd (dense n.+1 n.+1 K) by exact: cov_spd.
have P0 := spd_psd (mk_P0_spd Hker t0).
case: i => [|i] Hi.
  have [_ ->] := pairwise_first NP L (k_mean0 ker) (k_P0 ker t0); apply: psd_block_diag => //.
  exact/spd_psd/(block_spd HK).
case: (ltnP i n) => Hin.
  have [_ ->] := pairwise_inner NP L (k_mean0 ker) (k_P0 ker t0) Hin.
  by apply: (pair_psd (spd_psd HK)) => //; lia.
have -> : i = n by lia.
have [_ ->] := pairwise_last NP L (k_mean0 ker) (k_P0 ker t0); apply: psd_block_diag => //.
exact/spd_psd/(block_spd HK).
Qed.

Lemma predict_spd t0 t : - INF < t -> t < INF -> spd (predict_state ker n post z t0 t).2.
Proof.
move=> H1 H2.
have [] := neighbours ker (increasing_sorted Hz) H1 (ltW H2); cbv zeta.
have Ei : (conditional_statistics ker n.+1 z t).2 = ext_searchsorted n.+1 z t by [].
rewrite Ei; set i := ext_searchsorted _ _ _ => Hm Hp _ _ Hi.
have [Elt|Hlt] := eqVneq t (augment_times n.+1 z i.+1); last first.
  have {}Hlt : t < augment_times n.+1 z i.+1 by rewrite lt_neqAle Hlt Hp.
  pose Q := k_cov ker (augment_times n.+1 z i) (t - augment_times n.+1 z i).
  pose A' := k_trans ker t (augment_times n.+1 z i.+1 - t).
  pose Q' := k_cov ker t (augment_times n.+1 z i.+1 - t).
  pose A := k_trans ker (augment_times n.+1 z i) (t - augment_times n.+1 z i).
  have HQ : spd Q by apply: (mk_cov_spd Hker); rewrite subr_gt0.
  have HQ' : spd Q' by apply: (mk_cov_spd Hker); rewrite subr_gt0.
  pose s := cond_stats_from_transitions A Q A' Q'.
  have ES : conditional_statistics ker n.+1 z t = (row_mx s.1.1 s.1.2, s.2, i) by [].
  rewrite (predict_stateE _ _ ES); apply: spdD.
    by rewrite /s -(cond_T_prec A A' HQ HQ'); apply/spd_inv/cond_prec_spd.
  exact/psd_congr'/pairs_psd.
have HK : spd (dense n.+1 n.+1 K) by exact: cov_spd.
case: (ltnP i n.+1) => Hin; last by move: Elt H2; rewrite /= ltnNge Hin /= => ->; rewrite ltxx.
have {Elt Hin} [j Hk Elt] : exists2 j, (j < n.+1)%N & t = z j.
  by exists i => //; move: Elt; rewrite /= Hin.
rewrite [in predict_state _ _ _ _ _ _]Elt; case: j Hk Elt => [|k] Hk Elt.
  rewrite (predict_at_first Hz t0 _ (mk_trans0 Hker _) (mk_cov0 Hker _) _ NP L).
  - exact: (block_spd HK).
  - by rewrite -Elt.
  - by apply: (mk_cov_spd Hker); rewrite -Elt -ltr_subl_addr sub0r.
rewrite (predict_at_train Hz t0 _ (mk_trans0 Hker _) (mk_cov0 Hker _) _ NP L) //.
- exact: (block_spd HK).
- by apply: (mk_cov_spd Hker); rewrite subr_gt0; apply: Hz.
Qed.

(* function values: every combination of the outputs that sees the state has positive variance *)
Lemma predict_f_spd o (H : nat -> 'M[F]_(o, d)) mean new i : - INF < new i -> new i < INF ->
  let C := (predict_f_full ker H mean n post z new i).2 in
  [/\ C^T = C, forall x, 0 <= qf C x, forall x, 0 < qf C x <-> (H i)^T *m x != 0 &
      forall r, (predict_f_diag ker H mean n post z new i).2 r 0 = C r r /\ (0 < C r r <-> row r (H i) != 0)].
Proof.
move=> H1 H2 C.
pose V := (predict_state ker n post z (new 0%N) (new i)).2.
have [sV pV] : spd V by exact: predict_spd.
have EC : C = H i *m V *m (H i)^T by rewrite /C /predict_f_full /= cov_fullE.
have Eq x : qf C x = qf V ((H i)^T *m x) by rewrite EC /qf trmx_mul trmxK !mulmxA.
have E0 : qf V 0 = 0 by rewrite /qf mulmx0 mxE.
have P x : 0 < qf C x <-> (H i)^T *m x != 0.
  rewrite Eq; split; last exact: pV.
  by apply: contraTneq => ->; rewrite E0 ltxx.
split=> //.
- by rewrite EC !trmx_mul trmxK sV mulmxA.
- by move=> x; rewrite Eq; case: (eqVneq ((H i)^T *m x) 0) => [->|/pV/ltW]; rewrite ?E0.
move=> r; split; first by rewrite /predict_f_diag /= cov_diagE EC.
have -> : C r r = qf C (delta_mx r 0) by rewrite /qf trmx_delta -rowE -colE !mxE.
have -> : (row r (H i) != 0) = ((H i)^T *m (delta_mx r 0 : 'cV_o) != 0).
  by rewrite -colE -tr_row; apply/idP/idP; apply: contra_neq => E; [rewrite -[LHS]trmxK E trmx0|rewrite E trmx0].
exact: P.
Qed.
End Pred.
