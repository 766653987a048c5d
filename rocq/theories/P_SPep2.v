(* Proofs for M_SPep.v: the update of the sites. *)
From Coq Require Import Reals Lra FunctionalExtensionality.
From mathcomp Require Import all_ssreflect all_algebra.
From Verif Require Import MCalc RealStruct Nat Alg Lin Ent Spd Log M_Block S_Block P_Block M_SSM S_SSM P_SSM M_SSMLog P_SSMLog S_Gauss P_Gauss
  M_Trans S_Trans P_Trans S_Kalman M_Kalman P_Kalman M_Kernel S_Kernel P_Kernel M_Cond P_Cond P_Cond2 P_Cond3 P_Cond4
  M_Emission P_Emission M_Sort P_Sort M_Models S_GP P_Models P_Models2 M_Cvi S_Cvi P_Cvi P_Cvi3 P_Cvi4 M_Pep S_Pep P_Block2 P_Pep P_Pep2 P_Pep3 M_SPep S_SPep P_SPep.
Set Implicit Arguments.
Unset Strict Implicit.
Unset Printing Implicit Defensive.
Import GRing.Theory Num.Theory Order.TTheory.
Local Open Scope ring_scope.

(* predictive variances are not negative *)
Lemma pred_var_ge0 d (ker : sde_kernel Rr d) (emission : R -> 'M[R]_(1, d)) n z q (X : nat -> R) k :
  markov_kernel ker -> k_mean0 ker = 0 -> increasing n.+1 z -> ssm_nonsing n q -> covered n z (X k) ->
  0 <= (cvi_predict_f ker emission n q z X k).2.
Proof.
move=> Hker Hm0 Hz Nq Hc.
have L := ssm_has_law n q.
have [_ E] := predict_f_covered (fun i => emission (X i)) (fun _ => 0) Hker Hm0 Hz Hc Nq L.
rewrite /cvi_predict_f; cbv zeta; rewrite E /snd [X in 0 <= X]mxE.
have P1 := @cond_psd Rr d ker n 1 z (fun _ => X k) Hker Hz.
cbv zeta in P1.
have P0 : spd (dense n.+1 n.+1 (ssm_cov q)) by exact: cov_spd.
have P2 := @spd_psd Rr _ _ P0.
have P3 := @psd_congr' Rr _ _ _ (sel d 0 0 : 'M[Rr]_(d, 1 * d)) P1.
rewrite mulmxBr mulmxBl !mulmxA (sel_dense (leq0n 0)) (@state_cov_diag Rr d ker (X k) Hker) in P3.
move: P3; set B := brow _ _ *m invmx _; set Kzz := dense n.+1 n.+1 _ in B * => P3.
have EB : sel d 0 0 *m dense 1 n.+1 (fun _ j : nat => state_cov ker (X k) (z j)) *m invmx Kzz = B.
  by rewrite /B /dense sel_bcol.
have EB' : (dense 1 n.+1 (fun _ j : nat => state_cov ker (X k) (z j)) *m invmx Kzz)^T *m (sel d 0 0)^T = B^T.
  by rewrite -trmx_mul mulmxA EB.
rewrite EB -(mulmxA (B *m Kzz)) EB' in P3.
have PV : psd (k_P0 ker (X k) - B *m Kzz *m B^T + B *m dense n.+1 n.+1 (ssm_cov q) *m B^T).
  have [S4 Q4] := @psd_congr' Rr _ _ _ B P2; have [S3 Q3] := P3; split; first by rewrite trmxD S3 S4.
  by move=> x; rewrite (@qfD Rr) addr_ge0.
have [_ Q] := PV; have := Q (emission (X k))^T; rewrite /qf trmxK; exact.
Qed.

Lemma sub_ur d (a b : R) (A B : 'M[R]_(d + d)) : ursubmx (a *: A + b *: B) = a *: ursubmx A + b *: ursubmx B.
Proof. by apply/matrixP => i j; rewrite !mxE. Qed.
Lemma sub_dl d (a b : R) (A B : 'M[R]_(d + d)) : dlsubmx (a *: A + b *: B) = a *: dlsubmx A + b *: dlsubmx B.
Proof. by apply/matrixP => i j; rewrite !mxE. Qed.
Lemma sub_ul d (a b : R) (A B : 'M[R]_(d + d)) : ulsubmx (a *: A + b *: B) = a *: ulsubmx A + b *: ulsubmx B.
Proof. by apply/matrixP => i j; rewrite !mxE. Qed.

Section SPep.
Variables (d : nat) (ker : sde_kernel Rr d) (emission : R -> 'M[R]_(1, d)).
Hypothesis Hker : markov_kernel ker.
Hypothesis Hm0 : k_mean0 ker = 0.
Variables (n : nat) (z : nat -> R).
Hypothesis Hz : increasing n.+1 z.
Hypothesis Hn : (0 < n)%N.
Hypothesis Hinf : - APPROX_INF Rr < z 0%N.
Variables (N : nat) (X : nat -> R).
Hypothesis HX : forall k, (k < N)%N -> z 0%N <= X k <= z n.
Let idx k := ext_searchsorted (F := Rr) n.+1 z (X k).
Let HP k := emission (X k) *m (conditional_statistics ker n.+1 z (X k)).1.1.
Let contrib (a b : nat -> R) : pair_sites d :=
  PairSites (fun m => \sum_(k < N | idx k == m) (back_project_nats (a k) (b k) (HP k)).1)
            (fun m => \sum_(k < N | idx k == m) (back_project_nats (a k) (b k) (HP k)).2).

Lemma HXc k : (k < N)%N -> covered n z (X k).
Proof. by move=> /HX /andP [H1 H2]; exact: covered_range. Qed.

Lemma contrib_site a b u m : site_exponent n (contrib a b) u m = \sum_(k < N | below n z (X k) == m)
  (let p := projected ker emission n z (X k) u in a k * p + b k * p ^+ 2).
Proof.
rewrite /site_exponent lin_sum qf_sum -big_split; apply: eq_big => k; first by rewrite (below_searchsorted _ Hz).
move=> /eqP Ei; rewrite bp_lin bp_qf.
have E := project_pair Hker Hz u (HXc (ltn_ord k)).
have E' : HP k *m pair_at n u m =
    emission (X k) *m brow n.+1 (fun j => state_cov ker (X k) (z j)) *m invmx (x_gram ker n.+1 z) *m flat n.+1 u.
  by apply: (etrans (esym (mulmxA _ _ _))); rewrite -Ei /idx E !mulmxA.
rewrite E'; reflexivity.
Qed.

(* every contribution to the first site is that of a point at the first inducing point *)
Lemma contrib_first a b : [/\ ursubmx (ps_nat2 (contrib a b) 0%N) = 0, dlsubmx (ps_nat2 (contrib a b) 0%N) = 0 &
  ulsubmx (ps_nat2 (contrib a b) 0%N) = 0].
Proof.
have E (k : 'I_N) : idx k == 0%N -> (back_project_nats (a k) (b k) (HP k)).2 =
    block_mx 0 0 0 (b k *: ((emission (X k))^T *m emission (X k))).
  move=> /eqP Ei; have [H1 H2] := andP (HX (ltn_ord k)).
  have ES := first_stats Hker Hz Hinf (HX (ltn_ord k)) Ei.
  rewrite bp_quad /HP ES; change (row_mx 0 1%:M, 0, 0%N).1.1 with (row_mx 0 1%:M : 'M[R]_(d, d + d)).
  rewrite mul_mx_row mulmx0 mulmx1 tr_row_mx mul_col_row trmx0 !mul0mx mulmx0 scale_block_mx !scaler0.
  reflexivity.
rewrite /contrib; cbn [ps_nat2]; rewrite (eq_bigr _ E).
have S : \sum_(k < N | idx k == 0%N) (block_mx 0 0 0 (b k *: ((emission (X k))^T *m emission (X k))) : 'M[R]_(d + d)) =
  block_mx 0 0 0 (\sum_(k < N | idx k == 0%N) b k *: ((emission (X k))^T *m emission (X k))).
  elim/big_rec2: _ => [|k A B _ ->]; first by rewrite block_mx0.
  by rewrite add_block_mx !addr0.
by rewrite S block_mxKur block_mxKdl block_mxKul.
Qed.

Lemma comb_first (s c s' : pair_sites d) r : 0 <= r <= 1 -> valid_pairs n s -> first_site ker s ->
  [/\ ursubmx (ps_nat2 c 0%N) = 0, dlsubmx (ps_nat2 c 0%N) = 0 & ulsubmx (ps_nat2 c 0%N) = 0] ->
  ps_nat2 s' 0%N = (1 - r) *: ps_nat2 s 0%N + r *: ps_nat2 c 0%N -> first_site ker s'.
Proof.
move=> /andP [r0 r1] Hs [F1 F2 F3] [C1 C2 C3] E.
have L1 : ursubmx (ps_nat2 s' 0%N) = 0 by rewrite E sub_ur F1 C1 !scaler0 addr0.
have L2 : dlsubmx (ps_nat2 s' 0%N) = 0 by rewrite E sub_dl F2 C2 !scaler0 addr0.
have L3 : ulsubmx (ps_nat2 s' 0%N) = (1 - r) *: ulsubmx (ps_nat2 s 0%N) by rewrite E sub_ul C3 !scaler0 addr0.
have [sS nS] := Hs 0%N (leq0n n.+1).
split; [exact: L1|exact: L2|rewrite L3].
move: F3; set A := ulsubmx _ => -[S1 S2].
have sA : A^T = A by rewrite trmx_ulsub sS.
have P0 := mk_P0_spd Hker 0.
have nA x : qf A x <= 0.
  have := nS (col_mx x 0); rewrite -{1}[ps_nat2 s 0%N]submxK (@qf_block Rr) !mulmx0 (@qf0 Rr) trmx0 !mul0mx !mxE !addr0; exact.
split; first by rewrite trmxD !trmxZ sA trmx_inv (@spd_sym Rr _ _ P0).
move=> x Hx; apply: lt_le_trans (S2 x Hx) _.
rewrite !(@qfD Rr) ler_add2l (@qfZ Rr) -[X in X <= _]mul1r.
by apply: ler_wnmul2r; [exact: nA | rewrite ler_subl_addr ler_addl].
Qed.

Section Update.
Variables (grads : R -> R -> R -> R -> R * R) (alpha lr : R) (Y : nat -> R).
Hypothesis Ha : 0 <= alpha <= 1.
Hypothesis Hlr : 0 <= lr <= 1.
Hypothesis Hgc : forall mu v y, 0 <= v -> let g := grads 1 mu v y in (gradient_correction mu v g.1 g.2).2 <= 0.

Lemma rate_range : 0 <= lr * alpha <= 1.
Proof.
have /andP [a0 a1] := Ha; have /andP [l0 l1] := Hlr.
by rewrite mulr_ge0 // -[1]mulr1 ler_pmul.
Qed.

Lemma spep_update s : valid_pairs n s -> first_site ker s -> exists f s',
  [/\ spep_cavity ker emission n z alpha N X s = Some f, forall k, (k < N)%N -> 0 <= (f k).2,
   spep_new_sites ker emission grads n z alpha lr N X Y s = Some s', valid_pairs n s' /\ first_site ker s' &
   let g k := let g := grads 1 (f k).1 (f k).2 (Y k) in gradient_correction (f k).1 (f k).2 g.1 g.2 in
   forall u, (pairs_exponent n s' u = (1 - lr * alpha) * pairs_exponent n s u +
     lr * alpha * \sum_(k < N) (let p := projected ker emission n z (X k) u in (g k).1 * p + (g k).2 * p ^+ 2)) /\
   forall m, (m <= n.+1)%N -> site_exponent n s' u m = (1 - lr * alpha) * site_exponent n s u m +
     lr * alpha * \sum_(k < N | below n z (X k) == m) (let p := projected ker emission n z (X k) u in (g k).1 * p + (g k).2 * p ^+ 2)].
Proof.
move=> Hs Hf; have [q Eq Nq] := spep_q_exists Hker Hm0 Hz Hn Hs.
pose f := spep_cavity_f ker emission n z alpha N X (spep_marginals ker n q) s.
pose g k := let g := grads 1 (f k).1 (f k).2 (Y k) in gradient_correction (f k).1 (f k).2 g.1 g.2.
have Ef : spep_cavity ker emission n z alpha N X s = Some f by rewrite /spep_cavity spep_dist_qE Eq.
have Hv k : (k < N)%N -> 0 <= (f k).2.
  move=> Hk; have [q' [Eq' Nq' _ E]] := spep_cavity_of emission Hker Hm0 Hz Hn Hk Ha Hs Hf Hinf (HX Hk) Eq Nq.
  by rewrite /f E; apply: (pred_var_ge0 emission Hker Hm0 Hz Nq'); exact: HXc.
pose c := contrib (fun k => (g k).1) (fun k => (g k).2).
have Hc2 k : (k < N)%N -> (g k).2 <= 0 by move=> Hk; exact: Hgc (Hv k Hk).
pose s' : pair_sites d := PairSites
  (fun m => (1 - lr) *: ps_nat1 s m + lr *: ((1 - alpha) *: ps_nat1 s m + alpha *: ps_nat1 c m))
  (fun m => (1 - lr) *: ps_nat2 s m + lr *: ((1 - alpha) *: ps_nat2 s m + alpha *: ps_nat2 c m)).
have D p e (A B : 'M[R]_(p, e)) : (1 - lr) *: A + lr *: ((1 - alpha) *: A + alpha *: B) = (1 - lr * alpha) *: A + (lr * alpha) *: B.
  by rewrite scalerDr !scalerA addrA -scalerDl; congr (_ *: _ + _); crng.
have D1 m : ps_nat1 s' m = (1 - lr * alpha) *: ps_nat1 s m + (lr * alpha) *: ps_nat1 c m by exact: D.
have D2 m : ps_nat2 s' m = (1 - lr * alpha) *: ps_nat2 s m + (lr * alpha) *: ps_nat2 c m by exact: D.
have /andP [r0 r1] := rate_range.
exists f, s'; split; [exact: Ef|exact: Hv|..].
- rewrite /spep_new_sites Ef /Option.map /Option.bind /Option.apply; congr (Some (PairSites _ _)).
    apply: functional_extensionality => m; congr (_ + _ *: (_ + _ *: _)); apply: eq_bigr => k _.
    by rewrite scale0r addr0.
  apply: functional_extensionality => m; congr (_ + _ *: (_ + _ *: _)); apply: eq_bigr => k _.
  by rewrite scale0r addr0.
- split; last first.
    apply: (@comb_first s c s' (lr * alpha)) => //; [exact: rate_range | exact: contrib_first].
  move=> m Hm; have [S1 S2] := Hs m Hm; rewrite D2; split.
    by rewrite trmxD !trmxZ S1 contrib_sym.
  move=> v; rewrite (@qfD Rr) !(@qfZ Rr) -[0]addr0; apply: ler_add.
    by rewrite mulr_ge0_le0 ?subr_ge0.
  by rewrite mulr_ge0_le0 // contrib_neg.
- move=> g' u; split.
    rewrite (@pairs_comb d n s' s c (1 - lr * alpha) (lr * alpha)) //; congr (_ + _ * _).
    exact: (contrib_exponent emission Hker Hz (fun k => (g k).1) (fun k => (g k).2) u HXc).
  move=> m Hm; rewrite [LHS](_ : _ = (1 - lr * alpha) * site_exponent n s u m + lr * alpha * site_exponent n c u m).
    by rewrite /c contrib_site.
  rewrite /site_exponent D1 D2 trmxD !trmxZ mulmxDl -!scalemxAl (@qfD Rr) !(@qfZ Rr).
  rewrite ![(_ + _ : 'M_(_, _)) 0 0]mxE ![(_ *: _ : 'M_(_, _)) 0 0]mxE !mulrDr addrACA; reflexivity.
Qed.
End Update.
End SPep.
