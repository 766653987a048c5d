(* Proofs for M_SPep.v: the cavity. *)
From Coq Require Import Reals Lra FunctionalExtensionality.
From mathcomp Require Import all_ssreflect all_algebra.
From Verif Require Import MCalc RealStruct Nat Alg Lin Ent Spd Log M_Block S_Block P_Block M_SSM S_SSM P_SSM M_SSMLog P_SSMLog S_Gauss P_Gauss
  M_Trans S_Trans P_Trans S_Kalman M_Kalman P_Kalman M_Kernel S_Kernel P_Kernel M_Cond P_Cond P_Cond2 P_Cond3 P_Cond4
  M_Emission P_Emission M_Sort P_Sort M_Models S_GP P_Models P_Models2 M_Cvi S_Cvi P_Cvi P_Cvi3 M_Pep S_Pep P_Block2 P_Pep P_Pep2 M_SPep S_SPep.
Set Implicit Arguments.
Unset Strict Implicit.
Unset Printing Implicit Defensive.
Import GRing.Theory Num.Theory Order.TTheory.
Local Open Scope ring_scope.

Lemma below_searchsorted n (z : nat -> R) t : increasing (F := Rr) n.+1 z -> below n z t = ext_searchsorted (F := Rr) n.+1 z t.
Proof.
move=> Hz; have [Hi Hl Hg] := searchsorted_spec t (increasing_sorted Hz).
set i := ext_searchsorted _ _ _ in Hi Hl Hg *.
have -> : below n z t = count (fun j => (j < i)%N) (iota 0 n.+1).
  apply: eq_in_count => j; rewrite mem_iota add0n => /andP [_ Hj].
  case: (ltnP j i) => Hji; first exact: Hl.
  by apply/negbTE; rewrite -leNgt; apply: Hg.
rewrite -[in LHS](subnKC Hi) iotaD count_cat add0n.
have -> : count (fun j => (j < i)%N) (iota 0 i) = i.
  rewrite -[RHS](size_iota 0) -(count_predT (iota 0 i)); apply: eq_in_count => j.
  by rewrite mem_iota.
have -> : count (fun j => (j < i)%N) (iota i (n.+1 - i)) = 0%N.
  apply/eqP; rewrite -leqn0 leqNgt -has_count; apply/hasPn => j.
  by rewrite mem_iota => /andP [H _]; rewrite -leqNgt.
by rewrite addn0.
Qed.

Lemma count_sum N (P : pred nat) : (count P (iota 0 N))%:R = \sum_(k < N | P k) 1 :> R.
Proof.
by rewrite -sum1_count natr_sum -(big_mkord P (fun _ => 1)) /index_iota subn0.
Qed.

(* the pair of states j, j + 1 *)
Section Pair.
Variables (d n j : nat).
Hypothesis Hj : (j < n)%N.
Definition sel2 : 'M[R]_(d + d, n.+1 * d) := col_mx (sel d n j) (sel d n j.+1).
Let H0 : (j <= n)%N. Proof. exact: ltnW. Qed.

Lemma sel2_flat u : sel2 *m flat n.+1 u = pair_at n u j.+1.
Proof.
rewrite /sel2 mul_col_mx /flat !sel_bcol // /pair_at /inside H0 Hj.
reflexivity.
Qed.

Lemma sel_cross (K : nat -> nat -> 'M[R]_d) a b : (a <= n)%N -> (b <= n)%N ->
  sel d n a *m dense n.+1 n.+1 K *m (sel d n b)^T = K a b.
Proof.
move=> Ha Hb; rewrite /dense sel_bcol // /sel tr_brow mul_brow_bcol (bigD1 (Ordinal (Hb : (b < n.+1)%N))) //= eqxx trmx1 mulmx1 big1 ?addr0 // => i Hi.
by rewrite ifN ?trmx0 ?mulmx0 //; apply: contra Hi => /eqP E; apply/eqP/val_inj.
Qed.

Lemma sel2_dense (K : nat -> nat -> 'M[R]_d) :
  sel2 *m dense n.+1 n.+1 K *m sel2^T = block_mx (K j j) (K j j.+1) (K j.+1 j) (K j.+1 j.+1).
Proof.
by rewrite /sel2 mul_col_mx tr_col_mx mul_col_row !sel_cross.
Qed.

Lemma sel2_spd (K : nat -> nat -> 'M[R]_d) : spd (dense n.+1 n.+1 K) ->
  spd (block_mx (K j j) (K j j.+1) (K j.+1 j) (K j.+1 j.+1)).
Proof.
move=> [sK pK]; rewrite -sel2_dense; split.
  by rewrite !trmx_mul trmxK sK mulmxA.
move=> x Hx; have -> : qf (sel2 *m dense n.+1 n.+1 K *m sel2^T) x = qf (dense n.+1 n.+1 K) (sel2^T *m x).
  by rewrite /qf trmx_mul trmxK !mulmxA.
apply: pK; apply: contra Hx => /eqP E; apply/eqP.
have := congr1 (mulmx sel2) E; rewrite mulmx0 mulmxA.
have -> : sel2 *m sel2^T = 1%:M.
  rewrite /sel2 tr_col_mx mul_col_row [in RHS]scalar_mx_block.
  rewrite !{2}/sel !tr_brow !sel_bcol // !eqxx trmx1.
  have -> : (j == j.+1) = false by lia.
  have -> : (j.+1 == j) = false by lia.
  by rewrite !trmx0.
by rewrite mul1mx.
Qed.
End Pair.

Lemma exponent_scale d n (s : pair_sites d) m c u : (m <= n.+1)%N ->
  pairs_exponent n s u = pairs_exponent n (scale_pair s m c) u +
  ((((1 - c) *: ps_nat1 s m)^T *m pair_at n u m) 0 0 + qf ((1 - c) *: ps_nat2 s m) (pair_at n u m)).
Proof.
move=> Hm; rewrite /pairs_exponent (bigD1 (Ordinal (Hm : (m < n.+2)%N))) //= [in RHS](bigD1 (Ordinal (Hm : (m < n.+2)%N))) //=.
set A := \sum_(i | _) _; set B := \sum_(i | _) _.
have -> : A = B.
  apply: eq_bigr => j Hj; have Hj' : (j : nat) == m = false.
    by apply/negbTE; apply: contra Hj => /eqP E; apply/eqP/val_inj.
  by rewrite Hj'.
rewrite eqxx !trmxZ -!scalemxAl !(@qfZ Rr) !scale00.
move: (fun_of_matrix _ _ _) (qf _ _) => x y; crng.
Qed.

Lemma scale_valid d n (s : pair_sites d) m c : 0 <= c -> valid_pairs n s -> valid_pairs n (scale_pair s m c).
Proof.
move=> Hc Hs j Hj; have [S1 S2] := Hs j Hj; rewrite /scale_pair; cbn [ps_nat2].
by case: eqP => _ //; split=> [|v]; [rewrite trmxZ S1|rewrite (@qfZ Rr) mulr_ge0_le0].
Qed.

Section SPep.
Variables (d : nat) (ker : sde_kernel Rr d) (emission : R -> 'M[R]_(1, d)).
Hypothesis Hker : markov_kernel ker.
Hypothesis Hm0 : k_mean0 ker = 0.
Variables (n : nat) (z : nat -> R).
Hypothesis Hz : increasing n.+1 z.
Hypothesis Hn : (0 < n)%N.

Lemma spep_dist_qE s : spep_dist_q ker n z s = scvi_dist_q ker n z s.
Proof. by []. Qed.

Lemma spep_q_exists s : valid_pairs n s -> exists2 q, scvi_dist_q ker n z s = Some q & ssm_nonsing n q.
Proof.
move=> Hs; have [||q [E1 E2 _]] := @scvi_density d ker Hker Hm0 n z Hz Hn s; [by move=> m /Hs []|by move=> m v /Hs []|].
by exists q => //; exact: ssm_chol_nonsing.
Qed.

(* two families of sites that differ at one pair *)
Section Tilt.
Variables (s s' : pair_sites d).
Hypothesis Hs : valid_pairs n s.
Hypothesis Hs' : valid_pairs n s'.

Lemma pairs_tilt e (E : 'M[R]_(e, n.+1 * d)) a B q q' m K m' K' : B^T = B ->
  (forall u, pairs_exponent n s u = pairs_exponent n s' u +
    ((a^T *m (E *m flat n.+1 u)) 0 0 + qf B (E *m flat n.+1 u))) ->
  scvi_dist_q ker n z s = Some q -> scvi_dist_q ker n z s' = Some q' ->
  has_law n.+1 n.+1 (ssm_path q) m K -> has_law n.+1 n.+1 (ssm_path q') m' K' ->
  [/\ spd (dense n.+1 n.+1 K), spd (dense n.+1 n.+1 K'),
   invmx (dense n.+1 n.+1 K) = invmx (dense n.+1 n.+1 K') - 2%:R *: (E^T *m B *m E) &
   invmx (dense n.+1 n.+1 K) *m flat n.+1 m = invmx (dense n.+1 n.+1 K') *m flat n.+1 m' + E^T *m a].
Proof.
move=> sB HE Eq Eq' L L'.
have [||q1 [c [F1 F2 F3]]] := @scvi_posterior_density d ker Hker Hm0 n z Hz Hn s; [by move=> i /Hs []|by move=> i v /Hs []|].
have [||q2 [c' [G1 G2 G3]]] := @scvi_posterior_density d ker Hker Hm0 n z Hz Hn s'; [by move=> i /Hs' []|by move=> i v /Hs' []|].
move: F1 G1; rewrite Eq Eq' => /Some_inj Q1 /Some_inj Q2; move: F2 F3 G2 G3; rewrite -Q1 -Q2 => F2 F3 G2 G3.
have PK : spd (dense n.+1 n.+1 K) by have [_ ->] := ssm_lawE L; apply: cov_spd; exact: ssm_chol_nonsing.
have PK' : spd (dense n.+1 n.+1 K') by have [_ ->] := ssm_lawE L'; apply: cov_spd; exact: ssm_chol_nonsing.
have [x|E1 E2] // := @tilt_nat _ _ E (flat n.+1 m) (flat n.+1 m') _ _ a B (c - c') PK PK' sB.
have := F3 m K (unflat x) L; have := G3 m' K' (unflat x) L'; rewrite HE flat_unflat => -> ->.
move: (gauss_logpdf _ _ _) (pairs_exponent _ _ _) (fun_of_matrix _ _ _) (qf B _) => u v w t; crng.
Qed.
End Tilt.

Section Cavity.
Variables (alpha : R) (N : nat) (X : nat -> R) (s : pair_sites d) (k : nat).
Hypothesis Hk : (k < N)%N.
Hypothesis Ha : 0 <= alpha <= 1.
Hypothesis Hs : valid_pairs n s.
Hypothesis Hf : first_site ker s.
Hypothesis Hinf : - APPROX_INF Rr < z 0%N.
Hypothesis HX : z 0%N <= X k <= z n.
Let i := ext_searchsorted (F := Rr) n.+1 z (X k).
Let b := alpha * (spep_num_data n z N X i)^-1.

Lemma num_data_share m : spep_num_data n z N X m = (share n z N X m)%:R.
Proof.
rewrite /share count_sum /spep_num_data; apply: eq_bigl => l.
by rewrite (below_searchsorted _ Hz).
Qed.

Lemma share_gt0 : (0 < share n z N X i)%N.
Proof.
rewrite /share -has_count; apply/hasP; exists k; first by rewrite mem_iota.
by rewrite (below_searchsorted _ Hz).
Qed.

Lemma power_range : 0 <= b <= 1.
Proof.
have /andP [a0 a1] := Ha.
have H1 : 1 <= spep_num_data n z N X i by rewrite num_data_share ler1n share_gt0.
have H2 : 0 < spep_num_data n z N X i by apply: lt_le_trans H1; exact: ltr01.
rewrite /b; apply/andP; split; first by rewrite mulr_ge0 // invr_ge0 ltW.
by rewrite ler_pdivr_mulr // mul1r (le_trans a1).
Qed.

Lemma power_ge0 : 0 <= 1 - b. Proof. by rewrite subr_ge0; case/andP: power_range. Qed.

Let s' := scale_pair s i (1 - b).
Let Hs' : valid_pairs n s' := scale_valid i power_ge0 Hs.
Let nats := spep_cavity_nats (d := d) n z alpha N X.

Lemma i_le : (i <= n)%N.
Proof.
have [Hi Hl Hg] := searchsorted_spec (X k) (increasing_sorted Hz).
rewrite /i leqNgt; apply/negP => Hlt; have := Hl n Hlt.
by case/andP: HX => _; rewrite leNgt => /negbTE ->.
Qed.

Lemma inv_half e (C : 'M[R]_e) : C \in unitmx -> 2%:R^-1 *: invmx (2%:R^-1 *: invmx C) = C.
Proof.
by move=> uC; rewrite invZ ?unitmx_inv // ?invr_neq0 ?two_neq0 // invmxK scalerA divff ?scale1r // invr_neq0 // two_neq0.
Qed.

Lemma cavity_state_of marg v C : spd C ->
  nats marg s k = (invmx C *m v, - 2%:R^-1 *: invmx C) ->
  spd (- (nats marg s k).2) /\ spep_cavity_state ker n z alpha N X marg s k =
    (let: (P, T, _) := conditional_statistics ker n.+1 z (X k) in (P *m v, T + P *m C *m P^T)).
Proof.
move=> PC E.
have EN : - (- 2%:R^-1 *: invmx C) = 2%:R^-1 *: invmx C by rewrite scaleNr opprK.
have P2 : spd (2%:R^-1 *: invmx C).
  by apply: spdZ; [rewrite invr_gt0 ltr0n | exact: (@spd_inv Rr)].
split; first by rewrite E EN.
rewrite /spep_cavity_state; cbv zeta; rewrite -/(nats marg s k) E.
case: (conditional_statistics ker n.+1 z (X k)) => [[P T] i0]; rewrite /base_conditional_predict /fst /snd EN.
rewrite !chol_solve_spd // mulmx1 inv_half ?(@spd_unit Rr) // scalemxAl inv_half ?(@spd_unit Rr) //.
by rewrite mulKVmx // (@spd_unit Rr).
Qed.

Lemma half_shift e (A B : 'M[R]_e) c : - 2%:R^-1 *: (A - 2%:R *: (c *: B)) - c *: B = - 2%:R^-1 *: A.
Proof.
by rewrite scalerDr scalerN !scalerA mulrA mulNr mulVf ?two_neq0 // mulN1r scaleNr opprK addrK.
Qed.

Section Inner.
Variable j : nat.
Hypothesis Hj : (j < n)%N.
Hypothesis Ei : i = j.+1.

Lemma cavity_inner q q' m' K' : scvi_dist_q ker n z s = Some q -> scvi_dist_q ker n z s' = Some q' ->
  ssm_nonsing n q -> has_law n.+1 n.+1 (ssm_path q') m' K' ->
  let C' := block_mx (K' j j) (K' j j.+1) (K' j.+1 j) (K' j.+1 j.+1) in
  spd C' /\ nats (spep_marginals ker n q) s k = (invmx C' *m col_mx (m' j) (m' j.+1), - 2%:R^-1 *: invmx C').
Proof.
move=> Eq Eq' Nq L' C'.
have L := ssm_has_law n q.
have sB : (b *: ps_nat2 s i)^T = b *: ps_nat2 s i.
  by rewrite trmxZ; have [-> _] := Hs (m := i) (leq_trans i_le (leqnSn n)).
have [u|PK PK' E1 E2] := pairs_tilt Hs Hs' (E := sel2 d n j) (a := b *: ps_nat1 s i) sB _ Eq Eq' L L'.
  rewrite (sel2_flat Hj) -Ei (@exponent_scale d n s i (1 - b)) ?(leq_trans i_le) // subKr.
  reflexivity.
have P1 := sel2_spd Hj PK; have P2 := sel2_spd Hj PK'.
have [||||E3 E4] := @tilt_block _ _ (sel2 d n j) (flat n.+1 _) (flat n.+1 m') _ _ _ _ _ _ _ _ E1 E2;
  rewrite ?(sel2_dense Hj) ?(@spd_unit Rr) //.
move: E3 E4; rewrite !(sel2_dense Hj) !(sel2_flat Hj) /pair_at !inside_in // -/C'; try exact: ltnW.
rewrite Ei => E3 E4; split=> //.
have [M1 M2] := pairwise_inner Nq L (k_mean0 ker) (k_P0 ker 0) Hj.
rewrite /nats /spep_cavity_nats; cbv zeta; rewrite -/i Ei.
rewrite /spep_marginals M1 M2 !chol_solve_spd // mulmx1 /spep_fraction !scalerA -Ei -/b; congr pair.
  by rewrite Ei E4 addrK.
by rewrite Ei E3 half_shift.
Qed.
End Inner.

Lemma block_inv e f (A : 'M[R]_e) (D : 'M[R]_f) : A \in unitmx -> D \in unitmx ->
  invmx (block_mx A 0 0 D) = block_mx (invmx A) 0 0 (invmx D).
Proof.
move=> uA uD; apply: mulmx1_inv.
by rewrite mulmx_block !mulmx0 !mul0mx !addr0 add0r !mulmxV // -scalar_mx_block.
Qed.

Lemma block_spd e f (A : 'M[R]_e) (D : 'M[R]_f) : spd A -> spd D -> spd (block_mx A 0 0 D).
Proof.
move=> PA PD; have := @spd_block Rr _ _ A 0 D PA; rewrite trmx0 mul0mx mul0mx subr0; exact.
Qed.

Section First.
Hypothesis Ei : i = 0%N.

Lemma first_time : X k = z 0%N.
Proof.
have [Hi Hl Hg] := searchsorted_spec (X k) (increasing_sorted Hz).
apply/eqP; rewrite eq_le; case/andP: HX => -> _; rewrite andbT; apply: Hg => //.
by rewrite -/i Ei.
Qed.

Lemma first_stats : conditional_statistics ker n.+1 z (X k) = (row_mx 0 1%:M, 0, 0%N).
Proof.
rewrite first_time; have [E1 _] := stats_at Hker Hz (ltn0Sn n) Hinf.
rewrite /conditional_statistics E1 /augment_times ltn0Sn opprK subrr (mk_trans0 Hker) (mk_cov0 Hker) cond_stats_right //.
by apply: (mk_cov_spd Hker); rewrite -ltr_subl_addr sub0r.
Qed.

Lemma cavity_first q q' m' K' : scvi_dist_q ker n z s = Some q -> scvi_dist_q ker n z s' = Some q' ->
  ssm_nonsing n q -> has_law n.+1 n.+1 (ssm_path q') m' K' ->
  exists w P', [/\ spd P', spd (K' 0 0)%N & let C := block_mx P' 0 0 (K' 0 0)%N in
    nats (spep_marginals ker n q) s k = (invmx C *m col_mx w (m' 0%N), - 2%:R^-1 *: invmx C)].
Proof.
move=> Eq Eq' Nq L'.
have L := ssm_has_law n q.
have [F1 F2 F3] := Hf.
have [sS nS] := Hs (leq0n n.+1).
have sD : (drsubmx (ps_nat2 s 0%N))^T = drsubmx (ps_nat2 s 0%N) by rewrite trmx_drsub sS.
have Eblk : ps_nat2 s 0%N = block_mx (ulsubmx (ps_nat2 s 0%N)) 0 0 (drsubmx (ps_nat2 s 0%N)).
  by rewrite -{1}[ps_nat2 s 0%N]submxK F1 F2.
set A := ulsubmx (ps_nat2 s 0%N) in F3 Eblk.
set D := drsubmx (ps_nat2 s 0%N) in Eblk sD.
have sB : (b *: D)^T = b *: D by rewrite trmxZ sD.
have [u|PK PK' E1 E2] := pairs_tilt Hs Hs' (E := sel d n 0) (a := b *: dsubmx (ps_nat1 s 0%N)) sB _ Eq Eq' L L'.
  rewrite (@exponent_scale d n s i (1 - b)) ?(leq_trans i_le) // subKr -/s' Ei /pair_at {2}/flat sel_bcol // inside_in //.
  congr (_ + (_ + _)).
    rewrite -{1}[ps_nat1 s 0%N]vsubmxK scale_col_mx tr_col_mx mul_row_col mulmx0 add0r.
    reflexivity.
  rewrite Eblk scale_block_mx !scaler0 (@qf_block Rr) !mulmx0 mul0mx (@qf0 Rr) mxE !add0r.
  reflexivity.
have P1 : spd (ssm_cov q 0 0)%N := spd_blk (leq0n n) PK; have P2 : spd (K' 0 0)%N := spd_blk (leq0n n) PK'.
have [||||E3 E4] := @tilt_block _ _ (sel d n 0) (flat n.+1 _) (flat n.+1 m') _ _ _ _ _ _ _ _ E1 E2;
  rewrite ?(sel_dense (leq0n n)) ?(@spd_unit Rr) //.
move: E3 E4; rewrite !(sel_dense (leq0n n)) !sel_bcol // => E3 E4.
have P0 := mk_P0_spd Hker 0.
pose PP := invmx (k_P0 ker 0) + 2%:R *: (b *: A).
have [nA /andP [b0 b1]] : (forall x, qf A x <= 0) /\ (0 <= b <= 1).
  split; last exact: power_range.
  move=> x; have := nS (col_mx x 0); rewrite Eblk (@qf_block Rr) !mulmx0 !mul0mx (@qf0 Rr) !mxE !addr0; exact.
have PPP : spd PP.
  have -> : PP = 2%:R *: (2%:R^-1 *: invmx (k_P0 ker 0) + b *: A).
    by rewrite /PP scalerDr !scalerA divff ?two_neq0 // scale1r.
  apply: spdZ; first by rewrite ltr0n.
  case: F3 => [S1 S2]; split.
    have sA : A^T = A by rewrite trmx_ulsub sS.
    by rewrite trmxD !trmxZ sA trmx_inv (@spd_sym Rr _ _ P0).
  move=> x Hx; apply: lt_le_trans (S2 x Hx) _.
  rewrite !(@qfD Rr) ler_add2l (@qfZ Rr) -[X in X <= _]mul1r.
  by apply: ler_wnmul2r => //; exact: nA.
exists (invmx PP *m (invmx (k_P0 ker 0) *m k_mean0 ker - b *: usubmx (ps_nat1 s 0%N))), (invmx PP).
have uPP := @spd_unit Rr _ _ PPP; have uP0 := @spd_unit Rr _ _ P0.
split; [exact: (@spd_inv Rr)|exact: P2|move=> C].
have [M1 M2] := pairwise_first Nq L (k_mean0 ker) (k_P0 ker 0).
rewrite /nats /spep_cavity_nats; cbv zeta; rewrite -/i Ei.
rewrite /spep_marginals M1 M2 !chol_solve_spd; try exact: block_spd.
have Eb : alpha * (spep_num_data n z N X 0)^-1 = b by rewrite /b Ei.
rewrite mulmx1 /spep_fraction !scalerA Eb /C !block_inv ?unitmx_inv ?(@spd_unit Rr) // invmxK; congr pair.
  rewrite !mul_block_col !mul0mx !add0r !addr0 mulKVmx // E4.
  rewrite -[X in _ - b *: X]vsubmxK scale_col_mx opp_col_mx add_col_mx addrK.
  reflexivity.
rewrite E3 Eblk !scale_block_mx !scaler0 opp_block_mx add_block_mx !oppr0 !addr0 half_shift.
congr block_mx.
have {1}-> : invmx (k_P0 ker 0) = PP - 2%:R *: (b *: A) by rewrite addrK.
by rewrite half_shift.
Qed.
End First.

Lemma spep_cavity_of q : scvi_dist_q ker n z s = Some q -> ssm_nonsing n q ->
  exists q', [/\ scvi_dist_q ker n z s' = Some q', ssm_nonsing n q',
    spd (- (nats (spep_marginals ker n q) s k).2) &
    spep_cavity_f ker emission n z alpha N X (spep_marginals ker n q) s k = cvi_predict_f ker emission n q' z X k].
Proof.
move=> Eq Nq; have [q' Eq' Nq'] := spep_q_exists Hs'; have L' := ssm_has_law n q'.
have Goal v C : spd C -> nats (spep_marginals ker n q) s k = (invmx C *m v, - 2%:R^-1 *: invmx C) ->
  (let: (P, T, _) := conditional_statistics ker n.+1 z (X k) in (P *m v, T + P *m C *m P^T)) = predict_state ker n q' z (X 0%N) (X k) ->
  spd (- (nats (spep_marginals ker n q) s k).2) /\
  spep_cavity_f ker emission n z alpha N X (spep_marginals ker n q) s k = cvi_predict_f ker emission n q' z X k.
  move=> PC E1 E2; have [F1 F2] := cavity_state_of PC E1; split; first exact: F1.
  have F3 := etrans F2 E2.
  rewrite /spep_cavity_f /cvi_predict_f /predict_f_diag /project_marginals_diag /project_state_to_f; cbv zeta.
  rewrite /fst /snd addr0; congr pair.
    by have := congr1 fst F3; rewrite /fst => ->.
  rewrite !cov_diagE.
  by have := congr1 snd F3; rewrite /snd => ->.
suff [C [v [PC E1 E2]]] : exists C v, [/\ spd C, nats (spep_marginals ker n q) s k = (invmx C *m v, - 2%:R^-1 *: invmx C) &
  (let: (P, T, _) := conditional_statistics ker n.+1 z (X k) in (P *m v, T + P *m C *m P^T)) = predict_state ker n q' z (X 0%N) (X k)].
  by exists q'; have [G1 G2] := Goal v C PC E1 E2; split.
case E: (i) i_le => [|j] Hj.
  have [w [P' [PP PK]]] := cavity_first E Eq Eq' Nq L'; cbv zeta => F.
  exists (block_mx P' 0 0 (ssm_cov q' 0 0)%N), (col_mx w (ssm_marginal_means n q' 0%N)); split; [exact: block_spd|exact: F|].
  have ES := first_stats E; rewrite ES (predict_stateE _ _ ES).
  have [-> ->] := pairwise_first Nq' L' (k_mean0 ker) (k_P0 ker (X 0%N)).
  rewrite !mul_row_col !mul0mx !mul1mx !add0r.
  reflexivity.
have [PC F] := cavity_inner Hj E Eq Eq' Nq L'.
exists (block_mx (ssm_cov q' j j) (ssm_cov q' j j.+1) (ssm_cov q' j.+1 j) (ssm_cov q' j.+1 j.+1)).
exists (col_mx (ssm_marginal_means n q' j) (ssm_marginal_means n q' j.+1)); split; [exact: PC|exact: F|].
case ES : (conditional_statistics ker n.+1 z (X k)) => [[P T] i0].
have Ei0 : i0 = j.+1 by rewrite -E; exact: (esym (congr1 snd ES)).
rewrite (predict_stateE _ _ ES) Ei0.
have [-> ->] := pairwise_inner Nq' L' (k_mean0 ker) (k_P0 ker (X 0%N)) Hj.
by [].
Qed.
End Cavity.
End SPep.
