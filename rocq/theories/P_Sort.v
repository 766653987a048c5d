(* Proofs about M_Sort.v. *)
From mathcomp Require Import all_ssreflect all_algebra.
From Verif Require Import Nat Alg Lin Ent Spd M_Block M_SSM S_SSM P_SSM S_Kalman M_Kernel S_Kernel P_Kernel M_Cond P_Cond P_Cond2 P_Cond3 P_Cond4 P_Piece2 M_Emission P_Emission P_SSMLog M_Sort.
Set Implicit Arguments.
Unset Strict Implicit.
Unset Printing Implicit Defensive.
Import GRing.Theory Num.Theory Order.TTheory.
Local Open Scope ring_scope.

Section Unsort.
Variables (p q : seq nat).
Hypothesis Hp : perm_eq p (iota 0 (size p)).
Hypothesis Hq : ext_argsort_ok leq 0%N p q.

Lemma unsort_size : size q = size p.
Proof. by case/andP: Hq => /perm_size; rewrite size_iota. Qed.

Lemma unsort_gather : [seq nth 0%N p i | i <- q] = iota 0 (size p).
Proof.
case/andP: Hq => H1 H2; apply: (sorted_eq leq_trans anti_leq) => //; first exact: iota_sorted.
apply: perm_trans Hp; rewrite -{2}(mkseq_nth 0%N p) /mkseq.
exact: perm_map.
Qed.

Lemma unsort_nth i : (i < size p)%N -> nth 0%N p (nth 0%N q i) = i.
Proof.
move=> Hi; have := congr1 (fun s => nth 0%N s i) unsort_gather.
by rewrite (nth_map 0%N) ?unsort_size // nth_iota.
Qed.

Lemma unsort_lt i : (i < size p)%N -> (nth 0%N q i < size p)%N.
Proof.
move=> Hi; case/andP: Hq => /perm_mem H _.
by have := H (nth 0%N q i); rewrite mem_nth ?unsort_size // mem_iota add0n.
Qed.

Lemma gather_unsort (T : Type) (x0 : T) (x : seq T) : size x = size p -> gather x0 (gather x0 x p) q = x.
Proof.
move=> Es; apply: (@eq_from_nth _ x0); first by rewrite size_map unsort_size.
move=> i; rewrite size_map unsort_size => Hi.
rewrite (nth_map 0%N) ?unsort_size // (nth_map 0%N) ?unsort_lt //.
by rewrite unsort_nth.
Qed.
End Unsort.

Section Ties.
Variable F : rcfType.
Variables (d : nat) (ker : sde_kernel F d) (n : nat) (z : nat -> F).
Hypothesis Hker : markov_kernel ker.

Lemma sorted_mono i j : (forall i, (i < n)%N -> z i <= z i.+1) -> (i <= j)%N -> (j <= n)%N -> z i <= z j.
Proof.
move=> H; elim: j => [|j IH] Hij Hj; first by have -> : i = 0%N by lia.
have [->//|Hij'] : i = j.+1 \/ (i <= j)%N by lia.
by apply: le_trans (H _ Hj); apply: IH => //; lia.
Qed.

(* a sorted grid, repeated times allowed *)
Lemma sorted_law S : (forall i, (i < n)%N -> z i <= z i.+1) -> kernel_ssm n ker z = Some S ->
  has_law n.+1 n.+1 (ssm_path S) (fun _ => k_mean0 ker) (fun i j => state_cov ker (z i) (z j)).
Proof.
move=> Hz; rewrite /kernel_ssm; case E: (to_delta_time n.+1 z) => [dt|] // [<-].
have {E} -> : dt = fun i => z i.+1 - z i by move: E; rewrite /to_delta_time; case: ifP => // _ [].
set S' := ssm_from_covariances _ _ _ _ _; have -> : S' = kssm ker z by [].
have Hm i j : (i <= j)%N -> (j < n.+1)%N -> z i <= z j by move=> H1 H2; apply: sorted_mono.
have HQ i : (i < n.+1)%N -> ssm_Qc (kssm ker z) i = if i is i'.+1 then k_cov ker (z i') (z i - z i') else k_P0 ker (z 0%N).
  rewrite /ssm_Qc; case: i => [|i] Hi /=; first by apply: cholesky_or_zero_mul; left; apply: mk_P0_spd.
  apply: cholesky_or_zero_mul; have : z i <= z i.+1 by apply: Hz; lia.
  rewrite le_eqVlt => /orP [/eqP ->|H]; first by right; rewrite subrr (mk_cov0 Hker).
  by left; apply: mk_cov_spd => //; rewrite subr_gt0.
have Hphi i m : (i + m < n.+1)%N -> phi (s_A (kssm ker z)) i m = k_trans ker (z i) (z (i + m)%N - z i).
  elim: m => [|m IH] Him; first by rewrite addn0 subrr (mk_trans0 Hker).
  rewrite [LHS]/= IH; last by lia.
  have -> : z (i + m.+1)%N - z i = (z (i + m)%N - z i) + (z (i + m).+1 - z (i + m)%N).
    by rewrite addnS [RHS]addrC addrA subrK.
  by rewrite [RHS](mk_trans Hker) ?subr_ge0; [rewrite addrBK|apply: Hm; lia|apply: Hm; lia].
have Hvar i : (i < n.+1)%N -> chain_var (s_A (kssm ker z)) (ssm_Qc (kssm ker z)) i = k_P0 ker (z i).
  elim: i => [|i IH] Hi; first by rewrite /= HQ.
  rewrite /= IH; last by lia.
  rewrite HQ // -[in RHS](addrBK (z i) (z i.+1)) (mk_P0 Hker) //.
  by rewrite subr_ge0; apply: Hm; lia.
have [G [HG HK]] := ssm_has_law n (kssm ker z); exists G; split=> [eps i Hi|i j Hi Hj]; last first.
  rewrite -HK // /ssm_cov /chain_cov /state_cov.
  case: (leqP j i) => Hij.
    by rewrite Hm // Hphi ?Hvar ?subnKC //; lia.
  rewrite Hphi ?Hvar ?subnKC //; [|lia|lia].
  case: (ltgtP (z i) (z j)) => Hlt.
  - by rewrite trmx_mul (spd_sym (mk_P0_spd Hker _)).
  - by have := Hm i j (ltnW Hij) Hj; rewrite leNgt Hlt.
  by rewrite Hlt subrr (mk_trans0 Hker) trmx1 mulmx1 mul1mx.
rewrite HG //; congr (_ + _).
have Hmean j : (j < n.+1)%N -> ssm_path (kssm ker z) (fun _ => 0) j = k_mean0 ker.
  elim: j => [|j IH] Hj; first by rewrite /ssm_path /= mulmx0 addr0.
  rewrite /ssm_path [LHS]/= -/(ssm_path (kssm ker z) (fun _ => 0) j) IH; last by lia.
  by rewrite mulmx0 addr0 -(mk_mean Hker) // subr_ge0; apply: Hm; lia.
rewrite -(Hmean i Hi) HG //; rewrite big1 ?addr0 // => l _; exact: mulmx0.
Qed.

Hypothesis Hz : increasing n.+1 z.

(* between two conditioning points, or at one of them *)
Definition covered (t : F) : Prop :=
  (exists k, [/\ (k < n)%N, z k < t & t < z k.+1]) \/
  (exists2 k, (k < n.+1)%N & t = z k /\ (- APPROX_INF F < z 0%N)).

Lemma stats_at k : (k < n.+1)%N -> - APPROX_INF F < z 0%N ->
  ext_searchsorted n.+1 z (z k) = k /\ (conditional_statistics ker n.+1 z (z k)).1.1 = row_mx 0 1%:M.
Proof.
case: k => [|k] Hk H0.
  have [Hi Hl Hg] := searchsorted_spec (z 0%N) (increasing_sorted Hz).
  have E0 : ext_searchsorted n.+1 z (z 0%N) = 0%N.
    by case: (ext_searchsorted _ _ _) Hl => // i /(_ 0%N erefl); rewrite ltxx.
  split=> //; rewrite /conditional_statistics E0 /augment_times ltn0Sn opprK subrr (mk_trans0 Hker) (mk_cov0 Hker).
  by rewrite cond_stats_right //; apply: mk_cov_spd => //; rewrite -ltr_subl_addr sub0r.
have H1 : z k < z k.+1 by apply: Hz.
split; first by apply: searchsorted_inner.
rewrite (stats_inner ker Hz (k := k) Hk H1 (lexx _)) subrr (mk_trans0 Hker) (mk_cov0 Hker) cond_stats_right //.
by apply: mk_cov_spd => //; rewrite subr_gt0.
Qed.

Lemma J_at k p (c : nat -> 'M[F]_(d, p)) : (k < n.+1)%N -> - APPROX_INF F < z 0%N ->
  \sum_(l < n.+1) cs_J ker n z (z k) l *m c l = c k.
Proof.
move=> Hk H0; have [E1 E2] := stats_at Hk H0.
rewrite -[RHS]mul1mx -(sum_pick 1%:M c Hk); apply: eq_bigr => l _.
by rewrite /cs_J /cs_D /cs_E E1 E2 row_mxKl row_mxKr if_same add0r.
Qed.

Lemma covered_cov t j : covered t -> (j < n.+1)%N ->
  state_cov ker t (z j) = \sum_(l < n.+1) cs_J ker n z t l *m state_cov ker (z l) (z j).
Proof.
case=> [[k [Hk H1 H2]]|[k Hk [-> H0]]] Hj; first exact: (J_cov Hker Hz Hk H1 H2).
by rewrite (J_at (fun l => state_cov ker (z l) (z j)) Hk H0).
Qed.

Lemma covered_sample t u v w : covered t ->
  sample_state ker n z t u v w = u - \sum_(l < n.+1) cs_J ker n z t l *m (v l - w l).
Proof.
case=> [[k [Hk H1 H2]]|[k Hk [-> H0]]]; first exact: (sample_stateE ker Hz _ _ _ Hk H1 H2).
rewrite (J_at (fun l => v l - w l) Hk H0) /sample_state; have [-> ->] := stats_at Hk H0.
by rewrite mul_row_col mul0mx mul1mx add0r (extend_in _ _ Hk).
Qed.
End Ties.

Lemma Kzz_unit (F : rcfType) d (ker : sde_kernel F d) n z : markov_kernel ker -> increasing n.+1 z ->
  dense n.+1 n.+1 (fun i j => state_cov ker (z i) (z j)) \in unitmx.
Proof.
move=> Hker Hz; have [S [_ H1 H2]] := kernel_law Hker Hz.
by have [/mulmx1_unit [_ H] _] := precision_law H1 H2.
Qed.

(* as sample_law_core, for any posterior at the conditioning points, for a sorted joint grid
   that may repeat times and for new points that may be conditioning points *)
Lemma sample_law_ties (F : rcfType) d (ker : sde_kernel F d) n nt q (z tau : nat -> F) (pos_z pos_t : nat -> nat)
    joint post m' K' :
  markov_kernel ker -> increasing n.+1 z -> (forall i, (i < nt)%N -> tau i <= tau i.+1) ->
  (forall j, (j < n.+1)%N -> (pos_z j < nt.+1)%N /\ tau (pos_z j) = z j) ->
  (forall i, (i < q)%N -> (pos_t i < nt.+1)%N /\
     covered n z (tau (pos_t i))) ->
  kernel_ssm nt ker tau = Some joint ->
  has_law n.+1 n.+1 (ssm_path post) m' K' ->
  let Kzz := dense n.+1 n.+1 (fun i j => state_cov ker (z i) (z j)) in
  let mz := flat n.+1 (fun _ => k_mean0 ker) in
  let t i := tau (pos_t i) in
  let sample eps i :=
    let post_z := ssm_sample n post (fun l => eps (nt.+1 + l)%N) in
    let prior_all := ssm_sample nt joint eps in
    if (i < q)%N then sample_state ker n z (t i) (prior_all (pos_t i)) (fun j => prior_all (pos_z j)) post_z
    else post_z (i - q)%N in
  let u i := if (i < q)%N then t i else z (i - q)%N in
  let Kuz := dense (q + n.+1) n.+1 (fun i j => state_cov ker (u i) (z j)) in
  let Kuu := dense (q + n.+1) (q + n.+1) (fun i j => state_cov ker (u i) (u j)) in
  let B := Kuz *m invmx Kzz in
  has_law (q + n.+1) (nt.+1 + n.+1) sample
    (unflat (flat (q + n.+1) (fun _ => k_mean0 ker) + B *m (flat n.+1 m' - mz)))
    (blk (Kuu - B *m Kzz *m B^T + B *m dense n.+1 n.+1 K' *m B^T)).
Proof.
move=> Hker Hz Htau Hpz Hpt Ejoint Lpost Kzz mz t sample u Kuz Kuu B.
pose a i := if (i < q)%N then pos_t i else pos_z (i - q)%N.
pose J i l : 'M[F]_d := if (i < q)%N then cs_J ker n z (t i) l else if l == (i - q)%N then 1%:M else 0.
have Ltau : has_law nt.+1 nt.+1 (ssm_sample nt joint) (fun _ => k_mean0 ker) (fun i j => state_cov ker (tau i) (tau j)).
  by apply: sample_law; apply: (sorted_law Hker Htau Ejoint).
have Lp := sample_law Lpost.
have Ha i : (i < q + n.+1)%N -> (a i < nt.+1)%N.
  rewrite /a => Hi; case: ifP => Hq; first by case: (Hpt i Hq).
  by case: (Hpz (i - q)%N); [lia|].
have Hb j : (j < n.+1)%N -> (pos_z j < nt.+1)%N by case/Hpz.
have Eu i : (i < q + n.+1)%N -> tau (a i) = u i.
  rewrite /a /u => Hi; case: ifP => Hq //.
  by case: (Hpz (i - q)%N); [lia|].
have HJ i j : (i < q + n.+1)%N -> (j < n.+1)%N ->
   state_cov ker (tau (a i)) (tau (pos_z j)) = \sum_(l < n.+1) J i l *m state_cov ker (tau (pos_z l)) (tau (pos_z j)).
  move=> Hi Hj; rewrite Eu //; case: (Hpz j Hj) => _ ->.
  transitivity (\sum_(l < n.+1) J i l *m state_cov ker (z l) (z j)); last first.
    by apply: eq_bigr => l _; case: (Hpz l (ltn_ord l)) => _ ->.
  rewrite /u /J; case: ifP => Hq.
    by have [_ Hc] := Hpt i Hq; apply: (covered_cov Hker Hz Hc).
  have Hi' : (i - q < n.+1)%N by lia.
  by rewrite (sum_pick 1%:M (fun l => state_cov ker (z l) (z j)) Hi') mul1mx.
have EKzz : dense n.+1 n.+1 (fun i j => state_cov ker (tau (pos_z i)) (tau (pos_z j))) = Kzz.
  by apply: eq_dense => i j Hi Hj; case: (Hpz i Hi) => _ ->; case: (Hpz j Hj) => _ ->.
have EKuz : dense (q + n.+1) n.+1 (fun i j => state_cov ker (tau (a i)) (tau (pos_z j))) = Kuz.
  by apply: eq_dense => i j Hi Hj; rewrite Eu //; case: (Hpz j Hj) => _ ->.
have EKuu : dense (q + n.+1) (q + n.+1) (fun i j => state_cov ker (tau (a i)) (tau (a j))) = Kuu.
  by apply: eq_dense => i j Hi Hj; rewrite !Eu.
have EB : dense (q + n.+1) n.+1 J = B.
  rewrite /B -EKuz -EKzz; apply: (canRL (mulmxK _)); first by rewrite EKzz Kzz_unit.
  by rewrite mul_dense; apply: eq_dense => i j Hi Hj; rewrite HJ.
have := @matheron_law F d d nt.+1 n.+1 nt.+1 n.+1 (q + n.+1) _ _ _ m' _ K' a pos_z J Ltau Lp Ha Hb HJ.
rewrite EB EKzz EKuu => [[G0 [H1 H2]]].
exists G0; split=> // eps i Hi; last first.
rewrite -[RHS]/((unflat (flat (q + n.+1) (fun=> k_mean0 ker) + B *m (flat n.+1 m' - mz)) i) +
  \sum_(l < nt.+1 + n.+1) G0 i l *m eps l).
have -> : unflat (flat (q + n.+1) (fun=> k_mean0 ker) + B *m (flat n.+1 m' - mz)) i =
   k_mean0 ker - \sum_(l < n.+1) J i l *m (k_mean0 ker - m' l).
  rewrite -EB /mz flatB mul_dense_flat flatD /flat unflat_bcol //; congr (_ + _).
  by rewrite -sumrN; apply: eq_bigr => l _; rewrite -mulmxN opprB.
rewrite -H1 //.
rewrite /sample /matheron /a /J; case: ifP => Hq.
  by have [_ Hc] := Hpt i Hq; rewrite (covered_sample Hker Hz _ _ _ Hc).
have Hi' : (i - q < n.+1)%N by lia.
rewrite (sum_pick 1%:M (fun l => ssm_sample nt joint eps (pos_z l) -
   ssm_sample n post (fun l => eps (nt.+1 + l)%N) l) Hi') mul1mx.
by rewrite opprB addrC subrK.
Qed.

Section Sample.
Variables (F : rcfType) (d : nat) (ker : sde_kernel F d) (z new : seq F) (p q : seq nat).
Hypothesis Hp : ext_argsort_ok <=%R 0 (z ++ new) p.
Hypothesis Hq : ext_argsort_ok leq 0%N p q.

Lemma p_size : size p = (size z + size new)%N.
Proof. by case/andP: Hp => /perm_size; rewrite size_iota size_cat. Qed.

Lemma p_perm : perm_eq p (iota 0 (size p)).
Proof. by rewrite p_size -size_cat; case/andP: Hp. Qed.

Lemma sorted_time_nth i : (i < size z + size new)%N ->
  nth 0 (sorted_joint_time_points z new p) (nth 0%N q i) = nth 0 (z ++ new) i.
Proof.
move=> Hi; have Hi' : (i < size p)%N by rewrite p_size.
by rewrite (nth_map 0%N) ?(unsort_lt Hq Hi') // (unsort_nth p_perm Hq Hi').
Qed.

Lemma sorted_size : size (sorted_joint_time_points z new p) = (size z + size new)%N.
Proof. by rewrite size_map p_size. Qed.

Lemma sorted_nondecreasing i : (i.+1 < size z + size new)%N ->
  nth 0 (sorted_joint_time_points z new p) i <= nth 0 (sorted_joint_time_points z new p) i.+1.
Proof. by move=> Hi; case/andP: Hp => _ /(sortedP 0); apply; rewrite sorted_size. Qed.

Variables (n e : nat).
Hypothesis Hn : size z = n.+1.

Lemma sampled_law joint post m' K' :
  markov_kernel ker -> sorted <%R z ->
  (forall t, t \in new -> nth 0 z 0 <= t /\ t <= nth 0 z n) ->
  ((exists2 t, t \in z & t \in new) -> - APPROX_INF F < nth 0 z 0) ->
  joint_model ker z new p = Some joint ->
  has_law n.+1 n.+1 (ssm_path post) m' K' ->
  let Kzz := dense n.+1 n.+1 (fun i j => state_cov ker (nth 0 z i) (nth 0 z j)) in
  let mz := flat n.+1 (fun _ => k_mean0 ker) in
  let r := size new in let N := (n.+1 + r)%N in
  let sample eps i :=
    let post_z := ssm_sample n post (fun l => eps (N + l)%N) in
    if (i < r)%N then new_samples ker z new p q joint eps post_z i else post_z (i - r)%N in
  let u i := if (i < r)%N then nth 0 new i else nth 0 z (i - r)%N in
  let Kuz := dense (r + n.+1) n.+1 (fun i j => state_cov ker (u i) (nth 0 z j)) in
  let Kuu := dense (r + n.+1) (r + n.+1) (fun i j => state_cov ker (u i) (u j)) in
  let B := Kuz *m invmx Kzz in
  has_law (r + n.+1) (N + n.+1) sample
    (unflat (flat (r + n.+1) (fun _ => k_mean0 ker) + B *m (flat n.+1 m' - mz)))
    (blk (Kuu - B *m Kzz *m B^T + B *m dense n.+1 n.+1 K' *m B^T)).
Proof.
move=> Hk Hz Hin Hat Ej HL Kzz mz r N sample u Kuz Kuu B.
pose tau := nth 0 (sorted_joint_time_points z new p).
have EN : N = (n + r).+1 by rewrite /N addSn.
have Htau i : (i < n + r)%N -> tau i <= tau i.+1 by move=> Hi; apply: sorted_nondecreasing; rewrite Hn addSn.
have Hz' : increasing n.+1 (nth 0 z) by move=> i Hi; move/(sortedP 0): Hz; apply; rewrite Hn.
have Hpos i : (i < n.+1 + r)%N -> (nth 0%N q i < (n + r).+1)%N /\ tau (nth 0%N q i) = nth 0 (z ++ new) i.
  move=> Hi; split; last by apply: sorted_time_nth; rewrite Hn.
  by rewrite -addSn -Hn -p_size; apply: (unsort_lt Hq); rewrite p_size Hn.
have Hpz j : (j < n.+1)%N -> (nth 0%N q j < (n + r).+1)%N /\ tau (nth 0%N q j) = nth 0 z j.
  by move=> Hj; have [H1 ->] := Hpos j (ltn_addr _ Hj); rewrite nth_cat Hn Hj.
have Hpt' i : (i < r)%N -> (nth 0%N q (n.+1 + i) < (n + r).+1)%N /\ tau (nth 0%N q (n.+1 + i)) = nth 0 new i.
  move=> Hi; have Hi2 : (n.+1 + i < n.+1 + r)%N by rewrite ltn_add2l.
  have [H1 ->] := Hpos _ Hi2; split=> //.
  by rewrite nth_cat Hn ltnNge leq_addr /= addKn.
have Hpt i : (i < r)%N -> (nth 0%N q (n.+1 + i) < (n + r).+1)%N /\
     covered n (nth 0 z) (tau (nth 0%N q (n.+1 + i))).
  move=> Hi; have [H1 ->] := Hpt' i Hi; split=> //.
  have Hm : nth 0 new i \in new by apply: mem_nth.
  have [G1 G2] := Hin _ Hm; set t := nth 0 new i in Hm G1 G2 *.
  case Ht : (t \in z).
    right; exists (index t z); first by rewrite -Hn index_mem.
    by rewrite nth_index //; split=> //; apply: Hat; exists t.
  have [Hi1 Hl Hg] := searchsorted_spec t (increasing_sorted Hz').
  move: (ext_searchsorted _ _ _) Hi1 Hl Hg => k Hk1 Hl Hg; left.
  have Hne j : (j < n.+1)%N -> t != nth 0 z j.
    by move=> Hj; apply: contraFneq Ht => ->; apply: mem_nth; rewrite Hn.
  case: k Hk1 Hl Hg => [|k] Hk1 Hl Hg.
    by have := Hg 0%N isT isT; rewrite le_eqVlt (negbTE (Hne 0%N isT)) ltNge G1.
  have Hkn : (k < n)%N.
    by rewrite ltnNge; apply/negP => Hnk; have := Hl n Hnk; rewrite ltNge G2.
  by exists k; split=> //; [apply: Hl|rewrite lt_neqAle Hg // andbT; apply: Hne].
have Ej' : kernel_ssm (n + r) ker tau = Some joint.
  by move: Ej; rewrite /joint_model sorted_size Hn.
have := @sample_law_ties F d ker n (n + r) r (nth 0 z) tau (fun j => nth 0%N q j) (fun i => nth 0%N q (n.+1 + i)%N)
  joint post m' K' Hk Hz' Htau Hpz Hpt Ej' HL.
rewrite -EN; pose u' i := if (i < r)%N then tau (nth 0%N q (n.+1 + i)) else nth 0 z (i - r).
have Eu i : u' i = u i by rewrite /u' /u; case: ifP => // /Hpt' [].
have E1 : dense (r + n.+1) n.+1 (fun i j => state_cov ker (u' i) (nth 0 z j)) = Kuz.
  by apply: eq_dense => i j _ _; rewrite Eu.
have E2 : dense (r + n.+1) (r + n.+1) (fun i j => state_cov ker (u' i) (u' j)) = Kuu.
  by apply: eq_dense => i j _ _; rewrite !Eu.
rewrite /= -/u' E1 E2 -/Kzz -/mz -/B.
apply: has_law_path => eps k _; rewrite /sample; case: ifP => // Hk'.
rewrite /new_samples /joint_samples sorted_size Hn /=.
by have [_ ->] := Hpt' k Hk'.
Qed.
(* ... and for a posterior that is the prior given noisy linear observations of the states *)
Lemma sampled_law_obs joint post m' K' (G : 'M[F]_(e, n.+1 * d)) Sg y :
  markov_kernel ker -> sorted <%R z ->
  (forall t, t \in new -> nth 0 z 0 <= t /\ t <= nth 0 z n) ->
  ((exists2 t, t \in z & t \in new) -> - APPROX_INF F < nth 0 z 0) ->
  joint_model ker z new p = Some joint ->
  has_law n.+1 n.+1 (ssm_path post) m' K' ->
  let Kzz := dense n.+1 n.+1 (fun i j => state_cov ker (nth 0 z i) (nth 0 z j)) in
  let mz := flat n.+1 (fun _ => k_mean0 ker) in
  flat n.+1 m' = cond_mean mz Kzz G Sg y -> dense n.+1 n.+1 K' = cond_cov Kzz G Sg ->
  let r := size new in let N := (n.+1 + r)%N in
  let sample eps i :=
    let post_z := ssm_sample n post (fun l => eps (N + l)%N) in
    if (i < r)%N then new_samples ker z new p q joint eps post_z i else post_z (i - r)%N in
  let u i := if (i < r)%N then nth 0 new i else nth 0 z (i - r)%N in
  let Kuz := dense (r + n.+1) n.+1 (fun i j => state_cov ker (u i) (nth 0 z j)) in
  let Kuu := dense (r + n.+1) (r + n.+1) (fun i j => state_cov ker (u i) (u j)) in
  let W := invmx (G *m Kzz *m G^T + Sg) in
  has_law (r + n.+1) (N + n.+1) sample
    (unflat (flat (r + n.+1) (fun _ => k_mean0 ker) + Kuz *m G^T *m W *m (y - G *m mz)))
    (blk (Kuu - Kuz *m G^T *m W *m G *m Kuz^T)).
Proof.
move=> Hk Hz Hin Hat Ej HL Kzz mz Em EK r N sample u Kuz Kuu W.
have := sampled_law Hk Hz Hin Hat Ej HL; cbv zeta; rewrite -/Kzz -/mz -/r -/N.
rewrite -/u -/Kuz -/Kuu Em EK.
have uK : Kzz \in unitmx.
  by apply: Kzz_unit => // i Hi; move/(sortedP 0): Hz; apply; rewrite Hn.
have sK : Kzz^T = Kzz.
  by rewrite /Kzz tr_dense; apply: eq_dense => i j Hi Hj; rewrite state_cov_tr.
have -> : Kuz *m invmx Kzz *m (cond_mean mz Kzz G Sg y - mz) = Kuz *m G^T *m W *m (y - G *m mz).
  by rewrite /cond_mean [mz + _]addrC addrK -/W !mulmxA mulmxKV.
have -> // : Kuu - Kuz *m invmx Kzz *m Kzz *m (Kuz *m invmx Kzz)^T + Kuz *m invmx Kzz *m cond_cov Kzz G Sg *m (Kuz *m invmx Kzz)^T =
          Kuu - Kuz *m G^T *m W *m G *m Kuz^T.
rewrite /cond_cov -/W mulmxBr mulmxBl !mulmxA mulmxKV // trmx_mul tr_invmx sK !mulmxA.
by rewrite (mulmxK uK); zmod.
Qed.
End Sample.

(* prediction from any posterior at the conditioning points *)
Lemma predict_q (F : rcfType) d (ker : sde_kernel F d) n z k t t0 post m' K' :
  markov_kernel ker -> k_mean0 ker = 0 -> increasing n.+1 z -> (k < n)%N -> z k < t -> t < z k.+1 ->
  ssm_nonsing n post -> has_law n.+1 n.+1 (ssm_path post) m' K' ->
  let Kzz := dense n.+1 n.+1 (fun i j => state_cov ker (z i) (z j)) in
  let Ktz := brow n.+1 (fun j => state_cov ker t (z j)) in
  let B := Ktz *m invmx Kzz in
  predict_state ker n post z t0 t =
    (B *m flat n.+1 m', k_P0 ker t - B *m Kzz *m B^T + B *m dense n.+1 n.+1 K' *m B^T).
Proof.
move=> Hker H0 Hz Hk H1 H2 NP LP Kzz Ktz B.
have [D [E [T [ES HTs HR HT]]]] := kernel_conditional Hker Hz Hk H1 H2.
have uK : Kzz \in unitmx by apply: Kzz_unit.
have rowDE q (c : nat -> 'M[F]_(d, q)) : brow n.+1 (Jb k D E k.+1) *m bcol n.+1 c = D *m c k + E *m c k.+1.
  by rewrite mul_brow_bcol Jrow.
have KJ : Ktz = brow n.+1 (Jb k D E k.+1) *m Kzz.
  rewrite /Kzz /dense rowDE !mul_mx_brow browD; apply: eq_brow => j Hj.
  have := HR (skip k j); rewrite insert_skip (skip_neq Hk); apply=> //.
  exact: (skip_lt Hk).
set Jr := brow n.+1 _ in KJ.
have EB : B = Jr by rewrite /B KJ mulmxK.
have Et : k_P0 ker t = T + Jr *m Kzz *m Jr^T.
  rewrite -state_cov_diag // HT addrC; congr (_ + _).
  rewrite -KJ /Ktz /Jr tr_brow mul_brow_bcol.
  have -> : \sum_(l < n.+1) state_cov ker t (z l) *m (Jb k D E k.+1 l)^T =
            (\sum_(l < n.+1) Jb k D E k.+1 l *m state_cov ker (z l) t)^T.
    by rewrite raddf_sum /=; apply: eq_bigr => l _; rewrite trmx_mul state_cov_tr.
  have -> := Jrow Hk D E (fun l => state_cov ker (z l) t).
  move: HT; set X := D *m _ + _ => HT.
  have := congr1 trmx HT; rewrite [RHS]trmxD state_cov_tr // HT (spd_sym HTs).
  by move/addIr.
rewrite (predict_stateE _ _ ES) EB.
have [-> ->] := pairwise_inner NP LP (k_mean0 ker) (k_P0 ker t0) Hk.
congr (_, _); first by rewrite /flat rowDE mul_row_col.
have -> : row_mx D E *m block_mx (K' k k) (K' k k.+1) (K' k.+1 k) (K' k.+1 k.+1) *m (row_mx D E)^T =
   Jr *m dense n.+1 n.+1 K' *m Jr^T.
  rewrite /dense rowDE !mul_mx_brow browD /Jr tr_brow mul_brow_bcol.
  have -> : \sum_(l < n.+1) (D *m K' k l + E *m K' k.+1 l) *m (Jb k D E k.+1 l)^T =
            (\sum_(l < n.+1) Jb k D E k.+1 l *m (D *m K' k l + E *m K' k.+1 l)^T)^T.
    by rewrite raddf_sum /=; apply: eq_bigr => l _; rewrite trmx_mul trmxK.
  have -> := Jrow Hk D E (fun l => (D *m K' k l + E *m K' k.+1 l)^T).
  rewrite trmxD !trmx_mul !trmxK tr_row_mx mul_row_block mul_row_col.
  by rewrite !mulmxDl.
by rewrite Et addrK.
Qed.

Lemma unsort_all (F : rcfType) (times : seq F) (p q : seq nat) (T : Type) (x0 : T) (x : seq T) :
  ext_argsort_ok <=%R 0 times p -> ext_argsort_ok leq 0%N p q -> size x = size times ->
  gather x0 (gather x0 x p) q = x.
Proof.
case/andP=> H1 _ H2 E; have Es : size p = size times by rewrite (perm_size H1) size_iota.
by apply: (gather_unsort _ H2); rewrite Es.
Qed.

Lemma joint_exists (F : rcfType) d (ker : sde_kernel F d) (z new : seq F) p :
  ext_argsort_ok <=%R 0 (z ++ new) p -> exists joint, joint_model ker z new p = Some joint.
Proof.
move=> Hp; rewrite /joint_model; set tau := nth 0 _; set N := size _.
have H : to_delta_time N.-1.+1 tau <> None.
  apply/to_deltaE => i Hi; apply: (sorted_nondecreasing Hp); rewrite -(sorted_size Hp) -/N; lia.
by rewrite /kernel_ssm; case: (to_delta_time _ _) H => // dt _; eexists.
Qed.

Lemma joint_law (F : rcfType) d (ker : sde_kernel F d) (z new : seq F) p q joint :
  markov_kernel ker -> ext_argsort_ok <=%R 0 (z ++ new) p -> ext_argsort_ok leq 0%N p q -> (0 < size z)%N ->
  joint_model ker z new p = Some joint ->
  let N := (size z + size new)%N in
  has_law N N (fun eps => joint_samples z new p q joint eps) (fun _ => k_mean0 ker)
    (fun i j => state_cov ker (nth 0 (z ++ new) i) (nth 0 (z ++ new) j)).
Proof.
move=> Hk Hp Hq Hz Ej N; set tau := nth 0 (sorted_joint_time_points z new p).
have EN : N = N.-1.+1 by rewrite /N; lia.
have Ej' : kernel_ssm N.-1 ker tau = Some joint by move: Ej; rewrite /joint_model (sorted_size Hp).
have Htau i : (i < N.-1)%N -> tau i <= tau i.+1.
  by move=> Hi; apply: (sorted_nondecreasing Hp); rewrite -/N; lia.
have := sample_law (sorted_law Hk Htau Ej'); rewrite -EN => [[G [H1 H2]]].
have Hlt i : (i < N)%N -> (nth 0%N q i < N)%N.
  by move=> Hi; rewrite /N -(p_size Hp); apply: (unsort_lt Hq); rewrite (p_size Hp).
exists (fun i => G (nth 0%N q i)); split=> [eps i Hi|i j Hi Hj].
  by rewrite /joint_samples (sorted_size Hp) -/N H1 // Hlt.
by rewrite -H2 ?Hlt // /tau !(sorted_time_nth Hp Hq).
Qed.

Lemma posterior_example (F : rcfType) d n k (mu b : 'cV[F]_d) : let z i : F := i%:R in let t : F := k%:R + 2%:R^-1 in
  [/\ markov_kernel (clock_kernel F d), increasing n.+1 z, z k < t, t < z k.+1 & ssm_nonsing n (ex_ssm mu b)].
Proof.
move=> z t; split; [exact: clock_markov|by move=> i _; rewrite ltr_nat| | |exact: ex_ssm_nonsing].
- by rewrite /t /z ltr_addl invr_gt0 ltr0n.
- by rewrite /t /z -[k.+1]addn1 natrD ltr_add2l invf_lt1 ?ltr0n // ltr1n.
Qed.

Lemma sort_example (F : rcfType) :
  let z : seq F := [:: 0; 2%:R] in let new : seq F := [:: 1; 0; 1] in
  let p := [:: 3; 0; 4; 2; 1]%N in let q := [:: 1; 4; 3; 0; 2]%N in
  [/\ ext_argsort_ok <=%R 0 (z ++ new) p, ext_argsort_ok leq 0%N p q, sorted <%R z,
      forall t, t \in new -> nth 0 z 0 <= t /\ t <= nth 0 z 1 &
      - APPROX_INF F < nth 0 z 0 /\ exists joint, joint_model (clock_kernel F 1) z new p = Some joint].
Proof.
move=> z new p q; have H02 : (0 : F) <= 2%:R by rewrite ler0n.
have H12 : (1 : F) <= 2%:R by rewrite ler1n.
split.
- by apply/andP; split; [|rewrite /= lexx ler01 lexx H12].
- by [].
- by rewrite /= ltr0n.
- by move=> t; rewrite !inE => /or3P [] /eqP -> /=; rewrite ?lexx ?ler01 ?H12 ?H02.
split; first by rewrite /= oppr_lt0 (lt_trans ltr01) // inf_gt1.
have H : to_delta_time 5 (nth 0 (sorted_joint_time_points z new p)) <> None.
  apply/to_deltaE => i; case: i => [|[|[|[|i]]]] //= _; by rewrite ?lexx ?ler01 ?H12.
by rewrite /joint_model /kernel_ssm /=; case: (to_delta_time _ _) H => // dt _; eexists.
Qed.

(* moments of the function samples *)
Lemma sample_f_law (F : comRingType) o d e N' N (H : nat -> 'M[F]_(o, d)) (mean : nat -> 'cV[F]_o)
    (X : (nat -> 'cV[F]_e) -> nat -> 'cV[F]_d) m K : has_law N' N X m K ->
  has_law N' N (fun eps i => mean i + project_state_to_f H (X eps) i)
    (fun i => mean i + H i *m m i) (fun i j => H i *m K i j *m (H j)^T).
Proof.
move=> HL; have [G [H1 H2]] := project_law H HL; exists G; split=> // eps i Hi.
by rewrite H1 // addrA.
Qed.

Lemma predict_f_q (F : rcfType) d o (ker : sde_kernel F d) (H : nat -> 'M[F]_(o, d)) mean n z new i k post m' K' :
  markov_kernel ker -> k_mean0 ker = 0 -> increasing n.+1 z -> (k < n)%N -> z k < new i -> new i < z k.+1 ->
  ssm_nonsing n post -> has_law n.+1 n.+1 (ssm_path post) m' K' ->
  let Kzz := dense n.+1 n.+1 (fun i j => state_cov ker (z i) (z j)) in
  let Ktz := brow n.+1 (fun j => state_cov ker (new i) (z j)) in
  let B := Ktz *m invmx Kzz in
  let V := k_P0 ker (new i) - B *m Kzz *m B^T + B *m dense n.+1 n.+1 K' *m B^T in
  predict_f_full ker H mean n post z new i =
    (H i *m (B *m flat n.+1 m') + mean i, H i *m V *m (H i)^T) /\
  predict_f_diag ker H mean n post z new i =
    (H i *m (B *m flat n.+1 m') + mean i, \col_r (H i *m V *m (H i)^T) r r).
Proof.
move=> Hker H0 Hz Hk H1 H2 NP LP Kzz Ktz B V.
have E := predict_q (new 0%N) Hker H0 Hz Hk H1 H2 NP LP.
split; rewrite /predict_f_full /predict_f_diag /project_state_to_f.
  by rewrite cov_fullE E.
rewrite E; congr pair.
by apply/colP => r; rewrite cov_diagE E [RHS]mxE.
Qed.
