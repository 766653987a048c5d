(* The state space model of a piecewise kernel, and what inserting a time point into its
   grid does to the law. *)
From mathcomp Require Import all_ssreflect all_algebra.
From Verif Require Import Nat Alg Lin Ent Spd M_Block M_SSM S_SSM P_SSM M_Kernel S_Kernel P_Kernel M_Cond P_Cond3 M_Comb S_Comb P_Comb2 M_Piece S_Piece P_Piece.
Set Implicit Arguments.
Unset Strict Implicit.
Unset Printing Implicit Defensive.
Import GRing.Theory Num.Theory Order.TTheory.
Local Open Scope ring_scope.

Lemma has_law_path (R : comRingType) d e N' N (X Y : (nat -> 'cV[R]_d) -> nat -> 'cV[R]_e) m K :
  (forall eps k, (k < N')%N -> X eps k = Y eps k) -> has_law N' N X m K -> has_law N' N Y m K.
Proof. by move=> E [G [H1 H2]]; exists G; split=> // eps k Hk; rewrite -E ?H1. Qed.

Lemma gen_path_ext (R : comRingType) d n (mu : 'cV[R]_d) P A b Q A' b' Q' eps k :
  (forall i, (i < n)%N -> A i = A' i) -> (forall i, (i < n)%N -> b i = b' i) -> (forall i, (i < n)%N -> Q i = Q' i) ->
  (k <= n)%N -> gen_path mu P A b Q eps k = gen_path mu P A' b' Q' eps k.
Proof.
move=> HA Hb HQ; elim: k => //= k IH Hk; by rewrite HA // Hb // HQ // IH //; lia.
Qed.

(* a chain with one more state between states k and k + 1 *)
Section Refine.
Variables (R : comRingType) (d n k : nat) (A A' Q Q' : nat -> 'M[R]_d).
Hypothesis Hk : (k < n)%N.
Hypothesis A_before : forall i, (i < k)%N -> A' i = A i.
Hypothesis A_here : A k = A' k.+1 *m A' k.
Hypothesis A_after : forall i, (k < i)%N -> (i < n)%N -> A' i.+1 = A i.
Hypothesis Q_before : forall i, (i <= k)%N -> Q' i = Q i.
Hypothesis Q_here : Q k.+1 = A' k.+1 *m Q' k.+1 *m (A' k.+1)^T + Q' k.+2.
Hypothesis Q_after : forall i, (k < i)%N -> (i < n)%N -> Q' i.+2 = Q i.+1.

Definition skip i := if (i <= k)%N then i else i.+1.

Lemma refine_var i : (i <= n)%N -> chain_var A' Q' (skip i) = chain_var A Q i.
Proof.
have H : forall i, (i <= k)%N -> chain_var A' Q' i = chain_var A Q i.
  elim=> [|j IH] Hj /=; first by rewrite Q_before.
  by rewrite A_before // IH ?Q_before //; lia.
rewrite /skip; elim: i => [|i IH] Hi; first by rewrite leq0n; apply: H.
case: (leqP i.+1 k) => Hik; first exact: H.
have [E|Hlt] : i = k \/ (k < i)%N by lia.
- subst i; rewrite /= H // Q_here A_here trmx_mul !mulmxDr !mulmxDl !mulmxA -!addrA.
  by congr (_ + _).
move: IH => /(_ (ltnW Hi)); have -> : (i <= k)%N = false by lia.
by move=> IH; rewrite [LHS]/= -/(chain_var A' Q' i.+1) IH /= A_after // Q_after.
Qed.

Lemma refine_phi i m : (i + m <= n)%N -> phi A' (skip i) (skip (i + m) - skip i) = phi A i m.
Proof.
elim: m => [|m IH] Him; first by rewrite addn0 subnn.
have := IH ltac:(lia); rewrite /skip addnS => {}IH.
have [Hle|Hgt] := leqP i k.
- rewrite Hle in IH *; have [H1|H1] := leqP (i + m).+1 k.
  + have E : (i + m <= k)%N by lia.
    by rewrite E in IH; rewrite [RHS]/= -IH -!addnS !addKn /= A_before //.
  have [E|Hlt] : (i + m = k)%N \/ (k < i + m)%N by lia.
  + rewrite -E leqnn in IH; rewrite [RHS]/= -IH E -E.
    have -> : ((i + m).+2 - i = m.+2)%N by lia.
    have -> : ((i + m) - i = m)%N by lia.
    by rewrite /= mulmxA addnS E -A_here.
  have E : (i + m <= k)%N = false by lia.
  rewrite E in IH; rewrite [RHS]/= -IH.
  have -> : ((i + m).+2 - i = m.+2)%N by lia.
  have -> : ((i + m).+1 - i = m.+1)%N by lia.
  by rewrite -(A_after Hlt) ?phi_recl ?addnS //; lia.
rewrite leqNgt Hgt /= in IH *.
have E : (i + m <= k)%N = false by lia.
have E2 : (i + m < k)%N = false by lia.
rewrite E in IH; rewrite E2 [RHS]/= -IH.
have -> : ((i + m).+2 - i.+1 = m.+1)%N by lia.
have -> : ((i + m).+1 - i.+1 = m)%N by lia.
by rewrite -A_after ?phi_recl ?addSn //; lia.
Qed.

Lemma skip_le i j : (skip i <= skip j)%N = (i <= j)%N.
Proof. by rewrite /skip; case: (leqP i k) => H1; case: (leqP j k) => H2; lia. Qed.

Lemma refine_cov i j : (i <= n)%N -> (j <= n)%N -> chain_cov A' Q' (skip i) (skip j) = chain_cov A Q i j.
Proof.
move=> Hi Hj; rewrite /chain_cov skip_le; case: ifP => Hij.
- by rewrite refine_var // -{1}(subnKC Hij) refine_phi ?subnKC //.
have Hji : (i <= j)%N by lia.
by rewrite refine_var // -{1}(subnKC Hji) refine_phi ?subnKC //.
Qed.

Lemma refine_path p (u u' : nat -> 'M[R]_(d, p)) : (forall i, (i <= k)%N -> u' i = u i) ->
  u k.+1 = A' k.+1 *m u' k.+1 + u' k.+2 -> (forall i, (k < i)%N -> (i < n)%N -> u' i.+2 = u i.+1) ->
  forall i, (i <= n)%N -> chain_path A' u' (skip i) = chain_path A u i.
Proof.
move=> u_before u_here u_after.
have H : forall i, (i <= k)%N -> chain_path A' u' i = chain_path A u i.
  elim=> [|j IH] Hj /=; first by rewrite u_before.
  by rewrite A_before // IH ?u_before //; lia.
rewrite /skip; elim=> [|i IH] Hi; first by rewrite leq0n; apply: H.
case: (leqP i.+1 k) => Hik; first exact: H.
have [E|Hlt] : i = k \/ (k < i)%N by lia.
- by subst i; rewrite /= H // u_here A_here mulmxDr !mulmxA -addrA.
move: IH => /(_ (ltnW Hi)); have -> : (i <= k)%N = false by lia.
by move=> IH; rewrite [LHS]/= -/(chain_path A' u' i.+1) IH /= A_after // u_after.
Qed.
End Refine.

Section Sde.
Variables (F : rcfType) (d : nat).
Implicit Types (k : sde_kernel F d) (z : nat -> F).

Definition sde_A k z i := k_trans k (z i) (z i.+1 - z i).
Definition sde_Q k z := tcons (k_P0 k (z 0%N)) (fun i => k_cov k (z i) (z i.+1 - z i)).
Definition sde_u k z := tcons (k_mean0 k) (fun i => k_off k (z i) (z i.+1 - z i)).

Lemma sde_law k n z : increasing n.+1 z -> spd (k_P0 k (z 0%N)) ->
  (forall i, (i < n)%N -> spd (k_cov k (z i) (z i.+1 - z i))) ->
  exists S, [/\ kernel_ssm n k z = Some S, ssm_nonsing n S &
    has_law n.+1 n.+1 (ssm_path S) (chain_path (sde_A k z) (sde_u k z)) (chain_cov (sde_A k z) (sde_Q k z))].
Proof.
move=> Hz HP HQ; exists (kssm k z); split; first exact: kernel_ssmE.
- by split=> [|i Hi]; apply/lowpos_nz/cholesky_or_zero_low => //; apply: HQ.
have [_ _ _ _ H] := @from_covariances_law F d n (k_mean0 k) (k_P0 k (z 0%N)) (sde_A k z)
  (fun i => k_off k (z i) (z i.+1 - z i)) (fun i => k_cov k (z i) (z i.+1 - z i)) (or_introl HP)
  (fun i Hi => or_introl (HQ i Hi)).
case: H => G [H1 H2]; exists G; split=> // eps i Hi; rewrite H1 // marginal_meansE //.
Qed.

Lemma sde_law_unique k n z S m K : increasing n.+1 z -> spd (k_P0 k (z 0%N)) ->
  (forall i, (i < n)%N -> spd (k_cov k (z i) (z i.+1 - z i))) ->
  kernel_ssm n k z = Some S -> has_law n.+1 n.+1 (ssm_path S) m K ->
  (forall i, (i <= n)%N -> m i = chain_path (sde_A k z) (sde_u k z) i) /\
  (forall i j, (i <= n)%N -> (j <= n)%N -> K i j = chain_cov (sde_A k z) (sde_Q k z) i j).
Proof.
move=> Hz HP HQ; have [S' [-> _ H']] := sde_law Hz HP HQ => -[<-] H.
by have [H1 H2] := has_law_unique H H'; split=> [i Hi|i j Hi Hj]; [apply: H1|apply: H2].
Qed.

(* inserting t into the grid leaves the law of the other states alone when the kernel
   composes over the interval that is split *)
Lemma sde_refine k n z z' l t S S' m K m' K' : increasing n.+1 z -> (forall i, (i < n.+2)%N -> z' i = insert_time z l t i) -> (l < n)%N -> z l < t -> t < z l.+1 ->
  spd (k_P0 k (z 0%N)) ->
  (forall i, (i < n)%N -> spd (k_cov k (z i) (z i.+1 - z i))) ->
  spd (k_cov k (z l) (t - z l)) -> spd (k_cov k t (z l.+1 - t)) ->
  k_trans k (z l) (z l.+1 - z l) = k_trans k t (z l.+1 - t) *m k_trans k (z l) (t - z l) ->
  k_cov k (z l) (z l.+1 - z l) =
    k_trans k t (z l.+1 - t) *m k_cov k (z l) (t - z l) *m (k_trans k t (z l.+1 - t))^T + k_cov k t (z l.+1 - t) ->
  k_off k (z l) (z l.+1 - z l) = k_trans k t (z l.+1 - t) *m k_off k (z l) (t - z l) + k_off k t (z l.+1 - t) ->
  kernel_ssm n k z = Some S -> kernel_ssm n.+1 k z' = Some S' ->
  has_law n.+1 n.+1 (ssm_path S) m K -> has_law n.+2 n.+2 (ssm_path S') m' K' ->
  let skip i := if (i <= l)%N then i else i.+1 in
  (forall i, (i <= n)%N -> m' (skip i) = m i) /\
  (forall i j, (i <= n)%N -> (j <= n)%N -> K' (skip i) (skip j) = K i j).
Proof.
move=> Hz Ez Hl H1 H2 HP HQ HQ1 HQ2 EA EQ Eo ES ES' HL HL'.
have Hz' : increasing n.+2 z'.
  by move=> i Hi; rewrite (Ez i (ltnW Hi)) (Ez i.+1 Hi); apply: (P_Cond3.insert_increasing Hz Hl H1 H2).
have z_before i : (i <= l)%N -> z' i = z i.
  by move=> Hi; rewrite Ez; [rewrite /insert_time Hi|lia].
have z_here : z' l.+1 = t by rewrite Ez; [rewrite /insert_time ltnn eqxx|lia].
have z_after i : (l < i)%N -> (i <= n)%N -> z' i.+1 = z i.
  move=> Hi Hi'; rewrite (Ez i.+1 Hi') /insert_time; have -> : (i.+1 <= l)%N = false by lia.
  by rewrite eqSS gtn_eqF.
have [Em EK] := sde_law_unique Hz HP HQ ES HL.
have [Em' EK'] : (forall i, (i <= n.+1)%N -> m' i = chain_path (sde_A k z') (sde_u k z') i) /\
  (forall i j, (i <= n.+1)%N -> (j <= n.+1)%N -> K' i j = chain_cov (sde_A k z') (sde_Q k z') i j).
  apply: (sde_law_unique Hz' _ _ ES' HL'); first by rewrite z_before.
  move=> i Hi; case: (ltngtP i l) => Hil.
  - by rewrite (z_before i (ltnW Hil)) (z_before i.+1 Hil); apply: HQ; lia.
  - have [E|Hlt] : i = l.+1 \/ (l.+1 < i)%N by lia.
      by rewrite E z_here z_after.
    case: i Hi Hil Hlt => // i Hi Hil Hlt; rewrite (z_after i.+1) ?(z_after i); [apply: HQ|..]; lia.
  by rewrite Hil z_before // z_here.
have A1 : forall i, (i < l)%N -> sde_A k z' i = sde_A k z i by move=> i Hi; rewrite /sde_A (z_before i (ltnW Hi)) (z_before i.+1 Hi).
have A2 : sde_A k z l = sde_A k z' l.+1 *m sde_A k z' l.
  by rewrite /sde_A EA z_here z_after // z_before.
have A3 : forall i, (l < i)%N -> (i < n)%N -> sde_A k z' i.+1 = sde_A k z i.
  by move=> i Hi Hi'; rewrite /sde_A (z_after i Hi (ltnW Hi')) (z_after i.+1 (leqW Hi) Hi').
split.
- move=> i Hi; rewrite Em // Em'; last by case: ifP; lia.
  apply: (refine_path (n := n) Hl A1 A2 A3) => //.
  + by case=> [|j] Hj //=; rewrite (z_before j (ltnW Hj)) (z_before j.+1 Hj).
  + by rewrite /= Eo /sde_A z_here z_after // z_before.
  + by move=> j Hj Hj' /=; rewrite (z_after j Hj (ltnW Hj')) (z_after j.+1 (leqW Hj) Hj').
move=> i j Hi Hj; rewrite EK // EK'; try by case: ifP; lia.
apply: (refine_cov (n := n) Hl A1 A2 A3) => //.
- by case=> [|r] Hr; [rewrite /= (z_before 0%N (leq0n l))|rewrite /= (z_before r (ltnW Hr)) (z_before r.+1 Hr)].
- by rewrite /= EQ /sde_A z_here z_after // z_before.
- by move=> r Hr Hr' /=; rewrite (z_after r Hr (ltnW Hr')) (z_after r.+1 (leqW Hr) Hr').
Qed.
End Sde.

Section PW.
Variable F : rcfType.
Variables o d : nat.
Variables (kernels : seq (skernel F o d)) (cps : seq F) (k0 : skernel F o d) (jitter : F).
Hypothesis Hargs : pw_args kernels cps.
Implicit Types (times : seq F).

Let spec := pw_spec k0 kernels cps jitter.
Let ker t := nth k0 kernels (active cps t).

Lemma nth_zip_map T (f : F -> F -> T) times deltas x0 i : size deltas = size times -> (i < size times)%N ->
  nth x0 [seq f x.1 x.2 | x <- zip times deltas] i = f (nth 0 times i) (nth 0 deltas i).
Proof.
move=> E Hi; rewrite (nth_map (0, 0)) ?size_zip ?E ?minnn // nth_zip //.
Qed.

Lemma pw_ssmE n times : size times = n.+1 -> sorted <=%R times -> all (@in_range F) times ->
  exists S S', [/\ pw_state_space_model kernels cps jitter times = Some S,
    kernel_ssm n spec (nth 0 times) = Some S',
    ssm_nonsing n S' -> ssm_nonsing n S &
    forall eps i, (i < n.+1)%N -> ssm_path S' eps i = ssm_path S eps i].
Proof.
move=> Es Hs Hr.
have Hsz : size (take n times) = n by rewrite size_takel // Es.
have Hdelta : to_delta_time n.+1 (nth 0 times) = Some (fun i => nth 0 times i.+1 - nth 0 times i).
  rewrite /to_delta_time; case: forallP => // [[]] i; rewrite subr_ge0.
  by apply: (sorted_leq_nth (@le_trans _ _) (@le_refl _ _)) => //; rewrite inE Es; have := ltn_ord i; lia.
have Hst : sorted <=%R (take n times) by apply: take_sorted.
have Hrt : all (@in_range F) (take n times) by apply/allP => t /mem_take; apply: (allP Hr).
have Hd : size (mkseq (fun i => nth 0 times i.+1 - nth 0 times i) n) = size (take n times) by rewrite size_mkseq Hsz.
have HP : pw_initial_covariance kernels cps (nth 0 times 0) = Some (k_P0 spec (nth 0 times 0)).
  rewrite /pw_initial_covariance [pw_steady_state_covariances _ _ _](tileE k0 Hargs) //=.
  by rewrite (allP Hr) // mem_nth // Es.
have EL T (f : F -> F -> T) x0 j : (j < n)%N ->
    nth x0 [seq f x.1 x.2 | x <- zip (take n times) (mkseq (fun i => nth 0 times i.+1 - nth 0 times i) n)] j =
    f (nth 0 times j) (nth 0 times j.+1 - nth 0 times j).
  by move=> Hj; rewrite (nth_zip_map _ _ Hd) ?Hsz // nth_take // nth_mkseq.
rewrite /pw_state_space_model Es /= Hdelta (transition_statisticsE k0 Hargs) // HP.
rewrite [pw_state_offsets _ _ _ _](by_segment_sorted k0 Hargs) //.
eexists; eexists; split; first by [].
- by rewrite /kernel_ssm Hdelta.
- move=> [H1 H2]; split=> // i Hi; have /= := H2 i Hi.
  by have /= -> := EL _ (k_cov spec) 0 i Hi.
move=> eps i; rewrite ltnS; apply: gen_path_ext => j Hj; apply/esym.
- exact: (EL _ (k_trans spec) 0 j Hj).
- exact: (EL _ (k_off spec) 0 j Hj).
by have /= -> := EL _ (k_cov spec) 0 j Hj.
Qed.

Lemma increasing_nth n times : size times = n.+1 -> sorted <%R times -> increasing n.+1 (nth 0 times).
Proof.
move=> Es Hs i Hi; apply: (sorted_ltn_nth (@lt_trans _ _)) => //; rewrite inE Es //; lia.
Qed.

Hypothesis Hgood : forall k, List.In k kernels -> pw_good k.
Hypothesis Hjit : 0 <= jitter.

Lemma ker_good t : pw_good (ker t).
Proof.
apply: Hgood; rewrite /ker; case: Hargs => _ Hk _ _; move: (leq_ltn_trans (active_le cps t) Hk) => {Hk}.
move: (active cps t); elim: kernels => // k ks IH [|i] /= H; [by left|right; exact: IH].
Qed.

Lemma spec_P0 t : spd (k_P0 spec t).
Proof. by have [] := ker_good t. Qed.

Lemma spec_cov t dt : 0 < dt -> spd (k_cov spec t dt).
Proof.
move=> H; have [_ /(_ dt H)] := ker_good t; rewrite /step_cov => H'; rewrite /spec /=.
move: Hjit; rewrite le_eqVlt => /orP [/eqP <-|Hj]; first by rewrite scale0r addr0.
by apply: spdD => //; rewrite scalemx1; apply/spd_psd/spd_scalar.
Qed.

Lemma pw_law n times : size times = n.+1 -> sorted <%R times -> all (@in_range F) times ->
  let z := nth 0 times in
  exists S, [/\ pw_state_space_model kernels cps jitter times = Some S, ssm_nonsing n S &
    has_law n.+1 n.+1 (ssm_path S) (chain_path (sde_A spec z) (sde_u spec z)) (chain_cov (sde_A spec z) (sde_Q spec z))].
Proof.
move=> Es Hs Hr z; have Hz := increasing_nth Es Hs.
have [S [S' [E E' Hns Hp]]] := pw_ssmE Es (sub_sorted (@ltW _ _) Hs) Hr.
have [S'' [E'' H1 H2]] := sde_law Hz (spec_P0 _) (fun i (Hi : (i < n)%N) => spec_cov (nth 0 times i) (etrans (subr_gt0 _ _) (Hz i Hi))).
exists S; split=> //.
- by apply: Hns; move: E''; rewrite E' => -[->].
by apply: has_law_path H2 => eps i Hi; move: E''; rewrite E' => -[<-]; apply: Hp.
Qed.

Lemma pw_law_unique n times S m K : size times = n.+1 -> sorted <%R times -> all (@in_range F) times ->
  pw_state_space_model kernels cps jitter times = Some S -> has_law n.+1 n.+1 (ssm_path S) m K ->
  let z := nth 0 times in
  (forall i, (i <= n)%N -> m i = chain_path (sde_A spec z) (sde_u spec z) i) /\
  (forall i j, (i <= n)%N -> (j <= n)%N -> K i j = chain_cov (sde_A spec z) (sde_Q spec z) i j).
Proof.
move=> Es Hs Hr ES HL z; have [S' [ES' _ HL']] := pw_law Es Hs Hr.
move: ES'; rewrite ES => -[ESS]; rewrite -ESS in HL'.
by have [H1 H2] := has_law_unique HL HL'; split=> [i Hi|i j Hi Hj]; [apply: H1|apply: H2].
Qed.

(* the covariance of a state relaxes towards the steady state of the governing kernel *)
Lemma pw_relax n times S m K : size times = n.+1 -> sorted <%R times -> all (@in_range F) times ->
  pw_state_space_model kernels cps jitter times = Some S -> has_law n.+1 n.+1 (ssm_path S) m K ->
  let z := nth 0 times in
  [/\ m 0%N = 0, K 0%N 0%N = sk_P (ker (z 0%N)),
    forall i, (i < n)%N -> m i.+1 = sk_A (ker (z i)) (z i.+1 - z i) *m m i + sk_off (ker (z i)) (z i.+1 - z i),
    forall i, (i < n)%N -> K i.+1 i.+1 = sk_P (ker (z i)) +
      sk_A (ker (z i)) (z i.+1 - z i) *m (K i i - sk_P (ker (z i))) *m (sk_A (ker (z i)) (z i.+1 - z i))^T
      + jitter *: 1%:M &
    forall i j, (j <= i)%N -> (i < n)%N -> K i.+1 j = sk_A (ker (z i)) (z i.+1 - z i) *m K i j].
Proof.
move=> Es Hs Hr ES HL z; have [Hm HK] := pw_law_unique Es Hs Hr ES HL; split.
- by rewrite Hm.
- by rewrite HK // chain_cov_diag.
- by move=> i Hi; rewrite (Hm _ Hi) (Hm _ (ltnW Hi)).
- move=> i Hi; rewrite (HK _ _ Hi Hi) (HK _ _ (ltnW Hi) (ltnW Hi)) !chain_cov_diag [LHS]/= -/z.
  by rewrite mulmxBr mulmxBl /ker /=; zmod.
move=> i j Hji Hi; rewrite (HK i.+1 j Hi (leq_trans Hji (ltnW Hi))) (HK i j (ltnW Hi) (leq_trans Hji (ltnW Hi))) /chain_cov Hji (leqW Hji).
by rewrite subSn // [phi _ _ _]/= subnKC // -mulmxA.
Qed.

(* ... and stays there as long as that kernel governs *)
Lemma pw_steady n times S m K i : jitter = 0 -> size times = n.+1 -> sorted <%R times -> all (@in_range F) times ->
  pw_state_space_model kernels cps jitter times = Some S -> has_law n.+1 n.+1 (ssm_path S) m K ->
  let z := nth 0 times in (i <= n)%N -> (forall j, (j <= i)%N -> active cps (z j) = active cps (z 0%N)) ->
  K i i = sk_P (ker (z i)).
Proof.
move=> Hj Es Hs Hr ES HL z Hi Hact; have [_ K0 _ KS _] := pw_relax Es Hs Hr ES HL.
rewrite -/z in K0 KS; rewrite /ker Hact //; elim: i Hi Hact => [|i IH] Hi Hact; first exact: K0.
have E : K i i = sk_P (nth k0 kernels (active cps (z 0%N))).
  by apply: IH (ltnW Hi) _ => j Hji; apply: Hact; lia.
by rewrite KS // /ker Hact // E subrr mulmx0 mul0mx Hj scale0r !addr0.
Qed.

End PW.

Section Insert.
Variable F : rcfType.
Variables o d : nat.
Variables (kernels : seq (skernel F o d)) (cps : seq F) (k0 : skernel F o d).
Hypothesis Hargs : pw_args kernels cps.
Hypothesis Hgood : forall k, List.In k kernels -> pw_process k.

Implicit Types (times : seq F) (t : F).

Let spec := pw_spec k0 kernels cps 0.
Let ker t := nth k0 kernels (active cps t).

Lemma ker_In t : List.In (ker t) kernels.
Proof.
rewrite /ker; case: Hargs => _ Hk _ _; move: (leq_ltn_trans (active_le cps t) Hk) => {Hk}.
move: (active cps t); elim: kernels => // k ks IH [|i] /= H; [by left|right; exact: IH].
Qed.

Lemma insert_sorted n times l t : size times = n.+1 -> (l < n)%N -> sorted <%R times ->
  nth 0 times l < t -> t < nth 0 times l.+1 -> sorted <%R (take l.+1 times ++ t :: drop l.+1 times).
Proof.
move=> Es Hl Hs H1 H2; rewrite (drop_nth 0) ?Es ?ltnS //.
have Hs' := Hs; rewrite -(cat_take_drop l.+1 times) in Hs'.
rewrite (drop_nth 0) ?Es ?ltnS // in Hs'.
have Hlast x : last x (take l.+1 times) = nth 0 times l.
  by rewrite (take_nth 0) ?Es ?last_rcons //; lia.
case: (take l.+1 times) Hs' Hlast => [|a s] /=; first by rewrite H2 => -> /=.
rewrite !cat_path => /andP [-> /=] /andP [_ ->] Hlast.
by rewrite Hlast // H1 H2.
Qed.

Lemma insert_nth n times l t i : size times = n.+1 -> (l < n)%N ->
  nth 0 (take l.+1 times ++ t :: drop l.+1 times) i = insert_time (nth 0 times) l t i.
Proof.
move=> Es Hl; rewrite nth_cat size_takel ?Es; last by lia.
rewrite /insert_time ltnS; case: leqP => Hi; first by rewrite nth_take.
case: eqP => [->|NE]; first by rewrite subnn.
have -> : (i - l.+1 = (i.-1 - l.+1).+1)%N by lia.
by rewrite /= nth_drop; congr nth; lia.
Qed.

Lemma pw_refine n times l t S S' m K m' K' : size times = n.+1 -> sorted <%R times -> all (@in_range F) times ->
  (l < n)%N -> nth 0 times l < t -> t < nth 0 times l.+1 -> active cps t = active cps (nth 0 times l) ->
  pw_state_space_model kernels cps 0 times = Some S ->
  pw_state_space_model kernels cps 0 (take l.+1 times ++ t :: drop l.+1 times) = Some S' ->
  has_law n.+1 n.+1 (ssm_path S) m K -> has_law n.+2 n.+2 (ssm_path S') m' K' ->
  let skip i := if (i <= l)%N then i else i.+1 in
  (forall i, (i <= n)%N -> m' (skip i) = m i) /\
  (forall i j, (i <= n)%N -> (j <= n)%N -> K' (skip i) (skip j) = K i j).
Proof.
move=> Es Hs Hr Hl H1 H2 Hact ES ES' HL HL'.
have Hg k : List.In k kernels -> pw_good k by move=> /Hgood [].
have Hz := increasing_nth Es Hs.
set times' := take l.+1 times ++ t :: drop l.+1 times in ES' *.
have Es' : size times' = n.+2.
  by rewrite size_cat /= size_drop size_takel ?Es //; lia.
have Hs' : sorted <%R times' := insert_sorted Es Hl Hs H1 H2.
have Hrt : in_range t.
  have Ha i : (i <= n)%N -> in_range (nth 0 times i) by move=> Hi; apply: (allP Hr); rewrite mem_nth // Es.
  have /andP [Ha1 _] := Ha l (ltnW Hl); have /andP [_ Ha2] := Ha l.+1 Hl.
  by rewrite /in_range (le_trans Ha1 (ltW H1)) (lt_trans H2 Ha2).
have Hr' : all (@in_range F) times'.
  by rewrite all_cat /= Hrt -all_cat cat_take_drop.
have [T [T0 [E E0 _ Hp]]] := pw_ssmE k0 0 Hargs Es (sub_sorted (@ltW _ _) Hs) Hr.
have [T' [T0' [E' E0' _ Hp']]] := pw_ssmE k0 0 Hargs Es' (sub_sorted (@ltW _ _) Hs') Hr'.
have {}HL : has_law n.+1 n.+1 (ssm_path T0) m K.
  by move: E; rewrite ES => -[ET]; apply: has_law_path HL => eps i Hi; rewrite Hp // ET.
have {}HL' : has_law n.+2 n.+2 (ssm_path T0') m' K'.
  by move: E'; rewrite ES' => -[ET]; apply: has_law_path HL' => eps i Hi; rewrite Hp' // ET.
have Hcov u dt : 0 < dt -> spd (k_cov spec u dt) := @spec_cov F o d kernels cps k0 0 Hargs Hg (lexx 0) u dt.
have Ha : 0 < t - nth 0 times l by rewrite subr_gt0.
have Hb : 0 < nth 0 times l.+1 - t by rewrite subr_gt0.
have Eab : nth 0 times l.+1 - nth 0 times l = (t - nth 0 times l) + (nth 0 times l.+1 - t).
  by rewrite [RHS]addrC addrA subrK.
have [_ Hsemi Hoff] := Hgood (ker_In (nth 0 times l)).
apply: (sde_refine (z := nth 0 times) (z' := nth 0 times') (t := t) Hz _ Hl H1 H2 _ _ _ _ _ _ _ E0 E0' HL HL').
- by move=> i _; apply: insert_nth Es Hl.
- exact: (@spec_P0 F o d kernels cps k0 0 Hargs Hg).
- by move=> i Hi; apply: Hcov; rewrite subr_gt0; apply: Hz.
- exact: Hcov.
- exact: Hcov.
- by rewrite /= Hact Eab Hsemi.
- rewrite /= Hact Eab Hsemi // !scale0r !addr0 trmx_mul mulmxBr mulmxBl !mulmxA.
  by rewrite [RHS]addrC addrA subrK.
by rewrite /= Hact Eab Hoff.
Qed.

End Insert.

Section Statements.
Variable F : rcfType.
Implicit Types (cps times deltas : seq F).

Lemma sorted_all o d (kernels : seq (skernel F o d)) cps k0 jitter times deltas :
  pw_args kernels cps -> size deltas = size times -> sorted <=%R times -> all (@in_range F) times ->
  let ker t := nth k0 kernels (active cps t) in
  [/\ pw_state_transitions kernels cps times deltas = Some [seq sk_A (ker x.1) x.2 | x <- zip times deltas],
      pw_state_offsets kernels cps times deltas = Some [seq sk_off (ker x.1) x.2 | x <- zip times deltas],
      pw_emission kernels cps times = Some [seq sk_H (ker t) t | t <- times] &
      pw_transition_statistics kernels cps jitter times deltas =
        Some ([seq sk_A (ker x.1) x.2 | x <- zip times deltas],
              [seq sk_P (ker x.1) - sk_A (ker x.1) x.2 *m sk_P (ker x.1) *m (sk_A (ker x.1) x.2)^T + jitter *: 1%:M
                 | x <- zip times deltas])].
Proof.
move=> Ha Es Hs Hr ker; split.
- exact: by_segment_sorted.
- exact: by_segment_sorted.
- by rewrite (emissionE k0) // grouped_sorted // map_id.
- exact: transition_statisticsE.
Qed.

Lemma activeP cps t i : sorted <=%R cps -> active cps t = i <->
  [/\ (i <= size cps)%N, forall j, (j < i)%N -> nth 0 cps j <= t & forall j, (i <= j)%N -> (j < size cps)%N -> t < nth 0 cps j].
Proof.
move=> Hs; rewrite /active -find_count //; split.
- move=> <-; split; first exact: find_size.
  + by move=> j /(before_find 0) H; rewrite leNgt H.
  + move=> j Hij Hj; have Hh : has (fun c => t < c) cps by rewrite has_find (leq_ltn_trans Hij).
    apply: lt_le_trans (nth_find 0 Hh) _; apply: (sorted_leq_nth (@le_trans _ _) (@le_refl _ _)) => //.
    by rewrite inE -has_find.
move=> [Hi H1 H2]; apply/eqP; rewrite eqn_leq; apply/andP; split; rewrite leqNgt; apply/negP => H.
- have Hi' : (i < size cps)%N by apply: leq_trans H (find_size _ _).
  by have := before_find 0 H; rewrite H2.
have Hh : has (fun c => t < c) cps by rewrite has_find; apply: leq_trans H Hi.
by have := nth_find 0 Hh; rewrite ltNge H1.
Qed.

Lemma no_change_points o d (kernels : seq (skernel F o d)) t times deltas :
  pw_state_transitions kernels [::] (t :: times) deltas = None.
Proof. by rewrite /pw_state_transitions /by_segment /split_input /ext_dynamic_partition /= andbF. Qed.

Lemma pw_law_rec o d (kernels : seq (skernel F o d)) cps k0 jitter n times :
  pw_args kernels cps -> (forall k, List.In k kernels -> pw_good k) -> 0 <= jitter ->
  size times = n.+1 -> sorted <%R times -> all (@in_range F) times ->
  let z := nth 0 times in let ker t := nth k0 kernels (active cps t) in
  exists S m K, [/\ pw_state_space_model kernels cps jitter times = Some S, ssm_nonsing n S,
    has_law n.+1 n.+1 (ssm_path S) m K &
  [/\ m 0%N = 0, K 0%N 0%N = sk_P (ker (z 0%N)),
    forall i, (i < n)%N -> m i.+1 = sk_A (ker (z i)) (z i.+1 - z i) *m m i + sk_off (ker (z i)) (z i.+1 - z i),
    forall i, (i < n)%N -> K i.+1 i.+1 = sk_P (ker (z i)) +
      sk_A (ker (z i)) (z i.+1 - z i) *m (K i i - sk_P (ker (z i))) *m (sk_A (ker (z i)) (z i.+1 - z i))^T
      + jitter *: 1%:M &
    forall i j, (j <= i)%N -> (i < n)%N -> K i.+1 j = sk_A (ker (z i)) (z i.+1 - z i) *m K i j]].
Proof.
move=> Ha Hg Hj Es Hs Hr z ker; have [S [E Hn HL]] := pw_law k0 Ha Hg Hj Es Hs Hr.
pose kr := pw_spec k0 kernels cps jitter.
exists S, (chain_path (sde_A kr z) (sde_u kr z)), (chain_cov (sde_A kr z) (sde_Q kr z)).
split; [exact: E|exact: Hn|exact: HL|].
exact: (pw_relax k0 Ha Hg Hj Es Hs Hr E HL).
Qed.

Lemma raises_iff o d (kernels : seq (skernel F o d)) cps times deltas :
  pw_args kernels cps -> size deltas = size times ->
  pw_state_transitions kernels cps times deltas = None <-> ~~ all (@in_range F) times.
Proof.
case: kernels => [|k0 ks] Ha Es; last exact: (by_segment_fail k0 Ha).
by case: Ha => _; rewrite ltn0.
Qed.

Lemma grouped_transitions o d (kernels : seq (skernel F o d)) cps k0 times deltas :
  pw_args kernels cps -> size deltas = size times -> all (@in_range F) times ->
  pw_state_transitions kernels cps times deltas =
  Some [seq sk_A (nth k0 kernels (active cps x.1)) x.2 |
    x <- flatten [seq [seq x <- zip times deltas | active cps x.1 == k] | k <- iota 0 (size cps).+1]].
Proof. by move=> Ha Es Hr; rewrite /pw_state_transitions (by_segmentE k0). Qed.
End Statements.
