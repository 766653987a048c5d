(* Proofs for M_SPep.v: Gaussian likelihoods. *)
From Coq Require Import Reals Lra FunctionalExtensionality.
From mathcomp Require Import all_ssreflect all_algebra.
From Verif Require Import MCalc RealStruct Nat Alg Lin Ent Spd Log M_Block S_Block P_Block M_SSM S_SSM P_SSM M_SSMLog P_SSMLog S_Gauss P_Gauss
  M_Trans S_Trans P_Trans S_Kalman M_Kalman P_Kalman M_Kernel S_Kernel P_Kernel M_Cond P_Cond P_Cond2 P_Cond3 P_Cond4
  M_Emission P_Emission M_Sort P_Sort M_Models S_GP P_Elbo P_Models P_Models2 M_Cvi S_Cvi P_Cvi P_Cvi3 P_Cvi4 M_Pep S_Pep P_Block2 P_Pep P_Pep2 P_Pep3
  M_SPep S_SPep P_SPep P_SPep2.
Set Implicit Arguments.
Unset Strict Implicit.
Unset Printing Implicit Defensive.
Import GRing.Theory Num.Theory Order.TTheory.
Local Open Scope ring_scope.

Lemma collect_some (T : Type) M (f : nat -> option T) x0 (g : nat -> T) : (forall m, (m < M)%N -> f m = Some (g m)) ->
  exists2 h, collect M f x0 = Some h & forall m, (m < M)%N -> h m = g m.
Proof.
move=> H; exists (fun m => odflt x0 (f m)); last by move=> m Hm; rewrite H.
rewrite /collect; have -> : all (fun m => f m) (iota 0 M) = true => //.
by apply/allP => m; rewrite mem_iota add0n => /andP [_ Hm]; rewrite H.
Qed.

Section SPep.
Variables (d : nat) (ker : sde_kernel Rr d) (emission : R -> 'M[R]_(1, d)).
Hypothesis Hker : markov_kernel ker.
Hypothesis Hm0 : k_mean0 ker = 0.
Variables (n : nat) (z : nat -> R).
Hypothesis Hz : increasing n.+1 z.
Hypothesis Hn : (0 < n)%N.
Variables (N : nat) (X : nat -> R).

Lemma one_out_scale alpha (s : pair_sites d) m :
  spep_one_out n z alpha N X s m = scale_pair s m (1 - alpha * (share n z N X m)%:R^-1).
Proof.
rewrite /spep_one_out /scale_pair; congr PairSites; apply: functional_extensionality => j; rewrite (num_data_share Hz);
  (case: (eqVneq j m) => [->|_]; last by rewrite subr0 scale1r); rewrite [_^-1 * alpha]mulrC; reflexivity.
Qed.

Lemma power_any (alpha : R) m : 0 <= alpha <= 1 -> 0 <= 1 - alpha * (share n z N X m)%:R^-1.
Proof.
move=> /andP [a0 a1]; rewrite subr_ge0.
case: (share n z N X m) => [|c]; first by rewrite invr0 mulr0 ler01.
have H : 0 < c.+1%:R :> R by rewrite ltr0n.
by rewrite ler_pdivr_mulr // mul1r (le_trans a1) // ler1n.
Qed.

Lemma one_out_q (alpha : R) s m : 0 <= alpha <= 1 -> valid_pairs n s ->
  exists2 q, scvi_dist_q ker n z (scale_pair s m (1 - alpha * (share n z N X m)%:R^-1)) = Some q & ssm_nonsing n q.
Proof.
by move=> Ha Hs; apply: (spep_q_exists Hker Hm0 Hz Hn); apply: scale_valid => //; exact: power_any.
Qed.

Lemma log_norm_total led (alpha : R) Y s f q : 0 <= alpha <= 1 -> valid_pairs n s ->
  spep_cavity ker emission n z alpha N X s = Some f -> scvi_dist_q ker n z s = Some q ->
  exists2 l, spep_compute_log_norm ker emission led n z alpha N X Y s = Some l &
  forall m, exists2 qc, scvi_dist_q ker n z (scale_pair s m (1 - alpha * (share n z N X m)%:R^-1)) = Some qc &
    ((m <= n.+1)%N -> l m = (\sum_(k < N | ext_searchsorted (F := Rr) n.+1 z (X k) == m)
      (led alpha (f k).1 (f k).2 (Y k) + (ssm_normalizer n qc - ssm_normalizer n q))) / alpha).
Proof.
move=> Ha Hs Ef Eq.
have Hq m : exists qc, scvi_dist_q ker n z (scale_pair s m (1 - alpha * (share n z N X m)%:R^-1)) = Some qc.
  by have [qc E _] := one_out_q m Ha Hs; exists qc.
have G m : omap (fun q' => ssm_normalizer n q') (spep_dist_q ker n z (spep_one_out n z alpha N X s m)) =
  Some (if scvi_dist_q ker n z (scale_pair s m (1 - alpha * (share n z N X m)%:R^-1)) is Some qc then ssm_normalizer n qc else 0).
  by rewrite one_out_scale spep_dist_qE; have [qc ->] := Hq m.
have [h Eh Hh] := collect_some 0 (fun m (_ : (m < n.+2)%N) => G m).
eexists; first by rewrite /spep_compute_log_norm Ef spep_dist_qE Eq /Option.bind /Option.apply Eh; reflexivity.
move=> m; have [qc E] := Hq m; exists qc => // Hm; congr (_ / _); apply: eq_bigr => k /eqP Ek.
by rewrite /spep_objective Ek Hh // E.
Qed.

Hypothesis Hinf : - APPROX_INF Rr < z 0%N.
Hypothesis HX : forall k, (k < N)%N -> z 0%N <= X k <= z n.

Section Gauss.
Variables (s2 : R) (Y : nat -> R).
Hypothesis s2_gt0 : 0 < s2.
Let target u := \sum_(k < N) (let p := projected ker emission n z (X k) u in Y k / s2 * p + - (2%:R * s2)^-1 * p ^+ 2).
Let itarget u m := \sum_(k < N | below n z (X k) == m)
  (let p := projected ker emission n z (X k) u in Y k / s2 * p + - (2%:R * s2)^-1 * p ^+ 2).

Lemma gauss_gc_le0 mu v y : 0 <= v -> let g := pep_gaussian_grads s2 1 mu v y in (gradient_correction mu v g.1 g.2).2 <= 0.
Proof.
move=> Hv; cbv zeta; rewrite (gc_pep_gauss _ _ s2_gt0 Hv) /snd oppr_le0 invr_ge0 mulr_ge0 ?ler0n //; exact: ltW.
Qed.

Lemma spep_gauss_new (alpha lr : R) s : 0 <= alpha <= 1 -> 0 <= lr <= 1 -> valid_pairs n s -> first_site ker s -> exists s',
  [/\ spep_new_sites ker emission (pep_gaussian_grads s2) n z alpha lr N X Y s = Some s', valid_pairs n s', first_site ker s' &
   forall u, pairs_exponent n s' u = (1 - lr * alpha) * pairs_exponent n s u + lr * alpha * target u /\
   forall m, (m <= n.+1)%N -> site_exponent n s' u m = (1 - lr * alpha) * site_exponent n s u m + lr * alpha * itarget u m].
Proof.
move=> Ha Hlr Hs Hf.
have [f [s' [E1 E2 E3 [E4 E4'] E5]]] := spep_update emission Hker Hm0 Hz Hn Hinf HX Y Ha Hlr gauss_gc_le0 Hs Hf.
exists s'; split=> // u; have [E6 E7] := E5 u; split.
  by rewrite E6; congr (_ + _ * _); apply: eq_bigr => k _; cbv zeta; rewrite (gc_pep_gauss _ _ s2_gt0 (E2 k (ltn_ord k))).
by move=> m Hm; rewrite E7 //; congr (_ + _ * _); apply: eq_bigr => k _; cbv zeta; rewrite (gc_pep_gauss _ _ s2_gt0 (E2 k (ltn_ord k))).
Qed.

Notation upd alpha lr := (spep_update_sites ker emission (pep_gaussian_led s2) (pep_gaussian_grads s2) n z alpha lr N X Y).

Lemma cavity_total alpha s : valid_pairs n s -> exists f, spep_cavity ker emission n z alpha N X s = Some f.
Proof.
move=> Hs; have [q Eq _] := spep_q_exists Hker Hm0 Hz Hn Hs.
by rewrite /spep_cavity spep_dist_qE Eq; eexists; reflexivity.
Qed.

Lemma spep_gauss_update (alpha lr : R) st : 0 <= alpha <= 1 -> 0 <= lr <= 1 -> valid_pairs n (sp_sites st) -> first_site ker (sp_sites st) ->
  exists st', [/\ upd alpha lr st = Some st', valid_pairs n (sp_sites st'), first_site ker (sp_sites st') &
   forall u, pairs_exponent n (sp_sites st') u = (1 - lr * alpha) * pairs_exponent n (sp_sites st) u + lr * alpha * target u /\
   forall m, (m <= n.+1)%N -> site_exponent n (sp_sites st') u m = (1 - lr * alpha) * site_exponent n (sp_sites st) u m + lr * alpha * itarget u m].
Proof.
move=> Ha Hlr Hs Hf; have [s' [E1 E2 E3 E4]] := spep_gauss_new Ha Hlr Hs Hf.
have [f Ef] := cavity_total alpha E2; have [q Eq _] := spep_q_exists Hker Hm0 Hz Hn E2.
have [l El _] := log_norm_total (pep_gaussian_led s2) Y Ha E2 Ef Eq.
eexists; split; first by rewrite /spep_update_sites E1 /Option.bind /Option.apply El; reflexivity.
all: by [].
Qed.

Lemma spep_iterates (alpha lr : R) st r : 0 <= alpha <= 1 -> 0 <= lr <= 1 -> valid_pairs n (sp_sites st) -> first_site ker (sp_sites st) ->
  exists st', [/\ iter r (obind (upd alpha lr)) (Some st) = Some st', valid_pairs n (sp_sites st'), first_site ker (sp_sites st') &
   forall u, pairs_exponent n (sp_sites st') u - target u = (1 - lr * alpha) ^+ r * (pairs_exponent n (sp_sites st) u - target u)].
Proof.
move=> Ha Hlr Hs Hf; elim: r => [|r [s' [E1 E2 E2' E3]]].
  by exists st; split=> // u; rewrite expr0 mul1r.
have [s'' [F1 F2 F2' F3]] := spep_gauss_update Ha Hlr E2 E2'.
exists s''; split=> //; first by rewrite iterS E1.
move=> u; rewrite (F3 u).1 exprS; have := E3 u; set a := pairs_exponent n (sp_sites s') u; set b := (1 - _) ^+ r; set t := target u => E; rewrite -[_ * b * _]mulrA -E.
by crng.
Qed.

(* power and learning rate one: the optimum of the variational bound *)
Lemma spep_unit st : valid_pairs n (sp_sites st) -> first_site ker (sp_sites st) ->
  let Kzz := x_gram ker n.+1 z in let Kfz := fx_gram ker emission N n.+1 X z in
  let Kff := f_gram ker emission N N X X in let G := Kfz *m invmx Kzz in let Qff := G *m Kfz^T in
  let Yv := flat N (fun k => const_mx (Y k) : 'cV[R]_1) in
  exists st' q, [/\ upd 1 1 st = Some st', spep_dist_q ker n z (sp_sites st') = Some q,
    forall m K, has_law n.+1 n.+1 (ssm_path q) m K ->
      flat n.+1 m = cond_mean 0 Kzz G s2%:M Yv /\ dense n.+1 n.+1 K = cond_cov Kzz G s2%:M &
    spep_classic_elbo ker emission n z N X Y (ext_gaussian_ve1 s2) (sp_sites st') =
    Some (gauss_logpdf 0 (Qff + s2%:M) Yv - (2%:R * s2)^-1 * \tr (Kff - Qff))].
Proof.
move=> Hs Hf Kzz Kfz Kff G Qff Yv.
have H1 : 0 <= (1 : R) <= 1 by rewrite ler01 lexx.
have [st' [E1 E2 E3 E4]] := spep_gauss_update H1 H1 Hs Hf.
have E4' u : pairs_exponent n (sp_sites st') u = target u by rewrite (E4 u).1 mulr1 subrr mul0r add0r mul1r.
have [q [F1 F2 F3]] := scvi_exact Hker Hm0 Hz Hn s2_gt0 E2 E4'.
exists st', q; split=> //.
exact: (scvi_exact_elbo Hker Hm0 Hz Hn s2_gt0 E2 E4' Hinf HX).
Qed.
End Gauss.
End SPep.
