(* Proofs for M_SPep.v: energy and evidence, one data point, examples. *)
From Coq Require Import Reals Lra FunctionalExtensionality.
From mathcomp Require Import all_ssreflect all_algebra.
From Verif Require Import MCalc RealStruct Nat Alg Lin Ent Spd Log M_Block S_Block P_Block M_SSM S_SSM P_SSM M_SSMLog P_SSMLog S_Gauss P_Gauss
  M_Trans S_Trans P_Trans S_Kalman M_Kalman P_Kalman P_KalmanLog M_Kernel S_Kernel P_Kernel M_Cond P_Cond P_Cond2 P_Cond3 P_Cond4
  M_Emission P_Emission M_Sort P_Sort M_Models S_GP P_Elbo P_Models P_Models2 P_Models3 M_Comb S_Comb P_Comb M_KernelR P_KernelR M_Cvi S_Cvi P_Cvi P_Cvi3 P_Cvi4 M_Pep S_Pep P_Block2 P_Pep P_Pep2 P_Pep3 P_Pep4
  M_SPep S_SPep P_SPep P_SPep2 P_SPep3 P_SPep4 P_SPep5 P_SPep6.
Set Implicit Arguments.
Unset Strict Implicit.
Unset Printing Implicit Defensive.
Import GRing.Theory Num.Theory Order.TTheory.
Local Open Scope ring_scope.

Section SPep.
Variables (d : nat) (ker : sde_kernel Rr d) (emission : R -> 'M[R]_(1, d)).
Hypothesis Hker : markov_kernel ker.
Hypothesis Hm0 : k_mean0 ker = 0.
Variables (n : nat) (z : nat -> R).
Hypothesis Hz : increasing n.+1 z.
Hypothesis Hn : (0 < n)%N.
Hypothesis Hinf : - APPROX_INF Rr < z 0%N.
Let Kzz := x_gram ker n.+1 z.

Section Inducing.
Variables (N : nat) (X Y : nat -> R) (s2 : R).
Hypothesis s2_gt0 : 0 < s2.
Hypothesis Hind : forall k, (k < N)%N -> exists2 i, (i <= n)%N & X k = z i.
Let Yv := flat N (fun k => const_mx (Y k) : 'cV[R]_1).
Let Kff := f_gram ker emission N N X X.
Let Kfz := fx_gram ker emission N n.+1 X z.
Notation upd alpha lr := (spep_update_sites ker emission (pep_gaussian_led s2) (pep_gaussian_grads s2) n z alpha lr N X Y).
Notation energy s := (spep_energy ker emission (pep_gaussian_led s2) n z 1 N X Y s).
Variable st : spep_state d.
Hypothesis Hs : valid_pairs n (sp_sites st).
Hypothesis Hf : first_site ker (sp_sites st).

Lemma z_mono i j : (i <= j)%N -> (j <= n)%N -> z i <= z j.
Proof.
elim: j => [|j IH]; first by rewrite leqn0 => /eqP ->.
rewrite leq_eqVlt => /orP [/eqP -> //|H] Hj; apply: le_trans (IH H (ltnW Hj)) _.
by apply: ltW; apply: Hz.
Qed.

Lemma ind_range k : (k < N)%N -> z 0%N <= X k <= z n.
Proof. by move=> Hk; have [i Hi ->] := Hind Hk; rewrite !z_mono. Qed.

(* the posterior *)
Lemma posterior_inducing : exists st' q, [/\ upd 1 1 st = Some st', spep_dist_q ker n z (sp_sites st') = Some q &
  forall m K, has_law n.+1 n.+1 (ssm_path q) m K ->
  flat n.+1 m = Kfz^T *m invmx (Kff + s2%:M) *m Yv /\ dense n.+1 n.+1 K = Kzz - Kfz^T *m invmx (Kff + s2%:M) *m Kfz].
Proof.
have [st' [q [E1 E2 E3 _]]] := spep_unit emission Hker Hm0 Hz Hn Hinf ind_range Y s2_gt0 Hs Hf.
exists st', q; split=> // m K L; have [-> ->] := E3 m K L.
have [-> ->] := exact_form emission Hker Hz X s2 Yv.
have -> // : fx_gram ker emission N n.+1 X z *m invmx (x_gram ker n.+1 z) *m (fx_gram ker emission N n.+1 X z)^T = Kff.
apply: (@inducing_gram d ker emission Hker n z Hz N X (fun k => below n z (X k))) => k Hk; have [i Hi E] := Hind Hk.
by rewrite E (below_at Hker Hz Hinf Hi).
Qed.

Lemma term_ge0 (a v : R) : 0 <= v -> 0 <= 2%:R^-1 * a ^+ 2 * (s2^-1 - (s2 + v)^-1).
Proof.
move=> Hv; rewrite mulr_ge0 //; first by rewrite mulr_ge0 ?sqr_ge0 // invr_ge0 ler0n.
by rewrite subr_ge0 lef_pinv ?posrE ?ler_addl // ltr_paddr.
Qed.
Lemma term_gt0 (a v : R) : 0 < v -> a != 0 -> 0 < 2%:R^-1 * a ^+ 2 * (s2^-1 - (s2 + v)^-1).
Proof.
move=> Hv Ha; rewrite mulr_gt0 //; first by rewrite mulr_gt0 ?exprn_even_gt0 // invr_gt0 ltr0n.
by rewrite subr_gt0 ltf_pinv ?posrE ?ltr_addl // ltr_paddr // ltW.
Qed.

(* energy and evidence *)
Lemma energy_evidence : exists st' e, [/\ upd 1 1 st = Some st', energy (sp_sites st') = Some e,
  gauss_logpdf 0 (Kff + s2%:M) Yv <= e,
  (forall m, (share n z N X m <= 1)%N) -> e = gauss_logpdf 0 (Kff + s2%:M) Yv &
  forall j k, (j < N)%N -> (k < N)%N -> X j = X k -> Y j <> Y k -> emission (X k) != 0 ->
    gauss_logpdf 0 (Kff + s2%:M) Yv < e].
Proof.
have [st' [f [E1 E2 E3 E4]]] := energy_inducing emission Hker Hm0 Hz Hn Hinf Y ind_range s2_gt0 Hs Hf Hind.
exists st'; eexists; split; [exact: E1|exact: E4|..].
- rewrite ler_addl; apply: sumr_ge0 => k _; apply: term_ge0; have [] := E3 k (ltn_ord k); by [].
- move=> H; rewrite big1 ?addr0 // => k _; rewrite mean_single // subrr expr0n mulr0 mul0r; reflexivity.
move=> j k Hj Hk Ejk Ny He; rewrite ltr_addl.
have P i : (i < N)%N -> X i = X k -> Y i <> interval_mean n z N X Y (X k) ->
    0 < \sum_(k0 < N) 2%:R^-1 * (Y k0 - interval_mean n z N X Y (X k0)) ^+ 2 * (s2^-1 - (s2 + (f k0).2)^-1).
  move=> Hi Ei Ni; rewrite (bigD1 (Ordinal Hi)) //=; apply: ltr_paddr.
    by apply: sumr_ge0 => l _; apply: term_ge0; have [] := E3 l (ltn_ord l).
  apply: term_gt0; first by have [_] := E3 i Hi; rewrite Ei; exact.
  by rewrite Ei subr_eq0; apply/eqP.
case: (eqVneq (Y k) (interval_mean n z N X Y (X k))) => [Ek|/eqP Nk]; last exact: (P k Hk).
by apply: (P j Hj Ejk); rewrite -Ek.
Qed.
End Inducing.

(* one data point anywhere *)
Section Single.
Variables (t y s2 : R).
Hypothesis s2_gt0 : 0 < s2.
Hypothesis Ht : z 0%N <= t <= z n.
Let X (_ : nat) := t.
Let Kfz := fx_gram ker emission 1 n.+1 X z.
Let Kff := f_gram ker emission 1 1 X X.
Let Qff := Kfz *m invmx Kzz *m Kfz^T.
Notation upd alpha lr := (spep_update_sites ker emission (pep_gaussian_led s2) (pep_gaussian_grads s2) n z alpha lr 1 X (fun _ => y)).
Variable st : spep_state d.
Hypothesis Hs : valid_pairs n (sp_sites st).
Hypothesis Hf : first_site ker (sp_sites st).

Lemma dense11 (M : 'M[R]_1) : dense 1 1 (fun _ _ => M) = (M 0 0)%:M.
Proof.
rewrite -dense_scalar; apply: eq_dense => i j; rewrite !ltnS !leqn0 => /eqP -> /eqP ->.
by rewrite /rdiag eqxx [LHS]mx11_scalar.
Qed.

Let k0 := emission t *m brow n.+1 (fun j => state_cov ker t (z j)).
Let w := (k0 *m invmx Kzz *m k0^T) 0 0.
Lemma KfzE : Kfz = bcol 1 (fun _ => k0).
Proof. by rewrite /Kfz /fx_gram /dense; apply: eq_bcol => i _; rewrite /k0 mul_mx_brow. Qed.
Lemma Qff1 : Qff = w%:M.
Proof.
rewrite /Qff KfzE tr_bcol mul_mx_brow -dense11 dense_cols; apply: eq_brow => j _; rewrite -mulmxA mul_bcol_mx; apply: eq_bcol => i _.
by rewrite mulmxA.
Qed.
Lemma Kff1 : Kff = (w + unexplained ker emission n z t)%:M.
Proof.
rewrite /Kff /f_gram (@eq_dense _ 1 1 1 1 _ (fun _ _ => f_cov ker emission t t)) // dense11; congr (_ %:M).
rewrite /unexplained -/k0 -/Kzz [X in _ = _ + X]mxE [X in _ = _ + (_ + X)]mxE -/w; move: (f_cov _ _ _ _ _ _) w => a b; by rewrite addrCA subrr addr0.
Qed.

Lemma gram_eq0 (p : nat) (A : 'M[R]_(p, n.+1 * d)) : A^T *m A = 0 -> A = 0.
Proof.
move=> E; apply/matrixP => i j; rewrite [RHS]mxE; have := congr1 (fun M : 'M_(_, _) => M j j) E; rewrite !mxE => S.
have P : forall k : 'I_p, true -> 0 <= A k j ^+ 2 by move=> k _; exact: sqr_ge0.
have S' : \sum_k A k j ^+ 2 == 0 by rewrite -{2}S; apply/eqP; apply: eq_bigr => k _; rewrite mxE.
move: S'; rewrite psumr_eq0 // => /allP H; have := H i (mem_index_enum i); rewrite sqrf_eq0 => /eqP; exact.
Qed.

Lemma single_posterior : exists st' q, [/\ upd 1 1 st = Some st', spep_dist_q ker n z (sp_sites st') = Some q &
  forall m K, has_law n.+1 n.+1 (ssm_path q) m K ->
  dense n.+1 n.+1 K = Kzz - Kfz^T *m invmx (Kff + s2%:M) *m Kfz <->
  unexplained ker emission n z t = 0 \/ Kfz = 0].
Proof.
have HX k : (k < 1)%N -> z 0%N <= X k <= z n by [].
have [st' [q [E1 E2 E3 _]]] := spep_unit emission Hker Hm0 Hz Hn Hinf HX (fun _ => y) s2_gt0 Hs Hf.
exists st', q; split=> // m K L; have [_ ->] := E3 m K L.
have [_ ->] := exact_form emission Hker Hz X s2 (flat 1 (fun k => const_mx y : 'cV[R]_1)).
rewrite -/Kfz -/Kzz -/Qff Qff1 Kff1 -!raddfD !invmx_scalar !mul_mx_scalar -!scalemxAl.
split.
  move/addrI/oppr_inj/eqP; rewrite -subr_eq0 -scalerBl scaler_eq0 => /orP [/eqP H|/eqP /gram_eq0 ->]; last by right.
  left; move/eqP: H; rewrite subr_eq0 => /eqP /invr_inj.
  move: w (unexplained _ _ _ _ _) => a b; toR_ops => U; lra.
by case=> [-> | ->]; rewrite ?addr0 // trmx0 !mul0mx !scaler0.
Qed.
End Single.
End SPep.
