(* Proofs for M_SPep.v: data at the inducing points, and a single data point. *)
From Coq Require Import Reals Lra FunctionalExtensionality.
From mathcomp Require Import all_ssreflect all_algebra.
From Verif Require Import MCalc RealStruct Nat Alg Lin Ent Spd Log M_Block S_Block P_Block M_SSM S_SSM P_SSM M_SSMLog P_SSMLog S_Gauss P_Gauss
  M_Trans S_Trans P_Trans S_Kalman M_Kalman P_Kalman P_KalmanLog M_Kernel S_Kernel P_Kernel M_Cond P_Cond P_Cond2 P_Cond3 P_Cond4
  M_Emission P_Emission M_Sort P_Sort M_Models S_GP P_Elbo P_Models P_Models2 M_Cvi S_Cvi P_Cvi P_Cvi3 P_Cvi4 M_Pep S_Pep P_Block2 P_Pep P_Pep2 P_Pep3 P_Pep4
  M_SPep S_SPep P_SPep P_SPep2 P_SPep3 P_SPep4 P_SPep5.
Set Implicit Arguments.
Unset Strict Implicit.
Unset Printing Implicit Defensive.
Import GRing.Theory Num.Theory Order.TTheory.
Local Open Scope ring_scope.

(* the variance left between two inducing points *)
Lemma inner_resid (F : rcfType) d (ker : sde_kernel F d) n z k t : markov_kernel ker -> increasing n.+1 z -> (k < n)%N ->
  z k < t -> t < z k.+1 ->
  let Kzz := dense n.+1 n.+1 (fun i j => state_cov ker (z i) (z j)) in
  let Ktz := brow n.+1 (fun j => state_cov ker t (z j)) in
  spd (k_P0 ker t - Ktz *m invmx Kzz *m Ktz^T).
Proof.
move=> Hker Hz Hk H1 H2 Kzz Ktz.
have [D [E [T [ES HTs HR HT]]]] := kernel_conditional Hker Hz Hk H1 H2.
have uK : Kzz \in unitmx by apply: Kzz_unit.
have sK : Kzz^T = Kzz by rewrite /Kzz tr_dense; apply: eq_dense => i j _ _; exact: state_cov_tr.
have rowDE q (c : nat -> 'M[F]_(d, q)) : brow n.+1 (Jb k D E k.+1) *m bcol n.+1 c = D *m c k + E *m c k.+1.
  by rewrite mul_brow_bcol Jrow.
have KJ : Ktz = brow n.+1 (Jb k D E k.+1) *m Kzz.
  rewrite /Kzz /dense rowDE !mul_mx_brow browD; apply: eq_brow => j Hj.
  have := HR (skip k j); rewrite insert_skip (skip_neq Hk); apply=> //.
  exact: (skip_lt Hk).
set Jr := brow n.+1 _ in KJ.
have Et : k_P0 ker t = T + Jr *m Kzz *m Jr^T.
  rewrite -state_cov_diag // HT addrC; congr (_ + _).
  rewrite -KJ /Ktz /Jr tr_brow mul_brow_bcol.
  have -> : \sum_(l < n.+1) state_cov ker t (z l) *m (Jb k D E k.+1 l)^T =
            (\sum_(l < n.+1) Jb k D E k.+1 l *m state_cov ker (z l) t)^T.
    by rewrite raddf_sum /=; apply: eq_bigr => l _; rewrite trmx_mul state_cov_tr.
  have -> := Jrow Hk D E (fun l => state_cov ker (z l) t).
  move: HT; set X := D *m _ + _ => HT.
  have := congr1 trmx HT; rewrite [RHS]trmxD state_cov_tr // HT (spd_sym HTs).
  by move/addIr.
by rewrite Et KJ trmx_mul sK mulmxK // !mulmxA addrK.
Qed.

Section SPep.
Variables (d : nat) (ker : sde_kernel Rr d) (emission : R -> 'M[R]_(1, d)).
Hypothesis Hker : markov_kernel ker.
Hypothesis Hm0 : k_mean0 ker = 0.
Variables (n : nat) (z : nat -> R).
Hypothesis Hz : increasing n.+1 z.
Let Kzz := x_gram ker n.+1 z.

Lemma unexplained_inner k t : (k < n)%N -> z k < t -> t < z k.+1 -> emission t != 0 -> 0 < unexplained ker emission n z t.
Proof.
move=> Hk H1 H2 He; have [_ P] := inner_resid Hker Hz Hk H1 H2.
have := P (emission t)^T; rewrite /qf trmxK /unexplained /f_cov (@state_cov_diag Rr d ker t Hker).
rewrite -[dense n.+1 n.+1 (fun i j => state_cov ker (z i) (z j))]/Kzz -/Kzz mulmxBr mulmxBl trmx_mul !mulmxA; apply.
by apply: contra He => /eqP H; rewrite -(trmxK (emission t)) H trmx0.
Qed.

(* the covariance of f at an inducing point *)
Lemma at_sel i (H : 'M[R]_(1, d)) : (i <= n)%N ->
  H *m brow n.+1 (fun j => state_cov ker (z i) (z j)) = H *m sel d n i *m Kzz.
Proof. by move=> Hi; rewrite -mulmxA /Kzz /x_gram /dense (@sel_bcol d n i Hi). Qed.

Lemma sel_self i : (i <= n)%N -> sel d n i *m (sel d n i)^T = 1%:M.
Proof. by move=> Hi; rewrite {2}/sel tr_brow (@sel_bcol d n i Hi) eqxx trmx1. Qed.

Lemma unexplained_at i : (i <= n)%N -> unexplained ker emission n z (z i) = 0.
Proof.
move=> Hi; have PK : spd Kzz by exact: Kzz_spd.
rewrite /unexplained -/Kzz (at_sel _ Hi) mulmxK ?spd_unit // trmx_mul (spd_sym PK) mulmxA.
have -> : emission (z i) *m sel d n i *m Kzz *m (emission (z i) *m sel d n i)^T = f_cov ker emission (z i) (z i).
  rewrite /f_cov trmx_mul -(sel_cross (fun i j => state_cov ker (z i) (z j)) Hi Hi) !mulmxA; reflexivity.
by rewrite subrr mxE.
Qed.

Section Data.
Variables (N : nat) (X : nat -> R).
Let Kfz := fx_gram ker emission N n.+1 X z.
Let Kff := f_gram ker emission N N X X.
Let Qff := Kfz *m invmx Kzz *m Kfz^T.

Lemma exact_form (s2 : R) Y : let G := Kfz *m invmx Kzz in
  cond_mean 0 Kzz G s2%:M Y = Kfz^T *m invmx (Qff + s2%:M) *m Y /\
  cond_cov Kzz G s2%:M = Kzz - Kfz^T *m invmx (Qff + s2%:M) *m Kfz.
Proof.
have PK : spd Kzz by exact: Kzz_spd.
have uK : Kzz \in unitmx by exact: spd_unit.
have E : Kzz *m (Kfz *m invmx Kzz)^T = Kfz^T by rewrite trmx_mul tr_invmx (spd_sym PK) mulmxA mulmxV // mul1mx.
have E' : Kfz *m invmx Kzz *m Kzz = Kfz by rewrite mulmxKV.
have E'' : Kfz *m invmx Kzz *m Kzz *m (Kfz *m invmx Kzz)^T = Qff by rewrite -mulmxA E.
split; rewrite /cond_mean /cond_cov E'' E; first by rewrite add0r mulmx0 subr0.
by rewrite -[_ *m Kzz]mulmxA E'.
Qed.

Lemma inducing_gram (i : nat -> nat) : (forall k, (k < N)%N -> (i k <= n)%N /\ X k = z (i k)) -> Qff = Kff.
Proof.
move=> Hi; have PK : spd Kzz by exact: Kzz_spd.
pose S := bcol N (fun k => emission (X k) *m sel d n (i k)).
have EK : Kfz = S *m Kzz.
  rewrite /Kfz /fx_gram /dense /S mul_bcol_mx; apply: eq_bcol => k Hk; have [H1 H2] := Hi k Hk.
  by rewrite -mul_mx_brow H2 (at_sel _ H1).
rewrite /Qff EK mulmxK ?spd_unit // trmx_mul (spd_sym PK) mulmxA /S tr_bcol mul_mx_brow mul_bcol_mx.
rewrite /Kff /f_gram dense_cols; apply: eq_brow => b Hb; have [H1 H2] := Hi b Hb.
rewrite mul_bcol_mx; apply: eq_bcol => a Ha; have [H3 H4] := Hi a Ha.
have Ex : state_cov ker (X a) (X b) = state_cov ker (z (i a)) (z (i b)) by rewrite H4 H2.
rewrite /f_cov trmx_mul Ex -(sel_cross (fun i j => state_cov ker (z i) (z j)) H3 H1) !mulmxA; reflexivity.
Qed.
End Data.

Section Energy.
Hypothesis Hn : (0 < n)%N.
Hypothesis Hinf : - APPROX_INF Rr < z 0%N.
Variables (N : nat) (X Y : nat -> R) (s2 : R).
Hypothesis HX : forall k, (k < N)%N -> z 0%N <= X k <= z n.
Hypothesis s2_gt0 : 0 < s2.
Let Yv := flat N (fun k => const_mx (Y k) : 'cV[R]_1).
Let Kfz := fx_gram ker emission N n.+1 X z.
Let Kff := f_gram ker emission N N X X.
Let Qff := Kfz *m invmx Kzz *m Kfz^T.
Variable st : spep_state d.
Hypothesis Hs : valid_pairs n (sp_sites st).
Hypothesis Hf : first_site ker (sp_sites st).
Notation upd alpha lr := (spep_update_sites ker emission (pep_gaussian_led s2) (pep_gaussian_grads s2) n z alpha lr N X Y).
Notation energy s := (spep_energy ker emission (pep_gaussian_led s2) n z 1 N X Y s).
Notation cavity s := (spep_cavity ker emission n z 1 N X s).

Lemma unit_sites : exists st', [/\ upd 1 1 st = Some st', valid_pairs n (sp_sites st'), first_site ker (sp_sites st') &
  forall u m, (m <= n.+1)%N -> site_exponent n (sp_sites st') u m = \sum_(k < N | below n z (X k) == m)
  (let p := projected ker emission n z (X k) u in Y k / s2 * p + - (2%:R * s2)^-1 * p ^+ 2)].
Proof.
have H1 : 0 <= (1 : R) <= 1 by rewrite ler01 lexx.
have [st' [E1 E2 E3 E4]] := spep_gauss_update emission Hker Hm0 Hz Hn Hinf HX Y s2_gt0 H1 H1 Hs Hf.
exists st'; split=> // u m Hm; have [_ E5] := E4 u; rewrite (E5 m Hm) mulr1 subrr mul0r add0r mul1r; reflexivity.
Qed.

(* at most one data point in every interval *)
Lemma mean_single k : (k < N)%N -> (share n z N X (below n z (X k)) <= 1)%N -> interval_mean n z N X Y (X k) = Y k.
Proof.
move=> Hk H; have E : share n z N X (below n z (X k)) = 1%N.
  apply/eqP; rewrite eqn_leq H /share -has_count; apply/hasP; exists k; first by rewrite mem_iota.
  by rewrite eqxx.
rewrite /interval_mean E divr1 (bigD1 (Ordinal Hk)) ?eqxx //= big1 ?addr0 // => j /andP [/eqP Ej Nj].
move: E; rewrite /share.
have : (1 < count (fun j0 => below n z (X j0) == below n z (X k)) (iota 0 N))%N.
  rewrite -sum1_count -(subn0 N) -/(index_iota 0 N) big_mkord (bigD1 (Ordinal Hk)) ?eqxx //= (bigD1 j) ?Ej ?eqxx //=.
by move=> L E; rewrite E in L.
Qed.

Lemma same_single j k : (j < N)%N -> (k < N)%N -> (forall m, (share n z N X m <= 1)%N) ->
  below n z (X j) = below n z (X k) -> j = k.
Proof.
move=> Hj Hk H E; apply/eqP; apply/negPn; apply/negP => Nj.
have := H (below n z (X k)); rewrite /share.
rewrite -sum1_count -(subn0 N) -/(index_iota 0 N) big_mkord (bigD1 (Ordinal Hk)) ?eqxx //= (bigD1 (Ordinal Hj)) //=.
by rewrite E eqxx.
Qed.

Lemma energy_single : (forall m, (share n z N X m <= 1)%N) -> exists st' f, [/\ upd 1 1 st = Some st',
  cavity (sp_sites st') = Some f, forall k, (k < N)%N -> unexplained ker emission n z (X k) <= (f k).2 &
  energy (sp_sites st') = Some (gauss_logpdf 0 (Qff + s2%:M) Yv +
    \sum_(k < N) (ext_logdensity_gaussian (Y k) (f k).1 (s2 + (f k).2) -
      ext_logdensity_gaussian (Y k) (f k).1 (s2 + (f k).2 - unexplained ker emission n z (X k))))].
Proof.
move=> H1; have [st' [E1 E2 E3 E4]] := unit_sites.
have Hsame j k : (j < N)%N -> (k < N)%N -> below n z (X j) = below n z (X k) -> X j = X k.
  by move=> Hj Hk E; rewrite (same_single Hj Hk H1 E).
have [f [F1 F2 F3]] := spep_energy_law Hker Hm0 Hz Hn Hinf HX s2_gt0 E2 E3 E4 Hsame.
exists st', f; split; [exact: E1|exact: F1|by move=> k Hk; rewrite -subr_ge0; have [] := F2 k Hk|].
rewrite F3; congr (Some (_ + _)); apply: eq_bigr => k _.
by case: (f k) => mu v; cbv zeta; rewrite mean_single // subrr mul0r addr0.
Qed.

(* every data point at an inducing point *)
Hypothesis Hind : forall k, (k < N)%N -> exists2 i, (i <= n)%N & X k = z i.

Lemma below_at i : (i <= n)%N -> below n z (z i) = i.
Proof. by move=> Hi; rewrite (below_searchsorted _ Hz); have [] := @stats_at Rr d ker n z Hker Hz i Hi Hinf. Qed.

Lemma same_inducing j k : (j < N)%N -> (k < N)%N -> below n z (X j) = below n z (X k) -> X j = X k.
Proof.
move=> Hj Hk; have [a Ha ->] := Hind Hj; have [b Hb ->] := Hind Hk.
by rewrite !below_at // => ->.
Qed.

Lemma cavity_same s f j k : cavity s = Some f -> X j = X k -> f j = f k.
Proof.
rewrite /spep_cavity; case: (spep_dist_q _ _ _ _) => // q [<-] E.
rewrite /spep_cavity_f /project_marginals_diag /project_state_to_f /project_cov_diag /spep_cavity_state /spep_cavity_nats; cbv beta zeta; cbn [fst snd]; by rewrite E.
Qed.

Lemma sum_intervals' (v : nat -> R) : \sum_(m < n.+2) \sum_(k < N | below n z (X k) == m) v k = \sum_(k < N) v k.
Proof. exact: sum_intervals. Qed.

Lemma mean_dev k : (k < N)%N -> \sum_(j < N | below n z (X j) == below n z (X k)) (Y j - interval_mean n z N X Y (X k)) = 0.
Proof.
move=> Hk; rewrite sumrB sumr_const /interval_mean.
have -> : #|[pred j : 'I_N | below n z (X j) == below n z (X k)]| = share n z N X (below n z (X k)).
  by rewrite /share -sum1_card -sum1_count -[in RHS](subn0 N) -/(index_iota 0 N) big_mkord.
rewrite -[X in _ - X]mulr_natl [X in _ - X]mulrC divfK ?subrr //.
rewrite pnatr_eq0 -lt0n /share -has_count; apply/hasP; exists k; first by rewrite mem_iota.
by rewrite eqxx.
Qed.

Lemma energy_inducing : exists st' f, [/\ upd 1 1 st = Some st',
  cavity (sp_sites st') = Some f, forall k, (k < N)%N -> 0 <= (f k).2 /\ (emission (X k) != 0 -> 0 < (f k).2) &
  energy (sp_sites st') = Some (gauss_logpdf 0 (Kff + s2%:M) Yv +
    \sum_(k < N) 2%:R^-1 * (Y k - interval_mean n z N X Y (X k)) ^+ 2 * (s2^-1 - (s2 + (f k).2)^-1))].
Proof.
have [st' [E1 E2 E3 E4]] := unit_sites.
have [f [F1 F2 F3]] := spep_energy_law Hker Hm0 Hz Hn Hinf HX s2_gt0 E2 E3 E4 same_inducing.
have U k : (k < N)%N -> unexplained ker emission n z (X k) = 0.
  by move=> Hk; have [i Hi ->] := Hind Hk; exact: unexplained_at.
exists st', f; split; [exact: E1|exact: F1| |].
  move=> k Hk; have [P1 P2] := F2 k Hk; rewrite U // subr0 in P1 P2; split; first exact: P1.
  move=> He; apply: P2; have [i Hi Ei] := Hind Hk.
  have PK : spd Kzz by exact: Kzz_spd.
  have EB : brow n.+1 (fun j => state_cov ker (X k) (z j)) = brow n.+1 (fun j => state_cov ker (z i) (z j)) by rewrite Ei.
  rewrite EB (at_sel _ Hi) mulmxK ?spd_unit //; apply: contra He => /eqP H.
  by apply/eqP; rewrite -(mulmx1 (emission _)) -[RHS](mul0mx _ (sel d n i)^T) -H -mulmxA (sel_self Hi).
have EQ : fx_gram ker emission N n.+1 X z *m invmx (x_gram ker n.+1 z) *m (fx_gram ker emission N n.+1 X z)^T = Kff.
  apply: (@inducing_gram N X (fun k => below n z (X k))) => k Hk; have [i Hi E] := Hind Hk.
  by rewrite E below_at.
rewrite F3 EQ; congr (Some (_ + _)).
pose b k := interval_mean n z N X Y (X k).
pose D k := (Y k - b k) * (b k / s2 - (b k - (f k).1) / (s2 + (f k).2)).
transitivity (\sum_(k < N) (2%:R^-1 * (Y k - b k) ^+ 2 * (s2^-1 - (s2 + (f k).2)^-1) + D k)).
  apply: eq_bigr => k _; rewrite /D; case: (f k) => mu v; cbv zeta; rewrite U // subr0 -/(b k) /fst /snd.
  rewrite /ext_logdensity_gaussian invfM; move: (ln _) (ln _) (Y k) (b k) (s2^-1) ((s2 + v)^-1) => l1 l2 x y u w.
  eqR; toR_ops; rewrite !exprR halfR; field.
rewrite big_split /= -[RHS]addr0; congr (_ + _).
rewrite -sum_intervals'; apply: big1 => m _.
case: (pickP (fun k : 'I_N => below n z (X k) == m)) => [k /eqP Ek|H0]; last by rewrite big_pred0.
rewrite (eq_bigr (fun j : 'I_N => (Y j - b k) * (b k / s2 - (b k - (f k).1) / (s2 + (f k).2)))).
  by rewrite -mulr_suml -Ek mean_dev // mul0r.
move=> j /eqP Ej; rewrite /D /b.
have Ex : X j = X k by apply: same_inducing => //; rewrite Ej Ek.
by rewrite (cavity_same F1 Ex) Ex.
Qed.
End Energy.
End SPep.
