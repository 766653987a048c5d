(* Proofs: regression does not depend on the origin, the direction and the unit of time, nor on
   the unit of the observations. *)
From Coq Require Import Reals Lra.
From mathcomp Require Import all_ssreflect all_algebra.
From Verif Require Import RealStruct Nat Alg Lin Ent Spd Log M_Block M_SSM S_SSM P_SSM M_SSMLog P_SSMLog S_Gauss P_Gauss
  S_Kalman M_Kalman P_Kalman M_Kernel S_Kernel P_Kernel M_Comb S_Comb P_Comb P_Comb2 M_KernelR S_KernelR P_KernelR P_KernelR2 P_KernelR3
  M_Cond P_Cond P_Cond2 P_Cond4 M_Emission M_Sort M_Models S_GP P_Models P_Models3 M_Cvi S_Cvi P_Cvi P_Pep3 P_Density P_Expect.
Set Implicit Arguments.
Unset Strict Implicit.
Unset Printing Implicit Defensive.
Import GRing.Theory Num.Theory Order.POrderTheory.
Local Open Scope ring_scope.

Section Gen.
Variable F : rcfType.
Lemma inv_scaled m (S K : 'M[F]_m) (b : F) : S *m S^T = 1%:M -> b != 0 -> K \in unitmx ->
  invmx (b ^+ 2 *: (S *m K *m S^T)) = b ^- 2 *: (S *m invmx K *m S^T).
Proof.
move=> O Hb UK; apply: mulmx1_inv; rewrite -scalemxAl -scalemxAr scalerA mulfV ?expf_neq0 // scale1r.
by rewrite !mulmxA -(mulmxA (S *m K)) (mulmx1C O) mulmx1 -(mulmxA S) mulmxV // mulmx1 O.
Qed.

Lemma scaled_mean m p (S K : 'M[F]_m) (Kt : 'M[F]_(p, m)) (r : 'cV[F]_m) (b : F) : S *m S^T = 1%:M -> b != 0 -> K \in unitmx ->
  (b ^+ 2 *: (Kt *m S^T)) *m invmx (b ^+ 2 *: (S *m K *m S^T)) *m (b *: (S *m r)) = b *: (Kt *m invmx K *m r).
Proof.
move=> O Hb UK; rewrite inv_scaled // -!scalemxAl -!scalemxAr -scalemxAl !scalerA.
have -> : b ^+ 2 * (b / b ^+ 2) = b by rewrite mulrCA mulfV ?expf_neq0 // mulr1.
congr (_ *: _).
have -> : Kt *m S^T *m (S *m invmx K *m S^T) *m (S *m r) = Kt *m (S^T *m S) *m invmx K *m (S^T *m S) *m r by rewrite !mulmxA.
by rewrite (mulmx1C O) !mulmx1.
Qed.

Lemma scaled_cov m p (S K : 'M[F]_m) (Kt : 'M[F]_(p, m)) (b : F) : S *m S^T = 1%:M -> b != 0 -> K \in unitmx ->
  (b ^+ 2 *: (Kt *m S^T)) *m invmx (b ^+ 2 *: (S *m K *m S^T)) *m (b ^+ 2 *: (Kt *m S^T))^T = b ^+ 2 *: (Kt *m invmx K *m Kt^T).
Proof.
move=> O Hb UK; rewrite inv_scaled // trmxZ trmx_mul trmxK -!scalemxAl -!scalemxAr -scalemxAl !scalerA.
have -> : b ^+ 2 * (b ^+ 2 / b ^+ 2) = b ^+ 2 by rewrite mulfV ?expf_neq0 // mulr1.
congr (_ *: _).
have -> : Kt *m S^T *m (S *m invmx K *m S^T) *m (S *m Kt^T) = Kt *m (S^T *m S) *m invmx K *m (S^T *m S) *m Kt^T by rewrite !mulmxA.
by rewrite (mulmx1C O) !mulmx1.
Qed.

Lemma qf_scaled m (M : 'M[F]_m) (v : 'cV[F]_m) (b : F) : b != 0 -> qf (b ^- 2 *: M) (b *: v) = qf M v.
Proof.
move=> Hb; rewrite /qf trmxZ -!(scalemxAr, scalemxAl) !scalerA.
set c := (X in X *: _); have -> : c = 1; last by rewrite scale1r.
by rewrite /c mulrAC -expr2 mulfV ?expf_neq0.
Qed.

Lemma brow_pick p o N (a : nat -> nat) (f : nat -> 'M[F]_(p, o)) : (forall j, (j < N)%N -> (a j < N)%N) ->
  brow N f *m (@pick F o N N a)^T = brow N (fun j => f (a j)).
Proof.
move=> Ha; apply: trmx_inj; rewrite trmx_mul trmxK !tr_brow /pick mul_dense_bcol; apply: eq_bcol => j Hj.
by rewrite (sum_pick 1%:M (fun l => (f l)^T)) ?Ha // mul1mx.
Qed.
End Gen.

Lemma scaled_logpdf m (S K : 'M[R]_m) (mu y : 'cV[R]_m) (b : R) : S *m S^T = 1%:M -> 0 < b -> spd K ->
  gauss_logpdf (b *: (S *m mu)) (b ^+ 2 *: (S *m K *m S^T)) (b *: (S *m y)) = gauss_logpdf mu K y - m%:R * ln b.
Proof.
move=> O Hb HK; have UK : K \in unitmx by exact: (@spd_unit Rr).
have b0 : b != 0 by rewrite gt_eqF.
rewrite /gauss_logpdf (@inv_scaled Rr _ _ _ _ O b0 UK) -scalerBr -mulmxBr detZ.
have Ed : \det (S *m K *m S^T) = \det K.
  have := congr1 determinant O; rewrite det_mulmx det1 !det_mulmx => E; by rewrite mulrAC E mul1r.
have -> : qf (b ^- 2 *: (S *m invmx K *m S^T)) (b *: (S *m (y - mu))) = qf (invmx K) (y - mu).
  have -> : qf (b ^- 2 *: (S *m invmx K *m S^T)) (b *: (S *m (y - mu))) = qf (S *m invmx K *m S^T) (S *m (y - mu)).
    exact: (@qf_scaled Rr).
  by have := @qf_congr Rr _ _ (invmx K) S^T (S *m (y - mu)); rewrite trmxK => ->; rewrite mulmxA (mulmx1C O) mul1mx.
have D : 0 < \det K by exact: (@spd_det_gt0 Rr).
have -> : ln (b ^+ 2 ^+ m * \det (S *m K *m S^T)) = m%:R * (2%:R * ln b) + ln (\det K).
  by rewrite Ed lnM ?lnX ?exprn_gt0.
move: (ln _) (ln _) (ln _) (qf _ _) (m%:R) => a1 a2 a3 a4 a5; toR_ops; rewrite halfR twoR; field.
Qed.

Section Two.
Variables (o d d' : nat) (k : skernel Rr o d) (k' : skernel Rr o d').
Let ready d (k : skernel Rr o d) := [/\ library_kernel true k, sk_jitter k = 0, sk_mean0 k = 0 & noisy k].
Hypotheses (Hk : ready k) (Hk' : ready k').
Variables (mean mean' : R -> 'cV[R]_o) (n : nat) (z z' : nat -> R) (y y' : nat -> 'cV[R]_o) (cR cR' : 'M[R]_o) (new new' : nat -> R) (i : nat).
Variables (b : R) (a : nat -> nat).
Hypothesis Hb : 0 < b.
Hypothesis Ha : forall j, (j < n.+1)%N -> (a j < n.+1)%N.
Hypothesis Ia : forall j l, (j < n.+1)%N -> (l < n.+1)%N -> a j = a l -> j = l.
Hypothesis Hz : increasing (F := Rr) n.+1 z.
Hypothesis Hz' : increasing (F := Rr) n.+1 z'.
Hypothesis HR : lownz cR.
Hypothesis HR' : cR' = b *: cR.
Hypothesis Ey : forall j, (j < n.+1)%N -> y' j = b *: y (a j).
Hypothesis Em : forall j, (j < n.+1)%N -> mean' (z' j) = b *: mean (z (a j)).
Hypothesis EK : forall j l, (j < n.+1)%N -> (l < n.+1)%N -> fcov k' (z' j) (z' l) = b ^+ 2 *: fcov k (z (a j)) (z (a l)).

Let S := @pick Rr o n.+1 n.+1 a.
Lemma S_orth : S *m S^T = 1%:M.
Proof.
rewrite /S (@pick_id Rr _ _ _ _ _ _ true Ha Ha).
  by rewrite -[RHS](@dense1 Rr o n.+1); apply: eq_dense => j l _ _; rewrite /bdiag.
move=> j l Hj Hl; case: eqP => [/(Ia Hj Hl) ->|H]; first by rewrite eqxx.
by case: eqP => // E; case: H; rewrite E.
Qed.

Let Kyy := dense n.+1 n.+1 (fun i j => fcov k (z i) (z j)) + dense n.+1 n.+1 (rdiag (fun _ => cR *m cR^T)).
Let Kyy' := dense n.+1 n.+1 (fun i j => fcov k' (z' i) (z' j)) + dense n.+1 n.+1 (rdiag (fun _ => cR' *m cR'^T)).
Lemma lown' : lownz cR'.
Proof.
have [T D] := HR; rewrite HR'; split.
  by apply/is_trig_mxP => u v Huv; rewrite mxE (is_trig_mxP T) // mulr0.
by move=> u; rewrite mxE mulf_neq0 // gt_eqF.
Qed.

Lemma Kyy_eq : Kyy' = b ^+ 2 *: (S *m Kyy *m S^T).
Proof.
rewrite /Kyy /Kyy' !(@denseD Rr) (@pick_dense Rr _ _ _ _ _ _ _ Ha Ha) (@denseZ Rr).
apply: eq_dense => j l Hj Hl; rewrite EK // scalerDr; congr (_ + _).
rewrite /rdiag; have -> : (a j == a l) = (j == l).
  by case: eqP => [/(Ia Hj Hl) ->|H]; [rewrite eqxx|case: eqP => // E; case: H; rewrite E].
case: eqP => _; last by rewrite scaler0.
by rewrite HR' trmxZ -scalemxAl -scalemxAr scalerA expr2.
Qed.

Lemma Kyy_spd : spd Kyy.
Proof.
have [H1 H2 H3 H4] := Hk; have [M1 M2 M3] := plain_markov (lib_plain H1 H2 H3) H4.
rewrite /Kyy; have -> : dense n.+1 n.+1 (fun i j => fcov k (z i) (z j)) = f_gram (to_sde k) (sk_H k) n.+1 n.+1 z z.
  by apply: eq_dense => j l _ _; rewrite M3.
exact: obs_spd.
Qed.

Lemma flat_scaled (x x' : nat -> 'cV[R]_o) : (forall j, (j < n.+1)%N -> x' j = b *: x (a j)) -> flat n.+1 x' = b *: (S *m flat n.+1 x).
Proof.
move=> H; rewrite /S (@pick_flat Rr _ _ _ _ _ Ha) /flat (@bcolZ Rr); apply: eq_bcol => j Hj; exact: H.
Qed.

Lemma two_loglik : exists e, gpr_log_likelihood (to_sde k) (sk_H k) mean n z y cR = Some e /\
  gpr_log_likelihood (to_sde k') (sk_H k') mean' n z' y' cR' = Some (e - (n.+1 * o)%:R * ln b).
Proof.
have [H1 H2 H3 H4] := Hk; have [H1' H2' H3' H4'] := Hk'.
have [E _] := gpr_library mean y new i H1 H2 H3 H4 Hz HR.
have [E' _] := gpr_library mean' y' new' i H1' H2' H3' H4' Hz' lown'.
rewrite E E'; eexists; split; first reflexivity; congr Some.
rewrite -/Kyy' Kyy_eq (flat_scaled Ey) (flat_scaled (x := fun j => mean (z j)) (x' := fun j => mean' (z' j)) Em).
exact: (scaled_logpdf _ _ S_orth Hb Kyy_spd).
Qed.

Hypothesis n0 : (0 < n)%N.
Hypothesis Hi : - APPROX_INF Rr < z 0%N.
Hypothesis Hi' : - APPROX_INF Rr < z' 0%N.
Hypothesis Hnew : z 0%N <= new i <= z n.
Hypothesis Hnew' : z' 0%N <= new' i <= z' n.
Hypothesis Emn : mean' (new' i) = b *: mean (new i).
Hypothesis EKt : forall j, (j < n.+1)%N -> fcov k' (new' i) (z' j) = b ^+ 2 *: fcov k (new i) (z (a j)).
Hypothesis EKn : fcov k' (new' i) (new' i) = b ^+ 2 *: fcov k (new i) (new i).

Lemma two_predict : exists m C, omap (fun p => p i) (gpr_predict_f (to_sde k) (sk_H k) mean n z y cR new) = Some (m, C) /\
  omap (fun p => p i) (gpr_predict_f (to_sde k') (sk_H k') mean' n z' y' cR' new') = Some (b *: m, b ^+ 2 *: C).
Proof.
have [H1 H2 H3 H4] := Hk; have [H1' H2' H3' H4'] := Hk'.
have [N1 N2] := andP Hnew; have [N1' N2'] := andP Hnew'.
have [_ /(_ n0 Hi N1 N2) E] := gpr_library mean y new i H1 H2 H3 H4 Hz HR.
have [_ /(_ n0 Hi' N1' N2') E'] := gpr_library mean' y' new' i H1' H2' H3' H4' Hz' lown'.
rewrite E E'; do 2 eexists; split; first reflexivity.
rewrite -/Kyy' -/Kyy Kyy_eq (flat_scaled Ey) (flat_scaled (x := fun j => mean (z j)) (x' := fun j => mean' (z' j)) Em).
have -> : brow n.+1 (fun j => fcov k' (new' i) (z' j)) = b ^+ 2 *: (brow n.+1 (fun j => fcov k (new i) (z j)) *m S^T).
  rewrite (@brow_pick Rr _ _ _ _ (fun j => fcov k (new i) (z j)) Ha) (@browZ Rr); apply: eq_brow => j Hj; exact: EKt.
have UK : Kyy \in unitmx by apply: (@spd_unit Rr); exact: Kyy_spd.
have b0 : b != 0 by rewrite gt_eqF.
rewrite -scalerBr -mulmxBr.
rewrite (scaled_mean _ _ S_orth b0 UK) (scaled_cov _ S_orth b0 UK).
by rewrite Emn EKn scalerDr scalerBr.
Qed.
End Two.

Definition regression_ready o d (k : skernel Rr o d) := [/\ library_kernel true k, sk_jitter k = 0, sk_mean0 k = 0 & noisy k].

Section Shift.
Variables (o d : nat) (k : skernel Rr o d).
Hypothesis Hk : regression_ready k.
Variables (mean mean' : R -> 'cV[R]_o) (n : nat) (z : nat -> R) (y : nat -> 'cV[R]_o) (cR : 'M[R]_o) (new : nat -> R) (i : nat) (c : R).
Hypothesis Hz : increasing (F := Rr) n.+1 z.
Hypothesis HR : lownz cR.
Hypothesis n0 : (0 < n)%N.
Hypothesis Hi : - APPROX_INF Rr < z 0%N.
Hypothesis Hnew : z 0%N <= new i <= z n.

Lemma regression_shift : (forall s t, sk_H k s = sk_H k t) -> (forall t, mean' (t + c) = mean t) -> - APPROX_INF Rr < z 0%N + c ->
  exists e m C,
  [/\ gpr_log_likelihood (to_sde k) (sk_H k) mean n z y cR = Some e,
      gpr_log_likelihood (to_sde k) (sk_H k) mean' n (fun j => z j + c) y cR = Some e,
      omap (fun p => p i) (gpr_predict_f (to_sde k) (sk_H k) mean n z y cR new) = Some (m, C) &
      omap (fun p => p i) (gpr_predict_f (to_sde k) (sk_H k) mean' n (fun j => z j + c) y cR (fun j => new j + c)) = Some (m, C)].
Proof.
move=> HH Hm Hi'.
have EC s t : fcov k (s + c) (t + c) = 1 ^+ 2 *: fcov k s t.
  rewrite expr1n scale1r /fcov (HH (s + c) s) (HH (t + c) t) !ltr_add2r.
  by have -> : s + c - (t + c) = s - t; [zmod|have -> : t + c - (s + c) = t - s; [zmod|]].
have Hz' : increasing (F := Rr) n.+1 (fun j => z j + c) by move=> j Hj; rewrite ltr_add2r; exact: Hz.
have E1 : cR = 1 *: cR by rewrite scale1r.
have Ey j : (j < n.+1)%N -> y j = 1 *: y (id j) by rewrite scale1r.
have Em j : (j < n.+1)%N -> mean' (z j + c) = 1 *: mean (z (id j)) by rewrite scale1r Hm.
have [e [L1 L2]] := two_loglik Hk Hk new new i ltr01 (fun j H => H) (fun j l _ _ E => E) Hz Hz' HR E1 Ey Em (fun j l _ _ => EC _ _).
have [||j Hj||m [C [P1 P2]]] := two_predict Hk Hk (new' := fun j => new j + c) ltr01 (fun j H => H) (fun j l _ _ E => E) Hz Hz' HR E1 Ey Em (fun j l _ _ => EC _ _) n0 Hi Hi' Hnew.
- by rewrite !ler_add2r.
- by rewrite scale1r Hm.
- exact: EC.
- exact: EC.
exists e, m, C; split; [exact: L1| |exact: P1|].
  by rewrite L2 ln1 mulr0 subr0.
by rewrite P2 expr1n !scale1r.
Qed.

Lemma regression_reversal (cov : R -> R) : (forall s t, fcov k s t = const_mx (cov `|s - t|)) -> (forall t, mean' (c - t) = mean t) ->
  - APPROX_INF Rr < c - z n -> exists e m C,
  [/\ gpr_log_likelihood (to_sde k) (sk_H k) mean n z y cR = Some e,
      gpr_log_likelihood (to_sde k) (sk_H k) mean' n (fun j => c - z (n - j)%N) (fun j => y (n - j)%N) cR = Some e,
      omap (fun p => p i) (gpr_predict_f (to_sde k) (sk_H k) mean n z y cR new) = Some (m, C) &
      omap (fun p => p i) (gpr_predict_f (to_sde k) (sk_H k) mean' n (fun j => c - z (n - j)%N) (fun j => y (n - j)%N) cR
        (fun j => c - new j)) = Some (m, C)].
Proof.
move=> HC Hm Hi'.
have EC s t : fcov k (c - s) (c - t) = 1 ^+ 2 *: fcov k s t.
  rewrite expr1n scale1r !HC; congr (const_mx (cov _)).
  by rewrite -normrN; congr `|_|; zmod.
have Hz' : increasing (F := Rr) n.+1 (fun j => c - z (n - j)%N).
  move=> j Hj; rewrite ltr_add2l ltr_opp2; have -> : (n - j = (n - j.+1).+1)%N by lia.
  by apply: Hz; lia.
have E1 : cR = 1 *: cR by rewrite scale1r.
pose a j := (n - j)%N.
have Ha j : (j < n.+1)%N -> (a j < n.+1)%N by rewrite /a; lia.
have Ia j l : (j < n.+1)%N -> (l < n.+1)%N -> a j = a l -> j = l by rewrite /a; lia.
have Ey j : (j < n.+1)%N -> y (n - j)%N = 1 *: y (a j) by rewrite scale1r.
have Em j : (j < n.+1)%N -> mean' (c - z (n - j)%N) = 1 *: mean (z (a j)) by rewrite scale1r Hm.
have [e [L1 L2]] := two_loglik Hk Hk new new i ltr01 Ha Ia Hz Hz' HR E1 Ey Em (fun j l _ _ => EC _ _).
have Hi2 : - APPROX_INF Rr < c - z (n - 0)%N by rewrite subn0.
have [||j Hj||m [C [P1 P2]]] := two_predict Hk Hk (new' := fun j => c - new j) ltr01 Ha Ia Hz Hz' HR E1 Ey Em (fun j l _ _ => EC _ _) n0 Hi Hi2 Hnew.
- by rewrite subn0 subnn !ler_add2l !ler_opp2 andbC.
- by rewrite scale1r Hm.
- exact: EC.
- exact: EC.
exists e, m, C; split; [exact: L1| |exact: P1|].
  by rewrite L2 ln1 mulr0 subr0.
by rewrite P2 expr1n !scale1r.
Qed.
End Shift.

Lemma cov_units (l s2 a b r : R) : 0 < l -> 0 < a ->
  [/\ cov_matern12 (a * l) (b ^+ 2 * s2) (a * r) = b ^+ 2 * cov_matern12 l s2 r,
      cov_matern32 (a * l) (b ^+ 2 * s2) (a * r) = b ^+ 2 * cov_matern32 l s2 r &
      cov_matern52 (a * l) (b ^+ 2 * s2) (a * r) = b ^+ 2 * cov_matern52 l s2 r].
Proof.
move=> /RltP Hl /RltP Ha; rewrite /cov_matern12 /cov_matern32 /cov_matern52; toR_ops; rewrite !exprR.
have l0 : l <> 0%Re by move=> E; rewrite E in Hl; exact: Rlt_irrefl Hl.
have a0 : a <> 0%Re by move=> E; rewrite E in Ha; exact: Rlt_irrefl Ha.
split.
- have -> : (a * r / (a * l) = r / l)%Re by field.
  by ring.
- have -> : (sqrt 3%Re * (a * r) / (a * l) = sqrt 3%Re * r / l)%Re by field.
  by ring.
- have -> : (sqrt 5%Re * (a * r) / (a * l) = sqrt 5%Re * r / l)%Re by field.
  have -> : (5 * (a * r) ^ 2 / (3 * (a * l) ^ 2) = 5 * r ^ 2 / (3 * l ^ 2))%Re by field.
  by ring.
Qed.

Section Units.
Variables (o : nat) (l s2 a b : R).
Hypotheses (Hl : 0 < l) (Hs : 0 < s2) (Ha : 0 < a) (Hb : 0 < b).
Variables (mean mean' : R -> 'cV[R]_o) (n : nat) (z : nat -> R) (y : nat -> 'cV[R]_o) (cR : 'M[R]_o) (new : nat -> R) (i : nat).
Hypothesis Hm : forall t, mean' (a * t) = b *: mean t.
Hypothesis Hz : increasing (F := Rr) n.+1 z.
Hypothesis HR : lownz cR.
Hypothesis n0 : (0 < n)%N.
Hypothesis Hi : - APPROX_INF Rr < z 0%N.
Hypothesis Hi' : - APPROX_INF Rr < a * z 0%N.
Hypothesis Hnew : z 0%N <= new i <= z n.

Lemma units_gen d (k k' : skernel Rr o d) (cv cv' : R -> R) : regression_ready k -> regression_ready k' ->
  (forall s t, fcov k s t = const_mx (cv `|s - t|)) -> (forall s t, fcov k' s t = const_mx (cv' `|s - t|)) ->
  (forall r, cv' (a * r) = b ^+ 2 * cv r) -> exists e m C,
  [/\ gpr_log_likelihood (to_sde k) (sk_H k) mean n z y cR = Some e,
      gpr_log_likelihood (to_sde k') (sk_H k') mean' n (fun j => a * z j) (fun j => b *: y j) (b *: cR) = Some (e - (n.+1 * o)%:R * ln b),
      omap (fun p => p i) (gpr_predict_f (to_sde k) (sk_H k) mean n z y cR new) = Some (m, C) &
      omap (fun p => p i) (gpr_predict_f (to_sde k') (sk_H k') mean' n (fun j => a * z j) (fun j => b *: y j) (b *: cR) (fun j => a * new j)) =
        Some (b *: m, b ^+ 2 *: C)].
Proof.
move=> Hk Hk' H1 H2 H3.
have EC s t : fcov k' (a * s) (a * t) = b ^+ 2 *: fcov k s t.
  rewrite H1 H2 -mulrBr normrM (gtr0_norm Ha) H3.
  by apply/matrixP => u v; rewrite !mxE.
have Hz' : increasing (F := Rr) n.+1 (fun j => a * z j) by move=> j Hj; rewrite ltr_pmul2l //; exact: Hz.
have [e [L1 L2]] := two_loglik Hk Hk' new new i Hb (fun j H => H) (fun j l _ _ E => E) Hz Hz' HR (erefl (b *: cR))
  (fun j _ => erefl (b *: y (id j))) (fun j _ => Hm (z (id j))) (fun j l _ _ => EC (z (id j)) (z (id l))).
have [||j Hj||m [C [P1 P2]]] := two_predict Hk Hk' (new' := fun j => a * new j) Hb (fun j H => H) (fun j l _ _ E => E) Hz Hz' HR (erefl (b *: cR))
  (fun j _ => erefl (b *: y (id j))) (fun j _ => Hm (z (id j))) (fun j l _ _ => EC (z (id j)) (z (id l))) n0 Hi Hi' Hnew.
- by rewrite !ler_pmul2l.
- exact: Hm.
- exact: EC.
- exact: EC.
by exists e, m, C; split; [exact: L1|exact: L2|exact: P1|exact: P2].
Qed.

Lemma regression_units :
  let same d (k k' : skernel Rr o d) := exists e m C,
    [/\ gpr_log_likelihood (to_sde k) (sk_H k) mean n z y cR = Some e,
      gpr_log_likelihood (to_sde k') (sk_H k') mean' n (fun j => a * z j) (fun j => b *: y j) (b *: cR) = Some (e - (n.+1 * o)%:R * ln b),
      omap (fun p => p i) (gpr_predict_f (to_sde k) (sk_H k) mean n z y cR new) = Some (m, C) &
      omap (fun p => p i) (gpr_predict_f (to_sde k') (sk_H k') mean' n (fun j => a * z j) (fun j => b *: y j) (b *: cR) (fun j => a * new j)) =
        Some (b *: m, b ^+ 2 *: C)] in
  [/\ same _ (matern12 o 0 l s2 0) (matern12 o 0 (a * l) (b ^+ 2 * s2) 0),
      same _ (matern32 o 0 l s2 0) (matern32 o 0 (a * l) (b ^+ 2 * s2) 0) &
      same _ (matern52 o 0 l s2 0) (matern52 o 0 (a * l) (b ^+ 2 * s2) 0)].
Proof.
have Hl' : 0 < a * l by rewrite mulr_gt0.
have Hs' : 0 < b ^+ 2 * s2 by rewrite mulr_gt0 // exprn_gt0.
have [[A1 A2 A3 A4 A5] [B1 B2 B3 B4 B5] [C1 C2 C3 C4 C5]] := matern_ready o Hl Hs.
have [[A1' A2' A3' A4' A5'] [B1' B2' B3' B4' B5'] [C1' C2' C3' C4' C5']] := matern_ready o Hl' Hs'.
split.
- by apply: (units_gen _ _ A5 A5') => // r; case: (cov_units s2 b r Hl Ha).
- by apply: (units_gen _ _ B5 B5') => // r; case: (cov_units s2 b r Hl Ha).
- by apply: (units_gen _ _ C5 C5') => // r; case: (cov_units s2 b r Hl Ha).
Qed.
End Units.

Lemma units_example (o : nat) (l s2 : R) n : 0 < l -> 0 < s2 ->
  let k := matern32 o 0 l s2 0 in let z i : R := i%:R in
  [/\ library_kernel true k, sk_jitter k = 0, sk_mean0 k = 0, noisy k &
      forall s t, fcov k s t = const_mx (cov_matern32 l s2 `|s - t|)] /\
  [/\ forall s t, sk_H k s = sk_H k t, increasing (F := Rr) n.+1 z, - APPROX_INF Rr < z 0%N & - APPROX_INF Rr < n%:R - z n].
Proof.
move=> Hl Hs k z; have [_ H _] := matern_ready o Hl Hs.
have I : - APPROX_INF Rr < 0 by rewrite oppr_lt0; apply: lt_trans ltr01 (@inf_gt1 Rr).
split; [exact: H|split=> //; first by move=> j _; rewrite ltr_nat].
by rewrite subrr.
Qed.
