(* Proofs: far from the artificial end points the Matern kernels forget everything. *)
From Coq Require Import Reals Lra.
From mathcomp Require Import all_ssreflect all_algebra.
From Verif Require Import RealStruct Nat Alg Lin Ent Spd Log M_SSM S_SSM P_SSM M_SSMLog M_Kernel S_Kernel P_Kernel S_Gauss P_Gauss M_Comb S_Comb P_Comb
  M_KernelR S_KernelR P_Matern P_KernelR P_KernelR2 P_KernelR3 M_Cond S_GP P_Models3 P_Pep3 P_Extra.
Set Implicit Arguments.
Unset Strict Implicit.
Unset Printing Implicit Defensive.
Import GRing.Theory Num.Theory Order.POrderTheory.
Local Open Scope ring_scope.

Ltac mxcases := apply/matrixP; case=> -[|[|[|?]]] // ?; case=> -[|[|[|?]]] // ?;
  rewrite ?(mxE, big_ord_recl, big_ord0) /=.

Section Small.
Variable F : rcfType.
Local Notation o1 := (lift ord0 ord0 : 'I_2).
Local Notation q1 := (lift ord0 ord0 : 'I_3).
Local Notation q2 := (lift ord0 (lift ord0 ord0) : 'I_3).
Variables (l s2 : F).
Hypotheses (Hl : 0 < l) (Hs : 0 < s2).

Lemma m32_fade : let N := feedback32 l + l *: 1%:M in
  psd ((4%:R * l) ^+ 2 *: steady32 l s2 - N *m steady32 l s2 *m N^T).
Proof.
move=> N.
have -> : (4%:R * l) ^+ 2 *: steady32 l s2 - N *m steady32 l s2 *m N^T =
    (s2 * l ^+ 2) *: mx_rows 2 [:: [:: 14%:R; 2%:R * l]; [:: 2%:R * l; 14%:R * l ^+ 2]].
  by rewrite /N; mxcases; crng.
split=> [|x]; first by mxcases; crng.
rewrite qf2E !mxE /=; set a := x 0 0; set b := x o1 0.
have -> : s2 * l ^+ 2 * 14%:R * a ^+ 2 + (s2 * l ^+ 2 * (2%:R * l) + s2 * l ^+ 2 * (2%:R * l)) * a * b
    + s2 * l ^+ 2 * (14%:R * l ^+ 2) * b ^+ 2 =
    s2 * (l ^+ 2 * (12%:R * (a ^+ 2 + (l * b) ^+ 2) + 2%:R * (a + l * b) ^+ 2)) by crng.
have P2 y : 0 <= y ^+ 2 :> F := sqr_ge0 y.
apply: mulr_ge0; first exact: ltW.
apply: mulr_ge0; first exact: P2.
by apply: addr_ge0; apply: mulr_ge0; try exact: P2; try exact: ler0n; apply: addr_ge0; exact: P2.
Qed.

Lemma m52_fade : let N := feedback52 l + l *: 1%:M in
  psd ((4%:R * l) ^+ 2 *: steady52 l s2 - N *m steady52 l s2 *m N^T).
Proof.
move=> N.
have U : 3%:R * 3%:R^-1 = 1 :> F by rewrite divff // pnatr_eq0.
split=> [|x].
  by rewrite !trmxB' !trmx_mul trmxK !mulmxA linearZ /=; have -> : (steady52 l s2)^T = steady52 l s2 by mxcases; crng.
pose a := x 0 0; pose b := x q1 0; pose c := x q2 0.
have Eq : 99%:R * qf ((4%:R * l) ^+ 2 *: steady52 l s2 - N *m steady52 l s2 *m N^T) x =
    s2 * (l ^+ 2 * (12%:R * (11%:R * a - 3%:R * (l ^+ 2 * c)) ^+ 2 + 44%:R * (3%:R * (l * b) + 2%:R * (l ^+ 2 * c)) ^+ 2
     + 640%:R * (l ^+ 2 * c) ^+ 2)).
  pose y0 := l * a - l ^+ 3 * c; pose y1 := a + l * b - 3%:R * l ^+ 2 * c; pose y2 := b - 2%:R * l * c.
  have -> : qf ((4%:R * l) ^+ 2 *: steady52 l s2 - N *m steady52 l s2 *m N^T) x =
     (4%:R * l) ^+ 2 * qf (steady52 l s2) x - qf (steady52 l s2) (N^T *m x).
    by rewrite /qf mulmxBr mulmxBl -scalemxAr -scalemxAl trmx_mul trmxK !mulmxA !mxE.
  have [E0 E1 E2] : [/\ (N^T *m x) 0 0 = y0, (N^T *m x) q1 0 = y1 & (N^T *m x) q2 0 = y2].
    by rewrite !mxE !big_ord_recl !big_ord0 !mxE /= /y0 /y1 /y2 /a /b /c; split; crng.
  rewrite !qf3E E0 E1 E2 !mxE /= -/a -/b -/c.
  set u := 3%:R^-1 in U *.
  transitivity (99%:R * ((4%:R * l) ^+ 2 * (s2 * (a ^+ 2 + l ^+ 4 * c ^+ 2)) - s2 * (y0 ^+ 2 + l ^+ 4 * y2 ^+ 2))
     + 33%:R * (3%:R * u) * (s2 * l ^+ 2) * ((4%:R * l) ^+ 2 * (b ^+ 2 - 2%:R * a * c) - (y1 ^+ 2 - 2%:R * y0 * y2))); first by crng.
  by rewrite U /y0 /y1 /y2; crng.
have H99 : 0 < 99%:R :> F by rewrite ltr0n.
rewrite -(pmulr_rge0 _ H99) Eq.
have P2 y : 0 <= y ^+ 2 :> F := sqr_ge0 y.
apply: mulr_ge0; first exact: ltW.
apply: mulr_ge0; first exact: P2.
by apply: addr_ge0; [apply: addr_ge0|]; apply: mulr_ge0; try exact: P2; exact: ler0n.
Qed.
End Small.

Lemma exp_nat n : exp (- n%:R) <= (2%:R : R) ^- n.
Proof.
elim: n => [|n IH].
  by rewrite mulr0n oppr0 expr0 invr1; have -> : exp 0 = 1 by exact: exp_0.
have -> : exp (- n.+1%:R) = exp (- n%:R) * exp (Ropp 1).
  apply: etrans (exp_plus (- n%:R) (Ropp 1)); congr exp.
  by rewrite -addn1 natrD opprD.
have H : exp (Ropp 1) <= 2%:R^-1 :> R.
  apply/RleP; rewrite halfR exp_Ropp; have H := exp_ineq1 1 R1_neq_R0.
  by apply: Rinv_le_contravar; [exact: Rlt_0_2|apply/Rlt_le; have -> : (2 = 1 + 1)%Re by []].
rewrite exprSr invfM; apply: ler_pmul => //; apply/RleP; apply/Rlt_le; exact: exp_pos.
Qed.

Lemma poly_expR (x : R) : (0 <= x)%Re -> (1 + x * 4 + x * x / 2 * (4 * 4) <= 128 * exp (x / 2)%Re)%Re.
Proof.
move=> Hx.
have H1 : (1 + x / 4 <= exp (x / 4)%Re)%Re.
  exact: exp_ineq1_le.
have E : (exp (x / 2)%Re = exp (x / 4)%Re * exp (x / 4)%Re)%Re by rewrite -exp_plus; congr exp; field.
rewrite E; have H0 : (0 <= 1 + x / 4)%Re by lra.
have := Rmult_le_compat _ _ _ _ H0 H0 H1 H1 => H2.
nra.
Qed.

(* the decay of a Matern transition over at least a thousand time units *)
Lemma fade_num (x : R) : (1000 <= x)%Re ->
  (exp (- x)%Re * (1 + x * 4 + x * x / 2 * (4 * 4)) * (exp (- x)%Re * (1 + x * 4 + x * x / 2 * (4 * 4))) <= 16384 * exp (- x)%Re)%Re.
Proof.
move=> Hx; have H0 : (0 <= x)%Re by lra.
have Hp := poly_expR H0.
have He := exp_pos (- x); have He2 := exp_pos (x / 2).
set q := (1 + x * 4 + x * x / 2 * (4 * 4))%Re in Hp *.
have Hq : (0 <= q)%Re by rewrite /q; nra.
have E : (exp (- x)%Re * (exp (x / 2)%Re * exp (x / 2)%Re) = 1)%Re.
  rewrite -!exp_plus -exp_0; congr exp; field.
have H2 := Rmult_le_compat _ _ _ _ Hq Hq Hp Hp.
have -> : (exp (- x)%Re * q * (exp (- x)%Re * q) = exp (- x)%Re * (exp (- x)%Re * (q * q)))%Re by ring.
have H3 : (exp (- x)%Re * (q * q) <= 16384)%Re.
  have := Rmult_le_compat_l _ _ _ (Rlt_le _ _ He) H2.
  have -> : (exp (- x)%Re * (128 * exp (x / 2)%Re * (128 * exp (x / 2)%Re)) = 16384 * (exp (- x)%Re * (exp (x / 2)%Re * exp (x / 2)%Re)))%Re by ring.
  by rewrite E Rmult_1_r.
by have := Rmult_le_compat_l _ _ _ (Rlt_le _ _ He) H3; rewrite (Rmult_comm _ 16384%Re).
Qed.

Lemma thousandR : (1000%:R : R) = 1000%Re.
Proof. by rewrite natrR INR_IZR_INZ. Qed.

Lemma exp_thousand (x : R) : (1000 <= x)%Re -> exp (- x)%Re <= (2%:R : R) ^- 1000.
Proof.
move=> Hx; apply: le_trans (exp_nat 1000); apply/RleP; rewrite thousandR.
case: Hx => [H|<-]; last exact: Rle_refl.
by apply/Rlt_le/exp_increasing/Ropp_lt_contravar.
Qed.

Lemma pow14 : (16384%Re : R) = 2%:R ^+ 14.
Proof. by rewrite exprR natrR /=; ring. Qed.

Lemma fade_factor (l h : R) : 0 < l -> 0 < h -> 1000%:R <= l * h ->
  (exp (- l * h) * (1 + h * (4%:R * l) + h ^+ 2 / 2%:R * (4%:R * l * (4%:R * l)))) ^+ 2 <= (2%:R : R) ^- 900.
Proof.
move=> Hl Hh Hx.
have Hx' : (1000 <= l * h)%Re by rewrite -thousandR; apply/RleP.
have H := fade_num Hx'; have He := exp_thousand Hx'.
have -> : exp (- l * h) = exp (- (l * h))%Re by congr exp; rewrite mulNr.
have -> : 1 + h * (4%:R * l) + h ^+ 2 / 2%:R * (4%:R * l * (4%:R * l)) =
    (1 + l * h * 4 + l * h * (l * h) / 2 * (4 * 4))%Re.
  have -> : (4%:R : R) = 4%Re by rewrite natrR INR_IZR_INZ.
  rewrite expr2 halfR; toR_ops.
  change ((1 + h * (4 * l) + h * h * / 2 * (4 * l * (4 * l)))%Re = (1 + l * h * 4 + l * h * (l * h) / 2 * (4 * 4))%Re :> R).
  by field.
move: H He; move: (exp _) (Rplus _ _) => e q H He.
apply: (@le_trans _ _ (2%:R ^+ 14 * 2%:R ^- 1000)).
  apply: (@le_trans _ _ (2%:R ^+ 14 * e)).
    by rewrite -pow14 expr2; apply/RleP.
  by apply: ler_wpmul2l He; apply: exprn_ge0; apply: ler0n.
have -> : 1000%N = (14 + (86 + 900))%N by [].
have H2 : (2%:R : R) != 0 by rewrite pnatr_eq0.
have H0 : 0 < (2%:R : R) by rewrite ltr0n.
rewrite exprD invfM mulrA divff ?mul1r; last by rewrite expf_neq0.
rewrite exprD invfM -[X in _ <= X]mul1r; apply: ler_wpmul2r.
  by rewrite invr_ge0 exprn_ge0 // ltW.
rewrite invf_le1; last by rewrite exprn_gt0.
by apply: exprn_ege1; rewrite ler1n.
Qed.

(* a kernel that forgets all but a fraction 2^-900 of its variance over h *)
Definition fades o d (k : skernel Rr o d) (h : R) : Prop :=
  psd ((2%:R ^- 900 : Rr) *: sk_P k - sk_A k h *m sk_P k *m (sk_A k h)^T).

Lemma lam_big (q l h : R) : 0 < l -> 1000%:R * l <= h -> 1 <= q -> 1000%:R <= q / l * h.
Proof.
move=> Hl Hh Hq.
have H1 : 1000%:R <= h / l by rewrite ler_pdivl_mulr.
have -> : q / l * h = q * (h / l) by rewrite mulrAC -mulrA.
have H0 : (0 : R) <= 1000%:R by rewrite ler0n.
by rewrite -[X in X <= _]mul1r; apply: ler_pmul; rewrite ?ler01.
Qed.

Lemma sqrt_ge1 (x : R) : 1 <= x -> 1 <= sqrt x.
Proof. by move=> H; apply/RleP; rewrite -[X in Rle X _]sqrt_1; apply: sqrt_le_1_alt; apply/RleP. Qed.

Lemma thousand_gt0 (l h : R) : 0 < l -> 1000%:R * l <= h -> 0 < h.
Proof. by move=> Hl; apply: lt_le_trans; rewrite mulr_gt0 // ltr0n. Qed.

Lemma m12_fades o (l s2 h : R) : 0 < l -> 0 < s2 -> 1000%:R * l <= h -> fades (matern12 o 0 l s2 0) h.
Proof.
move=> Hl Hs Hh; rewrite /fades m12_A m12_P.
have h0 := thousand_gt0 Hl Hh; have l0 : 0 < l^-1 by rewrite invr_gt0.
have Hx : 1000%:R <= l^-1 * h by have := lam_big Hl Hh (lexx 1); rewrite mul1r.
have := fade_factor l0 h0 Hx; set e := exp _; set q := 1 + _ + _ => H.
have e0 : 0 <= e by apply/RleP/Rlt_le/exp_pos.
have q1 : 1 <= q.
  rewrite /q -addrA ler_addl addr_ge0 //; first by rewrite mulr_ge0 ?(ltW h0) // mulr_ge0 ?ler0n ?(ltW l0).
  by rewrite mulr_ge0 // ?divr_ge0 ?ler0n ?sqr_ge0 // -expr2 sqr_ge0.
have He : e * e <= 2%:R ^- 900.
  apply: le_trans H; rewrite expr2; apply: ler_pmul => //; rewrite -[X in X <= _]mulr1; exact: ler_wpmul2l.
have -> : (2%:R ^- 900 : Rr) *: s2%:M - e%:M *m s2%:M *m (e%:M)^T = ((2%:R ^- 900 - e * e) * s2)%:M :> 'M[Rr]_1.
  rewrite tr_scalar_mx -!scalar_mxM scale_scalar_mx -raddfB mulrBl; congr (_ - _)%:M.
  by rewrite mulrAC.
split; first by rewrite tr_scalar_mx.
move=> x; rewrite (@qf1E Rr) mxE eqxx mulr1n; apply: mulr_ge0; last exact: sqr_ge0.
by apply: mulr_ge0; [rewrite subr_ge0|exact: ltW].
Qed.

Lemma m32_fades o (l s2 h : R) : 0 < l -> 0 < s2 -> 1000%:R * l <= h -> fades (matern32 o 0 l s2 0) h.
Proof.
move=> Hl Hs Hh; have h0 := thousand_gt0 Hl Hh; have l0 := lambda32_gt0 Hl.
have Hx : 1000%:R <= lambda32 l * h by apply: lam_big => //; apply: sqrt_ge1; rewrite ler1n.
have SP := @m32_spd Rr _ _ l0 Hs.
apply: (@psd_more Rr _ _ SP _ _ _ (fade_factor l0 h0 Hx)).
have s0 : 0 < 4%:R * lambda32 l :> Rr by rewrite mulr_gt0 ?ltr0n.
have e0 : 0 < exp (- lambda32 l * h) :> Rr by apply/RltP/exp_pos.
have := @fade_gen Rr _ _ _ _ _ _ SP s0 e0 h0 (@m32_fade Rr _ _ Hs).
by rewrite (@m32_nilp Rr) scaler0 addr0.
Qed.

Lemma m52_fades o (l s2 h : R) : 0 < l -> 0 < s2 -> 1000%:R * l <= h -> fades (matern52 o 0 l s2 0) h.
Proof.
move=> Hl Hs Hh; have h0 := thousand_gt0 Hl Hh; have l0 := lambda52_gt0 Hl.
have Hx : 1000%:R <= lambda52 l * h by apply: lam_big => //; apply: sqrt_ge1; rewrite ler1n.
have SP := @m52_spd Rr _ _ l0 Hs.
pose N : 'M[Rr]_3 := feedback52 (F := [ringType of R]) (lambda52 l) + lambda52 l *: 1%:M.
have EA : sk_A (matern52 o 0 l s2 0) h = exp (- lambda52 l * h) *: (1%:M + h *: N + (h ^+ 2 / 2%:R) *: (N *m N)).
  rewrite [LHS]/=; congr (_ *: (_ + _)).
  by rewrite -/N -scalemxAl -scalemxAr !scalerA -mulrA mulrC expr2.
rewrite /fades EA.
apply: (@psd_more Rr _ _ SP _ _ _ (fade_factor l0 h0 Hx)).
have s0 : 0 < 4%:R * lambda52 l :> Rr by rewrite mulr_gt0 ?ltr0n.
have e0 : 0 < exp (- lambda52 l * h) :> Rr by apply/RltP/exp_pos.
exact: (@fade_gen Rr _ _ _ _ _ _ SP s0 e0 h0 (@m52_fade Rr _ _ Hs)).
Qed.

Section Bound.
Variables (o d : nat) (k : skernel Rr o d) (l : R).
Hypothesis Hl : 0 < l.
Hypothesis Hk : markov_kernel (to_sde k).
Hypothesis Hm : k_mean0 (to_sde k) = 0.
Hypothesis Hj : sk_jitter k = 0.
Hypothesis Hf : forall h : R, 1000%:R * l <= h -> fades k h.
Let r : Rr := 2%:R ^- 900.
Let eps : Rr := 2%:R ^- 897.

Lemma r_pos : 0 < r.
Proof. by rewrite invr_gt0 exprn_gt0 // ltr0n. Qed.

Lemma r_eps : 8%:R * r = eps.
Proof.
have -> : (8%:R : Rr) = 2%:R ^+ 3 by rewrite -natrX.
rewrite /r /eps; have -> : 900%N = (3 + 897)%N by [].
by rewrite exprD invfM mulrA divff ?mul1r // expf_neq0 // pnatr_eq0.
Qed.

Lemma r_half : r <= 2%:R^-1.
Proof.
have H0 : 0 < (2%:R : Rr) by rewrite ltr0n.
rewrite /r lef_pinv ?posrE ?exprn_gt0 //; have -> : 900%N = (1 + 899)%N by [].
rewrite exprD expr1 -[X in X <= _]mulr1; apply: ler_wpmul2l; first exact: ltW.
by apply: exprn_ege1; rewrite ler1n.
Qed.

Lemma P0_k s : k_P0 (to_sde k) s = sk_P k.
Proof. by rewrite /= Hj scale0r addr0. Qed.

Lemma Q_k s a : k_cov (to_sde k) s a = sk_P k - sk_A k a *m sk_P k *m (sk_A k a)^T.
Proof. by rewrite /= Hj scale0r addr0. Qed.

Lemma eps2 (y : Rr) : 0 <= y -> (2%:R * r) ^+ 2 * y <= eps ^+ 2 * y.
Proof.
move=> y0; apply: ler_wpmul2r => //; have r0 := ltW r_pos.
have a0 : 0 <= 2%:R * r by rewrite mulr_ge0 // ler0n.
have b0 : 0 <= 8%:R * r by rewrite mulr_ge0 // ler0n.
by rewrite -r_eps ler_pexpn2r ?nnegrE ?a0 ?b0 // ler_wpmul2r // ler_nat.
Qed.

Variables (n : nat) (z : nat -> Rr) (t t0 v : Rr) (post : ssm Rr d) (m : nat -> 'cV[Rr]_d) (K : nat -> nat -> 'M[Rr]_d).
Hypothesis Hz : increasing n.+1 z.
Hypothesis NP : ssm_nonsing n post.
Hypothesis LP : has_law n.+1 n.+1 (ssm_path post) m K.
Hypothesis v0 : 0 < v.
Let P := sk_P k.
Let p := predict_state (to_sde k) n post z t0 t.

Let SP : spd P := @P_spd Rr _ _ _ Hk P0_k.

Lemma near_right : z n < t -> t + 1000%:R * l <= APPROX_INF Rr -> psd (v *: P - K n n) ->
  let A := sk_A k (t - z n) in let X := A *m K n n *m A^T + (P - A *m P *m A^T) in
  [/\ qf (invmx P) (p.1 - A *m m n) <= eps ^+ 2 * qf (invmx P) (A *m m n),
      psd ((eps * (1 + v)) *: P + (p.2 - X)) & psd ((eps * (1 + v)) *: P - (p.2 - X))].
Proof.
move=> H1 H2 Hv A X.
have Hh : 1000%:R * l <= APPROX_INF Rr - t by rewrite ler_subr_addl.
have H3 : t < APPROX_INF Rr by rewrite -subr_gt0; exact: thousand_gt0 Hl Hh.
have [G1 G2 G3] := @right_bound Rr _ _ _ _ _ Hk Hm P0_k Hz _ _ _ NP LP _ _ _ t0 r_pos r_half v0 H1 H3 (Hf Hh) Hv.
rewrite Q_k r_eps in G1 G2 G3; split; [|exact: G2|exact: G3].
by apply: le_trans G1 _; apply: eps2; case: (spd_psd (spd_inv SP)).
Qed.

Lemma near_left : t < z 0%N -> - APPROX_INF Rr + 1000%:R * l <= t -> psd (v *: P - K 0%N 0%N) ->
  let A := sk_A k (z 0%N - t) in let B := P *m A^T *m invmx P in
  let X := P - B *m A *m P + B *m K 0%N 0%N *m B^T in
  [/\ qf (invmx P) (p.1 - B *m m 0%N) <= eps ^+ 2 * qf (invmx P) (m 0%N),
      psd ((eps * (1 + v)) *: P + (p.2 - X)) & psd ((eps * (1 + v)) *: P - (p.2 - X))].
Proof.
move=> H1 H2 Hv A B X.
have Hh : 1000%:R * l <= t + APPROX_INF Rr by rewrite -ler_subl_addr addrC.
have H3 : - APPROX_INF Rr < t by rewrite -subr_gt0 opprK; exact: thousand_gt0 Hl Hh.
have [G1 G2 G3] := @left_bound Rr _ _ _ _ _ Hk Hm P0_k Hz _ _ _ NP LP _ _ _ t0 r_pos r_half v0 H3 H1 (Hf Hh) Hv.
have E1 : state_cov (to_sde k) (z 0%N) t = A *m P by rewrite /state_cov (ltW H1) P0_k.
have E2 : state_cov (to_sde k) t (z 0%N) = P *m A^T.
  by rewrite -state_cov_tr // E1 trmx_mul (spd_sym SP).
rewrite E1 E2 r_eps in G1 G2 G3; rewrite mulmxA in G2 G3; split; [|exact: G2|exact: G3].
by apply: le_trans G1 _; apply: eps2; case: (spd_psd (spd_inv SP)).
Qed.
End Bound.

Lemma matern_bound (o : nat) (l s2 : R) : 0 < l -> 0 < s2 ->
  let eps : Rr := 2%:R ^- 897 in
  let close d (k : skernel Rr o d) := forall n (z : nat -> Rr) (t t0 v : Rr) post m K,
    increasing n.+1 z -> ssm_nonsing n post -> has_law n.+1 n.+1 (ssm_path post) m K -> 0 < v ->
    let P := sk_P k in let p := predict_state (to_sde k) n post z t0 t in
    (z n < t -> t + 1000%:R * l <= APPROX_INF Rr -> psd (v *: P - K n n) ->
     let A := sk_A k (t - z n) in let X := A *m K n n *m A^T + (P - A *m P *m A^T) in
     [/\ qf (invmx P) (p.1 - A *m m n) <= eps ^+ 2 * qf (invmx P) (A *m m n),
         psd ((eps * (1 + v)) *: P + (p.2 - X)) & psd ((eps * (1 + v)) *: P - (p.2 - X))]) /\
    (t < z 0%N -> - APPROX_INF Rr + 1000%:R * l <= t -> psd (v *: P - K 0%N 0%N) ->
     let A := sk_A k (z 0%N - t) in let B := P *m A^T *m invmx P in
     let X := P - B *m A *m P + B *m K 0%N 0%N *m B^T in
     [/\ qf (invmx P) (p.1 - B *m m 0%N) <= eps ^+ 2 * qf (invmx P) (m 0%N),
         psd ((eps * (1 + v)) *: P + (p.2 - X)) & psd ((eps * (1 + v)) *: P - (p.2 - X))]) in
  [/\ close _ (matern12 o 0 l s2 0), close _ (matern32 o 0 l s2 0) & close _ (matern52 o 0 l s2 0)].
Proof.
move=> Hl Hs eps close.
have G d (k : skernel Rr o d) : library_kernel true k -> sk_jitter k = 0 -> sk_mean0 k = 0 -> noisy k ->
    (forall h : R, 1000%:R * l <= h -> fades k h) -> close d k.
  move=> H1 H2 H3 H4 Hf n z t t0 v post m K Hz NP LP v0 P p.
  have [Hk Hm _] := plain_markov (lib_plain H1 H2 H3) H4.
  by split=> Ha Hb Hv; [exact: (near_right Hl Hk Hm H2 Hf)|exact: (near_left Hl Hk Hm H2 Hf)].
have [[A1 A2 A3 A4 _] [B1 B2 B3 B4 _] [C1 C2 C3 C4 _]] := matern_ready o Hl Hs.
split; apply: G => // h Hh; [exact: m12_fades|exact: m32_fades|exact: m52_fades].
Qed.

(* the prior itself at the times 0, 1, ..., n, seen from half a unit outside *)
Lemma bound_example (l s2 : R) n : 0 < l -> 0 < s2 -> 1000%:R * l <= 1 -> n.+2%:R <= APPROX_INF Rr ->
  let k := matern52 1 0 l s2 0 in let z i : Rr := i%:R in let t := z n + 2%:R^-1 in let t' := - 2%:R^-1 : Rr in
  exists post m K,
    [/\ increasing n.+1 z, ssm_nonsing n post, has_law n.+1 n.+1 (ssm_path post) m K,
        psd (1 *: sk_P k - K n n) /\ psd (1 *: sk_P k - K 0%N 0%N) &
        (z n < t /\ t + 1000%:R * l <= APPROX_INF Rr) /\ (t' < z 0%N /\ - APPROX_INF Rr + 1000%:R * l <= t')].
Proof.
move=> Hl Hs H1 Hi k z t t'.
have [_ _ [C1 C2 C3 C4 _]] := matern_ready 1 Hl Hs.
have [Hk Hm _] := plain_markov (lib_plain C1 C2 C3) C4.
have Hz : increasing n.+1 z by move=> i _; rewrite /z ltr_nat.
have [S [_ NS LS]] := kernel_law Hk Hz.
exists S; do 2 eexists; split; [exact: Hz|exact: NS|exact: LS| |].
  have E i : 1 *: sk_P k - state_cov (to_sde k) (z i) (z i) = 0.
    rewrite (state_cov_diag _ Hk) (P0_k C2) scale1r; exact: subrr.
  have Hp i : psd (1 *: sk_P k - state_cov (to_sde k) (z i) (z i)) by rewrite E; exact: psd0.
  exact: conj (Hp n) (Hp 0%N).
have h0 : 0 < (2%:R^-1 : Rr) by rewrite invr_gt0 ltr0n.
have h1 : (2%:R^-1 : Rr) <= 1 by rewrite invf_le1 ?ltr0n // ler1n.
have E2 : n.+2%:R = n%:R + (1 + 1) :> Rr by rewrite -addn2 natrD.
split; split.
- by rewrite /t ltr_addl.
- apply: le_trans Hi; rewrite E2 /t -addrA; apply: ler_add; first exact: lexx.
  exact: ler_add.
- by rewrite /t' /z oppr_lt0.
- rewrite /t' addrC ler_subl_addr -ler_subl_addl opprK; apply: le_trans Hi.
  apply: (@le_trans _ _ (1 + 1)); first exact: ler_add.
  by rewrite E2 ler_addr ler0n.
Qed.
