(* Proofs for M_Density.v. *)
From Coq Require Import Reals Lra FunctionalExtensionality.
From mathcomp Require Import all_ssreflect all_algebra.
From Verif Require Import RealStruct Nat Alg Lin Ent Spd Log M_Block S_Block P_Block M_SSM S_SSM P_SSM M_SSMLog P_SSMLog S_Gauss P_Gauss
  M_Trans S_Trans S_Kalman M_Kalman P_Kalman P_KalmanLog M_Kernel S_Kernel P_Kernel M_KernelR M_Comb M_Cond P_Cond P_Cond2 P_Cond3
  M_Emission P_Emission M_Models S_GP P_Elbo P_Models P_Models2 M_Cvi S_Cvi P_Cvi P_Cvi2 P_Cvi3 P_Cvi4 M_Pep P_SPep4 M_Lik P_Lik M_Density S_Density.
Set Implicit Arguments.
Unset Strict Implicit.
Unset Printing Implicit Defensive.
Import GRing.Theory Num.Theory Order.TTheory.
Local Open Scope ring_scope.

(* ---------- the chain rule ---------- *)
Section Block.
Variable F : rcfType.
Variables (p n : nat) (C : 'M[F]_p) (B : 'M[F]_(n, p)) (A : 'M[F]_n).
Hypothesis HC : spd C.
Let D := A - B *m invmx C *m B^T.
Hypothesis HD : spd D.
Let L : 'M[F]_(p + n) := block_mx 1%:M 0 (B *m invmx C) 1%:M.
Let Li : 'M[F]_(p + n) := block_mx 1%:M 0 (- (B *m invmx C)) 1%:M.
Let E := block_mx C 0 0 D.

Lemma block_ldl : block_mx C B^T B A = L *m E *m L^T.
Proof.
have UC : C \in unitmx by exact: spd_unit.
rewrite /L /E tr_block_mx !mulmx_block !trmx0 !trmx1 !mul1mx !mulmx1 !mulmx0 !mul0mx !addr0 !add0r.
by rewrite mulmxKV // trmx_mul tr_invmx (spd_sym HC) mulmxA mulmxV // mul1mx mulmxA /D addrC subrK.
Qed.

Lemma block_LLi : L *m Li = 1%:M.
Proof. by rewrite /L /Li mulmx_block !mul1mx !mulmx1 !mulmx0 !mul0mx !addr0 !add0r subrr -scalar_mx_block. Qed.

Lemma block_det : \det (block_mx C B^T B A) = \det C * \det D.
Proof. by rewrite block_ldl !det_mulmx det_tr !det_lblock !det1 !mul1r mulr1. Qed.

Lemma block_qf (y : 'cV[F]_p) (u : 'cV[F]_n) :
  qf (invmx (block_mx C B^T B A)) (col_mx y u) = qf (invmx C) y + qf (invmx D) (u - B *m invmx C *m y).
Proof.
have UC : C \in unitmx by exact: spd_unit.
have UD : D \in unitmx by exact: spd_unit.
have -> : invmx (block_mx C B^T B A) = Li^T *m block_mx (invmx C) 0 0 (invmx D) *m Li.
  apply: mulmx1_inv; rewrite block_ldl !mulmxA -(mulmxA (L *m E)) -trmx_mul (mulmx1C block_LLi) trmx1 mulmx1.
  rewrite -(mulmxA L) /E mulmx_block !mulmx0 !mul0mx !addr0 !add0r !mulmxV // -scalar_mx_block mulmx1.
  exact: block_LLi.
rewrite qf_congr /Li mul_block_col !mul1mx mul0mx addr0.
by rewrite /qf tr_col_mx mul_row_block mul_row_col !mulmx0 addr0 add0r mxE addrC [u - _]addrC mulNmx addrC.
Qed.
End Block.

Lemma spd_block_schur (F : rcfType) p n (C : 'M[F]_p) (B : 'M[F]_(n, p)) (A : 'M[F]_n) :
  spd (block_mx C B^T B A) -> [/\ spd C, spd A & spd (A - B *m invmx C *m B^T)].
Proof.
move=> H; have := spd_ul H; have := spd_dr H; have := spd_schur H.
by rewrite /schur block_mxKul block_mxKdl block_mxKdr.
Qed.

Lemma logpdf_chain p n (C : 'M[R]_p) (B : 'M[R]_(n, p)) (A : 'M[R]_n) y u : spd (block_mx C B^T B A) ->
  gauss_logpdf 0 (block_mx C B^T B A) (col_mx y u) = gauss_logpdf 0 A u + gauss_logpdf (B^T *m invmx A *m u) (C - B^T *m invmx A *m B) y.
Proof.
move=> H; have [HC HA HD] := spd_block_schur H.
have UC : C \in unitmx by exact: spd_unit.
have E : gauss_logpdf 0 (block_mx C B^T B A) (col_mx y u) =
    gauss_logpdf 0 C y + gauss_logpdf (B *m invmx C *m y) (A - B *m invmx C *m B^T) u.
  rewrite /gauss_logpdf !subr0 (@block_det Rr _ _ _ _ _ HC) (@block_qf Rr _ _ _ _ _ HC HD).
  rewrite (Log.lnM (@spd_det_gt0 Rr _ _ HC) (@spd_det_gt0 Rr _ _ HD)).
  rewrite natrD mulrDl; move: (ln (2%:R * PI)) (ln (\det _)) (ln (\det _)) (qf _ _) (qf _ _) => b c e f g; crng.
rewrite E (gauss_bayes 0 (B *m invmx C) y u HC HD) addrC mulmx0.
have -> : B *m invmx C *m C *m (B *m invmx C)^T + (A - B *m invmx C *m B^T) = A.
  by rewrite mulmxKV // trmx_mul tr_invmx (spd_sym HC) mulmxA addrC subrK.
congr (_ + _); rewrite /cond_mean /cond_cov mulmx0 subr0 add0r.
have -> : B *m invmx C *m C *m (B *m invmx C)^T + (A - B *m invmx C *m B^T) = A.
  by rewrite mulmxKV // trmx_mul tr_invmx (spd_sym HC) mulmxA addrC subrK.
have -> : C *m (B *m invmx C)^T = B^T by rewrite trmx_mul tr_invmx (spd_sym HC) mulKVmx.
by congr (gauss_logpdf _ (_ - _) _); rewrite mulmxA mulmxKV.
Qed.

Lemma spd_block_schur' (F : rcfType) p n (C : 'M[F]_p) (B : 'M[F]_(p, n)) (A : 'M[F]_n) :
  spd (block_mx C B B^T A) -> spd (C - B *m invmx A *m B^T).
Proof.
move=> H; have H' : spd (block_mx A B^T B C).
  case: (H) => Hs Hp; split.
    by move: Hs; rewrite !tr_block_mx !trmxK => /eq_block_mx [-> _ _ ->].
  move=> x nx; rewrite -(vsubmxK x); move: (usubmx x) (dsubmx x) (vsubmxK x) => u v E.
  have : col_mx v u != 0 by apply: contra nx => /eqP; rewrite -E -!col_mx0 => /eq_col_mx [-> ->].
  by move=> /Hp; rewrite !qf_block; congr (0 < _); crng.
by have [] := spd_block_schur H'.
Qed.

Lemma logpdf_chain' p n (C : 'M[R]_p) (B : 'M[R]_(p, n)) (A : 'M[R]_n) y u : spd (block_mx C B B^T A) ->
  gauss_logpdf 0 (block_mx C B B^T A) (col_mx y u) = gauss_logpdf 0 A u + gauss_logpdf (B *m invmx A *m u) (C - B *m invmx A *m B^T) y.
Proof. by have := @logpdf_chain p n C B^T A y u; rewrite trmxK. Qed.

(* ---------- reordering ---------- *)
Section Perm.
Variable F : rcfType.
Variables (o N : nat) (p : nat -> nat).
Hypothesis Hp : forall i, (i < N)%N -> (p i < N)%N.
Hypothesis Ip : forall i j, (i < N)%N -> (j < N)%N -> p i = p j -> i = j.
Definition perm_blocks : 'M[F]_(N * o) := dense N N (fun i j => if j == p i then 1%:M else 0 : 'M[F]_o).
Notation S := perm_blocks.

Lemma perm_bcol q (x : nat -> 'M[F]_(o, q)) : S *m bcol N x = bcol N (fun i => x (p i)).
Proof.
rewrite mul_dense_bcol; apply: eq_bcol => i Hi.
rewrite (bigD1 (Ordinal (Hp Hi))) //= eqxx mul1mx big1 ?addr0 // => j Hj.
by case: eqP => [E|_]; rewrite ?mul0mx //; case/eqP: Hj; apply: val_inj.
Qed.

Lemma perm_flat (x : nat -> 'cV[F]_o) : S *m flat N x = flat N (fun i => x (p i)).
Proof. exact: perm_bcol. Qed.

Lemma perm_dense (K : nat -> nat -> 'M[F]_o) : S *m dense N N K *m S^T = dense N N (fun i j => K (p i) (p j)).
Proof.
rewrite /dense perm_bcol -/(dense N N (fun i => K (p i))) -[LHS]trmxK trmx_mul trmxK tr_dense.
by rewrite /dense perm_bcol -/(dense N N _) tr_dense; apply: eq_dense => i j Hi Hj; rewrite trmxK.
Qed.

Lemma perm_orth : S *m S^T = 1%:M.
Proof.
transitivity (S *m dense N N (bdiag (fun _ => 1%:M)) *m S^T); first by rewrite dense1 mulmx1.
rewrite perm_dense -(dense1 F o N); apply: eq_dense => i j Hi Hj; rewrite /bdiag.
by case: eqP => [/(Ip Hi Hj) ->|H]; [rewrite eqxx|case: eqP => // E; case: H; rewrite E].
Qed.
End Perm.

Lemma logpdf_orth n (S K : 'M[R]_n) m x : S *m S^T = 1%:M -> spd K ->
  gauss_logpdf (S *m m) (S *m K *m S^T) (S *m x) = gauss_logpdf m K x.
Proof.
move=> O HK; have UK : K \in unitmx by exact: (@spd_unit Rr).
have Ei : invmx (S *m K *m S^T) = S *m invmx K *m S^T.
  apply: (@mulmx1_inv Rr); rewrite !mulmxA -(mulmxA (S *m K)) (mulmx1C O) mulmx1 -(mulmxA S) mulmxV // mulmx1; exact: O.
have Ed : \det (S *m K *m S^T) = \det K.
  have := congr1 determinant O; rewrite det_mulmx det1 !det_mulmx => E; by rewrite mulrAC E mul1r.
rewrite /gauss_logpdf Ei Ed -mulmxBr.
by have := @qf_congr Rr _ _ (invmx K) S^T (S *m (x - m)); rewrite trmxK => ->; rewrite mulmxA (mulmx1C O) mul1mx.
Qed.

(* ---------- inserting a point ---------- *)
Section Insert.
Variables (n k : nat) (t : R) (z : nat -> R).
Hypothesis Hk : (k < n)%N.
Definition ins_perm (i : nat) : nat := if i is j.+1 then (if (j <= k)%N then j else j.+1) else k.+1.

Lemma ins_perm_lt i : (i < n.+2)%N -> (ins_perm i < n.+2)%N.
Proof. case: i => [|j] H; rewrite /ins_perm; [lia|case: (leqP j k) => _; lia]. Qed.

Lemma ins_perm_inj i j : (i < n.+2)%N -> (j < n.+2)%N -> ins_perm i = ins_perm j -> i = j.
Proof. by case: i j => [|i] [|j] Hi Hj; rewrite /ins_perm //; [case: (leqP j k)|case: (leqP i k)|case: (leqP i k); case: (leqP j k)]; lia. Qed.

Lemma ins_first (T : Type) (a : T) x i : insert k a x (ins_perm i) = if i is j.+1 then x j else a.
Proof.
case: i => [|j]; rewrite /insert /ins_perm; first by rewrite ltnn eqxx.
case: (leqP j k) => [->|H] //.
by rewrite leqNgt ltnS (ltnW H) eqSS (gtn_eqF H).
Qed.

End Insert.

Section Gpr.
Variables (o d : nat) (ker : sde_kernel Rr d) (emission : R -> 'M[R]_(o, d)) (mean : R -> 'cV[R]_o).
Hypothesis Hker : markov_kernel ker.
Hypothesis Hm0 : k_mean0 ker = 0.
Variables (n : nat) (z : nat -> R) (y : nat -> 'cV[R]_o) (cR : 'M[R]_o).
Hypothesis Hz : increasing n.+1 z.
Hypothesis HR : lownz cR.
Variables (k : nat) (t : R) (ys : 'cV[R]_o).
Hypothesis Hk : (k < n)%N.
Hypothesis H1 : z k < t.
Hypothesis H2 : t < z k.+1.
Let zz := insert k t z.
Let yy := insert k ys y.
Let Sg N := dense N N (rdiag (fun _ => cR *m cR^T)) : 'M[R]_(N * o).
Let Kyy := f_gram ker emission n.+1 n.+1 z z + Sg n.+1.
Let Kt := brow n.+1 (fun j => f_cov ker emission t (z j)).

Lemma zz_inc : increasing n.+2 zz.
Proof. exact: (insert_increasing Hz Hk H1 H2). Qed.

Lemma Sg_spd N : spd (Sg N).
Proof. by apply: (@spd_rdiag Rr) => j _; exact: (@lownz_spd Rr). Qed.

Lemma obs_spd N (x : nat -> R) : increasing N.+1 x -> spd (f_gram ker emission N.+1 N.+1 x x + Sg N.+1).
Proof.
move=> Hx; rewrite f_gram_Hd; rewrite addrC; apply: (@spdD Rr); first exact: Sg_spd.
by apply: (@psd_congr' Rr); apply: (@spd_psd Rr); exact: Kzz_spd.
Qed.

Let p := ins_perm k.
Lemma joint_block : 
  perm_blocks Rr o n.+2 p *m (f_gram ker emission n.+2 n.+2 zz zz + Sg n.+2) *m (perm_blocks Rr o n.+2 p)^T =
  block_mx (f_cov ker emission t t + cR *m cR^T) Kt Kt^T Kyy.
Proof.
rewrite /f_gram /Sg denseD perm_dense; last exact: ins_perm_lt.
rewrite dense_recl /Kyy /Kt /f_gram /Sg denseD tr_brow /zz /p.
have E i : insert k t z (ins_perm k i) = if i is j.+1 then z j else t by exact: ins_first.
have Er i j : (i < n.+2)%N -> (j < n.+2)%N -> rdiag (fun _ => cR *m cR^T) (ins_perm k i) (ins_perm k j) = rdiag (fun _ => cR *m cR^T) i j.
  move=> Hi Hj; rewrite /rdiag; case: (eqVneq i j) => [->|H]; first by rewrite eqxx.
  by case: eqP => // /(ins_perm_inj Hk Hi Hj) E'; rewrite E' eqxx in H.
congr block_mx.
- by rewrite E Er // /rdiag eqxx.
- by apply (@eq_brow [ringType of Rr] o o n.+1) => j Hj;  rewrite 2!E Er // /rdiag addr0.
- by apply (@eq_bcol [ringType of Rr] o o n.+1) => i Hi; rewrite 2!E Er // /rdiag addr0 /f_cov !trmx_mul trmxK mulmxA (state_cov_tr _ _ Hker).
- by apply (@eq_dense [ringType of Rr] o o n.+1 n.+1) => i j Hi Hj; rewrite 2!E Er.
Qed.

Let m N (x : nat -> R) := flat N (fun i => mean (x i)).

Lemma joint_spd : spd (block_mx (f_cov ker emission t t + cR *m cR^T) Kt Kt^T Kyy).
Proof.
rewrite -joint_block; set S := perm_blocks _ _ _ _.
have O : S *m S^T = 1%:M by apply: (@perm_orth Rr); [exact: ins_perm_lt|exact: ins_perm_inj].
apply: (@spd_congr' Rr); last exact: (obs_spd zz_inc).
by case: (mulmx1_unit O).
Qed.

Lemma joint_logpdf :
  gauss_logpdf (m n.+2 zz) (f_gram ker emission n.+2 n.+2 zz zz + Sg n.+2) (flat n.+2 yy) =
  gauss_logpdf (m n.+1 z) Kyy (flat n.+1 y) +
  gauss_logpdf (mean t + Kt *m invmx Kyy *m (flat n.+1 y - m n.+1 z))
    (f_cov ker emission t t - Kt *m invmx Kyy *m Kt^T + cR *m cR^T) ys.
Proof.
set S := perm_blocks Rr o n.+2 p.
have O : S *m S^T = 1%:M by apply: (@perm_orth Rr); [exact: ins_perm_lt|exact: ins_perm_inj].
rewrite -(logpdf_orth _ _ O); last exact: (obs_spd zz_inc).
rewrite joint_block.
have C q (mu : 'cV[R]_q) K x : gauss_logpdf mu K x = gauss_logpdf 0 K (x - mu) by rewrite /gauss_logpdf subr0.
rewrite C -mulmxBr /m flatB (@perm_flat Rr); last exact: ins_perm_lt.
rewrite -flatB.
have -> : flat n.+2 (fun i => yy (p i)) - flat n.+2 (fun i => mean (zz (p i))) =
   col_mx (ys - mean t) (flat n.+1 y - flat n.+1 (fun i => mean (z i))).
  have Ey i : yy (p i) = if i is j.+1 then y j else ys by exact: ins_first.
  have Ez i : zz (p i) = if i is j.+1 then z j else t by exact: ins_first.
  rewrite !flatB; transitivity (flat n.+2 (fun i => if i is j.+1 then y j - mean (z j) else ys - mean t)); last by [].
  by apply: (@eq_flat [ringType of Rr]) => i Hi; rewrite Ey Ez; case: i {Hi}.
refine (etrans (logpdf_chain' (ys - mean t) (flat n.+1 y - flat n.+1 (fun i => mean (z i))) joint_spd) _).
congr (_ + _); first by rewrite -C.
rewrite [RHS]C C; congr gauss_logpdf; last by rewrite opprD addrA.
by rewrite addrAC.
Qed.
End Gpr.

Section Density.
Variables (o d : nat) (ker : sde_kernel Rr d) (emission : R -> 'M[R]_(o, d)) (mean : R -> 'cV[R]_o).
Hypothesis Hker : markov_kernel ker.
Hypothesis Hm0 : k_mean0 ker = 0.
Variables (n : nat) (z : nat -> R) (y : nat -> 'cV[R]_o) (cR : 'M[R]_o).
Hypothesis Hz : increasing n.+1 z.
Hypothesis HR : lownz cR.
Hypothesis Hinf : - APPROX_INF Rr < z 0%N.
Variables (new : nat -> R) (i k : nat).
Hypothesis Hk : (k < n)%N.
Hypothesis H1 : z k < new i.
Hypothesis H2 : new i < z k.+1.


Lemma between : z 0%N <= new i /\ new i <= z n.
Proof.
have Hl a b : (a <= b)%N -> (b < n.+1)%N -> z a <= z b.
  by rewrite leq_eqVlt => /orP [/eqP -> //|Hab] Hb; apply: ltW; apply: (@increasing_lt Rr _ _ _ _ Hz).
split; first by apply: (Order.POrderTheory.le_trans _ (ltW H1)); apply: Hl; lia.
by apply: (Order.POrderTheory.le_trans (ltW H2)); apply: Hl; lia.
Qed.

Lemma gpr_new : exists m S a, [/\
  omap (fun p => p i) (gpr_predict_y ker emission mean n z y cR new) = Some (m, S), spd S,
  gpr_log_likelihood ker emission mean n z y cR = Some a,
  forall ys, gpr_log_likelihood ker emission mean n.+1 (insert k (new i) z) (insert k ys y) cR = Some (a + gauss_logpdf m S ys) &
  forall ys, omap (fun p => p i) (gpr_predict_density ker emission mean n z y cR new ys) = Some (gauss_logpdf m S (ys i))].
Proof.
have [B1 B2] := between; have n0 : (0 < n)%N by lia.
have P := @gpr_predict o d ker emission mean Hker Hm0 n z y cR Hz HR new i n0 Hinf B1 B2; cbv zeta in P.
rewrite /gpr_predict_y /gpr_predict_density.
case E: (gpr_predict_f _ _ _ _ _ _ _ _) P => [f|]; rewrite /omap /obind /oapp; last by [].
case=> Ef.
have HS := spd_block_schur' (joint_spd emission Hker Hz HR Hk H1 H2).
rewrite addrAC in HS.
pose Kt := brow n.+1 (fun j => f_cov ker emission (new i) (z j)).
pose W := invmx (f_gram ker emission n.+1 n.+1 z z + dense n.+1 n.+1 (rdiag (fun _ => cR *m cR^T))).
rewrite -/Kt -/W in Ef HS.
exists (mean (new i) + Kt *m W *m (flat n.+1 y - flat n.+1 (fun k => mean (z k)))),
  (f_cov ker emission (new i) (new i) - Kt *m W *m Kt^T + cR *m cR^T); eexists; split.
- by rewrite Ef /mvg_predict_mean_and_var /= [cR *m _ + _]addrC.
- exact: HS.
- exact: (gpr_evidence _ _ Hker Hm0 _ Hz HR).
- move=> ys; rewrite (gpr_evidence _ _ Hker Hm0 _ (zz_inc Hz Hk H1 H2) HR) (joint_logpdf emission mean Hker y Hz HR ys Hk H1 H2).
  by [].
- move=> ys; rewrite Ef /mvg_predict_density mvn_tril_gauss; last exact/lowpos_nz/chol_lowpos.
  by rewrite chol_mul.
Qed.
End Density.

Lemma mulmx11 (x : R) : x%:M = const_mx x :> 'M[R]_1.
Proof. by apply/matrixP => a b; rewrite !mxE !ord1 eqxx. Qed.

Lemma mx11_const (A : 'M[R]_1) : A = const_mx (A 0 0).
Proof. by apply/matrixP => a b; rewrite !mxE !ord1. Qed.

Section Cvi.
Variables (d : nat) (ker : sde_kernel Rr d) (emission : R -> 'M[R]_(1, d)).
Hypothesis Hker : markov_kernel ker.
Hypothesis Hm0 : k_mean0 ker = 0.
Variables (n : nat) (z : nat -> R).
Hypothesis Hz : increasing n.+1 z.
Hypothesis Hinf : - APPROX_INF Rr < z 0%N.
Variables (gm gv : R -> R -> R -> R) (s2 : R) (y : nat -> R).
Hypothesis s0 : 0 < s2.
Hypothesis Hg : gradients_of (ext_gaussian_ve1 s2) gm gv.
Variables (new : nat -> R) (i k : nat).
Hypothesis Hk : (k < n)%N.
Hypothesis H1 : z k < new i.
Hypothesis H2 : new i < z k.+1.

Lemma cvi_new mean (ys : nat -> R) s t : (forall j, (j <= n)%N -> st_nat2 s j <= 0) -> (forall j, (j <= n.+1)%N -> st_nat2 t j <= 0) ->
  exists a b s' t', [/\ cvi_update_sites ker emission gm gv n z y 1 s = Some s',
    cvi_elbo ker emission n z s' = Some a,
    cvi_update_sites ker emission gm gv n.+1 (insert k (new i) z) (insert k (ys i) y) 1 t = Some t',
    cvi_elbo ker emission n.+1 (insert k (new i) z) t' = Some b &
    omap (fun p => p i) (cvi_predict_log_density ker emission n z mean (ext_gaussian_pld s2) s' new ys) = Some (b - a)].
Proof.
move=> Hs Ht; have [B1 B2] := between Hz Hinf Hk H1 H2; have n0 : (0 < n)%N by lia.
have Hz' := zz_inc Hz Hk H1 H2.
have Hinf' : - APPROX_INF Rr < insert k (new i) z 0%N by [].
have [s' [q [E1 _ _ E2 _]]] := cvi_unit_step emission Hker Hm0 Hz n0 Hinf y s0 Hg Hs.
have [t' [q' [E3 _ _ E4 _]]] := cvi_unit_step emission Hker Hm0 Hz' isT Hinf' (insert k (ys i) y) s0 Hg Ht.
have P := cvi_unit_predict emission Hker Hm0 Hz n0 Hinf y s0 Hg mean Hs B1 B2; cbv zeta in P.
rewrite E1 /omap /obind /oapp in P.
eexists _, _, s', t'; split; [exact: E1|exact: E2|exact: E3|exact: E4|].
rewrite /cvi_predict_log_density.
case E: (cvi_posterior_predict_f _ _ _ _ _ _ _) P => [f|]; rewrite /omap /obind /oapp; last by [].
case=> Ef; congr Some; rewrite Ef {Ef E}.
have J := joint_logpdf emission (fun _ => 0) Hker (fun j => const_mx (y j) : 'cV[R]_1) Hz (cR_low 1 s0) (const_mx (ys i)) Hk H1 H2.
cbv zeta beta in J; rewrite !(Sg_scalar _ s0) (cR_mul _ s0) in J.
have Z N : flat N (fun _ => 0 : 'cV[R]_1) = 0.
  by rewrite -[RHS](subrr (flat N (fun _ => 0))) flatB; apply: eq_flat => j Hj; rewrite subrr.
rewrite !Z subr0 add0r in J.
have -> : flat n.+2 (fun j => const_mx (insert k (ys i) y j) : 'cV[R]_1) = flat n.+2 (insert k (const_mx (ys i)) (fun j => const_mx (y j))).
  by apply: eq_flat => j _; rewrite /insert; case: ifP => // _; case: ifP.
rewrite J; move: (gauss_logpdf 0 _ _) => a {J}.
have cancel (x : R) : a + x - a = x by rewrite addrC addKr.
rewrite cancel {cancel a}.
have HS := spd_block_schur' (joint_spd emission Hker Hz (cR_low 1 s0) Hk H1 H2).
cbv beta in HS; rewrite (Sg_scalar _ s0) (cR_mul _ s0) addrAC in HS.
pose Kt := brow n.+1 (fun j => f_cov ker emission (new i) (z j)).
pose W := invmx (f_gram ker emission n.+1 n.+1 z z + s2%:M).
pose m := Kt *m W *m flat n.+1 (fun j => const_mx (y j) : 'cV[R]_1).
pose S := f_cov ker emission (new i) (new i) - Kt *m W *m Kt^T.
change (ext_gaussian_pld s2 (m 0 0) (S 0 0) (ys i) = gauss_logpdf m (S + s2%:M) (const_mx (ys i))).
move: HS; rewrite -/Kt -/W -/S; move: m S => m S HS {Kt W}.
have S0 : 0 < S 0 0 + s2.
  have [_ /(_ 1)] := HS; rewrite /qf trmx1 mul1mx mulmx1 !mxE eqxx; apply.
  exact: (@oner_neq0 [ringType of 'M[Rr]_1]).
have -> : S + s2%:M = (S 0 0 + s2)%:M by apply/matrixP => a b; rewrite !mxE !ord1 eqxx.
by rewrite [in RHS](mx11_const m) (logpdf1 _ _ S0).
Qed.
End Cvi.

Lemma half_between (F : rcfType) k : k%:R < k%:R + 2%:R^-1 :> F /\ k%:R + 2%:R^-1 < k.+1%:R :> F.
Proof. by rewrite ltr_addl invr_gt0 ltr0n -[k.+1]addn1 natrD ltr_add2l invf_lt1 ?ltr0n // ltr1n. Qed.

Lemma density_example (l v s2 : R) n k : 0 < l -> 0 < v -> 0 < s2 -> (k < n)%N ->
  let ke := matern32 1 0 l v 0 in let z i : R := i%:R in let t : R := k%:R + 2%:R^-1 in
  [/\ markov_kernel (to_sde ke), k_mean0 (to_sde ke) = 0, increasing (F := Rr) n.+1 z, - APPROX_INF Rr < z 0%N &
      lownz ((Num.sqrt s2)%:M : 'M[R]_1) /\ z k < t /\ t < z k.+1].
Proof.
move=> Hl Hv Hs Hk ke z t; have [E1 E2 E3 E4 _] := @cvi_example l v s2 n Hl Hv Hs.
split=> //; split; first exact: cR_low.
exact: (@half_between Rr k).
Qed.
