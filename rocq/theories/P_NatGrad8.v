(* Proofs for natural gradients, part 8: the norm that the momentum update divides by is not
   the norm of the natural gradient; it can be negative. *)
From Coq Require Import Reals Lra FunctionalExtensionality.
From Coquelicot Require Import Coquelicot.
From mathcomp Require Import all_ssreflect all_algebra.
From Verif Require Import RealStruct Log Nat Alg Lin Ent Spd MCalc MCont M_Block S_Block P_Block P_Block2
  M_SSM S_SSM P_SSM M_SSMLog S_Gauss P_Gauss P_SSMLog M_Trans S_Trans P_Trans P_TransLog P_Elbo M_NatGrad S_NatGrad
  P_NatGrad P_NatGrad2 P_NatGrad3 P_NatGrad4 P_NatGrad7.
Set Implicit Arguments.
Unset Strict Implicit.
Unset Printing Implicit Defensive.
Import Order.Theory GRing.Theory Num.Theory.
Local Open Scope ring_scope.

(* a loss that is linear in the expectation parameters has a constant gradient *)
Lemma linear_gradient d n (c : triple Rr d) (q : ssm Rr d) : ssm_chol n q -> tsym n c ->
  exp_gradient n (fun q' => tdot n c (ssm_to_expectations n q')) q c.
Proof.
move=> Hq sc; split=> // delta sdelta.
have He : exp_valid n (ssm_to_expectations n q) by apply: expectations_valid; apply: ssm_chol_nonsing.
apply: (@deriv_local (fun s => tdot n c (ssm_to_expectations n q) + s * tdot n c delta)).
  apply: near0_imp (near_valid He sdelta) => s /expectations_of_ssm_of [_ E].
  by apply: esym; apply: (etrans (same_tdotr c E)); apply: tdot_along.
move: (tdot n c _) (tdot n c delta) => a b eps e0; exists (mkposreal 1 Rlt_0_1) => h h0 _.
toR_ops; rewrite (_ : _ - b = 0)%Re ?Rabs_R0 //; by field.
Qed.

Section Gen.
Variable F : rcfType.
Lemma e11 (A B : 'M[F]_1) : (A *m B) 0 0 = A 0 0 * B 0 0.
Proof. by rewrite mxE big_ord_recl big_ord0 addr0. Qed.
Lemma eD (A B : 'M[F]_1) : (A + B) 0 0 = A 0 0 + B 0 0. Proof. by rewrite mxE. Qed.
Lemma eZ (a : F) (B : 'M[F]_1) : (a *: B) 0 0 = a * B 0 0. Proof. by rewrite mxE. Qed.
Lemma eN (B : 'M[F]_1) : (- B) 0 0 = - B 0 0. Proof. by rewrite mxE. Qed.
Lemma eT (B : 'M[F]_1) : B^T 0 0 = B 0 0. Proof. by rewrite mxE. Qed.
Lemma e1 : (1%:M : 'M[F]_1) 0 0 = 1. Proof. by rewrite mxE. Qed.
Lemma e0 : (0 : 'M[F]_1) 0 0 = 0. Proof. by rewrite mxE. Qed.

Lemma two_by_two (t : triple F 1) (K : nat -> nat -> 'M[F]_1) (m : nat -> 'cV[F]_1) :
  nat_precision 1 t *m dense 2 2 K = 1%:M -> flat 2 (t_lin t) = nat_precision 1 t *m flat 2 m ->
  [/\ - 2%:R * t_diag t 0%N 0 0 * K 0%N 0%N 0 0 - t_sub t 0%N 0 0 * K 1%N 0%N 0 0 = 1,
      - t_sub t 0%N 0 0 * K 0%N 0%N 0 0 - 2%:R * t_diag t 1%N 0 0 * K 1%N 0%N 0 0 = 0,
      t_lin t 0%N 0 0 = - 2%:R * t_diag t 0%N 0 0 * m 0%N 0 0 - t_sub t 0%N 0 0 * m 1%N 0 0 &
      t_lin t 1%N 0 0 = - t_sub t 0%N 0 0 * m 0%N 0 0 - 2%:R * t_diag t 1%N 0 0 * m 1%N 0 0].
Proof.
rewrite /nat_precision -dense1 mul_dense mul_dense_flat => EP EL.
have E i j (Hi : (i < 2)%N) (Hj : (j < 2)%N) :=
  congr1 (fun M : 'M[F]_1 => M 0 0) (dense_inj EP Hi Hj).
have G i (Hi : (i < 2)%N) := congr1 (fun M : 'M[F]_1 => M 0 0) (bcol_inj EL Hi).
move: (E 0%N 0%N isT isT) (E 1%N 0%N isT isT) (G 0%N isT) (G 1%N isT).
rewrite !big_ord_recl !big_ord0 !addr0 /sym_blocks /bdiag /=.
rewrite !(eD, e11, eZ, eN, eT, e1, e0) !mulNr => E1 E2 E3 E4.
by split.
Qed.
End Gen.

Section Scalar.
Lemma scalar_expectations (t : triple Rr 1) (S : ssm Rr 1) : ssm_nonsing 1 S ->
  same_triple 1 (ssm_to_naturals 1 S) t ->
  forall d0 d1 e h0 h1 : R, t_diag t 0%N 0 0 = d0 -> t_diag t 1%N 0 0 = d1 -> t_sub t 0%N 0 0 = e ->
  t_lin t 0%N 0 0 = h0 -> t_lin t 1%N 0 0 = h1 -> forall a c b D : R,
  (-2 * d0)%Re = a -> (-2 * d1)%Re = c -> (- e)%Re = b -> (a * c - b * b)%Re = D ->
  let eta := ssm_to_expectations 1 S in
  D <> 0%Re ->
  t_diag eta 0%N 0 0 = (c / D + ((c * h0 - b * h1) / D) * ((c * h0 - b * h1) / D))%Re /\
  t_sub eta 0%N 0 0 = (- b / D + ((a * h1 - b * h0) / D) * ((c * h0 - b * h1) / D))%Re.
Proof.
move=> HS Ht d0 d1 e h0 h1 Ed0 Ed1 Ee Eh0 Eh1 a c b D <- <- <- <- eta D0.
have [_ /(_ 0%N isT) -> /(_ 0%N isT) ->] := expectations_law HS (ssm_has_law 1 S).
have EP := precision_inv HS; rewrite dense_precision // (nat_precision_same Ht) in EP.
have EL := naturals_lin HS; rewrite dense_precision // (nat_precision_same Ht) in EL.
have [HL _ _] := Ht; rewrite (eq_flat (y := t_lin t)) in EL; last by move=> k Hk; apply: HL.
move: (two_by_two EP EL).
move: (ssm_cov S) (ssm_marginal_means 1 S) => K m; rewrite !eD !e11 !eT => -[].
rewrite Ed0 Ed1 Ee Eh0 Eh1; move: (K 0%N 0%N 0 0) (K 1%N 0%N 0 0) (m 0%N 0 0) (m 1%N 0 0).
move: D0; clear => + k00 k10 m0 m1.
rewrite twoR; toR_ops => D0 E1 E2 -> ->; split; eqR.
  have -> : k00 = ((-2 * d1) / (-2 * d0 * (-2 * d1) - - e * - e))%Re.
    apply: (Rmult_eq_reg_r (-2 * d0 * (-2 * d1) - - e * - e)%Re) => //; rewrite (_ : _ / _ * _ = -2 * d1)%Re; last by field.
    have := congr1 (fun x => (-2 * d1 * x)%Re) E1; have := congr1 (fun x => (e * x)%Re) E2; move=> /= {}E2 {}E1; lra.
  by field.
have -> : k10 = (e / (-2 * d0 * (-2 * d1) - - e * - e))%Re.
  apply: (Rmult_eq_reg_r (-2 * d0 * (-2 * d1) - - e * - e)%Re) => //; rewrite (_ : _ / _ * _ = e)%Re; last by field.
  have := congr1 (fun x => (e * x)%Re) E1; have := congr1 (fun x => (-2 * d0 * x)%Re) E2; move=> /= {}E2 {}E1; lra.
by field.
Qed.
End Scalar.


Lemma near_valid_nat d n (t delta : triple Rr d) : nat_valid n t -> tsym n delta ->
  near0 (fun s => nat_valid n (along t delta s)).
Proof.
move=> [st Pt] sd.
have E s : nat_precision n (along t delta s) = nat_precision n t + s *: nat_precision n delta.
  rewrite (@nat_precision_lin _ _ _ t delta _ 1 s) ?scale1r // => k; by rewrite scale1r.
have sym u : tsym n u -> (nat_precision n u)^T = nat_precision n u.
  move=> su; rewrite /nat_precision; apply: sym_blocks_sym => k Hk.
  by rewrite linearZ /= su.
have H : near0 (fun s => spd (nat_precision n (along t delta s) : 'M[Rr]_(n.+1 * d))).
  apply: near_spd; last by rewrite along_0.
    by move=> s; rewrite E linearD linearZ /= !sym.
  by apply: (mcont_ext (fun s => esym (E s))); apply: mcont_line.
apply: near0_imp H => s Hs; split=> // k Hk.
by rewrite /along /= linearD linearZ /= st // sd.
Qed.

(* the witness: x0 ~ N(0, 1), x1 = 3 x0 + N(0, 1), and the loss E[x0 x1] - 9/2 E[x0^2] *)
Section Gen2.
Variable F : rcfType.
Definition w_ssm : ssm F 1 := Ssm 0 1%:M (fun _ => 3%:R%:M) (fun _ => 0) (fun _ => 1%:M).
Lemma w_chol : ssm_chol 1 w_ssm. Proof. by split=> [|k _]; apply: lowpos1. Qed.
Lemma w_nonsing : ssm_nonsing 1 w_ssm. Proof. exact: ssm_chol_nonsing w_chol. Qed.
Lemma w_nat : same_triple 1 (ssm_to_naturals 1 w_ssm)
  (Triple (fun _ => 0) (fun k => (if k is 0 then - 5%:R else - 2%:R^-1)%:M) (fun _ => 3%:R%:M)).
Proof.
have L1 : lownz (1%:M : 'M[F]_1) by exact: (proj1 w_nonsing).
have S1 X : ext_cholesky_solve (1%:M : 'M[F]_1) (X : 'cV[F]_1) = X by rewrite chol_solveE // trmx1 mulmx1 invmx1 mul1mx.
have T1 : tril (1%:M : 'M[F]_1) = 1%:M by apply: tril_id; case: L1.
split=> k Hk; rewrite /ssm_to_naturals /=.
- have -> : ssm_concat_chol w_ssm = fun _ => 1%:M by apply: functional_extensionality => -[|j].
  have E0 j : ssm_concat_offsets w_ssm j = 0 by case: j.
  by rewrite !S1 !E0 mulmx0 subr0 if_same.
- have -> : ssm_concat_chol w_ssm = fun _ => 1%:M by apply: functional_extensionality => -[|j].
  rewrite !S1.
  rewrite !T1 invmx1 !mul1mx tr_scalar_mx -scalar_mxM; case: k Hk => [|[|k]] //= _.
    rewrite -[1%:M + _]raddfD scale_scalar_mx; congr (_%:M).
    have -> : 1 + 3%:R * 3%:R = 2%:R * 5%:R :> F by rewrite -!natrM -[1]/1%:R -natrD.
    by rewrite mulNr mulrA mulVf ?pnatr_eq0 // mul1r.
  by rewrite addr0 scale_scalar_mx mulr1.
by rewrite !T1 trmx1 invmx1 !mul1mx.
Qed.
End Gen2.

Definition wc : triple Rr 1 :=
  Triple (fun _ => 0) (fun k => (if k is 0 then (- (9/2))%Re else 0)%:M) (fun _ => 1%:M).
Definition wg : triple Rr 1 :=
  Triple (fun _ => 0) (fun k => (if k is 0 then - 3 else - 21)%Re%:M) (fun _ => (- 8)%Re%:M).
Definition w_loss (q : ssm Rr 1) : R :=
  let eta := ssm_to_expectations 1 q in t_sub eta 0%N 0 0 - 9%:R / 2%:R * t_diag eta 0%N 0 0.


Lemma red11 (g t : nat -> 'M[R]_1) num :
  reduce_prod num g t = \sum_(k < num) g k 0 0 * t k 0 0.
Proof. by rewrite /reduce_prod; apply: eq_bigr => k _; rewrite !big_ord_recl !big_ord0 !addr0. Qed.

Lemma tdot11 (g t : triple Rr 1) : tdot 1 g t =
  (t_lin g 0%N 0 0 * t_lin t 0%N 0 0 + t_lin g 1%N 0 0 * t_lin t 1%N 0 0)
  + (t_diag g 0%N 0 0 * t_diag t 0%N 0 0 + t_diag g 1%N 0 0 * t_diag t 1%N 0 0)
  + t_sub g 0%N 0 0 * t_sub t 0%N 0 0.
Proof. by rewrite tdotE !red11 !big_ord_recl !big_ord0 !addr0. Qed.

Lemma norm11 (g t : triple Rr 1) : natgrad_norm 1 g t = tdot 1 g t + t_sub g 0%N 0 0 * t_sub t 0%N 0 0.
Proof.
rewrite tdotE /natgrad_norm ![reduce_prod 1 _ _]red11 !big_ord_recl !big_ord0 !addr0 -!addrA mulr_natr mulr2n.
by [].
Qed.

Lemma sc11 (a : R) : (a%:M : 'M[R]_1) 0 0 = a. Proof. by rewrite mxE. Qed.

Lemma w_lossE q : w_loss q = tdot 1 wc (ssm_to_expectations 1 q).
Proof.
rewrite /w_loss tdot11; move: (ssm_to_expectations 1 q) => t; rewrite /= !sc11 !e0.
have key (x y a b c : R) : x - 9%:R / 2%:R * y = 0 * a + 0 * b + (- (9/2)%Re * y + 0 * c) + 1 * x.
  by rewrite !natrR invrR; [eqR; toR_ops; rewrite /=; field|rewrite /=; lra].
exact: key.
Qed.

Lemma w_norm : tdot 1 wc wg = (11/2)%Re /\ natgrad_norm 1 wc wg = (- (5/2))%Re.
Proof. rewrite norm11 tdot11 /= !sc11 !e0; split; eqR; toR_ops; field. Qed.

Lemma w_exp : exp_gradient 1 w_loss (w_ssm Rr) wc.
Proof.
have [s H] := @linear_gradient 1 1 wc (w_ssm Rr) (w_chol Rr) (fun k _ => tr_scalar_mx _ _).
split=> // delta sd; apply: deriv_local (H delta sd); apply: near0_true => x; exact: esym (w_lossE _).
Qed.

Lemma w_nat_grad : nat_gradient 1 w_loss (w_ssm Rr) wg.
Proof.
split=> [k _|delta sd]; first exact: tr_scalar_mx.
set l0 := t_lin delta 0%N 0 0; set l1 := t_lin delta 1%N 0 0.
set x0 := t_diag delta 0%N 0 0; set x1 := t_diag delta 1%N 0 0; set e := t_sub delta 0%N 0 0.
pose a s := (10 - 2 * (s * x0))%Re; pose c s := (1 - 2 * (s * x1))%Re; pose b s := (- (3 + s * e))%Re.
pose D s := (a s * c s - b s * b s)%Re.
pose f s := (- b s / D s + ((a s * (s * l1) - b s * (s * l0)) / D s) * ((c s * (s * l0) - b s * (s * l1)) / D s)
  - 9 / 2 * (c s / D s + ((c s * (s * l0) - b s * (s * l1)) / D s) * ((c s * (s * l0) - b s * (s * l1)) / D s)))%Re.
have df : derivable_pt_lim f 0 (tdot 1 wg delta).
  rewrite tdot11 /= !sc11 !e0 -/l0 -/l1 -/x0 -/x1 -/e.
  apply/is_derive_Reals; rewrite /f /D /a /b /c; auto_derive; first by split=> //; lra.
  by toR_ops; field.
apply: deriv_local df.
have Dn : near0 (fun s => D s != 0).
  apply: near_neq0; last by apply/eqP; rewrite /D /a /b /c; toR_ops; lra.
  by rewrite /cont0 /D /a /b /c; reg.
have Hv := near_valid_nat (naturals_valid (w_nonsing Rr)) sd.
apply: near0_imp (near0_and Hv Dn) => s [{}Hv Ds].
have [S [-> HS Hs]] := naturals_of_ssm_of (isT : (0 < 1)%N) Hv.
have sE : same_triple 1 (along (ssm_to_naturals 1 (w_ssm Rr)) delta s)
   (along (Triple (fun _ => 0) (fun k => (if k is 0 then - 5%:R else - 2%:R^-1)%:M) (fun _ => 3%:R%:M)) delta s).
  by rewrite !along_lincomb; apply: same_lincomb; [exact: w_nat|exact: same_refl].
have Ea : (-2 * (- 5%:R + s * x0))%Re = a s by rewrite natrR /a; toR_ops; rewrite /=; lra.
have Ec : (-2 * (- 2%:R^-1 + s * x1))%Re = c s by rewrite twoR invrR; toR_ops; rewrite ?/c; lra.
have Eb : (- (3%:R + s * e))%Re = b s by rewrite natrR /b; toR_ops; rewrite /=; lra.
set u := Triple _ _ _ in sE.
have g0 : t_diag (along u delta s) 0%N 0 0 = - 5%:R + s * x0 by rewrite eD eZ sc11.
have g1 : t_diag (along u delta s) 1%N 0 0 = - 2%:R^-1 + s * x1 by rewrite eD eZ sc11.
have ge : t_sub (along u delta s) 0%N 0 0 = 3%:R + s * e by rewrite eD eZ sc11.
have gl0 : t_lin (along u delta s) 0%N 0 0 = s * l0 by rewrite eD eZ e0 add0r.
have gl1 : t_lin (along u delta s) 1%N 0 0 = s * l1 by rewrite eD eZ e0 add0r.
have D1 : D s <> 0%Re by apply/eqP.
have [H1 H2] := scalar_expectations (ssm_chol_nonsing HS) (same_trans Hs sE) g0 g1 ge gl0 gl1 Ea Ec Eb erefl D1.
move: H1 H2; rewrite /w_loss; move: (ssm_to_expectations 1 S) => eta /= -> ->.
have key (X Y : R) : (X - 9 / 2 * Y)%Re = X - 9%:R / 2%:R * Y.
  by rewrite !natrR invrR; [eqR; toR_ops; rewrite /=; field|rewrite /=; lra].
exact: key.
Qed.

Lemma w_refuted : exists (loss : ssm Rr 1 -> R) q g gt,
  [/\ ssm_chol 1 q, exp_gradient 1 loss q g, nat_gradient 1 loss q gt, 0 < tdot 1 g gt & natgrad_norm 1 g gt < 0].
Proof.
exists w_loss, (w_ssm Rr), wc, wg; have [E1 E2] := w_norm; split.
- exact: w_chol.
- exact: w_exp.
- exact: w_nat_grad.
- by rewrite E1; apply/RltP; toR_ops; lra.
by rewrite E2; apply/RltP; toR_ops; lra.
Qed.

Lemma neg_norm_fails d n gamma beta1 beta2 epsilon (g gt : triple Rr d) q : 0 <= beta2 < 1 ->
  natgrad_norm n g gt < 0 -> natgrad_step n gamma beta1 beta2 epsilon true g gt q (ng_init d) = None.
Proof.
move=> /andP [b0 b1] H; rewrite /natgrad_step /ng_thetas.
have -> : ng_v_new n beta2 (ng_init d) g gt < 0.
  by rewrite /ng_v_new [ng_v _]/= mul0r add0r pmulr_rlt0 // subr_gt0.
by [].
Qed.
