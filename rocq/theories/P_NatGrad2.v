(* Proofs for natural gradients, part 2: the natural parameters as a function of the
   expectation parameters, and the derivative of the divergence along a line. *)
From Coq Require Import Reals Lra.
From mathcomp Require Import all_ssreflect all_algebra.
From Verif Require Import RealStruct Log Nat Alg Lin Ent Spd MCalc MCont M_Block S_Block P_Block P_Block2
  M_SSM S_SSM P_SSM M_SSMLog S_Gauss P_Gauss P_SSMLog M_Trans S_Trans P_Trans P_TransLog P_Elbo M_NatGrad S_NatGrad P_NatGrad.
Set Implicit Arguments.
Unset Strict Implicit.
Unset Printing Implicit Defensive.
Import Order.Theory GRing.Theory Num.Theory.
Local Open Scope ring_scope.

Section Exp.
Variables (d n : nat).
Implicit Types (S T : ssm Rr d) (t g eta delta : triple Rr d).

Definition xA t k : 'M[R]_d := exp_cov t k *m invmx (exp_var t k).
Definition xC t k : 'M[R]_d := exp_var t k.+1 - exp_cov t k *m invmx (exp_var t k) *m (exp_cov t k)^T.
Definition xQ t k : 'M[R]_d := if k is k'.+1 then xC t k' else exp_var t 0%N.
Definition xD t k : 'M[R]_d := invmx (xQ t k) + (if (k < n)%N then (xA t k)^T *m invmx (xQ t k.+1) *m xA t k else 0).
Definition xS t k : 'M[R]_d := - (invmx (xQ t k.+1) *m xA t k).
Definition xL t k : 'cV[R]_d := \sum_(j < n.+1) sym_blocks (xD t) (xS t) k j *m t_lin t j.

Lemma exp_params t : exp_valid n t -> let S := expectations_to_ssm t in
  (forall k, (k < n)%N -> s_A S k = xA t k) /\ (forall k, (k <= n)%N -> ssm_Qc S k = xQ t k).
Proof.
case=> HV HC S.
have EA k : (k < n)%N -> s_A S k = xA t k.
  move=> Hk; rewrite [LHS]/= -/(exp_var t k) chol_solve_spd; last by apply: HV; lia.
  rewrite trmx_mul tr_invmx (spd_sym (HV _ (ltnW Hk))); congr (_ *m _).
  by rewrite trmxB !trmx_mul !trmxK.
split=> // k Hk; rewrite /ssm_Qc; case: k Hk => [|k] Hk.
  by rewrite -[ssm_concat_chol S 0]/(chol (exp_var t 0%N)) chol_mul //; apply: HV.
have -> : ssm_concat_chol S k.+1 = ext_cholesky (exp_var t k.+1 - s_A S k *m (exp_var t k *m (s_A S k)^T)) by [].
have -> : exp_var t k.+1 - s_A S k *m (exp_var t k *m (s_A S k)^T) = xC t k.
  rewrite EA // /xC /xA; congr (_ - _); have Hk' := ltnW Hk.
  by rewrite trmx_mul tr_invmx (spd_sym (HV _ Hk')) (mulmxA (exp_var t k)) mulmxV ?mul1mx //; apply/spd_unit/HV.
by rewrite chol_mul //; apply: HC.
Qed.

Lemma exp_naturals t : exp_valid n t ->
  same_triple n (ssm_to_naturals n (expectations_to_ssm t))
    (Triple (xL t) (fun k => - 2%:R^-1 *: xD t k) (fun k => - xS t k)).
Proof.
move=> Ht; have [Hc [Em _ _]] := expectations_of_ssm_of Ht; have HS := ssm_chol_nonsing Hc.
have [EA EQ] := exp_params Ht; set S := expectations_to_ssm t in Hc Em HS EA EQ *.
have Ed k : (k <= n)%N -> t_diag (ssm_to_naturals n S) k = - 2%:R^-1 *: xD t k.
  move=> Hk; rewrite naturals_diag // prec_diagE // /xD EQ //.
  by case: ifP => // Hk'; rewrite EA // EQ.
have Es k : (k < n)%N -> t_sub (ssm_to_naturals n S) k = - xS t k.
  by move=> Hk; rewrite prec_subE // EA // EQ // /xS opprK.
split=> // k Hk.
have := naturals_lin HS; rewrite dense_precision // mul_dense_flat => /bcol_inj -> //.
rewrite [RHS]/= /xL; apply: eq_bigr => j _.
have -> : ssm_marginal_means n S j = t_lin t j by apply: Em; rewrite -ltnS.
congr (_ *m _); rewrite /sym_blocks; case: (eqVneq k j) => [_|_]; first by rewrite Ed // scale_half.
case: (eqVneq k j.+1) => [E|_]; first by rewrite Es ?opprK // -E.
by case: (eqVneq (j : nat) k.+1) => [E|//]; rewrite Es ?opprK // -ltnS -E.
Qed.

Section Line.
Variables (eta delta : triple Rr d).
Hypothesis Heta : exp_valid n eta.
Hypothesis sdelta : tsym n delta.
Let L s := along eta delta s.

Lemma seta k : (k <= n)%N -> (t_diag eta k)^T = t_diag eta k.
Proof.
move=> Hk; have := proj1 (proj1 Heta k Hk); rewrite /exp_var linearB /= trmx_mul trmxK => /eqP.
by rewrite (can_eq (subrK _)) => /eqP.
Qed.

Lemma along0 t t' : same_triple n (along t t' 0) t.
Proof. by split=> k Hk /=; rewrite scale0r addr0. Qed.

Lemma var_sym s k : (k <= n)%N -> (exp_var (L s) k)^T = exp_var (L s) k.
Proof. by move=> Hk; rewrite /exp_var linearB /= linearD /= linearZ /= seta // sdelta // trmx_mul trmxK. Qed.

Lemma var_cont k : mcont (fun s => exp_var (L s) k).
Proof. by apply: mcontB; [exact: mcont_line|apply: mcontM; [|apply: mcont_tr]; exact: mcont_line]. Qed.
Lemma cov_cont k : mcont (fun s => exp_cov (L s) k).
Proof. by apply: mcontB; [exact: mcont_line|apply: mcontM; [|apply: mcont_tr]; exact: mcont_line]. Qed.

Lemma var0 k : exp_var (L 0) k = exp_var eta k.
Proof. by rewrite /exp_var /= !scale0r !addr0. Qed.
Lemma cov0 k : exp_cov (L 0) k = exp_cov eta k.
Proof. by rewrite /exp_cov /= !scale0r !addr0. Qed.
Lemma xC0 k : xC (L 0) k = xC eta k. Proof. by rewrite /xC !var0 cov0. Qed.
Lemma xQ0 k : xQ (L 0) k = xQ eta k. Proof. by case: k => [|k]; rewrite /xQ ?xC0 ?var0. Qed.

Lemma xA_cont k : (k < n)%N -> mcont (fun s => xA (L s) k).
Proof.
move=> Hk; apply: mcontM; first exact: cov_cont.
by apply: mcont_inv; [exact: var_cont|rewrite var0; apply/spd_unit/(proj1 Heta)/ltnW].
Qed.
Lemma xC_cont k : (k < n)%N -> mcont (fun s => xC (L s) k).
Proof.
by move=> Hk; apply: mcontB; [exact: var_cont|apply: mcontM; [exact: xA_cont|apply: mcont_tr; exact: cov_cont]].
Qed.
Lemma xC_sym s k : (k < n)%N -> (xC (L s) k)^T = xC (L s) k.
Proof. by move=> Hk; rewrite /xC linearB /= !trmx_mul trmxK tr_invmx !var_sym ?mulmxA //; exact: ltnW. Qed.
Lemma xQ_cont k : (k <= n)%N -> mcont (fun s => xQ (L s) k).
Proof. by case: k => [|k] Hk; [exact: var_cont|exact: xC_cont]. Qed.
Lemma xQ_spd k : (k <= n)%N -> spd (xQ eta k : 'M[Rr]_d).
Proof. by case: k => [|k] Hk; [apply: (proj1 Heta)|apply: (proj2 Heta)]. Qed.
Lemma xQi_cont k : (k <= n)%N -> mcont (fun s => invmx (xQ (L s) k)).
Proof. by move=> Hk; apply: mcont_inv; [exact: xQ_cont|rewrite xQ0; apply/spd_unit/xQ_spd]. Qed.
Lemma xD_cont k : (k <= n)%N -> mcont (fun s => xD (L s) k).
Proof.
move=> Hk; apply: mcontD; first exact: xQi_cont.
case Hk' : (k < n)%N; last exact: mcont_const.
by apply: mcontM; [apply: mcontM; [apply: mcont_tr; exact: xA_cont|exact: xQi_cont]|exact: xA_cont].
Qed.
Lemma xS_cont k : (k < n)%N -> mcont (fun s => xS (L s) k).
Proof. by move=> Hk; apply: mcontN; apply: mcontM; [exact: xQi_cont|exact: xA_cont]. Qed.
Lemma xL_cont k : (k <= n)%N -> mcont (fun s => xL (L s) k).
Proof.
move=> Hk i0 j0; apply: (cont_ext (f := fun s => \sum_(j < n.+1) (sym_blocks (xD (L s)) (xS (L s)) k j *m t_lin (L s) j) i0 j0)).
  by move=> s; rewrite summxE.
apply: cont_sum => j; suff : mcont (fun s => sym_blocks (xD (L s)) (xS (L s)) k j *m t_lin (L s) j) by apply.
apply: mcontM; last exact: mcont_line.
rewrite /sym_blocks; case: (eqVneq k j) => [_|_]; first exact: xD_cont.
case: (eqVneq k j.+1) => [E|_]; first by apply: xS_cont; rewrite -E.
case: (eqVneq (j : nat) k.+1) => [E|_]; last exact: mcont_const.
by apply: mcont_tr; apply: xS_cont; rewrite -ltnS -E.
Qed.

Lemma near_valid : near0 (fun s => exp_valid n (L s)).
Proof.
have H1 : near0 (fun s => forall k, (k < n.+1)%N -> spd (exp_var (L s) k : 'M[Rr]_d)).
  apply: near0_all => k Hk; apply: near_spd; [by move=> s; apply: var_sym|exact: var_cont|].
  by rewrite var0; apply: (proj1 Heta).
have H2 : near0 (fun s => forall k, (k < n)%N -> spd (xC (L s) k : 'M[Rr]_d)).
  apply: near0_all => k Hk; apply: near_spd; [by move=> s; apply: xC_sym|exact: xC_cont|].
  by rewrite xC0; apply: (proj2 Heta).
exact: near0_imp (near0_and H1 H2).
Qed.

(* <theta_s - theta, g> tends to 0 *)
Definition gap g s : R := tdot n (ssm_to_naturals n (expectations_to_ssm (L s))) g -
  tdot n (ssm_to_naturals n (expectations_to_ssm (L 0))) g.

Lemma tdot_cont (t : R -> triple Rr d) g :
  (forall k, (k <= n)%N -> mcont (fun s => t_lin (t s) k)) ->
  (forall k, (k <= n)%N -> mcont (fun s => t_diag (t s) k)) ->
  (forall k, (k < n)%N -> mcont (fun s => t_sub (t s) k)) -> cont0 (fun s => tdot n (t s) g).
Proof.
move=> H1 H2 H3; apply: contD; first apply: contD; apply: cont_sum => k.
- suff : mcont (fun s => (t_lin (t s) k)^T *m t_lin g k) by apply.
  by apply: mcontM; [apply: mcont_tr; apply: H1; rewrite -ltnS|exact: mcont_const].
- by apply: cont_tr; apply: mcontM; [apply: mcont_tr; apply: H2; rewrite -ltnS|exact: mcont_const].
- by apply: cont_tr; apply: mcontM; [apply: mcont_tr; apply: H3|exact: mcont_const].
Qed.

Lemma gap_cont g : cont0 (gap g).
Proof.
have H : cont0 (fun s => tdot n (Triple (xL (L s)) (fun k => - 2%:R^-1 *: xD (L s) k) (fun k => - xS (L s) k)) g).
  apply: tdot_cont => k Hk; first exact: xL_cont.
    by apply: mcontZ; [exact: cont_const|exact: xD_cont].
  by apply: mcontN; exact: xS_cont.
apply: contD; last exact: cont_const.
by apply: (cont_local _ H); apply: near0_imp near_valid => s Hs; rewrite (same_tdot _ (exp_naturals Hs)).
Qed.

Lemma gap0 g : gap g 0 = 0. Proof. by rewrite /gap subrr. Qed.
End Line.
End Exp.

(* a function squeezed onto its tangent *)
Lemma deriv_bound (f c : R -> R) (l : R) : cont0 c -> c 0 = 0 ->
  near0 (fun s => `|f s - f 0 - s * l| <= `|s| * `|c s|) -> derivable_pt_lim f 0 l.
Proof.
move=> Hc c0 Hb eps /RltP e0.
have /cont0P/(_ eps e0) Hc' := Hc; have [a a0 Ha] := near0_and Hb Hc'.
have a0' : (0 < a)%Re by apply/RltP.
exists (mkposreal a a0') => h h0 /= Hh.
have Hh' : `|h| < a by apply/RltP.
have [H1 H2] := Ha h Hh'; move: H2; rewrite c0 subr0 => H2.
have h1 : h != 0 by apply/eqP.
apply/RltP; apply: (le_lt_trans _ H2); rewrite -(ler_pmul2l (x := `|h|)) ?normr_gt0 //; apply: le_trans H1.
rewrite -[X in X <= _]normrM.
rewrite le_eqVlt; apply/orP; left; apply/eqP; congr `|_|.
rewrite (_ : (0 + h)%Re = h); last exact: Rplus_0_l.
by move: (f h) (f 0) => u v; eqR; toR_ops; field.
Qed.
