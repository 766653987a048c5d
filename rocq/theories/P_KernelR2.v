(* Generators of combined kernels, and the concrete counterexamples that need a kernel
   with an exponential. *)
From Coq Require Import Reals Lra.
From mathcomp Require Import all_ssreflect all_algebra.
From Verif Require Import RealStruct Log Nat Alg Lin Ent Spd M_SSM S_SSM P_SSM M_SSMLog P_SSMLog M_Kernel S_Kernel P_Kernel M_Cond P_Cond P_Cond3 P_Cond4
  M_Comb S_Comb P_Kron P_Comb P_Comb2 MCalc MExp MLyap M_KernelR P_Matern S_KernelR P_KernelR.
Set Implicit Arguments.
Unset Strict Implicit.
Unset Printing Implicit Defensive.
Import Order.Theory GRing.Theory Num.Theory.
Local Open Scope ring_scope.

(* ---------- generators ---------- *)
Lemma exp_generates d (M : 'M[R]_d) (A : R -> 'M[R]_d) : (forall t, A t = mexp M t) -> generates M A.
Proof.
move=> H; split=> [|t]; first by rewrite H mexp0.
by rewrite H; apply: (mderiv_ext (fun s => esym (H s))); apply: mexp_derivl.
Qed.

Lemma generates_exp d (M : 'M[R]_d) (A : R -> 'M[R]_d) : generates M A -> forall t, A t = mexp M t.
Proof. by move=> [H0 H]; apply: ode_unique. Qed.

Lemma mderiv_block m1 m2 n1 n2 (A : R -> 'M[R]_(m1, n1)) (B : R -> 'M[R]_(m2, n2)) t A' B' :
  mderiv A t A' -> mderiv B t B' -> mderiv (fun s => block_mx (A s) 0 0 (B s)) t (block_mx A' 0 0 B').
Proof.
move=> HA HB i j; rewrite -[i]splitK -[j]splitK.
case: (split i) => i'; case: (split j) => j' /=.
- by rewrite block_mxEul; apply: (dext _ (HA i' j')) => s; rewrite block_mxEul.
- by rewrite block_mxEur mxE; apply: (dext _ (derivable_pt_lim_const 0 t)) => s; rewrite block_mxEur mxE.
- by rewrite block_mxEdl mxE; apply: (dext _ (derivable_pt_lim_const 0 t)) => s; rewrite block_mxEdl mxE.
- by rewrite block_mxEdr; apply: (dext _ (HB i' j')) => s; rewrite block_mxEdr.
Qed.

Lemma mderiv_block_diag o (ks : seq (child Rr o)) (f : R -> forall d, skernel Rr o d -> 'M[Rr]_d) t f' :
  every (fun d k => mderiv (fun s => f s d k) t (f' d k)) ks ->
  mderiv (fun s => block_diag (f s) ks) t (block_diag f' ks).
Proof.
elim: ks => [|k ks IH] H; first by move=> [].
apply: mderiv_block; first exact: (H k (or_introl erefl)).
by apply: IH => k' Hk'; apply: H; right.
Qed.

Lemma concat_generates o o' (ks : seq (child Rr o)) (E : R -> 'M[R]_(o', concat_dim ks)) jitter :
  every (fun d k => generates (sk_F k) (sk_A k)) ks ->
  generates (sk_F (concat_kernel (F := Rr) E jitter)) (sk_A (concat_kernel (F := Rr) E jitter)).
Proof.
move=> H; split=> [|t]; first by apply: concat_A0 => k Hk; case: (H k Hk).
have E' : sk_F (concat_kernel (F := Rr) E jitter) *m sk_A (concat_kernel (F := Rr) E jitter) t =
  block_diag (fun d k => sk_F k *m sk_A k t) ks by rewrite -block_diag_mul.
rewrite [X in mderiv _ _ X]E'; apply: mderiv_block_diag => k Hk.
by case: (H k Hk) => _; apply.
Qed.

Lemma mderiv_dense d e N M (K : R -> nat -> nat -> 'M[R]_(d, e)) t K' :
  (forall a b, (a < N)%N -> (b < M)%N -> mderiv (fun s => K s a b) t (K' a b)) ->
  mderiv (fun s => dense N M (K s)) t (dense N M K').
Proof.
move=> H i j; have Hd : (0 < d)%N by move: (ltn_ord i); move: (nat_of_ord i) => x; case: (d) => //; rewrite muln0.
have He : (0 < e)%N by move: (ltn_ord j); move: (nat_of_ord j) => x; case: (e) => //; rewrite muln0.
have Hi : (i %/ d < N)%N by rewrite ltn_divLR.
have Hj : (j %/ e < M)%N by rewrite ltn_divLR.
pose i' := Ordinal (ltn_pmod i Hd); pose j' := Ordinal (ltn_pmod j He).
have E L : dense N M L i j = L (i %/ d)%N (j %/ e)%N i' j'.
  rewrite -(ent_ord (dense N M L)) {1}(divn_eq i d) {1}(divn_eq j e) ent_dense ?ltn_pmod //.
  by rewrite -ent_ord.
by rewrite E; apply: (dext _ (H _ _ Hi Hj i' j')) => s; rewrite E.
Qed.

Lemma mderiv_kron m n p q (A : R -> 'M[R]_(m, n)) (B : R -> 'M[R]_(p, q)) t A' B' :
  mderiv A t A' -> mderiv B t B' ->
  mderiv (fun s => kron (F := [ringType of R]) (A s) (B s)) t
    (kron (F := [ringType of R]) A' (B t) + kron (F := [ringType of R]) (A t) B').
Proof.
move=> HA HB; rewrite /kron denseD; apply: mderiv_dense => a b Ha Hb.
apply: mderivZ => //; have := HA (Ordinal Ha) (Ordinal Hb).
by rewrite -ent_ord /=; apply: dext => s; rewrite -ent_ord.
Qed.

Lemma kron_sum_mul (F : rcfType) (k : child F 1) ks (t : F) :
  kron_sum (k :: ks) *m sk_A (product_kernel (k :: ks) 0) t =
  kron (sk_F (projT2 k) *m sk_A (projT2 k) t) (sk_A (product_kernel ks 0) t) +
  kron (sk_A (projT2 k) t) (kron_sum ks *m sk_A (product_kernel ks 0) t).
Proof. by rewrite /= mulmxDl !kronM !mul1mx. Qed.

Lemma product_generates (ks : seq (child Rr 1)) jitter :
  every (fun d k => generates (sk_F k) (sk_A k)) ks ->
  generates (kron_sum ks) (sk_A (product_kernel ks jitter)).
Proof.
move=> H; split=> [|t]; first by apply: product_A0 => k Hk; case: (H k Hk).
elim: ks H => [|k ks IH] H; first by rewrite [kron_sum _]/= mul0mx; apply: mderiv_const.
rewrite [X in mderiv _ _ X](@kron_sum_mul Rr); apply: mderiv_kron; first by case: (H k (or_introl erefl)) => _.
by apply: IH => k' Hk'; apply: H; right.
Qed.

(* two Matern 1/2 kernels *)
Definition two_m12 (l1 l2 : R) : seq (child Rr 1) :=
  [:: mkchild (matern12 1 0 l1 1 0); mkchild (matern12 1 0 l2 1 0)].

Lemma two_m12_product (F : rcfType) (a b : F) :
  kron (a%:M : 'M_1) (kron (b%:M : 'M_1) (1%:M : 'M_1)) = (a * b)%:M :> 'M_1.
Proof. by rewrite !kron11 !mxE !eqxx !mulr1n mulr1. Qed.

Lemma product_feedback_wrong (l1 l2 t : R) : 0 < l1 -> 0 < l2 -> 0 < t ->
  sk_A (product_kernel (two_m12 l1 l2) 0) t <> mexp (sk_F (product_kernel (two_m12 l1 l2) 0)) t.
Proof.
move=> H1 H2 Ht.
have EA : sk_A (product_kernel (two_m12 l1 l2) 0) t = (exp (- l1^-1 * t) * exp (- l2^-1 * t))%:M :> 'M[Rr]_1.
  by rewrite -two_m12_product -!(m12_A 1 0 _ 1 0).
have EF : sk_F (product_kernel (two_m12 l1 l2) 0) = (- l1^-1 * - l2^-1)%:M :> 'M[Rr]_1.
  by rewrite -two_m12_product -!(m12_F 1 0 _ 1 0).
have EE : mexp (sk_F (product_kernel (two_m12 l1 l2) 0)) t = (exp (l1^-1 * l2^-1 * t))%:M :> 'M[R]_1.
  rewrite EF mulrNN -[in LHS](@exp_scalar 1 _ (- (l1^-1 * l2^-1))) ?opprK //.
  by rewrite scalemx1 -raddfD /= subrr raddf0.
move=> E; have {E} : ((exp (- l1^-1 * t) * exp (- l2^-1 * t))%:M : 'M[Rr]_1) = (exp (l1^-1 * l2^-1 * t))%:M by rewrite -EA E EE.
move=> /matrixP /(_ 0 0); rewrite !mxE !eqxx !mulr1n.
have Hx : exp (- l1^-1 * t) * exp (- l2^-1 * t) = exp (- (l1^-1 + l2^-1) * t).
  by rewrite opprD mulrDl; symmetry; apply: exp_plus.
rewrite Hx => /exp_inv /eqP; rewrite -subr_eq0 -mulrBl mulf_eq0 (gt_eqF Ht) orbF.
by rewrite lt_eqF // -opprD oppr_lt0 !addr_gt0 ?mulr_gt0 ?invr_gt0.
Qed.

(* ---------- prediction forgets the offsets ---------- *)
Section Forget.
Variable F : rcfType.

(* the mean predicted from the prior inside the grid *)
Lemma predict_prior_mean d (ker : sde_kernel F d) n z k t t0 S :
  markov_kernel ker -> increasing n.+1 z -> (k < n)%N -> z k < t -> t < z k.+1 ->
  kernel_ssm n ker z = Some S ->
  let a := t - z k in let b := z k.+1 - t in
  let Q := k_cov ker (z k) a in let A' := k_trans ker t b in let Q' := k_cov ker t b in
  let E := Q *m A'^T *m invmx (Q' + A' *m Q *m A'^T) in
  (predict_state ker n S z t0 t).1 =
    k_mean0 ker - (k_off ker (z k) a - E *m (A' *m k_off ker (z k) a + k_off ker t b)).
Proof.
move=> Hker Hz Hk H1 H2 HS a b Q A' Q' E.
have Ha : 0 < a by rewrite subr_gt0.
have Hb : 0 < b by rewrite subr_gt0.
have HQ : spd Q by apply: (mk_cov_spd Hker).
have HQ' : spd Q' by apply: (mk_cov_spd Hker).
have := stats_inner ker Hz Hk H1 (ltW H2); rewrite (cond_statsE _ (spd_sym HQ) (mp_spd 0 A' HQ HQ')) => Hst.
rewrite (predict_stateE _ _ Hst) -[LHS]/(row_mx _ _ *m (pairwise_marginals _ _ _ _).1 k.+1).
have ES : S = kssm ker z by apply: Some_inj; rewrite -HS (kernel_ssmE _ Hz).
have NS : ssm_nonsing n S by rewrite ES; apply: kssm_nonsing.
have LS : has_law n.+1 n.+1 (ssm_path S) (fun _ => k_mean0 ker) (fun i j => state_cov ker (z i) (z j)).
  by rewrite ES; apply: kssm_law.
rewrite (pairwise_inner NS LS _ _ Hk).1 mul_row_col -/Q -/A' -/Q' -/E.
set mu := k_mean0 ker; set A := k_trans ker (z k) _.
have M1 : mu = A *m mu + k_off ker (z k) a by apply: (mk_mean Hker); apply: ltW.
have M2 : mu = A' *m mu + k_off ker t b by apply: (mk_mean Hker); apply: ltW.
have E1 : A *m mu = mu - k_off ker (z k) a by rewrite {2}M1 addrK.
have E2 : A' *m mu = mu - k_off ker t b by rewrite {2}M2 addrK.
clearbody E A.
rewrite [(_, _, _).1.1]/= [(_, _, _).1.2]/= mulmxBl -!mulmxA E1 [A' *m (_ - _)]mulmxBr E2 !mulmxBr mulmxDr.
by zmod.
Qed.
End Forget.

(* Matern 1/2, times 0 and 2, query at 1 *)
Section M12.
Variables (l s2 : R) (m : 'cV[R]_1).
Hypotheses (Hl : 0 < l) (Hs : 0 < s2).
Notation K := (matern12 1 0 l s2 m).

Lemma m12_good : good_kernel K.
Proof. by apply: (k1_good (m12_A _ _ _ _ _) (m12_F _ _ _ _ _) (m12_P _ _ _ _ _)); rewrite ?invr_gt0. Qed.
Lemma m12_noisy : noisy K.
Proof. by apply: (k1_noisy (m12_A _ _ _ _ _) (m12_F _ _ _ _ _) (m12_P _ _ _ _ _)); rewrite ?invr_gt0. Qed.
Lemma m12_A0 : sk_A K 0 = 1%:M.
Proof. by rewrite m12_A mulr0 -[X in exp X]/R0 exp_0. Qed.
Lemma m12_markov : markov_kernel (to_sde K).
Proof.
by apply: (@base_markov Rr); [exact: m12_good|exact: m12_noisy|exact: m12_A0].
Qed.
End M12.

Lemma forget_scalar (F : rcfType) (e s2 mu : F) : 0 < e -> e < 1 -> 0 < s2 -> mu != 0 ->
  let A : 'M[F]_1 := e%:M in let P : 'M[F]_1 := s2%:M in let Q := P - A *m P *m A^T + 0 *: 1%:M in
  let E := Q *m A^T *m invmx (Q + A *m Q *m A^T) in
  let b : 'cV[F]_1 := - (A - 1%:M) *m mu%:M in
  b - E *m (A *m b + b) <> 0.
Proof.
move=> He0 He1 Hs Hmu A P Q E b.
have He2 : e ^+ 2 < 1 by rewrite expr2; apply: mulr_ilt1 => //; apply: ltW.
have Hq : 0 < s2 * (1 - e ^+ 2) by rewrite mulr_gt0 // subr_gt0.
have HQ : Q = (s2 * (1 - e ^+ 2))%:M.
  by rewrite /Q /A /P tr_scalar_mx -!scalar_mxM scale0r addr0 -raddfB /=; congr (_%:M); crng.
have HQQ : Q + A *m Q *m A^T = (s2 * (1 - e ^+ 2) * (1 + e ^+ 2))%:M.
  by rewrite HQ /A tr_scalar_mx -!scalar_mxM -raddfD /=; congr (_%:M); crng.
have H1e : 0 < 1 + e ^+ 2 by apply: addr_gt0; [exact: ltr01|exact: exprn_gt0].
have HE : E = (e / (1 + e ^+ 2))%:M.
  rewrite /E HQQ invmx_scalar HQ /A tr_scalar_mx -!scalar_mxM; congr (_%:M).
  by rewrite invfM [_ * e]mulrC -mulrA mulVKf // gt_eqF.
have Hb : b = ((1 - e) * mu)%:M.
  by rewrite /b /A -raddfB /= -raddfN /= -scalar_mxM; congr (_%:M); crng.
rewrite HE Hb /A -!scalar_mxM -raddfD /= -scalar_mxM -raddfB /=.
move=> /matrixP /(_ 0 0); rewrite !mxE eqxx mulr1n => /eqP.
rewrite (_ : _ - _ = (1 - e) * mu * ((1 - e) / (1 + e ^+ 2))).
  by rewrite !mulf_eq0 invr_eq0 (negbTE Hmu) !(gt_eqF) ?subr_gt0.
have := mulfV (lt0r_neq0 H1e); move: (1 + e ^+ 2)^-1 => w Hw.
rewrite -[X in X - _]mulr1 -[X in _ * X - _]Hw; clear; crng.
Qed.

Lemma forget_gen (F : rcfType) (A : F -> 'M[F]_1) Fb P m (e s2 : F) (K := to_sde (base_kernel 1 A Fb P m 0)) :
  markov_kernel K -> A 1 = e%:M -> P = s2%:M -> 0 < e -> e < 1 -> 0 < s2 -> m != 0 ->
  let z i : F := if i is 0%N then 0 else 2%:R in
  exists2 S, kernel_ssm 1 K z = Some S &
    has_law 2 2 (ssm_path S) (fun _ => m) (fun i j => state_cov K (z i) (z j)) /\
    forall t0, (predict_state K 1 S z t0 1).1 <> m.
Proof.
move=> HK EA EP He0 He1 Hs Hm z.
have Hz : increasing 2 z by case=> [|i] // _; rewrite /z ltr0n.
exists (kssm K z); first exact: kernel_ssmE.
split=> [|t0]; first exact: (kssm_law HK Hz).
have H1 : z 0%N < 1 by rewrite /z ltr01.
have H2 : 1 < z 1%N by rewrite /z ltr1n.
rewrite (predict_prior_mean t0 HK Hz (ltn0Sn 0) H1 H2 (kernel_ssmE _ Hz)).
have -> : z 1%N - 1 = 1 by rewrite /z; zmod.
have -> : 1 - z 0%N = 1 by rewrite /z subr0.
have Em : m = (m 0 0)%:M by apply/matrixP => i j; rewrite !ord1 mxE eqxx mulr1n.
have Hm0 : m 0 0 != 0 by apply: contra Hm => /eqP H; rewrite Em H raddf0.
have := @forget_scalar F _ s2 _ He0 He1 Hs Hm0; cbv zeta; rewrite -Em -EA -EP => H E; apply: H.
rewrite /K /= /own_offsets in E.
by move/eqP: E; rewrite -[X in _ == X]subr0 (inj_eq (addrI _)) eqr_opp => /eqP.
Qed.

Lemma prediction_forgets (l s2 : R) (m : 'cV[R]_1) : 0 < l -> 0 < s2 -> m != 0 ->
  let K := to_sde (matern12 1 0 l s2 m) in let z i : R := if i is 0%N then 0 else 2%:R in
  exists2 S, kernel_ssm 1 K z = Some S &
    has_law 2 2 (ssm_path S) (fun _ => m) (fun i j => state_cov K (z i) (z j)) /\
    forall t0, (predict_state K 1 S z t0 1).1 <> m.
Proof.
move=> Hl Hs Hm; apply: (@forget_gen Rr _ _ _ _ (exp (- l^-1)) s2) => //.
- exact: m12_markov.
- by have := m12_A 1 0 l s2 m 1; rewrite mulr1.
- by have := m12_P 1 0 l s2 m.
- by apply/RltP; apply: exp_pos.
- rewrite -[X in _ < X]exp_0; apply/RltP; apply: exp_increasing; apply/RltP.
  by rewrite -[X in _ < X]/(0 : Rr) oppr_lt0 invr_gt0.
Qed.
