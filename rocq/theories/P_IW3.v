(* The correction of the doubly reparameterised gradient has expectation zero. *)
From Coq Require Import Reals Lra.
From Coquelicot Require Import Coquelicot.
From mathcomp Require Import all_ssreflect all_algebra.
From Verif Require Import RealStruct Nat Alg Spd Log MCalc MCont MInv Stein S_Gauss M_SSMLog M_IW S_IW S_Dregs P_IW P_IW2.
Set Implicit Arguments.
Unset Strict Implicit.
Unset Printing Implicit Defensive.
Import GRing.Theory Num.Theory Order.TTheory.
Local Open Scope ring_scope.

Definition sq d (e : 'cV[R]_d) : R := \sum_i e i 0 * e i 0.

Lemma qf_white d (L : 'M[R]_d) (x : 'cV[R]_d) : L \in unitmx -> qf (invmx (L *m L^T)) x = sq (invmx L *m x).
Proof.
move=> U; have UT : L^T \in unitmx by rewrite unitmx_tr.
have -> : invmx (L *m L^T) = (invmx L)^T *m invmx L.
  rewrite trmx_inv; apply: (can_inj (mulKmx (_ : L *m L^T \in unitmx))); first by rewrite unitmx_mul U.
  by rewrite mulmxV ?unitmx_mul ?U // -mulmxA (mulmxA L^T) mulmxV // mul1mx mulmxV.
rewrite /qf /sq !mulmxA -trmx_mul -mulmxA mxE.
by apply: eq_bigr => i _; rewrite mxE.
Qed.

Lemma logq_noise d (m : 'cV[R]_d) (L : 'M[R]_d) (y : 'cV[R]_d) : lowpos (L : 'M[Rr]_d) ->
  gauss_logpdf m (L *m L^T) y =
    - 2%:R^-1 * (d%:R * ln (2%:R * PI)) - \sum_i ln (L i i) - 2%:R^-1 * sq (invmx L *m (y - m)).
Proof.
move=> HL; have [T P] := HL; have U : L \in unitmx by exact: (@lowpos_unit Rr _ L HL).
rewrite /gauss_logpdf qf_white // det_mulmx det_tr det_trig //.
have EP : ln (\prod_i L i i) = \sum_i ln (L i i) by apply: ln_prod => i; exact: P.
have P0 : 0 < \prod_i L i i by apply: prodr_gt0 => i _; exact: P.
rewrite (lnM P0 P0) EP; move: (\sum_i ln _) (sq _) (_%:R * _) => a b c; rewrite halfR; toR_ops.
by match goal with |- @eq _ ?a ?b => change (@eq R a b) end; lra.
Qed.

Lemma dpl (f : R -> R) (t l : R) : derivable_pt_lim f t l <-> is_derive f t l.
Proof. by split; [move/is_derive_Reals | move/is_derive_Reals]. Qed.

(* x . y *)
Definition dot d (x y : 'cV[R]_d) : R := \sum_i x i 0 * y i 0.

Lemma dsq d (x : R -> 'cV[R]_d) t x' : mderiv x t x' -> derivable_pt_lim (fun s => sq (x s)) t (2%:R * dot (x t) x').
Proof.
move=> H; rewrite /dot mulr_sumr; apply: dsum => i.
have := derivable_pt_lim_mult _ _ _ _ _ (H i 0) (H i 0); congr derivable_pt_lim.
by rewrite twoR; toR_ops; change (@eq R) with (@eq R); lra.
Qed.

Lemma dln (f : R -> R) (t l : R) : (0 < f t) -> derivable_pt_lim f t l -> derivable_pt_lim (fun s => ln (f s)) t (l / f t).
Proof.
move=> /RltP H D; have := derivable_pt_lim_comp f ln t l _ D (derivable_pt_lim_ln _ H); congr derivable_pt_lim.
have H' : f t <> 0%Re by exact: Rgt_not_eq H.
by rewrite (invrR H'); exact: Rmult_comm.
Qed.

Section Normal.
Variables (d : nat) (M : R -> 'cV[R]_d) (C : R -> 'M[R]_d) (M1 : 'cV[R]_d) (C1 : 'M[R]_d).
Hypothesis HC : forall h, lowpos (C h : 'M[Rr]_d).
Hypothesis DM : mderiv M 0 M1.
Hypothesis DC : mderiv C 0 C1.

Let U h : C h \in unitmx := @lowpos_unit Rr _ _ (HC h).

Definition noise (y : 'cV[R]_d) : 'cV[R]_d := invmx (C 0) *m (y - M 0).
Definition vel (e : 'cV[R]_d) : 'cV[R]_d := invmx (C 0) *m (M1 + C1 *m e).
Definition score_of (y : 'cV[R]_d) : R := dot (noise y) (vel (noise y)) - \tr (invmx (C 0) *m C1).

Let logq h y := gauss_logpdf (M h) (C h *m (C h)^T) y.

Lemma noise_draw e : noise (normal_draw M C e) = e.
Proof. by rewrite /noise /normal_draw addrC addKr mulKmx. Qed.

Lemma draw_noise y : normal_draw M C (noise y) = y.
Proof. by rewrite /noise /normal_draw mulmxA mulmxV // mul1mx addrC subrK. Qed.

Lemma flow_deriv y : mderiv (fun h => normal_flow M C h y) 0 (M1 + C1 *m noise y).
Proof. by apply: (mderivD DM); apply: mderivMr. Qed.

Lemma flow0 y : normal_flow M C 0 y = y.
Proof. exact: draw_noise. Qed.

Lemma diag_deriv : derivable_pt_lim (fun h => \sum_i ln (C h i i)) 0 (\tr (invmx (C 0) *m C1)).
Proof.
have -> : \tr (invmx (C 0) *m C1) = \sum_i C1 i i / C 0 i i.
  apply: eq_bigr => i _; apply: trig_quot; first exact: (@lowpos_nz Rr _ _ (HC 0)).
  by apply: mderiv_trig DC => s; have [] := HC s.
by apply: dsum => i; apply: dln; [have [_ ->] := HC 0 | exact: DC].
Qed.

Lemma score_deriv y : is_derive (fun h => logq h y) 0 (score_of y).
Proof.
apply/dpl.
apply: (dext (f := fun h => - 2%:R^-1 * (d%:R * ln (2%:R * PI)) - \sum_i ln (C h i i) - 2%:R^-1 * sq (invmx (C h) *m (y - M h)))).
  by move=> h; rewrite /logq logq_noise.
have DV := mderivM (mderiv_inv U DC) (mderivB (mderiv_const y 0) DM).
have DQ := derivable_pt_lim_scal _ (2%:R^-1) _ _ (dsq DV).
have D1 := derivable_pt_lim_minus _ _ _ _ _ (derivable_pt_lim_const (- 2%:R^-1 * (d%:R * ln (2%:R * PI))) 0) diag_deriv.
have := derivable_pt_lim_minus _ _ _ _ _ D1 DQ; congr derivable_pt_lim.
have -> : - (invmx (C 0) *m C1 *m invmx (C 0)) *m (y - M 0) + invmx (C 0) *m (0 - M1) = - vel (noise y).
  rewrite /vel -/(noise y) sub0r mulmxN mulNmx -opprD -mulmxA -/(noise y) [in RHS]mulmxDr addrC.
  by rewrite -mulmxA.
have -> : dot (invmx (C 0) *m (y - M 0)) (- vel (noise y)) = - dot (noise y) (vel (noise y)).
  by rewrite /dot -sumrN; apply: eq_bigr => i _; rewrite [(- vel _) _ _]mxE mulrN.
rewrite /score_of; move: (\tr _) (dot _ _) => a b; rewrite halfR twoR; toR_ops.
by match goal with |- @eq _ ?a ?b => change (@eq R a b) end; lra.
Qed.

(* along the path the log density of the proposal at the start *)
Lemma stopped_deriv y : is_derive (fun h => logq 0 (normal_flow M C h y)) 0 (- dot (noise y) (vel (noise y))).
Proof.
apply/dpl.
apply: (dext (f := fun h => - 2%:R^-1 * (d%:R * ln (2%:R * PI)) - \sum_i ln (C 0 i i) - 2%:R^-1 * sq (invmx (C 0) *m (normal_flow M C h y - M 0)))).
  by move=> h; rewrite /logq logq_noise.
have DV := mderivMl (invmx (C 0)) (mderivB (flow_deriv y) (mderiv_const (M 0) 0)).
have DQ := derivable_pt_lim_scal _ (2%:R^-1) _ _ (dsq DV).
have := derivable_pt_lim_minus _ _ _ _ _ (derivable_pt_lim_const (- 2%:R^-1 * (d%:R * ln (2%:R * PI)) - \sum_i ln (C 0 i i)) 0) DQ.
congr derivable_pt_lim; rewrite flow0 subr0 -/(noise y) -/(vel (noise y)).
move: (dot _ _) => a; rewrite halfR twoR; toR_ops.
by match goal with |- @eq _ ?a ?b => change (@eq R a b) end; lra.
Qed.

(* along the path the log density of the moving proposal *)
Lemma path_deriv y : is_derive (fun h => logq h (normal_flow M C h y)) 0 (- \tr (invmx (C 0) *m C1)).
Proof.
apply/dpl.
apply: (dext (f := fun h => - 2%:R^-1 * (d%:R * ln (2%:R * PI)) - \sum_i ln (C h i i) - 2%:R^-1 * sq (noise y))).
  by move=> h; rewrite /logq logq_noise // /normal_flow [M h + _]addrC addrK mulKmx.
have D1 := derivable_pt_lim_minus _ _ _ _ _ (derivable_pt_lim_const (- 2%:R^-1 * (d%:R * ln (2%:R * PI))) 0) diag_deriv.
have := derivable_pt_lim_minus _ _ _ _ _ D1 (derivable_pt_lim_const (2%:R^-1 * sq (noise y)) 0); congr derivable_pt_lim.
move: (\tr _) => a; toR_ops; by match goal with |- @eq _ ?a ?b => change (@eq R a b) end; lra.
Qed.
End Normal.

Lemma cont_sumR n (f : 'I_n -> R -> R) (t : R) : (forall i, continuous (f i) t) -> continuous (fun s => \sum_i f i s) t.
Proof.
elim: n f => [|n IH] f H.
  by apply: (continuous_ext (fun _ => 0 : R)) => [s|]; [rewrite big_ord0 | exact: continuous_const].
apply: (continuous_ext (fun s => Rplus (f ord0 s) (\sum_(i < n) f (lift ord0 i) s))) => [s|]; first by rewrite big_ord_recl.
by apply: (@continuous_plus R_UniformSpace R_AbsRing R_NormedModule); [exact: H | exact: IH].
Qed.

Section Zero.
Variables (d K : nat) (M : R -> 'cV[R]_d) (C : R -> 'M[R]_d) (M1 : 'cV[R]_d) (C1 : 'M[R]_d).
Variables (lp : 'cV[R]_d -> R) (G : 'cV[R]_d -> 'cV[R]_d).
Hypothesis HC : forall h, lowpos (C h : 'M[Rr]_d).
Hypothesis DM : mderiv M 0 M1.
Hypothesis DC : mderiv C 0 C1.
Hypothesis HG : has_gradient lp G.

Let U h : C h \in unitmx := @lowpos_unit Rr _ _ (HC h).
Let logq h y := gauss_logpdf (M h) (C h *m (C h)^T) y.
Definition lwt (h : R) (y : 'cV[R]_d) : R := lp y - gauss_logpdf (M h) (C h *m (C h)^T) y.
Let nz := noise M C.
Let vl := vel C M1 C1.
Let draw := normal_draw M C.
Definition gstop (y : 'cV[R]_d) : R := ((G y)^T *m (M1 + C1 *m nz y)) 0 0 + dot (nz y) (vl (nz y)).

Lemma lw_stop y : is_derive (fun h => lwt 0 (normal_flow M C h y)) 0 (gstop y).
Proof.
have D1 := proj1 HG _ _ _ (flow_deriv DM DC y); rewrite (flow0 M HC) in D1.
have D2 := stopped_deriv HC DM DC y.
apply: is_derive_eq (is_derive_minus _ _ _ _ _ D1 D2).
by rewrite /gstop -/nz -/vl [minus _ _](_ : _ = ((G y)^T *m (M1 + C1 *m noise M C y)) 0 0 - - dot (noise M C y) (vel C M1 C1 (noise M C y))) // opprK.
Qed.

Lemma lw_full y : is_derive (fun h => lwt h (normal_flow M C h y)) 0 (gstop y - score_of M C M1 C1 y).
Proof.
have D1 := proj1 HG _ _ _ (flow_deriv DM DC y); rewrite (flow0 M HC) in D1.
have D2 := path_deriv M HC DC y.
apply: is_derive_eq (is_derive_minus _ _ _ _ _ D1 D2).
rewrite [minus _ _](_ : _ = ((G y)^T *m (M1 + C1 *m noise M C y)) 0 0 - - \tr (invmx (C 0) *m C1)) // opprK.
by rewrite /gstop /score_of -/nz -/vl opprB addrACA subrr addr0.
Qed.

(* gradient of the log weight in the noise *)
Definition gnoise (e : 'cV[R]_d) : 'cV[R]_d := (C 0)^T *m G (draw e) + e.

Lemma gstop_noise e : gstop (draw e) = dot (gnoise e) (vl e).
Proof.
rewrite /gstop /nz noise_draw // /gnoise.
have -> : M1 + C1 *m e = C 0 *m vl e by rewrite /vl /vel mulmxA mulmxV // mul1mx.
have -> : (G (draw e))^T *m (C 0 *m vl e) = ((C 0)^T *m G (draw e))^T *m vl e by rewrite trmx_mul trmxK mulmxA.
rewrite mxE /dot -big_split; apply: eq_bigr => i _ /=.
by rewrite [_^T _ _]mxE [in RHS]mxE mulrDl.
Qed.

Variable k : nat.
Hypothesis Hk : (k < K)%N.
Let HK : (0 < K)%N := leq_ltn_trans (leq0n k) Hk.

Definition wgt (e : nat -> 'cV[R]_d) : R := ext_softmax K (fun j => lwt 0 (draw (e j))) k.
Let B := invmx (C 0) *m C1.
Definition cterm (i : 'I_d) (e : nat -> 'cV[R]_d) : R :=
  wgt e * (1 - wgt e) * gnoise (e k) i 0 * vl (e k) i 0 - wgt e * (e k i 0 * vl (e k) i 0 - B i i).

Lemma cterm_sum e : \sum_i cterm i e = wgt e * (1 - wgt e) * gstop (draw (e k)) - wgt e * score_of M C M1 C1 (draw (e k)).
Proof.
rewrite gstop_noise /score_of noise_draw //.
have key (a b : R) (f g h l : 'I_d -> R) : \sum_i (a * f i * g i - b * (h i * g i - l i)) =
    a * (\sum_i f i * g i) - b * (\sum_i h i * g i - \sum_i l i).
  by rewrite sumrB -mulr_sumr sumrB mulr_sumr; congr (_ - _); apply: eq_bigr => i _; rewrite mulrA.
exact: key.
Qed.

(* the noise of draw k on the line where component i is t *)
Let line (i : 'I_d) (e : nat -> 'cV[R]_d) (t : R) := set_noise k i t e.
Let base (i : 'I_d) (e : nat -> 'cV[R]_d) : 'cV[R]_d := set_noise k i 0 e k.

Lemma lineE i e t : line i e t k = base i e + t *: delta_mx i 0.
Proof.
rewrite /line /base /set_noise eqxx; apply/matrixP => l j; rewrite !mxE ord1 eqxx andbT.
by case: eqP => _; rewrite ?add0r ?mulr1 ?mulr0 ?addr0.
Qed.

Lemma line_deriv i e t : mderiv (fun s => line i e s k) t (delta_mx i 0).
Proof.
apply: (mderiv_ext (A := fun s => base i e + s *: delta_mx i 0)); first by move=> s; rewrite lineE.
have := mderivD (mderiv_const (base i e) t) (mderivZ (derivable_pt_lim_id t) (mderiv_const (delta_mx i 0 : 'cV[R]_d) t)).
by rewrite /id scale1r scaler0 add0r addr0.
Qed.

Lemma dot_delta (x : 'cV[R]_d) i : dot x (delta_mx i 0) = x i 0.
Proof.
rewrite /dot (bigD1 i) //= big1 ?addr0; first by rewrite mxE !eqxx mulr1.
by move=> j Hj; rewrite mxE (negbTE Hj) mulr0.
Qed.

Lemma lw_line i e t : is_derive (fun s => lwt 0 (draw (line i e s k))) t (gnoise (line i e t k) i 0).
Proof.
have D0 := line_deriv i e t.
have Dy : mderiv (fun s => draw (line i e s k)) t (C 0 *m delta_mx i 0).
  by have := mderivD (mderiv_const (M 0) t) (mderivMl (C 0) D0); rewrite add0r.
have D1 := proj1 HG _ _ _ Dy.
have D2 : is_derive (fun s => logq 0 (draw (line i e s k))) t (- (line i e t k) i 0).
  apply/dpl; apply: (dext (f := fun s => - 2%:R^-1 * (d%:R * ln (2%:R * PI)) - \sum_j ln (C 0 j j) - 2%:R^-1 * sq (line i e s k))).
    by move=> s; rewrite /logq logq_noise // -/(noise M C (draw (line i e s k))) noise_draw.
  have := derivable_pt_lim_minus _ _ _ _ _ (derivable_pt_lim_const (- 2%:R^-1 * (d%:R * ln (2%:R * PI)) - \sum_j ln (C 0 j j)) t)
    (derivable_pt_lim_scal _ (2%:R^-1) _ _ (dsq D0)).
  congr derivable_pt_lim; rewrite dot_delta; move: (line i e t k i 0) => a; rewrite halfR twoR; toR_ops.
  by match goal with |- @eq _ ?a ?b => change (@eq R a b) end; lra.
apply: is_derive_eq (is_derive_minus _ _ _ _ _ D1 D2).
apply: (etrans (y := ((G (draw (line i e t k)))^T *m (C 0 *m delta_mx i 0)) 0 0 - - line i e t k i 0)); first by [].
rewrite opprK.
rewrite /gnoise [in RHS]mxE; congr (_ + _).
have -> : (G (draw (line i e t k)))^T *m (C 0 *m (delta_mx i 0 : 'cV[R]_d)) = ((C 0)^T *m G (draw (line i e t k)))^T *m delta_mx i 0.
  by rewrite trmx_mul trmxK mulmxA.
rewrite -[RHS](dot_delta ((C 0)^T *m G (draw (line i e t k))) i) /dot mxE.
by apply: eq_bigr => j _; rewrite [_^T _ _]mxE.
Qed.

Lemma line_other i e t j : j != k -> line i e t j = e j.
Proof. by rewrite /line /set_noise => /negbTE ->. Qed.

Let dw i e t : R := wgt (line i e t) * (1 - wgt (line i e t)) * gnoise (line i e t k) i 0.

Lemma wgt_line i e t : is_derive (fun s => wgt (line i e s)) t (dw i e t).
Proof.
have H := @derive_weight K (fun j => lwt 0 (draw (line i e t j))) _ t _ k Hk (erefl _) (lw_line i e t).
apply: is_derive_ext H => s; rewrite /wgt /ext_softmax eqxx; congr (_ / _).
by apply: eq_bigr => j _; case: eqP => [->|/eqP Hj] //; rewrite !line_other.
Qed.

Lemma wgt_range e : (0 <= wgt e <= 1)%Re.
Proof.
have S0 := sumexp_gt0 (fun j => lwt 0 (draw (e j))) HK.
split; apply/RleP; rewrite /wgt /ext_softmax.
  by apply: divr_ge0; [exact/RleP/Rlt_le/exp_pos|exact: ltW].
rewrite ler_pdivr_mulr // mul1r (bigD1 (Ordinal Hk)) //= ler_addl sumr_ge0 // => j _.
exact/RleP/Rlt_le/exp_pos.
Qed.

Lemma dw_cont i e t : continuous (dw i e) t.
Proof.
have Cw : continuous (fun s => wgt (line i e s)) t by exact: cont_derive (wgt_line i e t).
apply: cont_mult; first by apply: cont_mult => //; apply: cont_minus => //; exact: continuous_const.
apply: (continuous_ext (fun s => Rplus (\sum_(j < d) C 0 j i * G (draw (line i e s k)) j 0) s)) => [s|].
  rewrite /gnoise [RHS]mxE [X in _ = X + _]mxE; congr (_ + _); first by apply: eq_bigr => j _; rewrite [_^T _ _]mxE.
  by rewrite /line /set_noise eqxx mxE eqxx.
apply: (@continuous_plus R_UniformSpace R_AbsRing R_NormedModule); last exact: continuous_id.
apply: cont_sumR => j; apply: cont_mult; first exact: continuous_const.
have := proj2 HG (M 0 + C 0 *m base i e) (C 0 *m delta_mx i 0) j t; apply: continuous_ext.
by move=> s; rewrite /draw /normal_draw lineE mulmxDr scalemxAr addrA.
Qed.

Lemma vel_line i e t : vl (line i e t k) i 0 = vl (base i e) i 0 + B i i * t.
Proof.
rewrite lineE /vl /vel [C1 *m (_ + _)]mulmxDr addrA [in LHS]mulmxDr [in LHS]mxE; congr (_ + _).
rewrite mulmxA -scalemxAr -/B mxE mulrC; congr (_ * _).
move: B => X; rewrite mxE (bigD1 i) //= big1 ?addr0; first by rewrite mxE !eqxx mulr1.
by move=> j Hj; rewrite mxE (negbTE Hj) mulr0.
Qed.

Lemma cterm_zero i e : integral (fun t => cterm i (line i e t) * normal_density 0 1 t) 0.
Proof.
have := @stein_standard (vl (base i e) i 0) (B i i) (fun t => wgt (line i e t)) (dw i e) (fun t => wgt_range _) (fun t => @wgt_line i e t) (fun t => @dw_cont i e t).
apply: integral_ext => t; rewrite /cterm vel_line.
have -> : line i e t k i 0 = t by rewrite /line /set_noise eqxx mxE eqxx.
by [].
Qed.

Lemma dregs_zero : let logq h y := gauss_logpdf (M h) (C h *m (C h)^T) y in let lw h y := lp y - logq h y in
  let flow := normal_flow M C in let x (e : nat -> 'cV[R]_d) j := normal_draw M C (e j) in
  let w (x : nat -> 'cV[R]_d) := exp (lw 0 (x k)) / \sum_(j < K) exp (lw 0 (x j)) in
  exists (g s : 'cV[R]_d -> R) (D : (nat -> 'cV[R]_d) -> R) (c : 'I_d -> (nat -> 'cV[R]_d) -> R), [/\ forall y, flow 0 y = y /\ is_derive (fun h => logq h y) 0 (s y),
    forall y, is_derive (fun h => lw 0 (flow h y)) 0 (g y) /\ is_derive (fun h => lw h (flow h y)) 0 (g y - s y),
    forall e, is_derive (fun h => w (move_draw flow k h (x e))) 0 (D e),
    forall e, D e - w (x e) * s (x e k) = \sum_i c i e &
    forall i e, integral (fun t => c i (set_noise k i t e) * normal_density 0 1 t) 0].
Proof.
move=> lq lw flow x w.
exists gstop, (score_of M C M1 C1), (fun e => wgt e * (1 - wgt e) * gstop (draw (e k))), cterm; split.
- by move=> y; split; [exact: flow0 | exact: score_deriv].
- by move=> y; split; [exact: lw_stop | exact: lw_full].
- move=> e; have := @derive_weight K (fun j => lwt 0 (draw (e j))) (fun h => lwt 0 (flow h (draw (e k)))) 0 (gstop (draw (e k))) k Hk.
  rewrite [flow 0 _](flow0 M HC) => /(_ erefl (lw_stop _)); apply: is_derive_ext => h.
  rewrite /w /ext_softmax /move_draw eqxx; congr (_ / _).
  by apply: eq_bigr => j _; case: (eqVneq (j : nat) k) => [->|_]; reflexivity.
- by move=> e; rewrite cterm_sum.
- exact: cterm_zero.
Qed.
End Zero.

(* a standard normal state observed with unit noise; the proposal moves its mean along v and
   scales all its noise *)
Lemma dregs_zero_example d (a v : 'cV[R]_d) :
  [/\ forall h : R, lowpos ((exp h)%:M : 'M[Rr]_d), mderiv (fun h => h *: v) 0 v, mderiv (fun h => (exp h)%:M : 'M[R]_d) 0 1%:M &
      has_gradient (fun y => - 2%:R^-1 * sq y - 2%:R^-1 * sq (a - y)) (fun y => a - y - y)].
Proof.
split.
- move=> h; split; first exact: scalar_mx_is_trig.
  by move=> i; rewrite mxE eqxx; apply/RltP; exact: exp_pos.
- have := mderivZ (derivable_pt_lim_id 0) (mderiv_const v 0).
  by rewrite scale1r scaler0 addr0.
- move=> i j; apply: (dext (f := fun h => (exp h *+ (i == j)) : R)); first by move=> s; rewrite mxE.
  rewrite mxE; case: (i == j); last exact: derivable_pt_lim_const.
  by have := derivable_pt_lim_exp 0; rewrite exp_0.
split.
- move=> y t y' Dy; apply/dpl.
  have D1 := derivable_pt_lim_scal _ (- 2%:R^-1) _ _ (dsq Dy).
  have D2 := derivable_pt_lim_scal _ (2%:R^-1) _ _ (dsq (mderivB (mderiv_const a t) Dy)).
  have := derivable_pt_lim_minus _ _ _ _ _ D1 D2; congr derivable_pt_lim.
  have -> : ((a - y t - y t)^T *m y') 0 0 = - dot (y t) y' - dot (a - y t) (0 - y').
    rewrite mxE /dot -sumrN -sumrB; apply: eq_bigr => i _; rewrite !mxE sub0r mulrN opprK.
    by rewrite !mulrDl !mulNr addrC.
  move: (dot _ _) (dot _ _) => p q; rewrite halfR twoR; toR_ops.
  by match goal with |- @eq _ ?a ?b => change (@eq R a b) end; lra.
- move=> y v' i t; pose p : R := a i 0; pose q : R := y i 0; pose r : R := v' i 0.
  have D : is_derive (fun s : R => ((p - (q + s * r)) - (q + s * r))%Re) t (- (2 * r))%Re.
    by auto_derive => //; ring.
  by have := cont_derive _ _ _ D; apply: continuous_ext => s; rewrite !mxE.
Qed.
