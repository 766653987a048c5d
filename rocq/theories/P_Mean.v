(* Proofs about M_Mean.v. *)
From Coq Require Import Reals Lra.
From mathcomp Require Import all_ssreflect all_algebra.
From Verif Require Import RealStruct Nat Alg Lin Ent Spd M_Block S_Block P_Block P_Block2 M_SSMLog M_Kernel S_Kernel M_Cond P_Cond M_Comb S_Comb
  MCalc MExp M_KernelR S_KernelR P_Kron P_KernelR P_KernelR2 P_KernelR3 M_Mean S_Mean.
Set Implicit Arguments.
Unset Strict Implicit.
Unset Printing Implicit Defensive.
Import GRing.Theory Num.Theory Order.TTheory.
Local Open Scope ring_scope.

(* ---- the recursion solved by the block system ---- *)
Section Solve.
Variable F : rcfType.
Variables o d : nat.
Variable kernel : skernel F o d.
Variables (N : nat) (tau : nat -> F).
Local Notation A := (sk_A kernel).
Local Notation sys := (action_system kernel N tau).

Lemma action_solve x k : (k < N)%N ->
  btd_solve N sys false x k =
  (if k is k'.+1 then A (tau k - tau k') *m btd_solve N sys false x k' else 0) + x k.
Proof.
move=> Hk.
have Hd : forall k, (k < N)%N -> forall r, bt_diag sys k r r != 0 by move=> *; rewrite mxE eqxx oner_neq0.
have := etrans (esym (mult_blocks sys _ Hk)) (mult_solve false x Hd Hk).
have -> : tril (bt_diag sys k) = 1%:M by apply: tril_id; apply: scalar_mx_is_trig.
rewrite mul1mx; case: k Hk => [|k] Hk; first by rewrite addr0 add0r.
rewrite -[prevb _ _]/(osub (bt_sub sys) k *m btd_solve N sys false x k).
have -> : osub (bt_sub sys) k = - A (tau k.+1 - tau k).
  by rewrite /action_system /=; case: eqP => // E; move: Hk; rewrite E.
by move=> H; rewrite -[in RHS]H mulNmx addrCA subrr addr0.
Qed.

Hypothesis Hsemi : semigroup kernel.
Hypothesis Hsort : forall k, (k.+1 < N)%N -> tau k <= tau k.+1.

Lemma tau_mono i k : (i <= k)%N -> (k < N)%N -> tau i <= tau k.
Proof.
elim: k => [|k IH]; first by case: i => // _ _; apply: lexx.
rewrite leq_eqVlt => /orP [/eqP -> //|Hi] Hk.
by apply: le_trans (Hsort Hk); apply: IH; [exact: Hi|exact: ltnW].
Qed.

Lemma action_conv x k : (k < N)%N ->
  btd_solve N sys false x k = \sum_(j < k.+1) A (tau k - tau j) *m x j.
Proof.
have [A0 AD] := Hsemi.
elim: k => [|k IH] Hk; rewrite action_solve //.
  by rewrite big_ord1 subrr A0 mul1mx add0r.
rewrite big_ord_recr /= subrr A0 mul1mx IH; last exact: ltnW.
congr (_ + _); rewrite mulmx_sumr; apply: eq_bigr => j _.
have H1 : 0 <= tau k - tau j by rewrite subr_ge0 tau_mono // ?(ltnW Hk) // -ltnS.
have H2 : 0 <= tau k.+1 - tau k by rewrite subr_ge0 Hsort.
by rewrite mulmxA -(AD _ _ H1 H2); congr (A _ *m _); rewrite addrC addrA subrK.
Qed.

(* the impulse response: every earlier impulse, carried to t *)
Lemma impulse_conv u t :
  impulse_mean kernel N tau u t =
  sk_H kernel t *m \sum_(k < N | tau k < t) A (t - tau k) *m u k.
Proof.
have [A0 AD] := Hsemi.
rewrite /impulse_mean /action_index; have [Hi Hl Hg] := searchsorted_spec t Hsort.
move: (ext_searchsorted N tau t) Hi Hl Hg => i Hi Hl Hg; congr (_ *m _).
rewrite (eq_bigl (fun k : 'I_N => (k < i)%N)); last first.
  move=> k /=; case: (ltnP k i) => H; first by rewrite Hl.
  by rewrite ltNge Hg.
case: i Hi Hl Hg => [|i] Hi Hl Hg.
  by rewrite mulmx0 big_pred0.
rewrite /impulse_a /= action_conv // mulmx_sumr.
rewrite -(big_ord_widen N (fun k => A (t - tau k) *m u k) Hi).
apply: eq_bigr => j _; have H1 : 0 <= tau i - tau j.
  by rewrite subr_ge0 tau_mono // -ltnS.
have H2 : 0 <= t - tau i by rewrite subr_ge0; apply/ltW/Hl.
by rewrite mulmxA -(AD _ _ H1 H2); congr (A _ *m _); rewrite addrC addrA subrK.
Qed.
End Solve.

(* ---- limits ---- *)
Section Limits.
Variable d : nat.
Implicit Types (x y : R -> 'cV[R]_d) (t a b : R).

Lemma deriv_cont (f : R -> R) t l (e : R) : derivable_pt_lim f t l -> 0 < e ->
  exists2 c : R, 0 < c & forall s, `|s - t| < c -> `|f s - f t| < e.
Proof.
move=> Hf /RltP He; have Hc : continuity_pt f t by apply: derivable_continuous_pt; exists l.
have [c [/RltP Hc0 H]] := Hc e He; exists c => // s Hs.
case: (Req_dec t s) => [<-|Hne]; first by rewrite subrr normr0; apply/RltP.
by apply/RltP; apply: (H s); split; [split|apply/RltP].
Qed.

Lemma mderiv_right x t (v : 'cV[R]_d) : mderiv x t v -> right_lim x t (x t).
Proof.
move=> Hx i e He; have [c Hc H] := deriv_cont (Hx i 0) He.
exists (t + c); first by rewrite ltr_addl.
by move=> s H1 H2; apply: H; rewrite gtr0_norm ?subr_gt0 // ltr_subl_addl.
Qed.

Lemma mderiv_left x t (v : 'cV[R]_d) : mderiv x t v -> left_lim x t (x t).
Proof.
move=> Hx i e He; have [c Hc H] := deriv_cont (Hx i 0) He.
exists (t - c); first by rewrite ltr_subl_addr ltr_addl.
by move=> s H1 H2; apply: H; rewrite ltr0_norm ?subr_lt0 // opprB ltr_subl_addl -ltr_subl_addr.
Qed.

Lemma right_lim_ext x y t b L : t < b -> (forall s, t < s -> s < b -> x s = y s) -> right_lim x t L -> right_lim y t L.
Proof.
move=> Htb E H i e He; have [c Hc H'] := H i e He; exists (Num.min b c); first by rewrite lt_minr Htb.
by move=> s H1; rewrite lt_minr => /andP [H2 H3]; rewrite -E //; apply: H'.
Qed.

Lemma left_lim_ext x y t a L : a < t -> (forall s, a < s -> s < t -> x s = y s) -> left_lim x t L -> left_lim y t L.
Proof.
move=> Hta E H i e He; have [c Hc H'] := H i e He; exists (Num.max a c); first by rewrite lt_maxl Hta.
by move=> s; rewrite lt_maxl => /andP [H1 H2] H3; rewrite -E //; apply: H'.
Qed.

Lemma right_limB x y t L L' : right_lim x t L -> right_lim y t L' -> right_lim (fun s => x s - y s) t (L - L').
Proof.
move=> Hx Hy i e He; have He2 : 0 < e / 2%:R by rewrite divr_gt0 ?ltr0n.
have [b Hb H1] := Hx i _ He2; have [c Hc H2] := Hy i _ He2.
exists (Num.min b c); first by rewrite lt_minr Hb.
move=> s Hs; rewrite lt_minr => /andP [Hsb Hsc]; rewrite !mxE.
have -> : x s i 0 - y s i 0 - (L i 0 - L' i 0) = (x s i 0 - L i 0) - (y s i 0 - L' i 0).
  by rewrite !opprD !opprK addrACA.
apply: le_lt_trans (ler_norm_sub _ _) _; rewrite [e](splitr e).
by apply: ltr_add; [apply: H1|apply: H2].
Qed.

Lemma right_lim_unique x t L L' : right_lim x t L -> right_lim x t L' -> L = L'.
Proof.
move=> H1 H2; apply/matrixP => i z; rewrite (ord1 z) {z}; apply/eqP; rewrite -subr_eq0 -normr_eq0.
apply: contraT => Hne; have Hp : 0 < `|L i 0 - L' i 0| by rewrite lt0r Hne normr_ge0.
have He2 : 0 < `|L i 0 - L' i 0| / 2%:R by rewrite divr_gt0 ?ltr0n.
have [b Hb G1] := H1 i _ He2; have [c Hc G2] := H2 i _ He2.
have [s Hs1] : exists2 s, t < s & (s < b) && (s < c).
  have Hm : t < Num.min b c by rewrite lt_minr Hb.
  exists ((t + Num.min b c) / 2%:R); first by have [] := midf_lt Hm.
  by rewrite -lt_minr; have [] := midf_lt Hm.
move=> /andP [Hs2 Hs3]; have := G1 s Hs1 Hs2; have := G2 s Hs1 Hs3 => K2 K1.
have E : L i 0 - L' i 0 = (x s i 0 - L' i 0) - (x s i 0 - L i 0) by rewrite opprB [RHS]addrC addrA subrK.
have : `|L i 0 - L' i 0| < `|L i 0 - L' i 0|.
  rewrite {1}E; apply: le_lt_trans (ler_norm_sub _ _) _.
  by rewrite [X in _ < X]splitr; apply: ltr_add.
by rewrite ltxx.
Qed.

Lemma right_left x t L : right_lim (fun s => x (- s)) (- t) L <-> left_lim x t L.
Proof.
split=> H i e He; have [c Hc H'] := H i e He; exists (- c).
- by rewrite ltr_oppl.
- by move=> s H1 H2; have := H' (- s); rewrite opprK; apply; rewrite ?ltr_opp2 // ltr_oppl.
- by rewrite ltr_opp2.
by move=> s H1 H2; apply: H'; [rewrite ltr_oppr|rewrite ltr_oppl].
Qed.

Lemma left_lim_unique x t L L' : left_lim x t L -> left_lim x t L' -> L = L'.
Proof. by move=> /right_left H1 /right_left H2; apply: right_lim_unique H1 H2. Qed.
End Limits.

(* ---- uniqueness of the response ---- *)
Section Unique.
Variables (d : nat) (M : 'M[R]_d).
Implicit Types (x y : R -> 'cV[R]_d).

Lemma const_on x (a b : R) : (forall s, a < s -> s < b -> mderiv x s 0) ->
  forall s t, a < s -> s < t -> t < b -> x s = x t.
Proof.
move=> H s t Has /RltP Hst Htb; apply/matrixP => i j.
have Hf c : (s <= c <= t)%Re -> derivable_pt_lim (fun r => x r i j) c 0.
  move=> [/RleP H1 /RleP H2].
  by have := H c (lt_le_trans Has H1) (le_lt_trans H2 Htb) i j; rewrite mxE.
have [c [Hc _]] := MVT_cor2 (fun r => x r i j) (fun _ => 0) s t Hst Hf.
by move: Hc; rewrite Rmult_0_l => Hc; lra.
Qed.

Lemma flow_form x (a b : R) (g : 'cV[R]_d) : a < b ->
  (forall s, a < s -> s < b -> mderiv x s (M *m x s)) ->
  exists c, forall s, a < s -> s < b -> x s = mexp M s *m c.
Proof.
move=> Hab Hx; have [Hm1 Hm2] := midf_lt Hab; set m := (a + b) / 2%:R in Hm1 Hm2.
pose v s := mexp M (-1 * s) *m x s.
have Hv s : a < s -> s < b -> mderiv v s 0.
  move=> H1 H2; have := mderivM (mexpN_deriv M s) (Hx s H1 H2).
  by rewrite mulNmx -mulmxA addNr.
have Hc s : a < s -> s < b -> v s = v m.
  move=> H1 H2; case: (ltgtP s m) => [H|H|-> //]; first exact: (const_on Hv).
  by apply/esym; apply: (const_on Hv).
exists (v m) => s H1 H2; rewrite -(Hc s H1 H2) /v mulmxA.
by rewrite (mulmx1C (mexp_inv M s)) mul1mx.
Qed.

Lemma flow_unique x y (a b : R) (u : 'cV[R]_d) L :
  (forall s, a < s -> s < b -> mderiv x s (M *m x s + u)) ->
  (forall s, a < s -> s < b -> mderiv y s (M *m y s + u)) ->
  right_lim x a L -> right_lim y a L -> forall t, a < t -> t < b -> x t = y t.
Proof.
move=> Hx Hy Lx Ly t H1 H2; have Hab := lt_trans H1 H2; pose w s := x s - y s.
have Hw s : a < s -> s < b -> mderiv w s (M *m w s).
  move=> G1 G2; have := mderivB (Hx s G1 G2) (Hy s G1 G2).
  by rewrite [M *m w s]mulmxBr opprD addrACA subrr addr0.
have [c Hc] := flow_form u Hab Hw.
have L1 : right_lim w a (mexp M a *m c).
  apply: (right_lim_ext (x := fun s => mexp M s *m c) Hab); first by move=> s G1 G2; rewrite Hc.
  exact: (mderiv_right (mderivMr c (mexp_derivl M a))).
have L2 : right_lim w a (L - L) by apply: right_limB.
have E := right_lim_unique L1 L2; rewrite subrr in E.
have Ec : c = 0 by rewrite -[c](mulKmx (mexp_unit M a)) E mulmx0.
by have := Hc t H1 H2; rewrite Ec mulmx0 /w => /eqP; rewrite subr_eq0 => /eqP.
Qed.

Variables (N : nat) (tau : nat -> R) (input jump : nat -> 'cV[R]_d).
Hypothesis HN : (0 < N)%N.
Hypothesis Htau : increasing N tau.

Lemma response_unique x y : response M N tau input jump x -> response M N tau input jump y ->
  forall t, x t = y t.
Proof.
move=> [Rx Fx Lx Jx] [Ry Fy Ly Jy].
have Hin k : (k < N)%N -> x (tau k) = y (tau k) -> forall t, tau k < t -> ((k.+1 < N)%N -> t < tau k.+1) -> x t = y t.
  move=> Hk E t H1 H2.
  case: (ltnP k.+1 N) => Hk1.
    apply: (flow_unique (a := tau k) (b := tau k.+1) (u := input k) _ _ (Jx k Hk)) => //.
    - by move=> s G1 G2; apply: Fx.
    - by move=> s G1 G2; apply: Fy.
    - by rewrite E; apply: Jy.
    - exact: H2.
  apply: (flow_unique (a := tau k) (b := t + 1) (u := input k) _ _ (Jx k Hk)) => //.
  - by move=> s G1 G2; apply: Fx => //; rewrite ltnNge Hk1.
  - by move=> s G1 G2; apply: Fy => //; rewrite ltnNge Hk1.
  - by rewrite E; apply: Jy.
  - by rewrite ltr_addl ltr01.
have Hle k : (k < N)%N -> forall t, t <= tau k -> x t = y t.
  elim: k => [|k IH] Hk t Ht; first by rewrite Rx // Ry.
  case: (leP t (tau k)) => H1; first by apply: IH => //; apply: ltnW.
  have Ek : x (tau k) = y (tau k) by apply: IH; rewrite ?lexx //; apply: ltnW.
  move: Ht; rewrite le_eqVlt => /orP [/eqP ->|H2]; last by apply: (Hin k) => //; apply: ltnW.
  apply: (left_lim_unique (Lx _ Hk)).
  apply: (left_lim_ext (x := y) (a := tau k)); [exact: Htau| |exact: Ly].
  by move=> s G1 G2; apply/esym; apply: (Hin k) => //; apply: ltnW.
move=> t; case: (leP t (tau N.-1)) => H; first by apply: Hle H; rewrite prednK.
apply: (Hin N.-1) => //; rewrite ?prednK ?ltnn //.
by apply: (Hle N.-1); rewrite ?prednK ?lexx.
Qed.

(* ---- a piecewise solution is a response ---- *)
Variables (A : R -> 'M[R]_d) (b c : nat -> 'cV[R]_d) (x : R -> 'cV[R]_d).
Hypothesis HA : generates M A.
Hypothesis x_rest : forall t, t <= tau 0%N -> x t = 0.
Hypothesis x_piece : forall k t, (k < N)%N -> tau k < t -> ((k.+1 < N)%N -> t <= tau k.+1) ->
  x t = c k + A (t - tau k) *m b k.
Hypothesis c_input : forall k, (k < N)%N -> - (M *m c k) = input k.
Hypothesis x_jump : forall k, (k < N)%N -> c k + b k = x (tau k) + jump k.

Lemma piece_deriv k t : (k < N)%N -> mderiv (fun s => c k + A (s - tau k) *m b k) t (M *m (c k + A (t - tau k) *m b k) + input k).
Proof.
move=> Hk; have [_ HA'] := HA.
have := mderivD (mderiv_const (c k) t) (mderivMr (b k) (mderiv_comp_add (HA' (t - tau k)))).
rewrite add0r; suff -> : M *m (c k + A (t - tau k) *m b k) + input k = M *m A (t - tau k) *m b k by [].
by rewrite mulmxDr -(c_input Hk) mulmxA [X in X - _]addrC addrK.
Qed.

Lemma pieces_response : response M N tau input jump x.
Proof.
split=> //.
- move=> k t Hk H1 H2; rewrite (x_piece Hk H1); last by move=> /H2 /ltW.
  case: (ltnP k.+1 N) => Hk1.
    apply: (mderiv_local H1 (H2 Hk1) _ (piece_deriv t Hk)) => s G1 G2.
    by rewrite (x_piece Hk G1) // => _; apply: ltW.
  apply: (mderiv_local (b := t + 1) H1 _ _ (piece_deriv t Hk)); first by rewrite ltr_addl ltr01.
  by move=> s G1 G2; rewrite (x_piece Hk G1) // ltnNge Hk1.
- case=> [|k] Hk.
    apply: (left_lim_ext (x := fun _ => 0) (a := tau 0%N - 1)).
    + by rewrite ltr_subl_addr ltr_addl ltr01.
    + by move=> s _ Hs; rewrite x_rest // ltW.
    rewrite x_rest ?lexx //; exact: (mderiv_left (mderiv_const (0 : 'cV[R]_d) _)).
  have Hk' : (k < N)%N by apply: ltnW.
  apply: (left_lim_ext (x := fun s => c k + A (s - tau k) *m b k) (a := tau k)); first exact: Htau.
    by move=> s G1 G2; rewrite (x_piece Hk' G1) // => _; apply: ltW.
  rewrite (x_piece Hk' (Htau Hk)) ?lexx //; exact: (mderiv_left (piece_deriv (tau k.+1) Hk')).
move=> k Hk; rewrite -x_jump //.
have E : c k + b k = c k + A (tau k - tau k) *m b k by have [A0 _] := HA; rewrite subrr A0 mul1mx.
rewrite E.
have Hl := mderiv_right (piece_deriv (tau k) Hk).
case: (ltnP k.+1 N) => Hk1.
  apply: (right_lim_ext (b := tau k.+1) _ _ Hl); first exact: Htau.
  by move=> s G1 G2; rewrite (x_piece Hk G1) // => _; apply: ltW.
apply: (right_lim_ext (b := tau k + 1) _ _ Hl); first by rewrite ltr_addl ltr01.
by move=> s G1 G2; rewrite (x_piece Hk G1) // ltnNge Hk1.
Qed.
End Unique.

(* ---- the two mean functions ---- *)
Section Means.
Variables (o d : nat) (kernel : skernel Rr o d).
Variables (N : nat) (tau : nat -> R) (u : nat -> 'cV[R]_d).
Hypothesis HN : (0 < N)%N.
Hypothesis Htau : increasing N tau.
Hypothesis Hgen : generates (sk_F kernel) (sk_A kernel).
Local Notation A := (sk_A kernel).

Lemma index_rest t : t <= tau 0%N -> action_index (F := Rr) N tau t = 0%N.
Proof.
move=> H; have [Hi Hl Hg] := searchsorted_spec (F := Rr) t (increasing_sorted Htau).
by rewrite /action_index; case: (ext_searchsorted _ _ _) Hl => // i /(_ 0%N erefl); rewrite ltNge H.
Qed.

Lemma index_piece k t : (k < N)%N -> tau k < t -> ((k.+1 < N)%N -> t <= tau k.+1) ->
  action_index (F := Rr) N tau t = k.+1.
Proof.
move=> Hk H1 H2; rewrite /action_index; case: (ltnP k.+1 N) => Hk1.
  exact: (searchsorted_inner (F := Rr) Htau Hk1 H1 (H2 Hk1)).
have [Hi Hl Hg] := searchsorted_spec (F := Rr) t (increasing_sorted Htau).
move: (ext_searchsorted _ _ _) Hi Hl Hg => i Hi Hl Hg.
have [->//|H] : i = k.+1 \/ (i <= k)%N by lia.
by have := Hg k H Hk; rewrite leNgt H1.
Qed.

Lemma impulse_response : exists2 x, response (sk_F kernel) N tau (fun _ => 0) u x &
  forall t, impulse_mean kernel N tau u t = sk_H kernel t *m x t.
Proof.
pose x t := A (t - impulse_times (F := Rr) tau (action_index (F := Rr) N tau t)) *m
  impulse_a kernel N tau u (action_index (F := Rr) N tau t).
exists x => //; pose b := btd_solve N (action_system kernel N tau) false u.
have Hrest t : t <= tau 0%N -> x t = 0 by move=> H; rewrite /x index_rest // mulmx0.
have Hp k t : (k < N)%N -> tau k < t -> ((k.+1 < N)%N -> t <= tau k.+1) -> x t = A (t - tau k) *m b k.
  by move=> Hk H1 H2; rewrite /x (index_piece Hk H1 H2).
apply: (@pieces_response _ _ _ _ _ _ Htau A b (fun _ => 0) x Hgen Hrest).
- by move=> k t Hk H1 H2; rewrite add0r (Hp k).
- by move=> k Hk; rewrite mulmx0 oppr0.
move=> [|k] Hk; rewrite add0r /b action_solve // -/b; first by rewrite Hrest ?lexx.
by rewrite (Hp k) ?lexx //; [exact: ltnW|exact: Htau].
Qed.

Hypothesis HF : sk_F kernel \in unitmx.

Lemma step_response : exists2 x, response (sk_F kernel) N tau u (fun _ => 0) x &
  forall t, step_mean kernel N tau u t = sk_H kernel t *m x t.
Proof.
pose x t := step_a kernel u (action_index (F := Rr) N tau t) +
  A (t - step_times (F := Rr) tau (action_index (F := Rr) N tau t)) *m
  step_b kernel N tau u (action_index (F := Rr) N tau t).
exists x => //; pose a := step_a kernel u.
pose b := btd_solve N (action_system kernel N tau) false (fun k => a k - a k.+1).
have Hrest t : t <= tau 0%N -> x t = 0 by move=> H; rewrite /x index_rest // mulmx0 addr0.
have Hp k t : (k < N)%N -> tau k < t -> ((k.+1 < N)%N -> t <= tau k.+1) -> x t = a k.+1 + A (t - tau k) *m b k.
  by move=> Hk H1 H2; rewrite /x (index_piece Hk H1 H2).
apply: (@pieces_response _ _ _ _ _ _ Htau A b (fun k => a k.+1) x Hgen Hrest Hp).
- by move=> k Hk; rewrite /a /step_a /= mulmxN opprK /ext_solve mulKVmx.
move=> [|k] Hk; rewrite addr0 /b action_solve // -/b.
  by rewrite add0r addrCA subrr addr0 Hrest ?lexx.
rewrite (Hp k) ?lexx //; [|exact: ltnW|exact: Htau].
by rewrite addrC -addrA subrK addrC.
Qed.
End Means.

(* ---- a product kernel reports another feedback matrix than the one it follows ---- *)
Section Wrong.
Variables (kernel : skernel Rr 1 1) (G : 'M[R]_1).
Hypothesis Hgen : generates G (sk_A kernel).
Hypothesis HF : sk_F kernel \in unitmx.
Hypothesis HH : forall t, sk_H kernel t = 1%:M.
Hypothesis Hne : G <> sk_F kernel.
Local Notation A := (sk_A kernel).

Lemma step_wrong : ~ exists x, response G 1 (fun _ => 0) (fun _ => const_mx 1) (fun _ => 0) x /\
  forall t, step_mean kernel 1 (fun _ => 0) (fun _ => const_mx 1) t = sk_H kernel t *m x t.
Proof.
have E1 : const_mx 1 = 1%:M :> 'cV[R]_1 by apply/matrixP => i j; rewrite !ord1 !mxE.
rewrite E1 => -[x [[_ Hf _ _] E]].
pose g := ext_solve (sk_F kernel) (1%:M : 'cV[R]_1).
have Ex (t : R) : 0 < t -> x t = - g + A t *m g.
  move=> Ht; rewrite -[x t]mul1mx -(HH t) -E /step_mean HH mul1mx.
  have -> : action_index (F := Rr) 1 (fun _ => 0) t = 1%N by apply: (@index_piece 1 (fun _ => 0) isT _ 0%N).
  rewrite /step_times subr0.
  rewrite /step_b /zero_first action_solve // add0r /step_a /zero_first sub0r opprK //.
have D1 : mderiv x 1 (G *m x 1 + 1%:M) by apply: (Hf 0%N 1 erefl ltr01).
have D2 : mderiv x 1 (G *m A 1 *m g).
  have [_ HA'] := Hgen.
  have := mderivD (mderiv_const (- g) 1) (mderivMr g (HA' 1)); rewrite add0r => D.
  apply: (mderiv_local (a := 0) (b := 2%:R) _ _ _ D); first exact: ltr01.
    by rewrite (ltr_nat _ 1 2).
  by move=> s H1 _; rewrite Ex.
have := mderiv_uniq D1 D2; rewrite (Ex 1 ltr01) mulmxDr mulmxN -mulmxA => /eqP.
rewrite addrAC -[X in _ == X]add0r (inj_eq (addIr _)) addrC subr_eq0 => /eqP EG.
by apply: Hne; rewrite -[LHS](mulmxKV HF) -[invmx _]mulmx1 -EG mul1mx.
Qed.
End Wrong.

Lemma two_m12_sum (F : rcfType) (a b : F) :
  kron (a%:M : 'M_1) (1%:M : 'M_1) + kron (1%:M : 'M_1) (kron (b%:M : 'M_1) (1%:M : 'M_1) + kron (1%:M : 'M_1) (0 : 'M_1)) = (a + b)%:M :> 'M_1.
Proof. by rewrite !kron11 !mxE !eqxx !mulr1n !mulr1 mulr0 !raddfD /= mul1r addr0. Qed.

Lemma two_emission (F : rcfType) (k1 k2 : skernel F 1 1) t : sk_H k1 t = 1%:M -> sk_H k2 t = 1%:M ->
  sk_H (product_kernel [:: mkchild k1; mkchild k2] 0) t = 1%:M :> 'M_1.
Proof.
move=> E1 E2.
have -> : sk_H (product_kernel [:: mkchild k1; mkchild k2] 0) t = kron (sk_H k1 t) (kron (sk_H k2 t) (1%:M : 'M_1)) :> 'M_1 by [].
by rewrite E1 E2 two_m12_product mulr1.
Qed.

Lemma first_emission1 (F : rcfType) : first_emission F 1 1 = 1%:M.
Proof. by apply/matrixP => i j; rewrite !ord1 !mxE. Qed.

Lemma m12_emission (l : R) t : sk_H (matern12 1 0 l 1 0) t = 1%:M.
Proof. by rewrite -first_emission1. Qed.

Lemma two_m12_emission (l1 l2 : R) t : sk_H (product_kernel (two_m12 l1 l2) 0) t = 1%:M :> 'M[Rr]_1.
Proof. exact: (two_emission (m12_emission l1 t) (m12_emission l2 t)). Qed.

Lemma step_product_wrong : exists ks : seq (child Rr 1),
  [/\ forall k, List.In k ks -> library_kernel false (projT2 k),
      generates (kron_sum ks) (sk_A (product_kernel ks 0)),
      sk_F (product_kernel ks 0) \in unitmx &
      ~ exists x, response (kron_sum ks) 1 (fun _ => 0) (fun _ => const_mx 1) (fun _ => 0) x /\
        forall t, step_mean (product_kernel ks 0) 1 (fun _ => 0) (fun _ => const_mx 1) t = sk_H (product_kernel ks 0) t *m x t].
Proof.
have Hl k : List.In k (two_m12 1 1) -> library_kernel false (projT2 k).
  by move=> /= [<-|[<-|[]]] /=; apply: lib_matern12; exact: ltr01.
have Hg : generates (kron_sum (two_m12 1 1)) (sk_A (product_kernel (two_m12 1 1) 0)).
  by apply: product_generates => k Hk; apply: exp_generates; apply: lib_exp; apply: Hl.
have EF : sk_F (product_kernel (two_m12 1 1) 0) = (- 1^-1 * - 1^-1)%:M :> 'M[Rr]_1.
  by rewrite -two_m12_product -!(m12_F 1 0 _ 1 0).
have EG : kron_sum (two_m12 1 1) = (- 1^-1 + - 1^-1)%:M :> 'M[Rr]_1.
  by rewrite -two_m12_sum -!(m12_F 1 0 _ 1 0).
have EH t : sk_H (product_kernel (two_m12 1 1) 0) t = 1%:M :> 'M[Rr]_1.
  exact: two_m12_emission.
exists (two_m12 1 1); split=> //.
  by rewrite (unitmxE (n := 1)) EF det_scalar1 unitfE mulf_neq0 // oppr_eq0 invr1 oner_eq0.
apply: (@step_wrong (product_kernel (two_m12 1 1) 0 : skernel Rr 1 1) (kron_sum (two_m12 1 1)) Hg) => //.
  by rewrite (unitmxE (n := 1)) EF det_scalar1 unitfE mulf_neq0 // oppr_eq0 invr1 oner_eq0.
move=> E; have {E} : ((- 1^-1 + - 1^-1)%:M : 'M[Rr]_1) = (- 1^-1 * - 1^-1)%:M by rewrite -EF -EG E.
move=> /matrixP /(_ 0 0); rewrite !mxE !eqxx !mulr1n invr1 mulrNN mulr1 => /eqP.
by rewrite lt_eqF // (lt_trans _ ltr01) // -opprD oppr_lt0 addr_gt0 ?ltr01.
Qed.

Lemma mean_example : generates (sk_F (matern12 1 0 1 1 0)) (sk_A (matern12 1 0 1 1 0)) /\
  sk_F (matern12 1 0 1 1 0) \in unitmx /\ increasing (F := Rr) 3 (fun i => i%:R).
Proof.
split; first by apply: exp_generates; apply: lib_exp; apply: lib_matern12; exact: ltr01.
split; last by move=> i _; rewrite ltr_nat.
by rewrite (m12_F 1 0 _ 1 0) unitmxE det_scalar1 unitfE invr1 oppr_eq0 oner_eq0.
Qed.

Lemma linear_ok (F : rcfType) o (a : F) : linear_mean o a 1 = const_mx a /\
  forall b s t, linear_mean o a (b * s + t) = b *: linear_mean o a s + linear_mean o a t.
Proof.
split; first by rewrite /linear_mean mulr1.
by move=> b s t; apply/matrixP => i j; rewrite !mxE mulrDr mulrCA.
Qed.
