(* Proofs for natural gradients, part 7: the update with momentum. *)
From Coq Require Import Reals Lra FunctionalExtensionality.
From Coquelicot Require Import Coquelicot.
From mathcomp Require Import all_ssreflect all_algebra.
From Verif Require Import RealStruct Log Nat Alg Lin Ent Spd MCalc MCont M_Block S_Block P_Block P_Block2
  M_SSM S_SSM P_SSM M_SSMLog S_Gauss P_Gauss P_SSMLog M_Trans S_Trans P_Trans P_TransLog P_Elbo M_NatGrad S_NatGrad
  P_NatGrad P_NatGrad2 P_NatGrad3 P_NatGrad4.
Set Implicit Arguments.
Unset Strict Implicit.
Unset Printing Implicit Defensive.
Import Order.Theory GRing.Theory Num.Theory.
Local Open Scope ring_scope.

Section Momentum.
Variables (d n : nat).
Implicit Types (t g : triple Rr d) (q : ssm Rr d) (st : ng_state d).
Variables (gamma beta1 beta2 epsilon : R).
Hypothesis n0 : (0 < n)%N.
Let step := @natgrad_step d n gamma beta1 beta2 epsilon true.

Lemma step_inv g gt q st q' st' : step g gt q st = Some (q', st') ->
  [/\ 0 <= ng_v_new n beta2 st g gt,
      st' = NgState (ng_ms_new beta1 st g) (ng_v_new n beta2 st g gt) (ng_counter st).+1 &
      naturals_to_ssm n (triple_lincomb 1 (ssm_to_naturals n q)
        (- (ng_lr gamma beta1 beta2 (ng_counter st) / (Num.sqrt (ng_v_new n beta2 st g gt) + epsilon)))
        (ng_ms_new beta1 st g)) = Some q'].
Proof.
rewrite /step /natgrad_step /ng_thetas; move: (ssm_to_naturals n q) => th.
move: (ng_v_new n beta2 st g gt) => v; case: ifP => [_ //|/negbT]; rewrite -leNgt => v0.
have E1 : forall (A B : Type) (f : A -> option B) x, obind f (Some x) = f x by [].
rewrite {}E1; move: (naturals_to_ssm _ _) => [s|] //= [<- <-]; by split.
Qed.

(* the buffers after r steps *)
Variables (q : nat -> ssm Rr d) (st : nat -> ng_state d) (g gt : nat -> triple Rr d).
Hypothesis st0 : st 0%N = ng_init d.

Section Buffers.
Variable r : nat.
Hypothesis Hrun : forall i, (i < r)%N -> step (g i) (gt i) (q i) (st i) = Some (q i.+1, st i.+1).

Lemma st_counter i : (i <= r)%N -> ng_counter (st i) = i.+1.
Proof.
elim: i => [|i IH] Hi; first by rewrite st0.
by have [_ -> _] := step_inv (Hrun Hi); rewrite /= IH // ltnW.
Qed.

Lemma conv_step (V : lmodType Rr) (b : R) (f : nat -> V) i :
  b *: ((1 - b) *: \sum_(j < i) b ^+ (i - j.+1) *: f j) + (1 - b) *: f i =
  (1 - b) *: \sum_(j < i.+1) b ^+ (i.+1 - j.+1) *: f j.
Proof.
rewrite big_ord_recr /= subnn expr0 scale1r scalerDr; congr (_ + _).
rewrite scalerA mulrC -scalerA; congr (_ *: _); rewrite scaler_sumr; apply: eq_bigr => j _.
by rewrite scalerA -exprS subSn // ltnW.
Qed.

Lemma st_ms i : (i <= r)%N ->
  [/\ forall k, t_lin (ng_ms (st i)) k = (1 - beta1) *: \sum_(j < i) beta1 ^+ (i - j.+1) *: t_lin (g j) k,
      forall k, t_diag (ng_ms (st i)) k = (1 - beta1) *: \sum_(j < i) beta1 ^+ (i - j.+1) *: t_diag (g j) k &
      forall k, t_sub (ng_ms (st i)) k = (1 - beta1) *: \sum_(j < i) beta1 ^+ (i - j.+1) *: t_sub (g j) k].
Proof.
elim: i => [|i IH] Hi; first by rewrite st0; split=> k; rewrite big_ord0 scaler0.
have [_ -> _] := step_inv (Hrun Hi); have [H1 H2 H3] := IH (ltnW Hi).
split=> k; rewrite [LHS]/= ?H1 ?H2 ?H3.
- exact: (conv_step beta1 (fun j => t_lin (g j) k)).
- exact: (conv_step beta1 (fun j => t_diag (g j) k)).
- exact: (conv_step beta1 (fun j => t_sub (g j) k)).
Qed.

Lemma st_v i : (i <= r)%N ->
  ng_v (st i) = (1 - beta2) * \sum_(j < i) beta2 ^+ (i - j.+1) * natgrad_norm n (g j) (gt j).
Proof.
elim: i => [|i IH] Hi; first by rewrite st0 big_ord0 mulr0.
have [_ -> _] := step_inv (Hrun Hi); rewrite [LHS]/= /ng_v_new IH ?(ltnW Hi) //.
rewrite [X in X + _]mulrC.
exact: (conv_step (V := [lmodType Rr of Rr^o]) beta2 (fun j => natgrad_norm n (g j) (gt j)) i).
Qed.
End Buffers.

Lemma pow_lt1 (b : R) r : 0 <= b -> b < 1 -> 1 - b ^+ r.+1 != 0.
Proof. by move=> b0 b1; rewrite subr_eq0 eq_sym lt_eqF // exprn_ilt1. Qed.

Lemma avg_weight_ge0 b r i : 0 <= b -> b < 1 -> 0 <= avg_weight b r i.
Proof.
move=> b0 b1; rewrite /avg_weight; apply: divr_ge0; last by rewrite subr_ge0 ltW // exprn_ilt1.
by rewrite mulr_ge0 ?exprn_ge0 // subr_ge0 ltW.
Qed.

Lemma avg_weight_sum b r : 0 <= b -> b < 1 -> \sum_(i < r.+1) avg_weight b r i = 1.
Proof.
move=> b0 b1; rewrite -mulr_suml -mulr_sumr (reindex_inj rev_ord_inj) /=.
have -> : \sum_(j < r.+1) b ^+ (r - (r.+1 - j.+1)) = \sum_(j < r.+1) b ^+ j.
  by apply: eq_bigr => j _; rewrite subSS subKn // -ltnS.
rewrite -[X in X / _](_ : 1 - b ^+ r.+1 = _) ?divff ?pow_lt1 //.
by rewrite -[1 in LHS](expr1n _ r.+1) subrXX; congr (_ * _); apply: eq_bigr => j _; rewrite expr1n mul1r.
Qed.

Variable r : nat.
Hypothesis Hrun : forall i, (i <= r)%N -> step (g i) (gt i) (q i) (st i) = Some (q i.+1, st i.+1).
Hypothesis b1 : 0 <= beta1 < 1.
Hypothesis b2 : 0 <= beta2 < 1.

Let avg_norm b := avg_number r (fun i => natgrad_norm n (g i) (gt i)) b.
Let avg_grad b := avg_triple r g b.

Lemma debias (V : lmodType Rr) (b : R) (f : nat -> V) : 0 <= b -> b < 1 ->
  (1 - b) *: (\sum_(j < r.+1) b ^+ (r.+1 - j.+1) *: f j) = (1 - b ^+ r.+1) *: \sum_(i < r.+1) avg_weight b r i *: f i.
Proof.
move=> b0 b01; rewrite !scaler_sumr; apply: eq_bigr => i _.
by rewrite !scalerA subSS /avg_weight [in RHS]mulrC divfK // pow_lt1.
Qed.

Lemma v_debias : ng_v (st r.+1) = (1 - beta2 ^+ r.+1) * avg_norm beta2.
Proof.
have /andP [p1 p2] := b2.
rewrite (@st_v r.+1 _ r.+1) // /avg_norm /avg_number.
exact: (debias (V := [lmodType Rr of Rr^o]) (fun j => natgrad_norm n (g j) (gt j)) p1 p2).
Qed.

Lemma momentum_step : 0 < epsilon ->
  nat_valid n (triple_lincomb 1 (ssm_to_naturals n (q r))
    (- (gamma / (Num.sqrt (avg_norm beta2) + epsilon / Num.sqrt (1 - beta2 ^+ r.+1)))) (avg_grad beta1)) ->
  0 <= avg_norm beta2 /\
  same_triple n (ssm_to_naturals n (q r.+1))
    (triple_lincomb 1 (ssm_to_naturals n (q r))
      (- (gamma / (Num.sqrt (avg_norm beta2) + epsilon / Num.sqrt (1 - beta2 ^+ r.+1)))) (avg_grad beta1)).
Proof.
move=> e0 Hv; have /andP [p1 p2] := b1; have /andP [p3 p4] := b2.
have [v0 Est EN] := step_inv (Hrun (leqnn r)).
have B2 : 0 < 1 - beta2 ^+ r.+1 by rewrite subr_gt0 exprn_ilt1.
have Ev : ng_v_new n beta2 (st r) (g r) (gt r) = (1 - beta2 ^+ r.+1) * avg_norm beta2.
  by rewrite -v_debias Est.
have a0 : 0 <= avg_norm beta2 by move: v0; rewrite Ev pmulr_rge0.
split=> //.
have Ec : ng_counter (st r) = r.+1 by apply: (@st_counter r) => // i Hi; apply: Hrun; apply: ltnW.
have [M1 M2 M3] := @st_ms r.+1 Hrun r.+1 (leqnn _).
have Em : ng_ms_new beta1 (st r) (g r) = ng_ms (st r.+1) by rewrite Est.
move: EN; rewrite Em Ev Ec => EN.
set c := - (gamma / _) in Hv *.
have Ecoef : - (ng_lr gamma beta1 beta2 r.+1 / (Num.sqrt ((1 - beta2 ^+ r.+1) * avg_norm beta2) + epsilon)) =
    c / (1 - beta1 ^+ r.+1).
  rewrite /c /ng_lr sqrtrM ?ltW // !mulNr; congr (- _).
  have s0 : Num.sqrt (1 - beta2 ^+ r.+1) != 0 by rewrite sqrtr_eq0 -ltNge.
  have n1 := pow_lt1 r p1 p2.
  have D : Num.sqrt (1 - beta2 ^+ r.+1) * Num.sqrt (avg_norm beta2) + epsilon =
      Num.sqrt (1 - beta2 ^+ r.+1) * (Num.sqrt (avg_norm beta2) + epsilon / Num.sqrt (1 - beta2 ^+ r.+1)).
    by rewrite mulrDr; congr (_ + _); rewrite mulrC divfK.
  rewrite D invfM; move: s0 n1.
  move: (Num.sqrt (1 - _)) (1 - beta1 ^+ _) (_ + epsilon / _) => x y z x0 y0.
  have X : x * x^-1 = 1 by rewrite divff.
  rewrite -[gamma / z]mulr1 -X; move: x^-1 y^-1 z^-1 => x' y' z'; crng.
have same : same_triple n (triple_lincomb 1 (ssm_to_naturals n (q r)) (c / (1 - beta1 ^+ r.+1)) (ng_ms (st r.+1)))
    (triple_lincomb 1 (ssm_to_naturals n (q r)) c (avg_grad beta1)).
  move: (ssm_to_naturals n (q r)) => th.
  have n1 := pow_lt1 r p1 p2.
  split=> k _; congr (_ + _); rewrite ?M1 ?M2 ?M3.
  - by rewrite (debias (fun j => t_lin (g j) k) p1 p2) scalerA divfK.
  - by rewrite (debias (fun j => t_diag (g j) k) p1 p2) scalerA divfK.
  - by rewrite (debias (fun j => t_sub (g j) k) p1 p2) scalerA divfK.
move: EN; rewrite Ecoef => EN.
have [S [ES _ Hs]] := naturals_of_ssm_of n0 (nat_valid_same (same_sym same) Hv).
move: ES; rewrite EN => -[->]; exact: same_trans Hs same.
Qed.
End Momentum.

(* repeated calls of minimize *)
Section Run.
Variables (d n : nat) (gamma beta1 beta2 epsilon : R).
Variable grads : ssm Rr d -> triple Rr d * triple Rr d.
Notation run := (natgrad_run n gamma beta1 beta2 epsilon true grads).
Notation step q st := (natgrad_step n gamma beta1 beta2 epsilon true (grads q).1 (grads q).2 q st).

Lemma run_trace r q0 st0 q' st' : run r q0 st0 = Some (q', st') -> exists q st,
  [/\ q 0%N = q0, st 0%N = st0, q r = q', st r = st' &
   forall i, (i < r)%N -> step (q i) (st i) = Some (q i.+1, st i.+1)].
Proof.
elim: r q0 st0 => [|r IH] q0 st0; first by case=> <- <-; exists (fun _ => q0), (fun _ => st0).
rewrite [run _ _ _]/=; case E : (natgrad_step _ _ _ _ _ _ _ _ _ _) => [[q1 st1]|] //; rewrite /Option.bind /Option.apply => /IH [q [st [E1 E2 E3 E4 E5]]].
exists (fun i => if i is j.+1 then q j else q0), (fun i => if i is j.+1 then st j else st0); split=> // -[|i] Hi.
  by rewrite E E1 E2.
exact: E5.
Qed.

Lemma momentum_run r q0 q' st' : (0 < n)%N -> 0 <= beta1 < 1 -> 0 <= beta2 < 1 -> 0 < epsilon ->
  run r q0 (ng_init d) = Some (q', st') -> exists q, [/\ q 0%N = q0, q r = q' &
  forall i, (i < r)%N ->
  let norm := avg_number i (fun j => natgrad_norm n (grads (q j)).1 (grads (q j)).2) beta2 in
  let rate := gamma / (Num.sqrt norm + epsilon / Num.sqrt (1 - beta2 ^+ i.+1)) in
  let theta := triple_lincomb 1 (ssm_to_naturals n (q i)) (- rate) (avg_triple i (fun j => (grads (q j)).1) beta1) in
  nat_valid n theta -> 0 <= norm /\ same_triple n (ssm_to_naturals n (q i.+1)) theta].
Proof.
move=> Hn b1 b2 e0 /run_trace [q [st [E1 E2 E3 _ E5]]]; exists q; split=> // i Hi; cbv zeta => V.
have Hrun j : (j <= i)%N -> step (q j) (st j) = Some (q j.+1, st j.+1) by move=> Hj; apply: E5; apply: leq_ltn_trans Hj Hi.
exact: (@momentum_step d n gamma beta1 beta2 epsilon Hn q st (fun j => (grads (q j)).1) (fun j => (grads (q j)).2) E2 i Hrun b1 b2 e0 V).
Qed.
End Run.

(* a history of any length: the gradient of the sum of the means *)
Section History.
Variables (d n : nat) (gamma beta1 beta2 epsilon : R).
Hypothesis n0 : (0 < n)%N.
Hypothesis b2 : 0 <= beta2 < 1.
Let g1 : triple Rr d := Triple (fun _ => const_mx 1) (fun _ => 0) (fun _ => 0).
Let step (x : ssm Rr d * ng_state d) := natgrad_step n gamma beta1 beta2 epsilon true g1 g1 x.1 x.2.
Let inv (x : ssm Rr d * ng_state d) := [/\ ssm_chol n x.1, 0 <= ng_v x.2,
  forall k, t_diag (ng_ms x.2) k = 0 & forall k, t_sub (ng_ms x.2) k = 0].

Lemma norm_g1 : 0 <= natgrad_norm n g1 g1.
Proof.
by rewrite /natgrad_norm !addr_ge0 ?mulr_ge0 ?ler0n // ; exact: reduce_prod_ge0.
Qed.

Lemma history_step x : inv x -> exists2 x', step x = Some x' & inv x'.
Proof.
case: x => q st [/= Cq v0 M2 M3]; have /andP [p0 p1] := b2.
have v1 : 0 <= ng_v_new n beta2 st g1 g1.
  by rewrite /ng_v_new addr_ge0 ?mulr_ge0 ?norm_g1 // subr_ge0 ltW.
have D2 k : t_diag (ng_ms_new beta1 st g1) k = 0.
  by rewrite /ng_ms_new /triple_lincomb [LHS]/= M2 !scaler0 addr0.
have D3 k : t_sub (ng_ms_new beta1 st g1) k = 0.
  by rewrite /ng_ms_new /triple_lincomb [LHS]/= M3 !scaler0 addr0.
rewrite /step /natgrad_step /ng_thetas ltNge v1 [negb _]/=.
have E1 : forall (A B : Type) (f : A -> option B) y, obind f (Some y) = f y by [].
rewrite E1.
have V : nat_valid n (triple_lincomb 1 (ssm_to_naturals n q)
   (- (ng_lr gamma beta1 beta2 (ng_counter st) / (Num.sqrt (ng_v_new n beta2 st g1 g1) + epsilon))) (ng_ms_new beta1 st g1)).
  move: (ng_ms_new beta1 st g1) D2 D3 (- _) (naturals_valid (ssm_chol_nonsing Cq)) => m D2 D3 c.
  move: (ssm_to_naturals n q) => t [V1 V2]; split=> [k Hk|].
    by rewrite /triple_lincomb /= D2 scaler0 addr0 scale1r V1.
  rewrite (@nat_precision_lin _ _ _ t m _ 1 0) ?scale1r ?scale0r ?addr0 // => k.
    by rewrite /triple_lincomb /= D2 !scaler0.
  by rewrite /triple_lincomb /= D3 !scaler0.
have [q' [Eq Cq' _]] := naturals_of_ssm_of n0 V.
rewrite [X in naturals_to_ssm n X]/fst Eq; eexists; first by [].
by split.
Qed.

Lemma momentum_history (q0 : ssm Rr d) : ssm_chol n q0 -> exists q st, [/\ q 0%N = q0, st 0%N = ng_init d &
  forall i, natgrad_step n gamma beta1 beta2 epsilon true g1 g1 (q i) (st i) = Some (q i.+1, st i.+1)].
Proof.
move=> C0; pose x i := iter i (fun x => odflt x (step x)) (q0, ng_init d).
have I i : inv (x i).
  elim: i => [|i IH]; first by split.
  by have [x' E H] := history_step IH; rewrite /x iterS -/(x i) E.
exists (fun i => (x i).1), (fun i => (x i).2); split=> // i.
have [x' E _] := history_step (I i).
by rewrite -/(step (x i)) {2 3}/x !iterS -/(x i) E; case: (x').
Qed.
End History.
