(* Proofs about importance weighting. *)
From Coq Require Import Reals Lra.
From mathcomp Require Import all_ssreflect all_algebra all_fingroup.
From Verif Require Import Nat RealStruct Spd Log M_Block Lin S_SSM M_SSM M_SSMLog M_Kernel M_Emission M_IW S_Kernel S_Gauss S_IW P_SSM P_SSMLog P_Kernel M_KernelR M_Comb S_Comb P_Models3.
Set Implicit Arguments.
Unset Strict Implicit.
Unset Printing Implicit Defensive.
Import GRing.Theory Num.Theory Order.TTheory.
Local Open Scope ring_scope.

Lemma expR_gt0 (x : R) : 0 < exp x.
Proof. by apply/RltP; exact: exp_pos. Qed.

Lemma expRD (x y : R) : exp (x + y) = exp x * exp y.
Proof. exact: exp_plus. Qed.

Lemma expRB (x y : R) : exp (x - y) = exp x / exp y.
Proof.
have h := expR_gt0 y; apply: (mulIf (lt0r_neq0 h)); rewrite divfK ?gt_eqF //.
by rewrite -expRD subrK.
Qed.

Lemma lnexp (x : R) : ln (exp x) = x.
Proof. exact: ln_exp. Qed.

Lemma sum_gt0 K (a : nat -> R) : (0 < K)%N -> (forall k, (k < K)%N -> 0 < a k) -> 0 < \sum_(k < K) a k.
Proof.
case: K => // K _ H; rewrite big_ord_recl; apply: ltr_spaddl; first exact: (H 0%N).
by apply: sumr_ge0 => i _; apply/ltW/H; exact: (ltn_ord (lift ord0 i)).
Qed.

Lemma sumexp_gt0 K (lw : nat -> R) : (0 < K)%N -> 0 < \sum_(k < K) exp (lw k).
Proof. by move=> hK; apply: (sum_gt0 (a := fun k => exp (lw k))) => // k _; exact: expR_gt0. Qed.

Lemma softmax_ok K (lw : nat -> R) : (0 < K)%N ->
  [/\ forall k, 0 < ext_softmax K lw k,
      \sum_(k < K) ext_softmax K lw k = 1,
      forall k c, ext_softmax K (fun j => lw j + c) k = ext_softmax K lw k &
      forall k, (k < K)%N -> ext_softmax K lw k <= 1].
Proof.
move=> hK; have h := sumexp_gt0 lw hK.
have h1 : forall k, 0 < ext_softmax K lw k by move=> k; rewrite divr_gt0 ?expR_gt0.
have h2 : \sum_(k < K) ext_softmax K lw k = 1 by rewrite -mulr_suml mulfV ?gt_eqF.
split=> //.
- move=> k c; rewrite /ext_softmax.
  under eq_bigr do rewrite expRD; rewrite expRD -mulr_suml -mulf_div divff ?mulr1 //.
  by rewrite gt_eqF ?expR_gt0.
- move=> k hk; rewrite -h2 (bigD1 (Ordinal hk)) //= ler_addl.
  by apply: sumr_ge0 => i _; exact/ltW.
Qed.

Lemma expected_ok K (lw g : nat -> R) : (0 < K)%N ->
  let e := \sum_(k < K) ext_softmax K lw k * g k in
  [/\ (\sum_(k < K) exp (lw k)) * e = \sum_(k < K) exp (lw k) * g k,
      forall lo, (forall k, (k < K)%N -> lo <= g k) -> lo <= e &
      forall hi, (forall k, (k < K)%N -> g k <= hi) -> e <= hi].
Proof.
move=> hK e; have [h1 h2 _ _] := softmax_ok lw hK.
have h := sumexp_gt0 lw hK.
split.
- rewrite mulr_sumr; apply: eq_bigr => k _.
  by rewrite mulrA /ext_softmax mulrCA mulfV ?mulr1 // gt_eqF.
- move=> lo H; rewrite -[lo]mul1r -h2 mulr_suml; apply: ler_sum => k _.
  by rewrite ler_pmul2l ?H.
- move=> hi H; rewrite -[hi]mul1r -h2 mulr_suml; apply: ler_sum => k _.
  by rewrite ler_pmul2l ?H.
Qed.

(* the K draws: states at data points then at new points *)
Lemma split_ok (T : Type) (data new : seq T) : (0 < size new)%N ->
  py_last (size new) (data ++ new) = new /\ py_but_last (size new) (data ++ new) = data.
Proof.
move=> h; rewrite /py_last /py_but_last -[size new == 0%N]negbK -lt0n h /= size_cat addnK.
by rewrite drop_size_cat // take_size_cat.
Qed.

Section Weight.
Variables (o d : nat) (kernel : sde_kernel Rr d) (emission : R -> 'M[R]_(o, d)) (mean : R -> 'cV[R]_o).
Variable log_prob : 'cV[R]_o -> 'cV[R]_o -> R.

Lemma log_weight_ok n z (q : ssm Rr d) mq Kq N X Y s u :
  markov_kernel kernel -> increasing (F := Rr) n.+1 z ->
  ssm_nonsing n q -> has_law n.+1 n.+1 (ssm_path q) mq Kq ->
  exists lw, log_importance_weight kernel emission mean log_prob n z q N X Y s u = Some lw /\
  exp lw = exp (\sum_(i < N) log_prob (emission (X i) *m s i + mean (X i)) (Y i)) *
           exp (gauss_logpdf (flat n.+1 (fun _ => k_mean0 kernel)) (dense n.+1 n.+1 (fun i j => state_cov kernel (z i) (z j))) (flat n.+1 u)) /
           exp (gauss_logpdf (flat n.+1 mq) (dense n.+1 n.+1 Kq) (flat n.+1 u)).
Proof.
move=> Hk Hz Nq Lq; have [p [Ep Np Lp]] := kernel_law Hk Hz.
rewrite /log_importance_weight Ep /Option.map /Option.bind /Option.apply; cbv zeta beta.
eexists; split; first reflexivity.
by rewrite (log_pdf_law _ Np Lp) (log_pdf_law _ Nq Lq) expRD expRB mulrA.
Qed.
End Weight.

(* ---------- the bound ---------- *)

Lemma ln_tangent (x m : R) : 0 < x -> 0 < m -> ln x <= ln m + (x / m - 1).
Proof.
move=> hx hm; have h : 0 < x / m by rewrite divr_gt0.
have := ln_le_sub1 h; rewrite lnM ?invr_gt0 // lnV // => H.
by rewrite -ler_subl_addl.
Qed.

Definition mean_w (K : nat) (a : nat -> R) : R := (\sum_(k < K) a k) / K%:R.

Lemma iw_elboE K (lw : nat -> R) : (0 < K)%N -> iw_elbo K lw = ln (mean_w K (fun k => exp (lw k))).
Proof.
move=> hK; rewrite /iw_elbo /ext_logsumexp /mean_w lnM ?lnV ?invr_gt0 ?ltr0n //.
exact: sumexp_gt0.
Qed.

Lemma swap_lt T i j (x : nat -> T) : swap_draws i j x j = x i.
Proof. by rewrite /swap_draws eqxx; case: eqP => // ->. Qed.

Lemma sum_swap K j (a : nat -> R) : (j <= K)%N ->
  \sum_(k < K) swap_draws j K a k = \sum_(k < K.+1) a k - a j.
Proof.
move=> hj; have hj' : (j < K.+1)%N by [].
have E : \sum_(k < K.+1) swap_draws j K a k = \sum_(k < K.+1) a k.
  rewrite (reindex_inj (@perm_inj _ (tperm (Ordinal hj') ord_max))) /=.
  apply: eq_bigr => i _; rewrite /swap_draws.
  case: tpermP => [->|->|h1 h2] /=.
  - by rewrite eqxx; case: eqP => // ->.
  - by rewrite eqxx.
  - have -> : (val i == j) = false by apply/eqP => h; apply: h1; exact/val_inj.
    by have -> : (val i == K) = false by apply/eqP => h; apply: h2; exact/val_inj.
by rewrite -E big_ord_recr /= swap_lt addrK.
Qed.

Lemma swap_map (T : Type) (f : T -> R) i j (x : nat -> T) k : f (swap_draws i j x k) = swap_draws i j (fun k => f (x k)) k.
Proof. by rewrite /swap_draws; case: ifP => // _; case: ifP. Qed.

Lemma leave_one_out K (a : nat -> R) : (0 < K)%N -> (forall k, 0 < a k) ->
  (\sum_(j < K.+1) ln (mean_w K (swap_draws j K a))) / K.+1%:R <= ln (mean_w K.+1 a).
Proof.
move=> hK ha.
have hK' : 0 < (K%:R : R) by rewrite ltr0n.
have hK1 : 0 < (K.+1%:R : R) by rewrite ltr0n.
have hS : 0 < \sum_(k < K.+1) a k by apply: sum_gt0.
set m := mean_w K.+1 a; have hm : 0 < m by rewrite divr_gt0.
have hmj (j : 'I_K.+1) : 0 < mean_w K (swap_draws j K a).
  rewrite divr_gt0 //; apply: sum_gt0 => // k _; rewrite /swap_draws.
  by case: ifP => // _; case: ifP.
rewrite ler_pdivr_mulr //.
apply: (@le_trans _ _ (\sum_(j < K.+1) (ln m + (mean_w K (swap_draws j K a) / m - 1)))).
  by apply: ler_sum => j _; exact: ln_tangent.
rewrite big_split /= sumrB -mulr_suml !sumr_const card_ord.
have -> : \sum_(j < K.+1) mean_w K (swap_draws j K a) = \sum_(k < K.+1) a k.
  rewrite -mulr_suml; apply: (mulIf (lt0r_neq0 hK')); rewrite divfK ?gt_eqF //.
  rewrite (eq_bigr (fun j : 'I_K.+1 => \sum_(k < K.+1) a k - a j)) => [|j _]; last by rewrite sum_swap // -ltnS.
  rewrite sumrB sumr_const card_ord -[_ *+ K.+1]mulr_natr -(addn1 K) natrD mulrDr mulr1 addrK //.
have -> : (\sum_(k < K.+1) a k) / m = K.+1%:R.
  by rewrite /m /mean_w invf_div mulrCA mulfV ?mulr1 // gt_eqF.
by rewrite subrr addr0 mulr_natr.
Qed.

Section Bound.
Variables (T : Type) (N : nat) (fin : ((nat -> T) -> R) -> Prop) (E : ((nat -> T) -> R) -> R) (lw : T -> R).
Hypothesis HE : expectation N fin E.
Let L K (x : nat -> T) := iw_elbo K (fun k => lw (x k)).
Let w (x : nat -> T) := exp (lw (x 0%N)).

Lemma ex_eq f g : (forall x, f x = g x) -> fin f -> E f = E g.
Proof.
move=> H hf; have hg := ex_ext HE H hf; apply/eqP; rewrite eq_le.
by rewrite !(ex_mono HE) // => x; rewrite H.
Qed.

Lemma ex_sum K (f : nat -> (nat -> T) -> R) : (forall k, (k < K)%N -> fin (f k)) ->
  fin (fun x => \sum_(k < K) f k x) /\ E (fun x => \sum_(k < K) f k x) = \sum_(k < K) E (f k).
Proof.
elim: K => [|K IH] H.
  have [h1 h2] := ex_const HE 0; split; last first.
    by rewrite big_ord0 -[RHS]h2; apply: ex_eq => [x|]; rewrite ?big_ord0 //; apply: (ex_ext HE _ h1) => x; rewrite big_ord0.
  by apply: (ex_ext HE _ h1) => x; rewrite big_ord0.
have [h1 h2] := IH (fun k hk => H k (ltnW hk)).
have [h3 h4] := ex_add HE h1 (H K (ltnSn K)).
have h5 : fin (fun x => \sum_(k < K.+1) f k x) by apply: (ex_ext HE _ h3) => x; rewrite big_ord_recr.
split=> //; rewrite big_ord_recr /= -h2 -h4; apply: ex_eq => // x; exact: big_ord_recr.
Qed.

Lemma ex_draw (g : T -> R) k : (k < N)%N -> fin (fun x => g (x 0%N)) ->
  fin (fun x => g (x k)) /\ E (fun x => g (x k)) = E (fun x => g (x 0%N)).
Proof.
move=> hk hf; have h0 : (0 < N)%N by apply: leq_ltn_trans hk.
have [h1 h2] := ex_swap HE hk h0 hf.
have Heq x : g (swap_draws k 0 x 0%N) = g (x k) by rewrite swap_lt.
split; first exact: (ex_ext HE Heq).
by rewrite -h2; symmetry; apply: ex_eq.
Qed.

Lemma bound_step K : (0 < K)%N -> (K < N)%N -> fin (L K) -> fin (L K.+1) -> E (L K) <= E (L K.+1).
Proof.
move=> hK hN h1 h2.
have H j : (j < K.+1)%N -> fin (fun x => L K (swap_draws j K x)) /\ E (fun x => L K (swap_draws j K x)) = E (L K).
  by move=> hj; apply: (ex_swap HE) => //; apply: leq_trans hj hN.
have [h3 h4] := @ex_sum K.+1 (fun j x => L K (swap_draws j K x)) (fun k hk => (H k hk).1).
have [h5 h6] := ex_scale HE (K.+1%:R^-1) h3.
have -> : E (L K) = E (fun x => K.+1%:R^-1 * \sum_(j < K.+1) L K (swap_draws j K x)).
  rewrite h6 h4 (eq_bigr (fun _ => E (L K))) => [|j _]; last by rewrite (H j _).2.
  by rewrite sumr_const card_ord -(mulr_natl (E (L K))) mulrA mulVf ?mul1r // pnatr_eq0.
apply: (ex_mono HE) => // x.
rewrite /L iw_elboE // mulrC.
have := @leave_one_out K (fun k => exp (lw (x k))) hK (fun k => expR_gt0 _).
set X := (X in X / _ <= _ -> _); set Y := (Y in _ -> Y / _ <= _).
suff -> : Y = X by [].
apply: eq_bigr => j _; rewrite iw_elboE //; congr (ln _); congr (_ / _).
by apply: eq_bigr => k _; rewrite (swap_map (fun t => exp (lw t))).
Qed.

Lemma bound_tangent K (m : R) : (0 < K)%N -> (K <= N)%N -> fin w -> fin (L K) -> 0 < m ->
  E (L K) <= ln m + (E w / m - 1).
Proof.
move=> hK hN hw hL hm.
have H k : (k < K)%N -> fin (fun x => exp (lw (x k))) /\ E (fun x => exp (lw (x k))) = E w.
  by move=> hk; apply: (ex_draw (g := fun t => exp (lw t))) => //; apply: leq_trans hk hN.
have [h3 h4] := @ex_sum K (fun k x => exp (lw (x k))) (fun k hk => (H k hk).1).
have [h5 h6] := ex_scale HE (K%:R^-1 / m) h3.
have [h7 h8] := ex_const HE (ln m - 1).
have [h9 h10] := ex_add HE h7 h5.
apply: (@le_trans _ _ (E (fun x => (ln m - 1) + (K%:R^-1 / m) * \sum_(k < K) exp (lw (x k))))).
  apply: (ex_mono HE) => // x; rewrite /L iw_elboE //.
  have hp : 0 < mean_w K (fun k => exp (lw (x k))) by rewrite divr_gt0 ?ltr0n // (sumexp_gt0 (fun k => lw (x k))).
  apply: le_trans (ln_tangent hp hm) _.
  by rewrite /mean_w [K%:R^-1 / m * _]mulrC mulrA [X in _ <= X]addrAC addrA.
rewrite h10 h8 h6 h4 (eq_bigr (fun _ => E w)) => [|j _]; last by rewrite (H j _).2.
rewrite sumr_const card_ord -(mulr_natl (E w)) mulrA.
have -> : K%:R^-1 / m * K%:R = m^-1 :> R by rewrite mulrAC mulVf ?mul1r // pnatr_eq0 -lt0n.
by rewrite -addrA [- 1 + _]addrC [m^-1 * _]mulrC.
Qed.

Lemma weight_mean_gt0 : (0 < N)%N -> fin w -> fin (L 1) -> 0 < E w.
Proof.
move=> hN hw hL; rewrite ltNge; apply/negP => hle.
have h := bound_tangent (ltnSn 0) hN hw hL (expR_gt0 (E (L 1))).
move: h; rewrite lnexp => h.
have : E w / exp (E (L 1)) <= 0 by rewrite pmulr_lle0 ?invr_gt0 ?expR_gt0.
move=> h'; have := le_trans h (ler_add (lexx (E (L 1))) (ler_add h' (lexx (- 1)))).
by rewrite add0r ler_addl oppr_ge0 ler10.
Qed.

Theorem iw_bound : (0 < N)%N -> fin w -> (forall K, (0 < K <= N)%N -> fin (L K)) ->
  [/\ E (L 1) = E (fun x => lw (x 0%N)),
      forall K, (0 < K)%N -> (K < N)%N -> E (L K) <= E (L K.+1) &
      forall K, (0 < K)%N -> (K <= N)%N -> E (L K) <= ln (E w)].
Proof.
move=> hN hw hL; split.
- apply: ex_eq; last exact: hL.
  by move=> x; rewrite /L /iw_elbo /ext_logsumexp big_ord1 lnexp ln1 subr0.
- by move=> K hK hKN; apply: bound_step => //; apply: hL => //; rewrite hK ltnW.
- move=> K hK hKN; have hp : 0 < E w by apply: weight_mean_gt0 => //; apply: hL.
  have h0 : fin (L K) by apply: hL; rewrite hK.
  by have := bound_tangent hK hKN hw h0 hp; rewrite divff ?gt_eqF // subrr addr0.
Qed.
End Bound.

(* ---------- independent draws from finitely many values ---------- *)

Lemma draws_ofE N m (x : {ffun 'I_N -> 'I_m.+1}) (i : 'I_N) : draws_of x i = x i.
Proof.
rewrite /draws_of; case: {-}_ / idP => [h|h]; last by case: h.
by congr (x _); apply/val_inj.
Qed.

Lemma draws_of_out N m (x : {ffun 'I_N -> 'I_m.+1}) k : (N <= k)%N -> draws_of x k = ord0.
Proof. by rewrite leqNgt => /negP h; rewrite /draws_of; case: {-}_ / idP. Qed.

Section Iid.
Variables (N m : nat) (p : 'I_m.+1 -> R).
Hypothesis p0 : forall t, 0 <= p t.
Hypothesis p1 : \sum_t p t = 1.

Lemma iid_total : \sum_(x : {ffun 'I_N -> 'I_m.+1}) \prod_i p (x i) = 1.
Proof. by rewrite -(bigA_distr_bigA (fun _ => p)); apply: big1 => i _; exact: p1. Qed.

Lemma iid_expectation : expectation N (fun _ => True) (iid_expect N p).
Proof.
split=> //.
- by move=> c; split=> //; rewrite /iid_expect -mulr_suml iid_total mul1r.
- by move=> f g _ _; split=> //; rewrite /iid_expect -big_split; apply: eq_bigr => x _; rewrite mulrDr.
- by move=> a f _; split=> //; rewrite /iid_expect mulr_sumr; apply: eq_bigr => x _; rewrite mulrCA.
- move=> f g _ _ H; apply: ler_sum => x _; apply: ler_wpmul2l; last exact: H.
  by apply: prodr_ge0 => i _; exact: p0.
- move=> i j f hi hj _; split=> //; rewrite /iid_expect.
  pose t := tperm (Ordinal hi) (Ordinal hj).
  have inj : injective (fun x : {ffun 'I_N -> 'I_m.+1} => [ffun k => x (t k)]).
    move=> x y /ffunP H; apply/ffunP => k; have := H (t^-1 k)%g; rewrite !ffunE.
    by rewrite permKV.
  rewrite [RHS](reindex_inj inj); apply: eq_bigr => x _; congr (_ * f _).
    rewrite (reindex_inj (@perm_inj _ t)) /=.
    by apply: eq_bigr => k _; rewrite ffunE.
  apply: FunctionalExtensionality.functional_extensionality => k.
  case: (ltnP k N) => hk; last first.
    have -> : swap_draws i j (draws_of x) k = draws_of x k.
      rewrite /swap_draws (gtn_eqF (leq_trans hi hk)) (gtn_eqF (leq_trans hj hk)) //.
    by rewrite draws_of_out // draws_of_out.
  rewrite -[k]/(val (Ordinal hk)) [RHS]draws_ofE ffunE /swap_draws.
  rewrite /t; case: tpermP => [->|->|h1 h2] /=.
  - by rewrite eqxx -[j]/(val (Ordinal hj)) draws_ofE.
  - rewrite eqxx; case: eqP => [e|_].
      by rewrite -[j]/(val (Ordinal hj)) draws_ofE; congr (x _); apply/val_inj.
    by rewrite -[i]/(val (Ordinal hi)) draws_ofE.
  - have -> : (k == i) = false by apply/eqP => h; apply: h1; exact/val_inj.
    have -> : (k == j) = false by apply/eqP => h; apply: h2; exact/val_inj.
    by rewrite -[k]/(val (Ordinal hk)) draws_ofE.
Qed.

Lemma iid_first (g : 'I_m.+1 -> R) : (0 < N)%N -> iid_expect N p (fun x => g (x 0%N)) = \sum_t p t * g t.
Proof.
move=> hN; rewrite /iid_expect.
pose G (i : 'I_N) t := p t * (if i == Ordinal hN then g t else 1).
have EG : \prod_i (\sum_t G i t) = \sum_t p t * g t.
  rewrite (bigD1 (Ordinal hN)) //= [X in _ * X]big1 ?mulr1 => [|i /negbTE hi].
    by apply: eq_bigr => t _; rewrite /G eqxx.
  by rewrite -[RHS]p1; apply: eq_bigr => t _; rewrite /G hi mulr1.
rewrite -EG bigA_distr_bigA.
apply: eq_bigr => x _; rewrite big_split; congr (_ * _).
rewrite (bigD1 (Ordinal hN)) //= ?eqxx big1 ?mulr1 => [|i /negbTE -> //].
by rewrite -[0%N]/(val (Ordinal hN)) draws_ofE.
Qed.
End Iid.

(* a latent variable with m + 1 values: prior pr, likelihood lik, proposal q *)
Lemma iid_evidence N m (pr lik q : 'I_m.+1 -> R) : (0 < N)%N ->
  (forall t, 0 < pr t) -> (forall t, 0 < lik t) -> (forall t, 0 < q t) -> \sum_t q t = 1 ->
  let lw t := ln (lik t * pr t / q t) in
  expectation N (fun _ => True) (iid_expect N q) /\
  iid_expect N q (fun x => exp (lw (x 0%N))) = \sum_t lik t * pr t.
Proof.
move=> hN hpr hl hq q1 lw; split; first by apply: iid_expectation => // t; apply: ltW.
rewrite (iid_first q1 (fun t => exp (lw t))) //; apply: eq_bigr => t _; rewrite /lw.
have h : 0 < lik t * pr t / q t by rewrite divr_gt0 ?mulr_gt0.
by rewrite exp_ln; [rewrite mulrC divfK // gt_eqF|exact/RltP].
Qed.

(* ---------- the posterior process ---------- *)
Section Post.
Variables (o d : nat) (kernel : sde_kernel Rr d) (emission : R -> 'M[R]_(o, d)) (mean : R -> 'cV[R]_o).
Variable log_prob : 'cV[R]_o -> 'cV[R]_o -> R.

Lemma iw_weight_ok n z (q : ssm Rr d) mq Kq X Y (s s' : seq 'cV[R]_d) u :
  markov_kernel kernel -> increasing (F := Rr) n.+1 z ->
  ssm_nonsing n q -> has_law n.+1 n.+1 (ssm_path q) mq Kq -> (0 < size s')%N ->
  exists lw, iw_log_weight kernel emission mean log_prob n z q (size s') X Y (s ++ s') u = Some lw /\
  exp lw * exp (gauss_logpdf (flat n.+1 mq) (dense n.+1 n.+1 Kq) (flat n.+1 u)) =
     exp (\sum_(i < size s) log_prob (emission (X i) *m nth 0 s i + mean (X i)) (Y i)) *
     exp (gauss_logpdf (flat n.+1 (fun _ => k_mean0 kernel)) (dense n.+1 n.+1 (fun i j => state_cov kernel (z i) (z j))) (flat n.+1 u)).
Proof.
move=> Hk Hz Nq Lq hs; rewrite /iw_log_weight /iw_samples_data (split_ok s hs).2.
have [lw [-> E]] := log_weight_ok emission mean log_prob (size s) X Y (nth 0 s) u Hk Hz Nq Lq.
by exists lw; split=> //; rewrite E divfK // gt_eqF // expR_gt0.
Qed.

Lemma iw_expected_ok K (lw : nat -> R) new (s s' : nat -> seq 'cV[R]_d) m g : (0 < K)%N -> (0 < m)%N ->
  (forall k, (k < K)%N -> size (s' k) = m) ->
  let e := iw_expected_value emission mean K lw m new (fun k => s k ++ s' k) g in
  let f k := g (mkseq (fun i => emission (new i) *m nth 0 (s' k) i + mean (new i)) m) in
  [/\ (\sum_(k < K) exp (lw k)) * e = \sum_(k < K) exp (lw k) * f k,
      forall lo, (forall k, (k < K)%N -> lo <= f k) -> lo <= e,
      forall hi, (forall k, (k < K)%N -> f k <= hi) -> e <= hi &
      \sum_(k < K) ext_softmax K lw k *
        g (mkseq (fun i => emission (new i) *m nth 0 (iw_resample m (fun k => s k ++ s' k) (fun _ _ => 0) k).1 i + mean (new i)) m) = e].
Proof.
move=> hK hm Hs e f.
have Ef k : (k < K)%N -> g (iw_new_f emission mean m new (s k ++ s' k)) = f k.
  move=> hk; rewrite /iw_new_f /iw_samples_new -(Hs k hk).
  by rewrite (split_ok (s k) _).1 ?(Hs k hk).
have [h1 h2 h3] := expected_ok lw f hK.
have -> : e = \sum_(k < K) ext_softmax K lw k * f k by apply: eq_bigr => k _; rewrite Ef.
split=> //.
apply: eq_bigr => k _; congr (_ * _); rewrite -Ef //.
Qed.

(* the constructor *)
Lemma iwvi_ignores n (inducing : nat -> R) (d0 : ssm Rr d) :
  svgp_dist_q (iwvi_init kernel n inducing (PyDist d0)) = kernel_ssm n kernel inducing.
Proof. by []. Qed.
End Post.

Lemma elbo_leave_one_out K (lw : nat -> R) : (0 < K)%N ->
  (\sum_(j < K.+1) iw_elbo K (swap_draws j K lw)) / K.+1%:R <= iw_elbo K.+1 lw.
Proof.
move=> hK; rewrite iw_elboE //.
have := @leave_one_out K (fun k => exp (lw k)) hK (fun k => expR_gt0 _).
set X := (X in X / _ <= _ -> _); set Y := (Y in _ -> Y / _ <= _).
suff -> : Y = X by [].
apply: eq_bigr => j _; rewrite iw_elboE //; congr (ln _); congr (_ / _).
by apply: eq_bigr => k _; rewrite (swap_map (fun t => exp t)).
Qed.

Lemma iwvi_initial : exists (d n : nat) (kernel : sde_kernel Rr d) (inducing : nat -> R) (d0 : ssm Rr d),
  markov_kernel kernel /\ increasing (F := Rr) n.+1 inducing /\
  svgp_dist_q (svgp_init kernel n inducing PyNone (PyDist d0)) = Some d0 /\
  svgp_dist_q (iwvi_init kernel n inducing (PyDist d0)) <> Some d0.
Proof.
have [H1 H2 H3 _ _] := @models_example 1 1 1 (const_mx 1) (const_mx 1) ltr01 ltr01.
exists 2%N, 1%N, (to_sde (matern32 1 0 1 1 0)), (fun i : nat => i%:R), (ex_ssm (F := Rr) (const_mx 1) (const_mx 1)).
split=> //; split=> //; split=> //.
have [S [ES _ _]] := kernel_law H1 H3; rewrite iwvi_ignores.
rewrite /kernel_ssm; case: (to_delta_time _ _) => // dt.
move/(congr1 (fun s => oapp (@s_mu0 Rr 2) 0 s)).
change (k_mean0 (to_sde (matern32 1 0 1 1 0)) = const_mx 1 -> False).
rewrite H2 => /matrixP /(_ 0 0); rewrite !mxE => /eqP.
by rewrite eq_sym oner_eq0.
Qed.
