(* Library file (models no code): derivatives of matrix valued functions over R. *)
From Coq Require Import Reals Lra.
From mathcomp Require Import all_ssreflect all_algebra.
From Verif Require Import RealStruct Nat Alg.
Set Implicit Arguments.
Unset Strict Implicit.
Unset Printing Implicit Defensive.
Import GRing.Theory Num.Theory Order.TTheory.
Local Open Scope ring_scope.

(* entrywise derivative *)
Definition mderiv m n (A : R -> 'M[R]_(m, n)) (t : R) (A' : 'M[R]_(m, n)) : Prop :=
  forall i j, derivable_pt_lim (fun s => A s i j) t (A' i j).

Lemma dext (f g : R -> R) t l : (forall s, f s = g s) -> derivable_pt_lim f t l -> derivable_pt_lim g t l.
Proof. by move=> H Hf e He; have [del Hd] := Hf e He; exists del => h; rewrite -!H; apply: Hd. Qed.

Lemma dsum n (f : 'I_n -> R -> R) (f' : 'I_n -> R) t :
  (forall i, derivable_pt_lim (f i) t (f' i)) ->
  derivable_pt_lim (fun s => \sum_i f i s) t (\sum_i f' i).
Proof.
elim: n f f' => [|n IH] f f' H.
  rewrite big_ord0; apply: (@dext (fun _ => 0)); first by move=> s; rewrite big_ord0.
  exact: derivable_pt_lim_const.
rewrite big_ord_recl.
apply: (@dext (fun s => f ord0 s + \sum_(i < n) f (lift ord0 i) s)); first by move=> s; rewrite big_ord_recl.
by apply: (@derivable_pt_lim_plus (f ord0)); [exact: H|apply: IH => i; exact: H].
Qed.

Section MD.
Variables (m n : nat).

Lemma mderiv_ext (A B : R -> 'M[R]_(m, n)) t A' : (forall s, A s = B s) -> mderiv A t A' -> mderiv B t A'.
Proof. by move=> H HA i j; apply: dext (HA i j) => s; rewrite H. Qed.

Lemma mderiv_const (M : 'M[R]_(m, n)) t : mderiv (fun _ => M) t 0.
Proof. by move=> i j; rewrite mxE; apply: derivable_pt_lim_const. Qed.

Lemma mderivD (A B : R -> 'M[R]_(m, n)) t A' B' : mderiv A t A' -> mderiv B t B' -> mderiv (fun s => A s + B s) t (A' + B').
Proof.
move=> HA HB i j; rewrite mxE; apply: (@dext (fun s => A s i j + B s i j)); first by move=> s; rewrite mxE.
exact: (derivable_pt_lim_plus _ _ _ _ _ (HA i j) (HB i j)).
Qed.

Lemma mderivN (A : R -> 'M[R]_(m, n)) t A' : mderiv A t A' -> mderiv (fun s => - A s) t (- A').
Proof.
move=> HA i j; rewrite mxE; apply: (@dext (fun s => - A s i j)); first by move=> s; rewrite mxE.
exact: (derivable_pt_lim_opp _ _ _ (HA i j)).
Qed.

Lemma mderivB (A B : R -> 'M[R]_(m, n)) t A' B' : mderiv A t A' -> mderiv B t B' -> mderiv (fun s => A s - B s) t (A' - B').
Proof. by move=> HA HB; apply: mderivD => //; apply: mderivN. Qed.

Lemma mderivZ (c : R -> R) (A : R -> 'M[R]_(m, n)) t c' A' : derivable_pt_lim c t c' -> mderiv A t A' ->
  mderiv (fun s => c s *: A s) t (c' *: A t + c t *: A').
Proof.
move=> Hc HA i j; rewrite !mxE; apply: (@dext (fun s => c s * A s i j)); first by move=> s; rewrite mxE.
exact: (derivable_pt_lim_mult _ _ _ _ _ Hc (HA i j)).
Qed.

Lemma mderiv_comp_add (A : R -> 'M[R]_(m, n)) t c A' : mderiv A (t + c) A' -> mderiv (fun s => A (s + c)) t A'.
Proof.
move=> HA i j; have H := HA i j.
apply: (@dext (comp (fun s => A s i j) (fun s => s + c))); first by [].
rewrite -[A' i j]mulr1; apply: (@derivable_pt_lim_comp (fun s => s + c)) => //.
rewrite -[1]addr0; apply: (@derivable_pt_lim_plus id (fun _ => c)).
  exact: derivable_pt_lim_id.
exact: derivable_pt_lim_const.
Qed.

Lemma mderiv_scale (A : R -> 'M[R]_(m, n)) t c A' : mderiv A (c * t) A' -> mderiv (fun s => A (c * s)) t (c *: A').
Proof.
move=> HA i j; have H := HA i j; rewrite mxE mulrC.
apply: (@dext (comp (fun s => A s i j) (fun s => c * s))); first by [].
apply: (@derivable_pt_lim_comp (fun s => c * s)) => //.
have E : c = (0 * t + c * 1)%Re by rewrite Rmult_0_l Rplus_0_l Rmult_1_r.
rewrite [X in derivable_pt_lim _ _ X]E.
exact: (derivable_pt_lim_mult (fun _ => c) id t 0 1 (derivable_pt_lim_const _ _) (derivable_pt_lim_id t)).
Qed.
End MD.

Lemma mderivM m n p (A : R -> 'M[R]_(m, n)) (B : R -> 'M[R]_(n, p)) t A' B' :
  mderiv A t A' -> mderiv B t B' -> mderiv (fun s => A s *m B s) t (A' *m B t + A t *m B').
Proof.
move=> HA HB i j; rewrite !mxE -big_split /=.
apply: (@dext (fun s => \sum_k A s i k * B s k j)); first by move=> s; rewrite mxE.
apply: dsum => k; exact: (derivable_pt_lim_mult _ _ _ _ _ (HA i k) (HB k j)).
Qed.

Lemma mderivMl m n p (A : 'M[R]_(m, n)) (B : R -> 'M[R]_(n, p)) t B' :
  mderiv B t B' -> mderiv (fun s => A *m B s) t (A *m B').
Proof. by move=> HB; have := mderivM (mderiv_const A t) HB; rewrite mul0mx add0r. Qed.

Lemma mderivMr m n p (A : R -> 'M[R]_(m, n)) (B : 'M[R]_(n, p)) t A' :
  mderiv A t A' -> mderiv (fun s => A s *m B) t (A' *m B).
Proof. by move=> HA; have := mderivM HA (mderiv_const B t); rewrite mulmx0 addr0. Qed.

Lemma mderiv_tr m n (A : R -> 'M[R]_(m, n)) t A' : mderiv A t A' -> mderiv (fun s => (A s)^T) t A'^T.
Proof. by move=> HA i j; rewrite mxE; apply: (@dext (fun s => A s j i)) => // s; rewrite mxE. Qed.

Lemma mderiv_uniq m n (A : R -> 'M[R]_(m, n)) t A' A'' : mderiv A t A' -> mderiv A t A'' -> A' = A''.
Proof. by move=> H1 H2; apply/matrixP => i j; apply: uniqueness_limite (H1 i j) (H2 i j). Qed.

(* equal near t *)
Lemma mderiv_local m n (A B : R -> 'M[R]_(m, n)) t A' (a b : R) : a < t -> t < b ->
  (forall s, a < s -> s < b -> A s = B s) -> mderiv A t A' -> mderiv B t A'.
Proof.
move=> /RltP Ha /RltP Hb H HA i j e He; have [del Hd] := HA i j e He.
have Hm : (0 < Rmin del (Rmin (t - a) (b - t)))%Re.
  apply: Rmin_pos; first exact: cond_pos.
  by apply: Rmin_pos; toR_ops; lra.
exists (mkposreal _ Hm) => h Hh /= Hlt.
have Hl : (Rabs h < del)%Re by apply: Rlt_le_trans Hlt (Rmin_l _ _).
have H2 : (Rabs h < t - a)%Re.
  by apply: Rlt_le_trans Hlt (Rle_trans _ _ _ (Rmin_r _ _) (Rmin_l _ _)).
have H3 : (Rabs h < b - t)%Re.
  by apply: Rlt_le_trans Hlt (Rle_trans _ _ _ (Rmin_r _ _) (Rmin_r _ _)).
have [H4 H5] := Rabs_def2 _ _ H2; have [H6 H7] := Rabs_def2 _ _ H3.
rewrite -!H; first exact: Hd.
- exact/RltP.
- exact/RltP.
- by apply/RltP; lra.
- by apply/RltP; lra.
Qed.

(* zero derivative: constant *)
Lemma mderiv0_const m n (A : R -> 'M[R]_(m, n)) : (forall t, mderiv A t 0) -> forall t, A t = A 0.
Proof.
move=> H t; apply/matrixP => i j.
case: (Req_dec t 0) => [->//|Ht].
pose f s := A s i j.
have Hf s : derivable_pt_lim f s 0 by have := H s i j; rewrite mxE.
case: (Rtotal_order 0 t) => [H0|[H0|H0]]; last 2 first.
- by case: Ht.
- have [c [Hc _]] := MVT_cor2 f (fun _ => 0) t 0 H0 (fun c _ => Hf c).
  move: Hc; rewrite Rmult_0_l => Hc.
  by rewrite -[LHS]/(f t) -[RHS]/(f 0); lra.
have [c [Hc _]] := MVT_cor2 f (fun _ => 0) 0 t H0 (fun c _ => Hf c).
move: Hc; rewrite Rmult_0_l => Hc.
by rewrite -[LHS]/(f t) -[RHS]/(f 0); lra.
Qed.
