(* Continuity at 0 of matrix valued functions of a real variable, and what holds near 0. *)
From Coq Require Import Reals Lra.
From mathcomp Require Import all_ssreflect all_algebra.
From Verif Require Import RealStruct Log Alg Lin Ent Spd MCalc.
Set Implicit Arguments.
Unset Strict Implicit.
Unset Printing Implicit Defensive.
Local Notation Rr := [rcfType of R].
Import Order.Theory GRing.Theory Num.Theory.
Local Open Scope ring_scope.

(* P holds on an open interval around 0 *)
Definition near0 (P : R -> Prop) : Prop := exists2 e : R, 0 < e & forall s : R, `|s| < e -> P s.

Lemma near0_imp (P Q : R -> Prop) : (forall s, P s -> Q s) -> near0 P -> near0 Q.
Proof. by move=> H [e e0 He]; exists e => // s /He /H. Qed.

Lemma near0_and (P Q : R -> Prop) : near0 P -> near0 Q -> near0 (fun s => P s /\ Q s).
Proof.
move=> [e e0 He] [f f0 Hf]; exists (Num.min e f); first by rewrite lt_minr e0.
by move=> s; rewrite lt_minr => /andP[/He ? /Hf].
Qed.

Lemma near0_true (P : R -> Prop) : (forall s, P s) -> near0 P.
Proof. by move=> H; exists 1 => //; rewrite ltr01. Qed.

Lemma near0_all n (P : nat -> R -> Prop) : (forall k, (k < n)%N -> near0 (P k)) ->
  near0 (fun s => forall k, (k < n)%N -> P k s).
Proof.
elim: n => [|n IH] H; first exact: near0_true.
have [e e0 He] := near0_and (IH (fun k Hk => H k (ltnW Hk))) (H n (ltnSn n)).
exists e => // s /He [H1 H2] k; rewrite ltnS leq_eqVlt => /orP[/eqP->//|]; exact: H1.
Qed.

Lemma near0_all_ord n (P : 'I_n -> R -> Prop) : (forall k, near0 (P k)) -> near0 (fun s => forall k, P k s).
Proof.
move=> H; suff [e e0 He] : near0 (fun s => forall k, (k < n)%N -> forall i : 'I_n, i = k :> nat -> P i s).
  by exists e => // s /He H' k; apply: (H' k).
apply: near0_all => k Hk; apply: near0_imp (H (Ordinal Hk)) => s Hs i E.
by have -> : i = Ordinal Hk by apply: val_inj.
Qed.

Definition cont0 (f : R -> R) : Prop := continuity_pt f 0.

Lemma cont_ext (f g : R -> R) : (forall s, f s = g s) -> cont0 f -> cont0 g.
Proof. by move=> E H eps He; have [a [a0 Ha]] := H eps He; exists a; split=> // x Hx; rewrite -!E; exact: Ha. Qed.

Lemma cont0P (f : R -> R) : cont0 f <-> forall e : R, 0 < e -> near0 (fun s => `|f s - f 0| < e).
Proof.
split=> H.
- move=> e /RltP e0; have [a [/Rgt_lt a0 Ha]] := H e e0; exists a; first exact/RltP.
  move=> s Hs; case: (eqVneq s 0) => [->|s0]; first by rewrite subrr normr0; apply/RltP.
  apply/RltP; move: (Ha s); rewrite /dist /= /R_dist; apply; split.
    by split=> // E; case/eqP: s0; apply: esym.
  by move/RltP: Hs; rewrite -[s in `|s|]subr0.
- move=> e /Rgt_lt/RltP e0; have [a a0 Ha] := H e e0; exists a; split; first exact/Rlt_gt/RltP.
  move=> s [_]; rewrite /dist /= /R_dist => Hs; apply/RltP/Ha; rewrite -[s]subr0; exact/RltP.
Qed.

Lemma cont_const c : cont0 (fun _ => c).
Proof. by apply/cont0P => e e0; apply: near0_true => s; rewrite subrr normr0. Qed.
Lemma cont_id : cont0 (fun s => s).
Proof. exact: (derivable_continuous_pt _ _ (derivable_pt_id 0)). Qed.
Lemma contD f g : cont0 f -> cont0 g -> cont0 (fun s => f s + g s).
Proof. exact: continuity_pt_plus. Qed.
Lemma contN f : cont0 f -> cont0 (fun s => - f s).
Proof. exact: continuity_pt_opp. Qed.
Lemma contM f g : cont0 f -> cont0 g -> cont0 (fun s => f s * g s).
Proof. exact: continuity_pt_mult. Qed.

Lemma cont_sum (I : Type) (r : seq I) (P : pred I) (f : I -> R -> R) : (forall i, cont0 (f i)) ->
  cont0 (fun s => \sum_(i <- r | P i) f i s).
Proof.
move=> H; elim: r => [|a r IH]; first by apply: (cont_ext _ (cont_const 0)) => s; rewrite big_nil.
case Pa: (P a); last by apply: (cont_ext _ IH) => s; rewrite big_cons Pa.
by apply: (cont_ext _ (contD (H a) IH)) => s; rewrite big_cons Pa.
Qed.

Lemma cont_prod (I : Type) (r : seq I) (P : pred I) (f : I -> R -> R) : (forall i, cont0 (f i)) ->
  cont0 (fun s => \prod_(i <- r | P i) f i s).
Proof.
move=> H; elim: r => [|a r IH]; first by apply: (cont_ext _ (cont_const 1)) => s; rewrite big_nil.
case Pa: (P a); last by apply: (cont_ext _ IH) => s; rewrite big_cons Pa.
by apply: (cont_ext _ (contM (H a) IH)) => s; rewrite big_cons Pa.
Qed.

(* a continuous function that does not vanish at 0 does not vanish near 0 *)
Lemma near_neq0 f : cont0 f -> f 0 != 0 -> near0 (fun s => f s != 0).
Proof.
move=> /cont0P H f0; apply: near0_imp (H `|f 0| _) => [s Hs|]; last by rewrite normr_gt0.
by apply: contraTneq Hs => ->; rewrite sub0r normrN ltxx.
Qed.

Lemma cont_local f g : near0 (fun s => f s = g s) -> cont0 f -> cont0 g.
Proof.
move=> HE /cont0P H; apply/cont0P => e /H Hf; have [a a0 Ha] := near0_and HE Hf.
have E0 : f 0 = g 0 by apply: (proj1 (Ha 0 _)); rewrite normr0.
by exists a => // s /Ha [E]; rewrite E0 E.
Qed.

Lemma contV f : cont0 f -> f 0 != 0 -> cont0 (fun s => (f s)^-1).
Proof.
move=> H f0; apply: cont_local (continuity_pt_inv _ _ H _); last exact/eqP.
by apply: near0_imp (near_neq0 H f0) => s Hs; rewrite /inv_fct invrR //; exact/eqP.
Qed.

Definition mcont m n (A : R -> 'M[R]_(m, n)) : Prop := forall i j, cont0 (fun s => A s i j).

Lemma mcont_ext m n (A B : R -> 'M[R]_(m, n)) : (forall s, A s = B s) -> mcont A -> mcont B.
Proof. by move=> E H i j; apply: (cont_ext _ (H i j)) => s; rewrite E. Qed.
Lemma mcont_local m n (A B : R -> 'M[R]_(m, n)) : near0 (fun s => A s = B s) -> mcont A -> mcont B.
Proof. by move=> E H i j; apply: cont_local (H i j); apply: near0_imp E => s ->. Qed.
Lemma mcont_const m n (M : 'M[R]_(m, n)) : mcont (fun _ => M).
Proof. by move=> i j; apply: cont_const. Qed.
Lemma mcontD m n (A B : R -> 'M[R]_(m, n)) : mcont A -> mcont B -> mcont (fun s => A s + B s).
Proof. by move=> HA HB i j; apply: (cont_ext _ (contD (HA i j) (HB i j))) => s; rewrite [in RHS]mxE. Qed.
Lemma mcontN m n (A : R -> 'M[R]_(m, n)) : mcont A -> mcont (fun s => - A s).
Proof. by move=> HA i j; apply: (cont_ext _ (contN (HA i j))) => s; rewrite [in RHS]mxE. Qed.
Lemma mcontB m n (A B : R -> 'M[R]_(m, n)) : mcont A -> mcont B -> mcont (fun s => A s - B s).
Proof. by move=> HA HB; apply: mcontD => //; apply: mcontN. Qed.
Lemma mcontZ m n (c : R -> R) (A : R -> 'M[R]_(m, n)) : cont0 c -> mcont A -> mcont (fun s => c s *: A s).
Proof. by move=> Hc HA i j; apply: (cont_ext _ (contM Hc (HA i j))) => s; rewrite [in RHS]mxE. Qed.
Lemma mcont_tr m n (A : R -> 'M[R]_(m, n)) : mcont A -> mcont (fun s => (A s)^T).
Proof. by move=> HA i j; apply: (cont_ext _ (HA j i)) => s; rewrite [in RHS]mxE. Qed.
Lemma mcontM m n p (A : R -> 'M[R]_(m, n)) (B : R -> 'M[R]_(n, p)) : mcont A -> mcont B -> mcont (fun s => A s *m B s).
Proof.
move=> HA HB i j; apply: (cont_ext (f := fun s => \sum_k A s i k * B s k j)) => [s|]; first by rewrite [in RHS]mxE.
by apply: cont_sum => k; apply: contM.
Qed.
Lemma mcont_line m n (A B : 'M[R]_(m, n)) : mcont (fun s => A + s *: B).
Proof. by apply: mcontD; [exact: mcont_const|apply: mcontZ; [exact: cont_id|exact: mcont_const]]. Qed.

Lemma cont_tr n (A : R -> 'M[R]_n) : mcont A -> cont0 (fun s => \tr (A s)).
Proof. by move=> H; apply: cont_sum => i; exact: H. Qed.

Lemma cont_det n (A : R -> 'M[R]_n) : mcont A -> cont0 (fun s => \det (A s)).
Proof.
move=> H; apply: cont_sum => p; apply: contM; first exact: cont_const.
by apply: cont_prod => i; exact: H.
Qed.

Lemma mcont_inv n (A : R -> 'M[R]_n) : mcont A -> A 0 \in unitmx -> mcont (fun s => invmx (A s)).
Proof.
move=> H U; have Hd := cont_det H.
have d0 : \det (A 0) != 0 by move: U; rewrite unitmxE unitfE.
have Ha : mcont (fun s => \adj (A s)).
  move=> i j; apply: (cont_ext (f := fun s => (-1) ^+ (j + i) * \det (row' j (col' i (A s))))) => [s|].
    by rewrite mxE.
  apply: contM; [exact: cont_const|apply: cont_det => k l].
  by apply: (cont_ext _ (H (lift j k) (lift i l))) => s; rewrite !mxE.
apply: (mcont_local _ (mcontZ (contV Hd d0) Ha)).
by apply: near0_imp (near_neq0 Hd d0) => s Hs; rewrite /invmx unitmxE unitfE Hs.
Qed.

(* a symmetric matrix close to the identity is positive definite *)
Lemma spd_close (F : rcfType) n (E : 'M[F]_n) (e : F) : E^T = E -> 0 <= e -> e * n%:R < 1 ->
  (forall i j, `|(E - 1%:M) i j| <= e) -> spd E.
Proof.
move=> sE e0 He H; split=> // y y0.
pose N := \sum_i y i 0 ^+ 2.
have N0 : 0 < N.
  rewrite lt0r /N -qf1 qf1_ge0 andbT; apply: contra y0 => /eqP/qf1_eq0 ->; exact: eqxx.
have dE : qf E y = N + qf (E - 1%:M) y by rewrite /N -qf1 -qfD addrC subrK.
have up : `|qf (E - 1%:M) y| <= e * n%:R * N.
  move: (E - 1%:M) H => D H.
  have -> : qf D y = \sum_i \sum_j D i j * (y i 0 * y j 0).
    rewrite /qf mxE exchange_big /=; apply: eq_bigr => j _; rewrite mxE mulr_suml; apply: eq_bigr => i _.
    by rewrite mxE; crng.
  apply: (le_trans (ler_norm_sum _ _ _)).
  apply: (@le_trans _ _ (\sum_(i < n) \sum_(j < n) e * (2%:R^-1 * (y i 0 ^+ 2 + y j 0 ^+ 2)))).
    apply: ler_sum => i _; apply: (le_trans (ler_norm_sum _ _ _)); apply: ler_sum => j _.
    rewrite normrM; apply: ler_pmul => //; rewrite normrM.
    have := sqr_ge0 (`|y i 0| - `|y j 0|); rewrite sqrrB !real_normK ?num_real //.
    rewrite addrAC subr_ge0 => Hy; rewrite -(ler_pmul2l (x := 2%:R)) ?ltr0n // [2%:R * (2%:R^-1 * _)]mulrA mulfV ?pnatr_eq0 //.
    by rewrite mul1r mulr_natl.
  have -> : \sum_(i < n) \sum_(j < n) e * (2%:R^-1 * (y i 0 ^+ 2 + y j 0 ^+ 2)) = e * n%:R * N; last exact: lexx.
  under eq_bigr => i _ do rewrite -mulr_sumr -mulr_sumr big_split /= sumr_const card_ord.
  rewrite -mulr_sumr -mulr_sumr big_split /= sumr_const card_ord -/N sumrMnl -/N -mulr2n -[N *+ n]mulr_natl -(mulr_natl (_ * N) 2).
  by rewrite [2%:R^-1 * _]mulrA mulVf ?pnatr_eq0 // mul1r mulrA.
rewrite dE; have : - (e * n%:R * N) <= qf (E - 1%:M) y by move: up; rewrite ler_norml => /andP[].
move=> lo; apply: (lt_le_trans (y := N - e * n%:R * N)); last by rewrite ler_add2l.
by rewrite -[X in X - _]mul1r -mulrBl mulr_gt0 // subr_gt0.
Qed.

(* positive definite at 0, positive definite near 0 *)
Lemma near_spd n (S : R -> 'M[R]_n) : (forall s, (S s)^T = S s) -> mcont S -> spd (S 0 : 'M[Rr]_n) ->
  near0 (fun s => spd (S s : 'M[Rr]_n)).
Proof.
move=> sS cS S0; pose L := chol (S 0 : 'M[Rr]_n).
have [lL EL] := chol_spec S0.
have uL := lowpos_unit lL.
pose E s := invmx L *m S s *m (invmx L)^T.
have cE : mcont E by apply: mcontM; [apply: mcontM => //; exact: mcont_const|exact: mcont_const].
have E0 : E 0 = 1%:M.
  by rewrite /E -EL -/L mulmxA mulVmx // mul1mx -trmx_mul mulVmx // trmx1.
pose e : R := (n.+1%:R)^-1.
have e0 : 0 < e by rewrite invr_gt0 ltr0n.
have en : e * n%:R < 1 by rewrite mulrC ltr_pdivr_mulr ?mul1r ?ltr_nat ?ltr0n.
have nE i j : near0 (fun s => `|(E s - 1%:M) i j| <= e).
  have /cont0P := mcontB cE (mcont_const 1%:M) i j => /(_ e e0).
  by apply: near0_imp => s; rewrite E0 subrr [X in _ - X]mxE subr0 => /ltW.
have := near0_all_ord (fun i => near0_all_ord (nE i)); apply: near0_imp => s Hs.
have : spd (E s : 'M[Rr]_n).
  apply: (spd_close (e := e)) => //; last exact: ltW.
  by rewrite /E !trmx_mul trmxK sS mulmxA.
have -> : S s = L *m E s *m L^T.
  by rewrite /E !mulmxA mulmxV // mul1mx -mulmxA -trmx_mul mulmxV // trmx1 mulmx1.
exact: spd_congr'.
Qed.
