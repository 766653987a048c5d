(* Library file (models no code): derivative of the inverse of a matrix, and of the log
   determinant of a triangular one. *)
From Coq Require Import Reals Lra.
From mathcomp Require Import all_ssreflect all_algebra.
From Verif Require Import RealStruct Nat Alg Spd Log MCalc MCont.
Set Implicit Arguments.
Unset Strict Implicit.
Unset Printing Implicit Defensive.
Import GRing.Theory Num.Theory Order.TTheory.
Local Open Scope ring_scope.

(* Caratheodory's form of the derivative at 0 *)
Lemma cara (g : R -> R) (l : R) : derivable_pt_lim g 0 l ->
  exists f, [/\ cont0 f, f 0 = l & forall h, g h = g 0 + h * f h].
Proof.
move=> H; exists (fun h => if h == 0 then l else (g h - g 0) / h); rewrite eqxx; split=> //.
- apply/cont0P => e /RltP e0; have [del Hd] := H e e0; exists (pos del); first exact/RltP/cond_pos.
  move=> s Hs; rewrite eqxx; case: (eqVneq s 0) => [_|s0]; first by rewrite subrr normr0; apply/RltP.
  have s0' : s <> 0%Re by exact/eqP.
  have := Hd s s0' (RltP _ _ Hs); rewrite Rplus_0_l => Hq; apply/RltP.
  by rewrite (invrR s0'); exact: Hq.
- move=> h; case: (eqVneq h 0) => [->|h0]; first by rewrite mul0r addr0.
  by rewrite mulrCA divff // mulr1 addrC subrK.
Qed.

Lemma cara_inv (g f : R -> R) : cont0 f -> (forall h, g h = g 0 + h * f h) -> derivable_pt_lim g 0 (f 0).
Proof.
move=> /cont0P Hc Hg e /RltP e0; have [a /RltP a0 Ha] := Hc e e0.
exists (mkposreal a a0) => h h0 /= Hh; rewrite Rplus_0_l.
have -> : ((g h - g 0) / h)%Re = f h.
  by rewrite (Hg h) [X in (X / h)%Re](_ : _ = (h * f h)%Re); [field | rewrite [LHS](_ : _ = g 0 + h * f h - g 0) // addrC addKr].
by apply/RltP/Ha; apply/RltP.
Qed.

Lemma cont_dvanish (f g : R -> R) (l : R) : cont0 f -> g 0 = 0 -> derivable_pt_lim g 0 l ->
  derivable_pt_lim (fun s => f s * g s) 0 (f 0 * l).
Proof.
move=> Hf g0 /cara [p [Hp <- Hg]]; apply: (cara_inv (f := fun s => f s * p s)); first exact: contM.
by move=> h; rewrite g0 mulr0 add0r (Hg h) g0 add0r mulrCA.
Qed.

Lemma deriv_cont (f : R -> R) (l : R) : derivable_pt_lim f 0 l -> cont0 f.
Proof.
move=> /cara [p [Hp _ Hg]]; apply: (cont_ext (f := fun h => f 0 + h * p h)); first by move=> s; rewrite -Hg.
by apply: contD; [exact: cont_const|apply: contM => //; exact: cont_id].
Qed.

Lemma mderiv_cont m n (A : R -> 'M[R]_(m, n)) A' : mderiv A 0 A' -> mcont A.
Proof. by move=> H i j; exact: deriv_cont (H i j). Qed.

Lemma mcont_mvanish m n p (A : R -> 'M[R]_(m, n)) (B : R -> 'M[R]_(n, p)) B' : mcont A -> B 0 = 0 -> mderiv B 0 B' ->
  mderiv (fun s => A s *m B s) 0 (A 0 *m B').
Proof.
move=> HA B0 HB i j; rewrite mxE.
apply: (dext (f := fun s => \sum_k A s i k * B s k j)); first by move=> s; rewrite mxE.
apply: dsum => k; apply: cont_dvanish => //; first by rewrite B0 mxE.
Qed.

Lemma mderiv_inv n (A : R -> 'M[R]_n) A' : (forall s, A s \in unitmx) -> mderiv A 0 A' ->
  mderiv (fun s => invmx (A s)) 0 (- (invmx (A 0) *m A' *m invmx (A 0))).
Proof.
move=> U D.
apply: (mderiv_ext (A := fun s => invmx (A 0) - (invmx (A s) *m (A s - A 0)) *m invmx (A 0))).
  move=> s; rewrite mulmxBr mulVmx // mulmxBl mul1mx -mulmxA mulmxV // mulmx1 opprB addrC subrK //.
have D1 : mderiv (fun s => A s - A 0) 0 A' by rewrite -[A']subr0; apply: mderivB => //; exact: mderiv_const.
have D2 := mcont_mvanish (mcont_inv (mderiv_cont D) (U 0)) (subrr (A 0)) D1.
have := mderivB (mderiv_const (invmx (A 0)) 0) (mderivMr (invmx (A 0)) D2).
by rewrite sub0r.
Qed.

Lemma mderiv_trig n (A : R -> 'M[R]_n) A' : (forall s, is_trig_mx (A s)) -> mderiv A 0 A' -> is_trig_mx A'.
Proof.
move=> T D; apply/is_trig_mxP => i j Hij; apply: uniqueness_limite (D i j) _.
apply: (dext (f := fun _ => 0)); last exact: derivable_pt_lim_const.
by move=> s; move/is_trig_mxP: (T s) => ->.
Qed.

Lemma trig_quot (F : realFieldType) n (L B : 'M[F]_n) : lownz L -> is_trig_mx B ->
  forall i, (invmx L *m B) i i = B i i / L i i.
Proof.
move=> HL /is_trig_mxP HB; have [/is_trig_mxP HT Hd] := HL; set X := invmx L *m B.
have E : L *m X = B by rewrite mulmxA mulmxV ?mul1mx //; exact: lownz_unit.
have HX m : forall i j : 'I_n, (i < m)%N -> (i < j)%N -> X i j = 0.
  elim: m => // m IH i j; rewrite ltnS leq_eqVlt => /orP [/eqP Hi|Hi] Hij; last exact: IH.
  have := HB i j Hij; rewrite -E mxE (bigD1 i) //= big1 ?addr0.
    by move/eqP; rewrite mulf_eq0 (negbTE (Hd i)) => /eqP.
  move=> k Hk; case: (ltngtP k i) => Hki; first by rewrite IH ?mulr0 // -?Hi //; exact: ltn_trans Hij.
    by rewrite HT ?mul0r.
  by case/eqP: Hk; apply: val_inj.
move=> i; suff H : B i i = L i i * X i i by rewrite H mulrAC mulfV // mul1r.
have -> : B i i = (L *m X) i i by rewrite E.
move: HX; clearbody X => HX; rewrite mxE (bigD1 i) //= big1 ?addr0 //.
move=> k Hk; case: (ltngtP k i) => Hki; first by rewrite (HX n) ?mulr0.
  by rewrite HT ?mul0r.
by case/eqP: Hk; apply: val_inj.
Qed.
