(* Kronecker products. *)
From mathcomp Require Import all_ssreflect all_algebra.
From Verif Require Import Alg Lin Ent Spd M_Comb.
Set Implicit Arguments.
Unset Strict Implicit.
Unset Printing Implicit Defensive.
Import Order.Theory GRing.Theory Num.Theory.
Local Open Scope ring_scope.

Lemma ent_mul (R : ringType) m n p (A : 'M[R]_(m, n)) (B : 'M[R]_(n, p)) i j : (i < m)%N -> (j < p)%N ->
  ent (A *m B) i j = \sum_(k < n) ent A i k * ent B k j.
Proof.
move=> Hi Hj; rewrite (ent_lt _ Hi Hj) mxE; apply: eq_bigr => k _.
by rewrite -!ent_ord.
Qed.

Lemma entZ (R : ringType) m n a (A : 'M[R]_(m, n)) i j : ent (a *: A) i j = a * ent A i j.
Proof.
rewrite /ent; case: (@insub nat (fun x => (x < m)%N) _ i) => [i'|]; last by rewrite mulr0.
by case: (@insub nat (fun x => (x < n)%N) _ j) => [j'|]; rewrite ?mxE ?mulr0.
Qed.

Lemma ent1 (R : ringType) n i j : (i < n)%N -> (j < n)%N -> ent (1%:M : 'M[R]_n) i j = (i == j)%:R.
Proof. by move=> Hi Hj; rewrite (ent_lt _ Hi Hj) mxE. Qed.

Section Kron.
Variable R : comRingType.

Lemma kronM m n p q r s (A : 'M[R]_(m, n)) (B : 'M[R]_(p, q)) (C : 'M[R]_(n, r)) (D : 'M[R]_(q, s)) :
  kron A B *m kron C D = kron (A *m C) (B *m D).
Proof.
rewrite /kron mul_dense; apply: eq_dense => i j Hi Hj.
rewrite ent_mul // scaler_suml; apply: eq_bigr => k _.
by rewrite -scalemxAl -scalemxAr scalerA.
Qed.

Lemma tr_kron m n p q (A : 'M[R]_(m, n)) (B : 'M[R]_(p, q)) : (kron A B)^T = kron A^T B^T.
Proof. by rewrite /kron tr_dense; apply: eq_dense => i j _ _; rewrite ent_tr linearZ. Qed.

Lemma kron1 m n : kron (1%:M : 'M[R]_m) (1%:M : 'M[R]_n) = 1%:M.
Proof.
rewrite /kron -[RHS]dense1; apply: eq_dense => i j Hi Hj; rewrite ent1 // /bdiag.
by case: eqP => _; rewrite ?scale1r ?scale0r.
Qed.

Lemma kronDl m n p q (A A' : 'M[R]_(m, n)) (B : 'M[R]_(p, q)) : kron (A + A') B = kron A B + kron A' B.
Proof. by rewrite /kron denseD; apply: eq_dense => i j _ _; rewrite entD scalerDl. Qed.

Lemma kronDr m n p q (A : 'M[R]_(m, n)) (B B' : 'M[R]_(p, q)) : kron A (B + B') = kron A B + kron A B'.
Proof. by rewrite /kron denseD; apply: eq_dense => i j _ _; rewrite scalerDr. Qed.

Lemma kronNl m n p q (A : 'M[R]_(m, n)) (B : 'M[R]_(p, q)) : kron (- A) B = - kron A B.
Proof. by rewrite /kron denseN; apply: eq_dense => i j _ _; rewrite entN scaleNr. Qed.

Lemma kronNr m n p q (A : 'M[R]_(m, n)) (B : 'M[R]_(p, q)) : kron A (- B) = - kron A B.
Proof. by rewrite /kron denseN; apply: eq_dense => i j _ _; rewrite scalerN. Qed.

Lemma kron0l m n p q (B : 'M[R]_(p, q)) : kron (0 : 'M[R]_(m, n)) B = 0.
Proof. by rewrite /kron -[RHS]dense0; apply: eq_dense => i j _ _; rewrite ent0 scale0r. Qed.

Lemma kron0r m n p q (A : 'M[R]_(m, n)) : kron A (0 : 'M[R]_(p, q)) = 0.
Proof. by rewrite /kron -[RHS]dense0; apply: eq_dense => i j _ _; rewrite scaler0. Qed.

(* 1 x 1 matrices *)
Lemma kron11 (A B : 'M[R]_1) : kron A B = (A 0 0 * B 0 0)%:M.
Proof.
apply/(@ent_eq _ 1 1) => i j; rewrite !ltnS !leqn0 => /eqP -> /eqP ->.
have := @ent_dense R 1 1 1 1 (fun i j => ent A i j *: B) 0 0 0 0 isT isT isT isT.
rewrite -/(kron A B) => ->; rewrite entZ.
by rewrite -[0%N]/(val (0 : 'I_1)) !ent_ord !mxE eqxx mulr1n.
Qed.
End Kron.

Section KronSpd.
Variable F : rcfType.

(* a positive semidefinite matrix has a square root *)
Lemma psd_factor n (M : 'M[F]_n) : psd M -> exists B : 'M[F]_n, M = B *m B^T.
Proof.
elim: n M => [|n IH] M HM; first by exists 0; apply/matrixP=> -[].
rewrite -[n.+1]/(1 + n)%N in M HM *.
set a := ulsubmx M 0 0; set v := dlsubmx M; set D := drsubmx M.
have Eu : ulsubmx M = a%:M by apply/matrixP=> i j; rewrite !ord1 [RHS]mxE eqxx mulr1n.
have Ev : ursubmx M = v^T by rewrite /v trmx_dlsub (psd_sym HM).
have EM : M = block_mx a%:M v^T v D by rewrite -[LHS]submxK Eu Ev.
have qfM (s : F) y : qf M (col_mx s%:M y) = a * s ^+ 2 + 2%:R * s * (v^T *m y) 0 0 + qf D y.
  rewrite EM qf_block; congr (_ + _).
  rewrite /qf tr_scalar_mx !mul_scalar_mx mul_mx_scalar -scalemxAl mul_mx_scalar.
  have -> : y^T *m v = (v^T *m y)^T by rewrite trmx_mul trmxK.
  by rewrite !mxE eqxx mulr1n; crng.
have a0 : 0 <= a.
  have := HM.2 (col_mx 1%:M 0); rewrite qfM mulmx0 mxE mulr0 addr0 qf0 addr0 expr1n mulr1.
  by [].
have [aE|an0] := eqVneq a 0.
  have v0 : v = 0.
    apply/matrixP => i j; rewrite ord1 [RHS]mxE; apply/eqP; apply: contraT => Hv.
    set y : 'cV[F]_n := delta_mx i 0.
    have vy : (v^T *m y) 0 0 = v i 0.
      rewrite mxE (bigD1 i) //= big1 ?addr0; first by rewrite !mxE !eqxx mulr1.
      by move=> l Hl; rewrite !mxE (negbTE Hl) mulr0.
    have := HM.2 (col_mx (- (qf D y + 1) / (2%:R * v i 0))%:M y).
    rewrite qfM aE mul0r add0r vy.
    have -> : 2%:R * (- (qf D y + 1) / (2%:R * v i 0)) * v i 0 = - (qf D y + 1).
      by rewrite mulrAC mulrCA divff ?mulr1 // mulf_neq0 // pnatr_eq0.
    by rewrite opprD addrAC addNr add0r oppr_ge0 ler10.
  have HD : psd D.
    split; first by rewrite /D trmx_drsub (psd_sym HM).
    move=> y; have := HM.2 (col_mx 0%:M y).
    by rewrite qfM aE v0 trmx0 mul0mx mxE mulr0 mul0r !add0r.
  have [B EB] := IH _ HD; exists (block_mx 0 0 0 B).
  rewrite EM aE v0 tr_block_mx !trmx0 mulmx_block !mulmx0 !mul0mx !addr0 add0r -EB.
  by congr block_mx; apply/matrixP => i j; rewrite !mxE mul0rn.
have ap : 0 < a by rewrite lt_def an0.
have HS : psd (D - a^-1 *: (v *m v^T)).
  split; first by rewrite trmxB linearZ /= trmx_mul trmxK /D trmx_drsub (psd_sym HM).
  move=> y; have := HM.2 (col_mx (- a^-1 * (v^T *m y) 0 0)%:M y).
  rewrite qfM [X in _ -> 0 <= X](_ : _ = qf D y - a^-1 * ((v^T *m y) 0 0) ^+ 2).
    congr (0 <= _); rewrite addrC; congr (_ + _).
    set w := (v^T *m y) 0 0.
    have -> : a * (- a^-1 * w) ^+ 2 = a^-1 * w ^+ 2.
      transitivity ((a * a^-1) * (a^-1 * w ^+ 2)); first by crng.
      by rewrite divff // mul1r.
    have -> : 2%:R * (- a^-1 * w) * w = - (a^-1 * w ^+ 2) - a^-1 * w ^+ 2 by crng.
    by rewrite addrA addrN add0r.
  rewrite /qf mulmxBr mulmxBl mxE; congr (_ + _).
  rewrite mxE -scalemxAr -scalemxAl mxE; congr (- (_ * _)).
  have -> : y^T *m (v *m v^T) *m y = (v^T *m y)^T *m (v^T *m y) by rewrite trmx_mul trmxK !mulmxA.
  by rewrite mxE big_ord1 [(_^T) 0 0]mxE expr2.
have [B EB] := IH _ HS; exists (block_mx (Num.sqrt a)%:M 0 ((Num.sqrt a)^-1 *: v) B).
have Hs : Num.sqrt a * Num.sqrt a = a by rewrite -expr2 sqr_sqrtr // ltW.
have s0 : Num.sqrt a != 0 by rewrite gt_eqF // sqrtr_gt0.
rewrite tr_block_mx !trmx0 mulmx_block !mulmx0 !mul0mx !addr0 -EB.
rewrite tr_scalar_mx -scalar_mxM Hs mul_scalar_mx linearZ /= scalerA divff ?scale1r //.
rewrite mul_mx_scalar scalerA divff ?scale1r //.
by rewrite -scalemxAl -scalemxAr scalerA -invfM Hs addrC subrK.
Qed.

Lemma psd_kron m n (A : 'M[F]_m) (B : 'M[F]_n) : psd A -> psd B -> psd (kron A B).
Proof.
move=> /psd_factor [G ->] /psd_factor [H ->]; rewrite -kronM -tr_kron; exact: psd_mul_tr.
Qed.

Lemma kron_unit m n (A : 'M[F]_m) (B : 'M[F]_n) : A \in unitmx -> B \in unitmx -> kron A B \in unitmx.
Proof.
move=> HA HB; have := kronM A B (invmx A) (invmx B).
by rewrite !mulmxV // kron1 => /mulmx1_unit [].
Qed.

Lemma kron_inv m n (A : 'M[F]_m) (B : 'M[F]_n) : A \in unitmx -> B \in unitmx ->
  invmx (kron A B) = kron (invmx A) (invmx B).
Proof. by move=> HA HB; apply: mulmx1_inv; rewrite kronM !mulmxV // kron1. Qed.

Lemma spd_kron m n (A : 'M[F]_m) (B : 'M[F]_n) : spd A -> spd B -> spd (kron A B).
Proof.
move=> HA HB; rewrite -(chol_mul HA) -(chol_mul HB) -kronM -tr_kron.
by apply: spd_mul_tr; apply: kron_unit; apply: chol_unit.
Qed.

End KronSpd.
