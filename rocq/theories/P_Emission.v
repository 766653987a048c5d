(* Proofs about M_Emission.v. *)
From mathcomp Require Import all_ssreflect all_algebra.
From Verif Require Import Alg Lin S_SSM P_Comb2 M_Emission.
Set Implicit Arguments.
Unset Strict Implicit.
Unset Printing Implicit Defensive.
Import GRing.Theory.
Local Open Scope ring_scope.

Section Plain.
Variable F : comRingType.
Variables o d : nat.
Implicit Types (H : nat -> 'M[F]_(o, d)) (C : nat -> 'M[F]_d).

Lemma cov_fullE H C k : project_cov_full H C k = H k *m C k *m (H k)^T.
Proof.
apply/matrixP => i l; rewrite !mxE.
under [RHS]eq_bigr do rewrite !mxE mulr_suml.
by rewrite exchange_big.
Qed.

Lemma cov_diagE H C k i : project_cov_diag H C k i 0 = (H k *m C k *m (H k)^T) i i.
Proof. by rewrite !mxE; apply: eq_bigr => j _; rewrite !mxE mulrC. Qed.

Lemma project_law H N' N e (X : (nat -> 'cV[F]_e) -> nat -> 'cV[F]_d) m K :
  has_law N' N X m K ->
  has_law N' N (fun eps => project_state_to_f H (X eps)) (project_state_to_f H m)
    (fun i j => H i *m K i j *m (H j)^T).
Proof.
move=> [G [HX HK]]; exists (fun k l => H k *m G k l); split.
- move=> eps k Hk; rewrite /project_state_to_f HX // mulmxDr mulmx_sumr.
  by under eq_bigr do rewrite mulmxA.
move=> i j Hi Hj; rewrite HK // /wn_cov mulmx_sumr mulmx_suml.
by apply: eq_bigr => l _; rewrite trmx_mul !mulmxA.
Qed.
End Plain.

Section Composed.
Variable F : comRingType.
Variables o l d : nat.
Variables (outer : nat -> 'M[F]_(o, l)) (inner : nat -> 'M[F]_(l, d)).

Lemma composedE k : composed_matrix outer inner k = outer k *m inner k.
Proof. by apply/matrixP => i r; rewrite !mxE. Qed.

Lemma composed_state x k : project_state_to_f (composed_matrix outer inner) x k =
  project_state_to_f outer (project_state_to_g inner x) k.
Proof. by rewrite /project_state_to_g /project_state_to_f composedE -mulmxA. Qed.

Lemma composed_full C k : project_cov_full (composed_matrix outer inner) C k =
  project_cov_full outer (project_cov_to_g_full inner C) k.
Proof. by rewrite /project_cov_to_g_full !cov_fullE composedE trmx_mul !mulmxA. Qed.

Lemma composed_diag C k : project_cov_diag (composed_matrix outer inner) C k =
  project_cov_diag outer (project_cov_to_g_full inner C) k.
Proof.
apply/matrixP => i z; rewrite (ord1 z) !cov_diagE composedE [project_cov_to_g_full _ _ _]cov_fullE.
by rewrite trmx_mul !mulmxA.
Qed.
End Composed.

Section Stack.
Variable F : comRingType.
Variables m d : nat.
Variable H : 'I_m -> nat -> 'M[F]_(1, d).

Lemma stack_diagE C k i : stack_project_cov_diag H C k i 0 = (H i k *m C i k *m (H i k)^T) 0 0.
Proof.
rewrite !mxE.
under [RHS]eq_bigr do rewrite !mxE mulr_suml.
rewrite exchange_big /=; apply: eq_bigr => r _; apply: eq_bigr => j _.
by rewrite !mxE mulrC mulrA mulrAC.
Qed.

Lemma stack_fullE C k i j : stack_project_cov_full H C k i j =
  if i == j then (H i k *m C i k *m (H i k)^T) 0 0 else 0.
Proof.
rewrite [LHS]mxE [_^T _ _]mxE stack_diagE; case: eqP => [->|_]; first by rewrite mulr1n.
by rewrite mulr0n.
Qed.

(* the noise of child i *)
Definition child_noise e (i : 'I_m) (eps : nat -> 'cV[F]_(m * e)) : nat -> 'cV[F]_e :=
  fun l => \col_s eps l (mxvec_index i s) 0.

Lemma sum_mxvec e (f : 'I_(m * e) -> F) : \sum_x f x = \sum_i \sum_s f (mxvec_index i s).
Proof.
rewrite pair_big /= (reindex _ (curry_mxvec_bij m e)) /=.
by apply: eq_bigr => -[i s] _.
Qed.

Lemma stack_law N' N e (X : 'I_m -> (nat -> 'cV[F]_e) -> nat -> 'cV[F]_d) mu K :
  (forall i, has_law N' N (X i) (mu i) (K i)) ->
  has_law N' N (fun (eps : nat -> 'cV[F]_(m * e)) => stack_project_state H (fun i => X i (child_noise i eps)))
    (stack_project_state H mu)
    (fun k l => \matrix_(i, j) if i == j then (H i k *m K i k l *m (H i l)^T) 0 0 else 0).
Proof.
move=> HX; have [G HG] := fin_all_exists HX.
pose g k l i := H i k *m G i k l.
have Eg k l i : H i k *m G i k l = g k l i by []; clearbody g.
exists (fun k l => \matrix_(i, x) mxvec (\matrix_(a, s) if a == i then g k l i 0 s else 0) 0 x); split.
- move=> eps k Hk; apply/matrixP => i z; rewrite (ord1 z) {z} [LHS]mxE [RHS]mxE [X in _ = X + _]mxE.
  have [-> // _] := HG i; rewrite mulmxDr [LHS]mxE; congr (_ + _); rewrite mulmx_sumr !summxE.
  apply: eq_bigr => l _; rewrite mulmxA Eg !mxE sum_mxvec (bigD1 i) //= [X in _ + X]big1 ?addr0.
    by apply: eq_bigr => s _; rewrite !mxE mxvecE mxE eqxx.
  by move=> a /negPf Ha; apply: big1 => s _; rewrite mxE mxvecE mxE Ha mul0r.
move=> k l Hk Hl; apply/matrixP => i j; rewrite [LHS]mxE /wn_cov summxE.
have -> : (if i == j then (H i k *m K i k l *m (H i l)^T) 0 0 else 0) =
  \sum_(q < N) (if i == j then (g k q i *m (g l q i)^T) 0 0 else 0).
  case: eqP => _; last by rewrite big1.
  have [_ -> //] := HG i; rewrite /wn_cov mulmx_sumr mulmx_suml summxE.
  by apply: eq_bigr => q _; rewrite -!Eg trmx_mul !mulmxA.
apply: eq_bigr => q _; rewrite [RHS]mxE sum_mxvec (bigD1 i) //= [X in _ + X]big1 ?addr0.
  case: eqP => [<-|/eqP/negPf Hij].
    by rewrite mxE; apply: eq_bigr => s _; rewrite !mxE !mxvecE !mxE eqxx.
  by rewrite big1 // => s _; rewrite !mxE !mxvecE !mxE eqxx Hij mulr0.
by move=> a /negPf Ha; apply: big1 => s _; rewrite !mxE !mxvecE !mxE Ha mul0r.
Qed.
End Stack.

Lemma stack_law_marginals (F : comRingType) m d e (H : 'I_m -> nat -> 'M[F]_(1, d)) N' N
    (X : 'I_m -> (nat -> 'cV[F]_e) -> nat -> 'cV[F]_d) mu K :
  (forall i, has_law N' N (X i) (mu i) (K i)) ->
  let noise (i : 'I_m) (eps : nat -> 'cV[F]_(m * e)) l : 'cV[F]_e := \col_s eps l (mxvec_index i s) 0 in
  exists C, [/\
    has_law N' N (fun eps k => \col_i (H i k *m X i (noise i eps) k) 0 0) (stack_project_state H mu) C,
    forall k, C k k = stack_project_cov_full H (fun i k => K i k k) k &
    forall k i, C k k i i = stack_project_cov_diag H (fun i k => K i k k) k i 0].
Proof.
move=> HX noise; exists (fun k l => \matrix_(i, j) if i == j then (H i k *m K i k l *m (H i l)^T) 0 0 else 0).
split; first exact: (stack_law H HX).
- by move=> k; apply/matrixP => i j; rewrite stack_fullE mxE.
by move=> k i; rewrite stack_diagE mxE eqxx.
Qed.

Lemma emission_example (F : rcfType) : project_cov_full (fun _ : nat => row_mx 1 1 : 'M[F]_(1, 1 + 1)) (fun _ => 1%:M) 0%N = 2%:R%:M.
Proof. by rewrite cov_fullE mulmx1 tr_row_mx mul_row_col !trmx1 !mulmx1 -raddfD /= -mulr2n. Qed.
