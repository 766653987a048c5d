(* Entries of matrices by natural number coordinates, and the row-major
   addressing of the dense matrix of a block matrix.  Library file. *)
From mathcomp Require Import all_ssreflect all_algebra.
From Verif Require Import Alg Lin.
Set Implicit Arguments.
Unset Strict Implicit.
Unset Printing Implicit Defensive.
Import GRing.Theory.
Local Open Scope ring_scope.

Section Ent.
Variable R : ringType.

(* entry (i, j) of M; zero outside *)
Definition ent m n (M : 'M[R]_(m, n)) (i j : nat) : R :=
  match insub i, insub j with
  | Some i', Some j' => M i' j'
  | _, _ => 0
  end.

Lemma ent_ord m n (M : 'M[R]_(m, n)) (i : 'I_m) (j : 'I_n) : ent M i j = M i j.
Proof. by rewrite /ent !valK. Qed.

Lemma ent_lt m n (M : 'M[R]_(m, n)) i j (Hi : (i < m)%N) (Hj : (j < n)%N) :
  ent M i j = M (Ordinal Hi) (Ordinal Hj).
Proof. by rewrite -ent_ord. Qed.

Lemma ent_mx m n (f : nat -> nat -> R) i j :
  (i < m)%N -> (j < n)%N -> ent (\matrix_(r < m, s < n) f r s) i j = f i j.
Proof. by move=> Hi Hj; rewrite (ent_lt _ Hi Hj) mxE. Qed.

Lemma ent_oob m n (M : 'M[R]_(m, n)) i j : ~~ ((i < m) && (j < n))%N -> ent M i j = 0.
Proof.
rewrite /ent; case: insubP => [i' Hi _|//]; case: insubP => [j' Hj _|//].
by rewrite Hi Hj.
Qed.

Lemma ent_eq m n (M L : 'M[R]_(m, n)) :
  (forall i j, (i < m)%N -> (j < n)%N -> ent M i j = ent L i j) -> M = L.
Proof.
by move=> H; apply/matrixP=> i j; have := H i j (ltn_ord i) (ltn_ord j); rewrite !ent_ord.
Qed.

Lemma ent_matrix m n (M : 'M[R]_(m, n)) : \matrix_(i, j) ent M i j = M.
Proof. by apply/matrixP=> i j; rewrite mxE ent_ord. Qed.

Lemma ent_tr m n (M : 'M[R]_(m, n)) i j : ent M^T i j = ent M j i.
Proof.
rewrite /ent; case: insubP => [i' Hi _|Hi]; case: insubP => [j' Hj _|Hj] //.
by rewrite mxE.
Qed.

Lemma ent0 m n i j : ent (0 : 'M[R]_(m, n)) i j = 0.
Proof. by rewrite /ent; case: insub => // a; case: insub => // b; rewrite mxE. Qed.

Lemma entD m n (M L : 'M[R]_(m, n)) i j : ent (M + L) i j = ent M i j + ent L i j.
Proof.
rewrite /ent; case: insub => [a|]; rewrite ?addr0 //.
by case: insub => [b|]; rewrite ?addr0 // mxE.
Qed.

Lemma entN m n (M : 'M[R]_(m, n)) i j : ent (- M) i j = - ent M i j.
Proof.
rewrite /ent; case: insub => [a|]; rewrite ?oppr0 //.
by case: insub => [b|]; rewrite ?oppr0 // mxE.
Qed.

Lemma ent_row_l m n1 n2 (A : 'M[R]_(m, n1)) (B : 'M[R]_(m, n2)) i j :
  (j < n1)%N -> ent (row_mx A B) i j = ent A i j.
Proof.
move=> Hj; have [Hi|Hi] := ltnP i m; last by rewrite !ent_oob ?ltnNge ?Hi // -ltnNge ltnNge Hi.
rewrite (ent_lt _ Hi Hj) (ent_lt _ Hi (ltn_addr n2 Hj)) -(row_mxEl A B).
by congr (row_mx A B _ _); apply: val_inj.
Qed.

Lemma ent_row_r m n1 n2 (A : 'M[R]_(m, n1)) (B : 'M[R]_(m, n2)) i j :
  ent (row_mx A B) i (n1 + j) = ent B i j.
Proof.
have [Hi|Hi] := ltnP i m; last by rewrite !ent_oob // negb_and -leqNgt Hi.
have [Hj|Hj] := ltnP j n2; last by rewrite !ent_oob // negb_and -!leqNgt ?leq_add2l ?Hj ?orbT.
have Hj' : (n1 + j < n1 + n2)%N by rewrite ltn_add2l.
rewrite (ent_lt _ Hi Hj) (ent_lt _ Hi Hj') -(row_mxEr A B).
by congr (row_mx A B _ _); apply: val_inj.
Qed.

Lemma ent_col_u m1 m2 n (A : 'M[R]_(m1, n)) (B : 'M[R]_(m2, n)) i j :
  (i < m1)%N -> ent (col_mx A B) i j = ent A i j.
Proof. by move=> Hi; rewrite -ent_tr tr_col_mx ent_row_l // ent_tr. Qed.

Lemma ent_col_d m1 m2 n (A : 'M[R]_(m1, n)) (B : 'M[R]_(m2, n)) i j :
  ent (col_mx A B) (m1 + i) j = ent B i j.
Proof. by rewrite -ent_tr tr_col_mx ent_row_r // ent_tr. Qed.

Lemma ent_brow p d N (r : nat -> 'M[R]_(p, d)) i k s :
  (k < N)%N -> (s < d)%N -> ent (brow N r) i (k * d + s) = ent (r k) i s.
Proof.
elim: N r k => [|N IH] r [|k] //= Hk Hs; first by rewrite ent_row_l.
have -> : (k.+1 * d + s = d + (k * d + s))%N by rewrite mulSn addnA.
by rewrite ent_row_r IH.
Qed.

Lemma ent_bcol p d N (c : nat -> 'M[R]_(d, p)) k s j :
  (k < N)%N -> (s < d)%N -> ent (bcol N c) (k * d + s) j = ent (c k) s j.
Proof. by move=> Hk Hs; rewrite -ent_tr tr_bcol ent_brow // ent_tr. Qed.

(* row-major addressing *)
Lemma ent_dense d e N M (K : nat -> nat -> 'M[R]_(d, e)) k l s t :
  (k < N)%N -> (l < M)%N -> (s < d)%N -> (t < e)%N ->
  ent (dense N M K) (k * d + s) (l * e + t) = ent (K k l) s t.
Proof. by move=> Hk Hl Hs Ht; rewrite /dense ent_bcol // ent_brow. Qed.

(* to prove two matrices of blocks equal, compare entries block by block *)
Lemma ent_eq_blk d e N M (X Y : 'M[R]_(N * d, M * e)) :
  (forall k l s t, (k < N)%N -> (l < M)%N -> (s < d)%N -> (t < e)%N ->
     ent X (k * d + s) (l * e + t) = ent Y (k * d + s) (l * e + t)) -> X = Y.
Proof.
move=> H; apply: ent_eq => i j Hi Hj.
have d0 : (0 < d)%N by case: (d) Hi => //; rewrite muln0.
have e0 : (0 < e)%N by case: (e) Hj => //; rewrite muln0.
rewrite (divn_eq i d) (divn_eq j e); apply: H; rewrite ?ltn_mod //.
- by rewrite ltn_divLR.
- by rewrite ltn_divLR.
Qed.

(* the lower triangle *)
Definition tril m n (M : 'M[R]_(m, n)) : 'M[R]_(m, n) :=
  \matrix_(i, j) if (j <= i)%N then M i j else 0.

Lemma ent_tril m n (M : 'M[R]_(m, n)) i j :
  ent (tril M) i j = if (j <= i)%N then ent M i j else 0.
Proof.
rewrite /ent; case: insubP => [i' Hi Ei|_]; last by rewrite if_same.
by case: insubP => [j' Hj Ej|_]; rewrite ?if_same // mxE Ei Ej.
Qed.

Lemma tril_id m n (M : 'M[R]_(m, n)) : is_trig_mx M -> tril M = M.
Proof.
move/is_trig_mxP => H; apply/matrixP => i j; rewrite mxE; case: leqP => // /H ->.
by [].
Qed.

Lemma tril_trig m n (M : 'M[R]_(m, n)) : is_trig_mx (tril M).
Proof. by apply/is_trig_mxP => i j H; rewrite mxE leqNgt H. Qed.

Lemma tril_diag n (M : 'M[R]_n) i : tril M i i = M i i.
Proof. by rewrite mxE leqnn. Qed.

Lemma divmod_blk d k s : (s < d)%N -> ((k * d + s) %/ d = k)%N /\ ((k * d + s) %% d = s)%N.
Proof.
move=> H; have d0 : (0 < d)%N by apply: leq_ltn_trans H.
by rewrite divnMDl // divn_small // addn0 modnMDl modn_small.
Qed.

End Ent.
