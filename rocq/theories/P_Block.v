(* Proofs about the block tridiagonal model. *)
From mathcomp Require Import all_ssreflect all_algebra.
From Verif Require Import Nat Alg Lin Ent Spd M_Block S_Block.
Set Implicit Arguments.
Unset Strict Implicit.
Unset Printing Implicit Defensive.
Import GRing.Theory Num.Theory.
Local Open Scope ring_scope.

Section Layout.
Variable R : rcfType.
Variables N d : nat.
Implicit Types B C : btd R d.

Lemma symm_id (M : 'M[R]_d) : M^T = M -> symm M = M.
Proof.
move=> H; apply/matrixP=> i j; rewrite mxE; case: leqP => // _.
by rewrite -[in RHS]H mxE.
Qed.

Lemma ent_symm (M : 'M[R]_d) i j :
  ent (symm M) i j = if (j <= i)%N then ent M i j else ent M j i.
Proof.
rewrite /ent; case: insubP => [i' Hi Ei|Hi]; case: insubP => [j' Hj Ej|Hj].
- by rewrite mxE Ei Ej.
- by rewrite if_same.
- by rewrite if_same.
- by rewrite if_same.
Qed.

Lemma ent_unpack w n (band : nat -> nat -> R) i j : (i < n)%N -> (j < n)%N ->
  ent (ext_unpack_banded w n band) i j =
  if (j <= i)%N && (i - j < w)%N then band (i - j)%N j else 0.
Proof. by move=> Hi Hj; rewrite (ent_lt _ Hi Hj) mxE. Qed.

Lemma blk_lt k s n : (k < n)%N -> (s < d)%N -> (k * d + s < n * d)%N.
Proof. by move=> ? ?; nia. Qed.

Lemma unpack_as_band B :
  ext_unpack_banded (btd_bandwidth B).+1 (N * d) (btd_as_band N B) =
  dense N N (lower_blocks (fun k => tril (bt_diag B k)) (osub (bt_sub B))).
Proof.
apply: ent_eq_blk => k l s t Hk Hl Hs Ht.
rewrite ent_dense // ent_unpack ?blk_lt //.
rewrite /btd_as_band /ext_block_to_band /btd_concatted.
have [Hq Hm] := divmod_blk l Ht; rewrite Hq Hm /lower_blocks.
have d0 : (0 < d)%N by lia.
have [E|nE] := eqVneq k l.
  subst l; rewrite ent_tril; case: (leqP t s) => Hts; last by rewrite leqNgt ltn_add2l Hts.
  rewrite leq_add2l Hts subnDl subnK // Hs /= .
  rewrite /btd_bandwidth; case: (bt_sub B) => [A|].
    have -> : (s - t < (d.-1 + d).+1)%N by lia.
    by have -> : (s < 2 * d)%N by lia.
  have -> : (s - t < d.-1.+1)%N by lia.
  by rewrite Hs.
have [E|nE2] := eqVneq k l.+1.
  subst k; have -> : (l * d + t <= l.+1 * d + s)%N by nia.
  have -> : (l.+1 * d + s - (l * d + t) = d + s - t)%N by nia.
  have -> : (d + s - t + t = d + s)%N by lia.
  rewrite /btd_bandwidth /osub; case: (bt_sub B) => [A|] /=.
    have -> : (d + s - t < (d.-1 + d).+1)%N by lia.
    have -> : (d + s < 2 * d)%N by lia.
    have -> : (d + s < d)%N = false by lia.
    by rewrite Hk addKn.
  have -> : (d + s < d)%N = false by lia.
  by rewrite if_same ent0.
rewrite ent0; have [Hkl|Hkl] := ltnP k l.
  by have -> : (l * d + t <= k * d + s)%N = false by nia.
case: ifP => // _.
have Hb : (2 * d <= k * d + s - (l * d + t) + t)%N.
  have : (l.+2 <= k)%N by lia.
  by move=> H; have : (l.+2 * d <= k * d)%N by [rewrite leq_mul2r H orbT]; nia.
case: (bt_sub B) => [A|].
  by have -> : (k * d + s - (l * d + t) + t < 2 * d)%N = false by lia.
by have -> : (k * d + s - (l * d + t) + t < d)%N = false by lia.
Qed.

Lemma to_dense_lower B :
  btd_to_dense N false B = dense N N (lower_blocks (fun k => tril (bt_diag B k)) (osub (bt_sub B))).
Proof. exact: unpack_as_band. Qed.

Lemma ent_diagmx n (L : 'M[R]_n) i j :
  ent (diag_mx (\row_k L k k)) i j = if i == j then ent L i j else 0.
Proof.
rewrite /ent; case: insubP => [i' Hi Ei|Hi]; last by rewrite if_same.
case: insubP => [j' Hj Ej|Hj]; last by rewrite if_same.
rewrite !mxE -Ei -Ej val_eqE; case: eqP => [->|_]; by rewrite ?mulr1n ?mulr0n.
Qed.

Lemma ent_symmetrise n (L : 'M[R]_n) i j :
  ent (ext_symmetrise L) i j = if i == j then ent L i j else ent L i j + ent L j i.
Proof.
rewrite /ext_symmetrise entD entN entD ent_tr ent_diagmx; case: eqP => [->|_].
  by rewrite addrK.
by rewrite subr0.
Qed.

Lemma symmetrise_dense (D A : nat -> 'M[R]_d) :
  ext_symmetrise (dense N N (lower_blocks (fun k => tril (D k)) A)) =
  dense N N (sym_blocks (fun k => symm (D k)) A).
Proof.
apply: ent_eq_blk => k l s t Hk Hl Hs Ht.
rewrite ent_symmetrise !ent_dense // /lower_blocks /sym_blocks (eq_sym l k).
have [E|nE] := eqVneq k l.
  subst l; rewrite ent_symm !ent_tril eqn_add2l.
  case: (ltngtP s t) => Hst; last by rewrite Hst.
    by rewrite add0r.
  by rewrite addr0.
have -> : (k * d + s == l * d + t)%N = false by nia.
have [E|nE2] := eqVneq k l.+1.
  have -> : (l == k.+1) = false by lia.
  by rewrite ent0 addr0.
rewrite ent0 add0r; have [E|nE3] := eqVneq l k.+1; first by rewrite ent_tr.
by rewrite !ent0.
Qed.

Lemma to_dense_sym B :
  btd_to_dense N true B =
  dense N N (sym_blocks (fun k => symm (bt_diag B k)) (osub (bt_sub B))).
Proof.
rewrite /btd_to_dense unpack_as_band -symmetrise_dense; reflexivity.
Qed.

Lemma flattenE (x : nat -> 'cV[R]_d) : btd_flatten N x = flat N x.
Proof.
apply: ent_eq => i j Hi; rewrite ltnS leqn0 => /eqP ->.
have d0 : (0 < d)%N by case: (d) Hi => //; rewrite muln0.
rewrite (ent_lt _ Hi (ltn0Sn 0)) mxE /= [in RHS](divn_eq i d) ent_bcol ?ltn_mod //.
by rewrite ltn_divLR.
Qed.

Lemma unflattenE (v : 'cV[R]_(N * d)) k : (k < N)%N -> btd_unflatten v k = unflat v k.
Proof.
move=> Hk; apply: ent_eq => s j Hs; rewrite ltnS leqn0 => /eqP ->.
rewrite (ent_lt _ Hs (ltn0Sn 0)) mxE /= -[in LHS](bcol_unflat v) ent_bcol //.
Qed.

Lemma flat_unflatten (v : 'cV[R]_(N * d)) : flat N (btd_unflatten v) = v.
Proof.
rewrite -[RHS]flat_unflat; apply: eq_flat => k Hk; exact: unflattenE.
Qed.

Lemma unflatten_flat (x : nat -> 'cV[R]_d) k : (k < N)%N -> btd_unflatten (flat N x) k = x k.
Proof. by move=> Hk; rewrite unflattenE // /flat unflat_bcol. Qed.

(* products *)
Lemma dense_multE sym B tr (x : nat -> 'cV[R]_d) :
  flat N (btd_dense_mult N sym B tr x) =
  (if tr then (btd_to_dense N sym B)^T else btd_to_dense N sym B) *m flat N x.
Proof.
rewrite /btd_dense_mult flat_unflatten flattenE /ext_product_band_mat.
by case: sym; case: tr.
Qed.

Lemma solveE B tr (x : nat -> 'cV[R]_d) :
  flat N (btd_solve N B tr x) =
  invmx (if tr then (btd_to_dense N false B)^T else btd_to_dense N false B) *m flat N x.
Proof. by rewrite /btd_solve flat_unflatten flattenE. Qed.

(* addition *)
Lemma lower_blocksD (D A D' A' : nat -> 'M[R]_d) i j :
  lower_blocks D A i j + lower_blocks D' A' i j =
  lower_blocks (fun k => D k + D' k) (fun k => A k + A' k) i j.
Proof. by rewrite /lower_blocks; do 2!case: eqP => // _; rewrite addr0. Qed.

Lemma sym_blocksD (D A D' A' : nat -> 'M[R]_d) i j :
  sym_blocks D A i j + sym_blocks D' A' i j =
  sym_blocks (fun k => D k + D' k) (fun k => A k + A' k) i j.
Proof.
rewrite /sym_blocks; do 3!case: eqP => // _; rewrite ?addr0 //.
by rewrite linearD.
Qed.

Lemma osub_add B C k :
  osub (bt_sub (btd_add B C)) k = osub (bt_sub B) k + osub (bt_sub C) k.
Proof.
rewrite /btd_add /=; case: (bt_sub B) => [a|]; case: (bt_sub C) => [c|] //=;
  by rewrite ?addr0 ?add0r.
Qed.

Lemma trilD (M L : 'M[R]_d) : tril (M + L) = tril M + tril L.
Proof. by apply/matrixP=> i j; rewrite !mxE; case: ifP => // _; rewrite addr0. Qed.
Lemma symmD (M L : 'M[R]_d) : symm (M + L) = symm M + symm L.
Proof. by apply/matrixP=> i j; rewrite !mxE; case: ifP. Qed.

Lemma to_dense_add sym B C :
  btd_to_dense N sym (btd_add B C) = btd_to_dense N sym B + btd_to_dense N sym C.
Proof.
case: sym.
  rewrite !to_dense_sym denseD; apply: eq_dense => i j _ _; rewrite sym_blocksD.
  by rewrite /sym_blocks !osub_add symmD.
rewrite !to_dense_lower denseD; apply: eq_dense => i j _ _; rewrite lower_blocksD.
by rewrite /lower_blocks !osub_add trilD.
Qed.

(* reading blocks back from a band *)
Lemma pack_banded_to_block_tri (q w : nat) (M : 'M[R]_(N * d)) (D A : nat -> 'M[R]_d) :
  w = (if q == 2%N then d.-1 + d else d.-1)%N.+1 ->
  M = dense N N (lower_blocks D A) -> (forall k, (k < N)%N -> is_trig_mx (D k)) ->
  let B := banded_to_block_tri d q (ext_pack_band w M) in
  (forall k, (k < N)%N -> bt_diag B k = D k) /\
  (bt_sub B = None <-> q != 2%N) /\
  (q == 2%N -> forall k, (k.+1 < N)%N -> osub (bt_sub B) k = A k).
Proof.
move=> Ew EM HD B; split; [|split].
- move=> k Hk; apply: ent_eq => r s Hr Hs.
  rewrite /B /banded_to_block_tri /= (ent_lt _ Hr Hs) mxE /= ?(mul0n, add0n).
  have [_ Hm] := divmod_blk k Hs.
  rewrite /ext_band_to_block Hm; case: leqP => Hsr; last first.
    by rewrite (ent_lt (D k) Hr Hs); move/is_trig_mxP: (HD k Hk) => ->.
  rewrite /ext_pack_band.
  have -> : (r - s < w)%N by rewrite Ew; case: ifP => _; lia.
  have -> : (r - s + (k * d + s) = k * d + r)%N by lia.
  by rewrite EM ent_dense // /lower_blocks eqxx.
- by rewrite /B /banded_to_block_tri /=; case: (q == 2%N).
- move=> Eq k Hk; apply: ent_eq => r s Hr Hs.
  rewrite /B /banded_to_block_tri /= Eq /= (ent_lt _ Hr Hs) mxE /= mul1n.
  have [_ Hm] := divmod_blk k Hs.
  rewrite /ext_band_to_block Hm.
  have -> : (s <= d + r)%N by lia.
  rewrite /ext_pack_band Ew Eq.
  have -> : (d + r - s < (d.-1 + d).+1)%N by lia.
  have -> : (d + r - s + (k * d + s) = k.+1 * d + r)%N by nia.
  rewrite EM ent_dense // ?(ltnW Hk) // /lower_blocks eqxx.
  by have -> : (k.+1 == k) = false by lia.
Qed.

End Layout.

(* sums along a block row *)
Section Sums.
Variable R : comRingType.
Variable d : nat.
Implicit Types D A : nat -> 'M[R]_d.

Lemma sum_ord_at n (V : zmodType) (F : nat -> V) i :
  (i < n)%N -> (forall k, (k < n)%N -> k != i -> F k = 0) -> \sum_(k < n) F k = F i.
Proof.
move=> Hi H; rewrite (bigD1 (Ordinal Hi)) //= big1 ?addr0 // => k.
by rewrite -val_eqE /= => nk; apply: H.
Qed.

Definition prevb e (f : nat -> 'M[R]_(d, e)) (i : nat) : 'M[R]_(d, e) :=
  if i is i'.+1 then f i' else 0.
Definition nextb e (N : nat) (f : nat -> 'M[R]_(d, e)) (i : nat) : 'M[R]_(d, e) :=
  if (i.+1 < N)%N then f i else 0.

Lemma sum_lower e N D A (X : nat -> 'M[R]_(d, e)) i : (i < N)%N ->
  \sum_(k < N) lower_blocks D A i k *m X k = D i *m X i + prevb (fun k => A k *m X k) i.
Proof.
move=> Hi.
have -> : \sum_(k < N) lower_blocks D A i k *m X k =
  \sum_(k < N) (bdiag D i k *m X k) + \sum_(k < N) ((if i == k.+1 then A k else 0) *m X k).
  rewrite -big_split /=; apply: eq_bigr => k _; rewrite /lower_blocks /bdiag.
  have [E|nE] := eqVneq i k; last by rewrite mul0mx add0r.
  have -> : (i == k.+1) = false by lia.
  by rewrite mul0mx addr0.
rewrite sum_bdiag_l //; congr (_ + _); case: i Hi => [|i] Hi /=.
  by rewrite big1 // => k _; rewrite mul0mx.
rewrite (sum_ord_at (F := fun k => (if i.+1 == k.+1 then A k else 0) *m X k) (i := i)) ?eqxx ?(ltnW Hi) //.
by move=> k _ nk; rewrite eqSS eq_sym (negbTE nk) mul0mx.
Qed.

Lemma sum_lower_tr e N D A (X : nat -> 'M[R]_(d, e)) i : (i < N)%N ->
  \sum_(k < N) (lower_blocks D A k i)^T *m X k =
  (D i)^T *m X i + nextb N (fun k => (A k)^T *m X k.+1) i.
Proof.
move=> Hi.
have -> : \sum_(k < N) (lower_blocks D A k i)^T *m X k =
  \sum_(k < N) (bdiag (fun k => (D k)^T) i k *m X k) +
  \sum_(k < N) ((if (k : nat) == i.+1 then (A i)^T else 0) *m X k).
  rewrite -big_split /=; apply: eq_bigr => k _; rewrite /lower_blocks /bdiag.
  have [E|nE] := eqVneq i k.
    have -> : ((k:nat) == i.+1) = false by lia.
    by rewrite mul0mx addr0 E.
  by rewrite mul0mx add0r; case: eqP => // _; rewrite trmx0.
rewrite sum_bdiag_l //; congr (_ + _); rewrite /nextb; case: ltnP => Hn.
  rewrite (sum_ord_at (F := fun k => (if k == i.+1 then (A i)^T else 0) *m X k) (i := i.+1)) ?eqxx //.
  by move=> k _ nk; rewrite (negbTE nk) mul0mx.
rewrite big1 // => k _; have -> : ((k : nat) == i.+1) = false; last by rewrite mul0mx.
by have := ltn_ord k; lia.
Qed.

Lemma sum_sym e N D A (X : nat -> 'M[R]_(d, e)) i : (i < N)%N ->
  \sum_(k < N) sym_blocks D A i k *m X k =
  D i *m X i + prevb (fun k => A k *m X k) i + nextb N (fun k => (A k)^T *m X k.+1) i.
Proof.
move=> Hi.
have -> : \sum_(k < N) sym_blocks D A i k *m X k =
  \sum_(k < N) lower_blocks D A i k *m X k +
  \sum_(k < N) (lower_blocks (fun _ => 0) A k i)^T *m X k.
  rewrite -big_split /=; apply: eq_bigr => k _; rewrite /lower_blocks /sym_blocks.
  have [->|nE] := eqVneq i k.
    by rewrite trmx0 mul0mx addr0.
  have [E|nE2] := eqVneq i k.+1.
    have -> : ((k : nat) == i.+1) = false by lia.
    by rewrite trmx0 mul0mx addr0.
  by rewrite mul0mx add0r; case: eqP => // _; rewrite trmx0.
by rewrite sum_lower // sum_lower_tr // trmx0 mul0mx add0r.
Qed.

Lemma lower_mul_tr N D A :
  dense N N (lower_blocks D A) *m (dense N N (lower_blocks D A))^T =
  dense N N (sym_blocks (fun k => D k *m (D k)^T + prevb (fun k => A k *m (A k)^T) k)
                        (fun k => A k *m (D k)^T)).
Proof.
rewrite tr_dense mul_dense; apply: eq_dense => i j Hi Hj.
rewrite (sum_lower D A (fun k => (lower_blocks D A j k)^T)) // /prevb /sym_blocks.
have [E|nE] := eqVneq i j.
  subst j; case: i Hi {Hj} => [|i] Hi; rewrite /lower_blocks !eqxx ?addr0 //.
  by have -> : (i.+1 == i) = false by lia.
have [E|nE1] := eqVneq i j.+1.
  subst i; rewrite /lower_blocks eqxx.
  have -> : (j == j.+1) = false by lia.
  have -> : (j == j.+2) = false by lia.
  by rewrite trmx0 mulmx0 add0r.
rewrite {1}/lower_blocks eq_sym (negbTE nE); have [E|nE2] := eqVneq j i.+1.
  rewrite trmx_mul trmxK; case: i nE nE1 E Hi => [|i] nE nE1 E Hi; first by rewrite addr0.
  rewrite /lower_blocks; have -> : (j == i) = false by lia.
  have -> : (j == i.+1) = false by lia.
  by rewrite trmx0 mulmx0 addr0.
rewrite trmx0 mulmx0 add0r; case: i nE nE1 nE2 Hi => [|i] nE nE1 nE2 Hi //.
rewrite /lower_blocks; have -> : (j == i) = false by lia.
have -> : (j == i.+1) = false by lia.
by rewrite trmx0 mulmx0.
Qed.

End Sums.

(* Cholesky of a block tridiagonal matrix *)
Section BlockChol.
Variable R : rcfType.
Variable d : nat.

Lemma sym_blocks_sym N (D A : nat -> 'M[R]_d) :
  (forall k, (k < N)%N -> (D k)^T = D k) ->
  (dense N N (sym_blocks D A))^T = dense N N (sym_blocks D A).
Proof.
move=> HD; rewrite tr_dense; apply: eq_dense => i j Hi Hj; rewrite /sym_blocks.
have [E|nE] := eqVneq i j; first by subst j; rewrite HD.
have [E|nE1] := eqVneq j i.+1.
  by have -> : (i == j.+1) = false by lia.
by have [E|nE2] := eqVneq i j.+1; rewrite ?trmxK ?trmx0.
Qed.

Lemma sym_blocks_recl N (D A : nat -> 'M[R]_d) :
  dense N.+1 N.+1 (sym_blocks D A) =
  block_mx (D 0%N) (bcol N (fun k => if k == 0%N then A 0%N else 0))^T
           (bcol N (fun k => if k == 0%N then A 0%N else 0))
           (dense N N (sym_blocks (fun k => D k.+1) (fun k => A k.+1))).
Proof.
rewrite dense_recl; congr block_mx.
rewrite tr_bcol; apply: eq_brow => -[|k] _ //=.
by rewrite /sym_blocks /= trmx0.
Qed.

(* first column times X times its transpose *)
Lemma col0_mul N (S X : 'M[R]_d) :
  bcol N (fun k => if k == 0%N then S else 0) *m X *m
    (bcol N (fun k => if k == 0%N then S else 0))^T =
  dense N N (fun i j => if (i == 0%N) && (j == 0%N) then S *m X *m S^T else 0).
Proof.
rewrite mul_bcol_mx mul_bcol_mx /dense; apply: eq_bcol => i _.
rewrite tr_bcol mul_mx_brow; apply: eq_brow => j _.
case: (i == 0%N); last by rewrite !mul0mx.
by case: (j == 0%N); rewrite //= trmx0 mulmx0.
Qed.

Lemma block_chol N (D A : nat -> 'M[R]_d) :
  spd (dense N N (sym_blocks D A)) ->
  exists E C : nat -> 'M[R]_d,
    (forall k, (k < N)%N -> lowpos (E k)) /\
    chol (dense N N (sym_blocks D A)) = dense N N (lower_blocks E C).
Proof.
elim: N D A => [|N IH] D A H.
  by exists (fun _ => 0), (fun _ => 0); split.
move: H; rewrite sym_blocks_recl; set S := bcol N _ => H.
have HD := spd_ul H; rewrite block_mxKul in HD.
have HS := spd_schur H.
rewrite /schur block_mxKul block_mxKdl block_mxKdr in HS.
rewrite chol_block //.
have ES : dense N N (sym_blocks (fun k => D k.+1) (fun k => A k.+1)) -
    S *m invmx (D 0%N) *m S^T =
  dense N N (sym_blocks (fun k => if k == 0%N then D 1%N - A 0%N *m invmx (D 0%N) *m (A 0%N)^T
                                   else D k.+1) (fun k => A k.+1)).
  rewrite /S col0_mul denseB; apply: eq_dense => i j _ _; rewrite /sym_blocks.
  case: i => [|i]; case: j => [|j] //=; rewrite ?subr0 //.
rewrite ES in HS *.
have [E [C [HE HC]]] := IH _ _ HS.
exists (fun k => if k is k'.+1 then E k' else chol (D 0%N)),
       (fun k => if k is k'.+1 then C k' else A 0%N *m invmx (chol (D 0%N))^T); split.
  by move=> [|k] Hk; [exact: chol_lowpos|exact: HE].
rewrite HC [RHS]dense_recl; congr block_mx.
- by rewrite (eq_brow (s := fun _ => 0)) ?brow0.
- rewrite /S mul_bcol_mx; apply: eq_bcol => -[|k] _ //=.
  by rewrite mul0mx.
Qed.

(* the factors satisfy the block recursion *)
Lemma block_chol_rec N (D A E C : nat -> 'M[R]_d) :
  spd (dense N N (sym_blocks D A)) ->
  chol (dense N N (sym_blocks D A)) = dense N N (lower_blocks E C) ->
  (forall k, (k < N)%N -> D k = E k *m (E k)^T + prevb (fun k => C k *m (C k)^T) k) /\
  (forall k, (k.+1 < N)%N -> A k = C k *m (E k)^T).
Proof.
move=> H HC; have := chol_mul H; rewrite HC lower_mul_tr => /dense_inj Hb; split=> k Hk.
  by have := Hb k k Hk Hk; rewrite /sym_blocks eqxx => <-.
have := Hb k.+1 k Hk (ltnW Hk); rewrite /sym_blocks eqxx.
by have -> : (k.+1 == k) = false by lia.
Qed.

Variable N : nat.
Implicit Types B : btd R d.

Lemma cholesky_blocks B : spd (btd_to_dense N true B) ->
  exists E C : nat -> 'M[R]_d,
    [/\ forall k, (k < N)%N -> lowpos (E k),
        chol (btd_to_dense N true B) = dense N N (lower_blocks E C),
        forall k, (k < N)%N -> bt_diag (btd_cholesky N B) k = E k &
        forall k, (k.+1 < N)%N -> osub (bt_sub (btd_cholesky N B)) k = C k].
Proof.
move=> H; have H' := H; rewrite to_dense_sym in H'.
have [E [C [HE HC]]] := block_chol H'.
exists E, C; rewrite to_dense_sym; split=> //.
  have := @pack_banded_to_block_tri R N d (if bt_sub B is Some _ then 2 else 1)%N
    (btd_bandwidth B).+1 (chol (btd_to_dense N true B)) E C.
  rewrite to_dense_sym; case.
  - by rewrite /btd_bandwidth; case: (bt_sub B).
  - by [].
  - by move=> k Hk; case: (HE k Hk).
  move=> Hd _ k Hk; rewrite -Hd // /btd_cholesky /ext_cholesky_band.
  by rewrite unpack_as_band symmetrise_dense.
move=> k Hk.
have [_ HA] := block_chol_rec H' HC.
have := @pack_banded_to_block_tri R N d (if bt_sub B is Some _ then 2 else 1)%N
    (btd_bandwidth B).+1 (chol (btd_to_dense N true B)) E C.
rewrite to_dense_sym; case.
- by rewrite /btd_bandwidth; case: (bt_sub B).
- by [].
- by move=> j Hj; case: (HE j Hj).
move=> _ [_ Hs]; move: Hs; rewrite /btd_cholesky /ext_cholesky_band.
rewrite unpack_as_band symmetrise_dense; have := HA k Hk.
case: (bt_sub B) => [a|] HAk Hs; first by rewrite -Hs.
rewrite /banded_to_block_tri /=; move: HAk; rewrite /osub => HAk.
have u : (E k)^T \in unitmx by rewrite unitmx_tr; apply: lowpos_unit; apply: HE; exact: ltnW.
by apply: (mulmx_cancel_r u); rewrite mul0mx.
Qed.

Lemma cholesky_to_dense B : spd (btd_to_dense N true B) ->
  btd_to_dense N false (btd_cholesky N B) = chol (btd_to_dense N true B).
Proof.
move=> H; have [E [C [HE -> Hd Hs]]] := cholesky_blocks H.
rewrite to_dense_lower; apply: eq_dense => i j Hi Hj; rewrite /lower_blocks.
have [Eij|nE] := eqVneq i j; first by rewrite Hd // tril_id //; case: (HE i Hi).
by have [Eij|nE1] := eqVneq i j.+1; [rewrite Hs // -Eij|].
Qed.

End BlockChol.
