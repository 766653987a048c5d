(* Proofs about the block tridiagonal model: substitution, inverse blocks, the
   band round trip and the U D U^T factorisation. *)
From mathcomp Require Import all_ssreflect all_algebra.
From Verif Require Import Nat Alg Lin Ent Spd M_Block S_Block P_Block.
Set Implicit Arguments.
Unset Strict Implicit.
Unset Printing Implicit Defensive.
Import GRing.Theory Num.Theory.
Local Open Scope ring_scope.

Section Solve.
Variable R : rcfType.
Variables (N d : nat).
Implicit Types B : btd R d.

Lemma lownz_tril (M : 'M[R]_d) : (forall r, M r r != 0) -> lownz (tril M).
Proof. by move=> H; split; [exact: tril_trig | move=> r; rewrite tril_diag]. Qed.

Lemma to_dense_lower_unit B :
  (forall k, (k < N)%N -> forall r, bt_diag B k r r != 0) ->
  btd_to_dense N false B \in unitmx.
Proof.
move=> H; rewrite to_dense_lower unitmxE det_dense_ltrig.
  rewrite unitfE; apply/prodf_neq0 => k _; rewrite /lower_blocks eqxx -unitfE -unitmxE.
  by apply: lownz_unit; apply: lownz_tril; apply: H.
move=> i j Hij _; rewrite /lower_blocks; have -> : (i == j) = false by lia.
by have -> : (i == j.+1) = false by lia.
Qed.

Lemma solve_mult B tr (x : nat -> 'cV[R]_d) :
  (forall k, (k < N)%N -> forall r, bt_diag B k r r != 0) ->
  forall k, (k < N)%N -> btd_solve N B tr (btd_dense_mult N false B tr x) k = x k.
Proof.
move=> H; have u := to_dense_lower_unit H.
have : flat N (btd_solve N B tr (btd_dense_mult N false B tr x)) = flat N x.
  rewrite solveE dense_multE mulmxA mulVmx ?mul1mx //.
  by case: tr => //; rewrite unitmx_tr.
exact: bcol_inj.
Qed.

Lemma mult_solve B tr (x : nat -> 'cV[R]_d) :
  (forall k, (k < N)%N -> forall r, bt_diag B k r r != 0) ->
  forall k, (k < N)%N -> btd_dense_mult N false B tr (btd_solve N B tr x) k = x k.
Proof.
move=> H; have u := to_dense_lower_unit H.
have : flat N (btd_dense_mult N false B tr (btd_solve N B tr x)) = flat N x.
  rewrite dense_multE solveE mulmxA mulmxV ?mul1mx //.
  by case: tr => //; rewrite unitmx_tr.
exact: bcol_inj.
Qed.

Lemma mult_blocks B (x : nat -> 'cV[R]_d) k : (k < N)%N ->
  btd_dense_mult N false B false x k =
  tril (bt_diag B k) *m x k + prevb (fun k => osub (bt_sub B) k *m x k) k.
Proof.
move=> Hk; have E := dense_multE N false B false x.
rewrite to_dense_lower mul_dense_flat in E.
by rewrite (bcol_inj E Hk) (sum_lower _ _ _ Hk).
Qed.

Lemma mult_tr_blocks B (x : nat -> 'cV[R]_d) k : (k < N)%N ->
  btd_dense_mult N false B true x k =
  (tril (bt_diag B k))^T *m x k + nextb N (fun k => (osub (bt_sub B) k)^T *m x k.+1) k.
Proof.
move=> Hk; have E := dense_multE N false B true x.
rewrite to_dense_lower tr_dense mul_dense_flat in E.
by rewrite (bcol_inj E Hk) (sum_lower_tr _ _ _ Hk).
Qed.

Lemma mult_sym_blocks B tr (x : nat -> 'cV[R]_d) k : (k < N)%N ->
  btd_dense_mult N true B tr x k =
  symm (bt_diag B k) *m x k + prevb (fun k => osub (bt_sub B) k *m x k) k
  + nextb N (fun k => (osub (bt_sub B) k)^T *m x k.+1) k.
Proof.
move=> Hk; have := dense_multE N true B tr x.
have -> : (if tr then (btd_to_dense N true B)^T else btd_to_dense N true B) =
          btd_to_dense N true B.
  case: tr => //; rewrite to_dense_sym sym_blocks_sym // => j _.
  apply/matrixP=> r s; rewrite !mxE; case: (ltngtP r s) => // /val_inj -> //.
rewrite to_dense_sym mul_dense_flat => E.
by rewrite (bcol_inj E Hk) (sum_sym _ _ _ Hk).
Qed.

(* the diagonal blocks of the inverse *)
Lemma inv_band_block (M : 'M[R]_(N * d)) w k : (d <= w)%N -> M^T = M -> (k < N)%N ->
  \matrix_(s < d, r < d) ext_band_to_block d true
     (fun r c => if (r < d)%N then ext_pack_band w M r c else 0) r (k * d + s)%N = blk M k k.
Proof.
move=> Hw HM Hk; rewrite -{2}(dense_blk M).
apply: ent_eq => s r Hs Hr; rewrite (ent_lt _ Hs Hr) mxE /=.
have [_ Hm] := divmod_blk k Hs.
rewrite blk_dense // /ext_band_to_block Hm /ext_pack_band.
have HMs i j : ent M i j = ent M j i by rewrite -{1}HM ent_tr.
rewrite -(ent_dense (fun i j => blk M i j) Hk Hk Hs Hr) dense_blk.
case: (leqP s r) => Hsr.
  have -> : (r - s < d)%N by lia.
  have -> : (r - s < w)%N by lia.
  by rewrite HMs; congr ent; lia.
have -> : (s - r < d)%N by lia.
have -> : (s - r < w)%N by lia.
by congr ent; lia.
Qed.

Lemma block_diag_inv B k : (k < N)%N ->
  btd_block_diagonal_of_inverse N B k =
  blk (invmx (btd_to_dense N false B *m (btd_to_dense N false B)^T)) k k.
Proof.
move=> Hk; rewrite /btd_block_diagonal_of_inverse /ext_inverse_from_cholesky_band.
rewrite inv_band_block //.
- by rewrite /btd_bandwidth; case: (bt_sub B) => [a|]; lia.
- by rewrite tr_invmx trmx_mul trmxK.
Qed.

(* band and back *)
Lemma band_round_trip B :
  (forall i j, (i < N * d)%N -> (j < N * d)%N ->
     ent (btd_to_dense N false B) i j =
     if (j <= i)%N && (i - j <= btd_bandwidth B)%N then btd_as_band N B (i - j) j else 0) /\
  let B' := banded_to_block_tri d (if bt_sub B is Some _ then 2 else 1) (btd_as_band N B) in
  (forall k, (k < N)%N -> bt_diag B' k = tril (bt_diag B k)) /\
  (bt_sub B' = None <-> bt_sub B = None) /\
  (forall k, (k.+1 < N)%N -> osub (bt_sub B') k = osub (bt_sub B) k).
Proof.
split; first by move=> i j Hi Hj; rewrite /btd_to_dense ent_unpack // ltnS.
move=> B'; split; [|split].
- move=> k Hk; apply: ent_eq => r s Hr Hs.
  rewrite /B' /banded_to_block_tri /= (ent_lt _ Hr Hs) mxE /= ?(mul0n, add0n).
  have [Hd Hm] := divmod_blk k Hs.
  rewrite /ext_band_to_block Hm ent_tril; case: leqP => Hsr //.
  rewrite /btd_as_band /ext_block_to_band Hm subnK // /btd_concatted Hd Hm Hr.
  by have -> : (r < (if bt_sub B is Some _ then 2 * d else d))%N by case: (bt_sub B) => [a|]; lia.
- by rewrite /B' /banded_to_block_tri /=; case: (bt_sub B).
- move=> k Hk; apply: ent_eq => r s Hr Hs.
  rewrite /B' /banded_to_block_tri /=; case EB: (bt_sub B) => [a|] //=.
  rewrite (ent_lt _ Hr Hs) mxE /= mul1n.
  have [Hd Hm] := divmod_blk k Hs.
  rewrite /ext_band_to_block Hm; have -> : (s <= d + r)%N by lia.
  rewrite /btd_as_band /ext_block_to_band Hm EB subnK ?(leq_trans (ltnW Hs)) ?leq_addr //.
  have -> : (d + r < 2 * d)%N by lia.
  rewrite /btd_concatted Hd Hm EB Hk; have -> : (d + r < d)%N = false by lia.
  by congr ent; lia.
Qed.

End Solve.

(* the blocks of the inverse satisfy the backward recursion *)
Section InvRec.
Variable R : rcfType.
Variable d : nat.
Implicit Types D A : nat -> 'M[R]_d.

Lemma lower_dense_unit N D A : (forall k, (k < N)%N -> D k \in unitmx) ->
  dense N N (lower_blocks D A) \in unitmx.
Proof.
move=> H; rewrite unitmxE det_dense_ltrig.
  by rewrite unitfE; apply/prodf_neq0 => k _; rewrite /lower_blocks eqxx -unitfE -unitmxE H.
move=> i j Hij _; rewrite /lower_blocks; have -> : (i == j) = false by lia.
by have -> : (i == j.+1) = false by lia.
Qed.

(* L^T S = L^-1 is block lower triangular with diagonal blocks D^-1 *)
Lemma inv_blocks_rec N D A : (forall k, (k < N)%N -> D k \in unitmx) ->
  let S := invmx (dense N N (lower_blocks D A) *m (dense N N (lower_blocks D A))^T) in
  forall k, (k < N)%N ->
  blk S k k = (invmx (D k))^T *m
    (1%:M + nextb N (fun k => (A k)^T *m blk S k.+1 k.+1 *m A k) k) *m invmx (D k).
Proof.
move=> HD S k Hk.
have uL := lower_dense_unit A HD; set L := dense N N _ in S uL *.
have SL : L^T *m S *m L = 1%:M.
  by rewrite /S invmx_mul ?unitmx_tr // !mulmxA mulmxV ?unitmx_tr // mul1mx mulVmx.
have SLt : (L^T *m S) = invmx L by apply: (mulmx_cancel_r uL); rewrite SL mulVmx.
have St : S^T = S by rewrite /S tr_invmx trmx_mul trmxK.
(* blocks of S L, an upper triangular matrix *)
have SLE : S *m L = invmx L^T.
  by rewrite -tr_invmx -SLt trmx_mul trmxK St.
pose W := blk (S *m L).
have HW i j : (i < N)%N -> (j < N)%N -> W i j = blk S i j *m D j + nextb N (fun j => blk S i j.+1 *m A j) j.
  move=> Hi Hj; rewrite /W -{1}(dense_blk S) mul_dense blk_dense //.
  have -> : \sum_(k < N) blk S i k *m lower_blocks D A k j =
            (\sum_(k < N) (lower_blocks D A k j)^T *m (blk S i k)^T)^T.
    by rewrite linear_sum /=; apply: eq_bigr => l _; rewrite -trmx_mul trmxK.
  rewrite (sum_lower_tr _ _ (fun k => (blk S i k)^T) Hj) linearD /= -trmx_mul trmxK /nextb.
  by case: ifP => _; rewrite ?trmx0 // -trmx_mul trmxK.
have HWu : forall i j, (i < N)%N -> (j < N)%N -> (D i)^T *m W i j + nextb N (fun i => (A i)^T *m W i.+1 j) i =
    if i == j then 1%:M else 0.
  move=> i j Hi Hj.
  have := SL; rewrite -mulmxA -(dense_blk (S *m L)) -/W /L tr_dense mul_dense -dense1 => /dense_inj.
  by move=> /(_ i j Hi Hj); rewrite (sum_lower_tr _ _ (fun k => W k j) Hi).
have W0 i j : (j < i)%N -> (i < N)%N -> W i j = 0.
  have [m] := ubnP (N - i); elim: m i => // m IH i Hm Hji Hi.
  have Hj : (j < N)%N by lia.
  have := HWu i j Hi Hj; have -> : (i == j) = false by lia.
  rewrite /nextb; case: ltnP => Hn; last first.
    rewrite addr0 => E; apply: (@mulmx_cancel_l _ _ _ (D i)^T); rewrite ?unitmx_tr ?HD //.
    by rewrite E mulmx0.
  rewrite (IH i.+1) //; [|by lia|by lia].
  rewrite mulmx0 addr0 => E; apply: (@mulmx_cancel_l _ _ _ (D i)^T); rewrite ?unitmx_tr ?HD //.
  by rewrite E mulmx0.
have uD := HD k Hk.
have Wkk : W k k = (invmx (D k))^T.
  have := HWu k k Hk Hk; rewrite eqxx /nextb.
  have -> : (if (k.+1 < N)%N then (A k)^T *m W k.+1 k else 0) = 0.
    by case: ifP => // Hn; rewrite W0 // mulmx0.
  rewrite addr0 => E; apply: (@mulmx_cancel_l _ _ _ (D k)^T); rewrite ?unitmx_tr // E.
  by rewrite -trmx_mul mulVmx // trmx1.
have Ekk := HW k k Hk Hk; rewrite Wkk /nextb in Ekk; rewrite /nextb; case: ifP Ekk => Hn Ekk; last first.
  by rewrite addr0 mulmx1 Ekk addr0 -mulmxA mulmxV // mulmx1.
have E1 := HW k.+1 k Hn Hk; rewrite W0 // /nextb Hn in E1.
have St' : blk S k k.+1 = (blk S k.+1 k)^T.
  have := St; rewrite -{1 2}(dense_blk S) tr_dense => /dense_inj /(_ k k.+1 Hk Hn) <- //.
have E2 : blk S k.+1 k = - (blk S k.+1 k.+1 *m A k *m invmx (D k)).
  apply: (mulmx_cancel_r uD); rewrite mulNmx -[X in - X]mulmxA mulVmx // mulmx1.
  by move/eqP: E1; rewrite eq_sym addr_eq0 => /eqP.
have S11 : (blk S k.+1 k.+1)^T = blk S k.+1 k.+1.
  by have := St; rewrite -{1 2}(dense_blk S) tr_dense => /dense_inj /(_ k.+1 k.+1 Hn Hn).
apply: (mulmx_cancel_r uD).
rewrite -[RHS]mulmxA mulVmx // mulmx1 mulmxDr mulmx1 {1}Ekk St' E2.
by rewrite linearN /= !trmx_mul S11 mulNmx !mulmxA addrNK.
Qed.

Lemma block_diag_inv_rec N (B : btd R d) :
  (forall k, (k < N)%N -> forall r, bt_diag B k r r != 0) ->
  let S := btd_block_diagonal_of_inverse N B in
  forall k, (k < N)%N ->
  S k = (invmx (tril (bt_diag B k)))^T *m
    (1%:M + nextb N (fun k => (osub (bt_sub B) k)^T *m S k.+1 *m osub (bt_sub B) k) k) *m
    invmx (tril (bt_diag B k)).
Proof.
move=> H S k Hk; rewrite /S block_diag_inv // to_dense_lower inv_blocks_rec //.
  rewrite /nextb; case: ifP => // Hn; by rewrite block_diag_inv // to_dense_lower.
by move=> j Hj; apply: lownz_unit; apply: lownz_tril; apply: H.
Qed.

End InvRec.

Section UDU.
Variable R : rcfType.
Variable d : nat.
Implicit Types D A : nat -> 'M[R]_d.

(* inverse of the first diagonal block of an inverse is the Schur complement *)
Lemma inv_block_ul m n (X : 'M[R]_m) (Y : 'M[R]_(n, m)) (Z : 'M[R]_n) :
  spd (block_mx X Y^T Y Z) ->
  spd (X - Y^T *m invmx Z *m Y) /\
  ulsubmx (invmx (block_mx X Y^T Y Z)) = invmx (X - Y^T *m invmx Z *m Y).
Proof.
move=> H; have HZ := spd_dr H; rewrite block_mxKdr in HZ.
have uZ := spd_unit HZ; have sZ := spd_sym HZ.
have HX := spd_sym (spd_ul H); rewrite block_mxKul in HX.
have HS : spd (X - Y^T *m invmx Z *m Y).
  split.
    by rewrite linearB /= !trmx_mul trmxK tr_invmx sZ HX mulmxA.
  move=> x nx; case: H => _ /(_ (col_mx x (- invmx Z *m Y *m x))).
  have nxy : col_mx x (- invmx Z *m Y *m x) != 0.
    by apply: contra nx => /eqP; rewrite -col_mx0 => /eq_col_mx [->].
  move=> /(_ nxy); rewrite /qf tr_col_mx mul_row_block mul_row_col => Hq.
  suff <- : ((x^T *m X + (- invmx Z *m Y *m x)^T *m Y) *m x +
     (x^T *m Y^T + (- invmx Z *m Y *m x)^T *m Z) *m (- invmx Z *m Y *m x)) =
     x^T *m (X - Y^T *m invmx Z *m Y) *m x by [].
  have -> : (- invmx Z *m Y *m x)^T = - x^T *m Y^T *m invmx Z.
    by rewrite !mulNmx linearN /= !trmx_mul tr_invmx sZ mulmxA.
  have -> : (x^T *m Y^T + - x^T *m Y^T *m invmx Z *m Z) = 0.
    by rewrite -mulmxA mulVmx // mulmx1 !mulNmx subrr.
  by rewrite mul0mx addr0; mxring.
split=> //; have uS := spd_unit HS; set S := X - _ in HS uS *.
have E : block_mx X Y^T Y Z *m
   block_mx (invmx S) (- (invmx S *m Y^T *m invmx Z))
            (- (invmx Z *m Y *m invmx S)) (invmx Z + invmx Z *m Y *m invmx S *m Y^T *m invmx Z) = 1%:M.
  rewrite mulmx_block !mulmxN !mulmxDr !mulmxA.
  have E1 : X *m invmx S - Y^T *m invmx Z *m Y *m invmx S = 1%:M.
    by rewrite -mulmxBl mulmxV.
  rewrite E1 mulmxV // !mul1mx subrr.
  have -> : - (X *m invmx S *m Y^T *m invmx Z) + (Y^T *m invmx Z +
     Y^T *m invmx Z *m Y *m invmx S *m Y^T *m invmx Z) = 0.
    move/eqP: E1; rewrite subr_eq => /eqP ->; rewrite !mulmxDl mul1mx; zmod.
  have -> : - (Y *m invmx S *m Y^T *m invmx Z) +
    (1%:M + Y *m invmx S *m Y^T *m invmx Z) = 1%:M by zmod.
  by rewrite -scalar_mx_block.
by rewrite (mulmx1_inv E) block_mxKul.
Qed.

(* the backward recursion, top down on the matrix *)
Fixpoint vrec (m : nat) D A : 'M[R]_d :=
  match m with
  | 0 => D 0%N
  | m'.+1 => D 0%N - (A 0%N)^T *m invmx (vrec m' (fun k => D k.+1) (fun k => A k.+1)) *m A 0%N
  end.

Lemma vrecP m D A : spd (dense m.+1 m.+1 (sym_blocks D A)) ->
  spd (vrec m D A) /\
  blk (invmx (dense m.+1 m.+1 (sym_blocks D A))) 0 0 = invmx (vrec m D A).
Proof.
elim: m D A => [|m IH] D A H.
  move: H; rewrite sym_blocks_recl => H; have [HS HE] := inv_block_ul H.
  rewrite -/(mulSn 0 d) in HE *.
  have E0 : D 0%N - (bcol 0 (fun k => if k == 0%N then A 0%N else 0))^T *m
       invmx (dense 0 0 (sym_blocks (fun k => D k.+1) (fun k => A k.+1))) *m
       bcol 0 (fun k => if k == 0%N then A 0%N else 0) = D 0%N.
    by rewrite [X in _ *m X]flatmx0 mulmx0 subr0.
  rewrite E0 in HS HE; split=> //; rewrite /= -HE.
  rewrite /blk /= /rblk /=; apply/matrixP=> i j; rewrite !mxE.
  by [].
move: H; rewrite sym_blocks_recl => H; have [HS HE] := inv_block_ul H.
have H' := spd_dr H; rewrite block_mxKdr in H'.
have [IS IE] := IH _ _ H'.
set T := dense m.+1 m.+1 _ in HS HE H' IE *.
have E0 : (bcol m.+1 (fun k => if k == 0%N then A 0%N else 0))^T *m
       invmx T *m bcol m.+1 (fun k => if k == 0%N then A 0%N else 0) =
    (A 0%N)^T *m invmx (vrec m (fun k => D k.+1) (fun k => A k.+1)) *m A 0%N.
  rewrite -IE -{1}(dense_blk (invmx T)) tr_bcol -mulmxA [X in _ *m X]mul_dense_bcol mul_brow_bcol.
  rewrite (sum_ord_at (i := 0%N) (F := fun k => (if k == 0%N then A 0%N else 0)^T *m
     (\sum_(k0 < m.+1) blk (invmx T) k k0 *m (if (k0 : nat) == 0%N then A 0%N else 0)))) //=.
    rewrite (sum_ord_at (i := 0%N) (F := fun k0 => blk (invmx T) 0%N k0 *m (if k0 == 0%N then A 0%N else 0))) //=.
      by rewrite mulmxA.
    by move=> k _ /negbTE ->; rewrite mulmx0.
  by move=> k _ /negbTE ->; rewrite trmx0 mul0mx.
rewrite E0 in HS HE; split=> //=; rewrite -HE.
by rewrite /blk /= /rblk /=; apply/matrixP=> i j; rewrite !mxE.
Qed.

(* trailing principal blocks of a positive definite matrix *)
Lemma spd_tail m p D A : spd (dense (p + m) (p + m) (sym_blocks D A)) ->
  spd (dense m m (sym_blocks (fun k => D (p + k)%N) (fun k => A (p + k)%N))).
Proof.
elim: p D A => [|p IH] D A // H.
have := H; rewrite sym_blocks_recl => /spd_dr; rewrite block_mxKdr => /IH; exact: id.
Qed.

Definition dk N D A k := vrec (N.-1 - k) (fun j => D (k + j)%N) (fun j => A (k + j)%N).

Lemma dk_last N D A : dk N D A N.-1 = D N.-1.
Proof. by rewrite /dk subnn /= addn0. Qed.

Lemma eq_vrec m D A D' A' : (forall k, D k = D' k) -> (forall k, A k = A' k) ->
  vrec m D A = vrec m D' A'.
Proof.
elim: m D A D' A' => [|m IH] D A D' A' HD HA /=; first exact: HD.
by rewrite HD HA (IH _ _ (fun k => D' k.+1) (fun k => A' k.+1)).
Qed.

Lemma dk_step N D A k : (k.+1 < N)%N ->
  dk N D A k = D k - (A k)^T *m invmx (dk N D A k.+1) *m A k.
Proof.
move=> Hk; rewrite /dk; have -> : (N.-1 - k = (N.-1 - k.+1).+1)%N by lia.
rewrite /= !addn0.
by rewrite (@eq_vrec _ _ _ (fun j => D (k.+1 + j)%N) (fun j => A (k.+1 + j)%N)) // => j;
  rewrite addnS addSn.
Qed.

Lemma dk_spd N D A k : spd (dense N N (sym_blocks D A)) -> (k < N)%N -> spd (dk N D A k).
Proof.
move=> H Hk; have E : (N = k + (N.-1 - k).+1)%N by lia.
rewrite E in H; have := spd_tail H.
by move/vrecP => [].
Qed.

Lemma chol_solveE p (L : 'M[R]_d) (X : 'M[R]_(d, p)) : lownz L ->
  ext_cholesky_solve L X = invmx (L *m L^T) *m X.
Proof.
move=> HL; rewrite /ext_cholesky_solve /ext_triangular_solve tril_id; last by case: HL.
by have u := lownz_unit HL; rewrite mulmxA invmx_mul ?unitmx_tr.
Qed.

Lemma chol_solve_spd p (K : 'M[R]_d) (X : 'M[R]_(d, p)) : spd K ->
  ext_cholesky_solve (ext_cholesky K) X = invmx K *m X.
Proof.
move=> HK; rewrite chol_solveE; first by rewrite /ext_cholesky chol_mul.
by apply: lowpos_nz; apply: chol_lowpos.
Qed.

Lemma udl_loopE N D A c l : spd (dense N N (sym_blocks D A)) -> (c < N)%N ->
  size l = (N - c)%N -> (forall k, (c + k < N)%N -> nth 0 l k = chol (dk N D A (c + k))) ->
  size (udl_loop D A c l) = N /\
  forall k, (k < N)%N -> nth 0 (udl_loop D A c l) k = chol (dk N D A k).
Proof.
move=> H; elim: c l => [|c IH] l Hc Hs Hl /=.
  by split; [rewrite Hs subn0|move=> k Hk; rewrite Hl].
apply: IH; first exact: ltnW.
  by rewrite /udl_step /= Hs; lia.
move=> k Hk; rewrite /udl_step; case: k Hk => [|k] Hk /=; last by rewrite Hl addSnnS.
rewrite addn0 -nth0 Hl ?addn0 // chol_solve_spd; last exact: dk_spd.
by rewrite mulmxA -dk_step.
Qed.

Lemma udlE N (B : btd R d) A : bt_sub B = Some A -> (0 < N)%N ->
  (forall k, (k < N)%N -> (bt_diag B k)^T = bt_diag B k) ->
  spd (btd_to_dense N true B) ->
  exists U Dg : btd R d,
  [/\ btd_upper_diagonal_lower N B = Some (U, Dg),
      forall k, bt_diag U k = 1%:M,
      forall k, (k < N)%N -> spd (dk N (bt_diag B) A k) /\ bt_diag Dg k = chol (dk N (bt_diag B) A k),
      forall k, (k.+1 < N)%N -> osub (bt_sub U) k = invmx (dk N (bt_diag B) A k.+1) *m A k
    & bt_sub Dg = None].
Proof.
move=> EA HN Hsym; rewrite to_dense_sym EA.
rewrite (eq_dense (L := sym_blocks (bt_diag B) A)); last first.
  by move=> i j Hi Hj; rewrite /sym_blocks symm_id // Hsym.
move=> H; rewrite /btd_upper_diagonal_lower EA.
have [|||Hs Hl] := @udl_loopE N (bt_diag B) A N.-1 [:: ext_cholesky (bt_diag B N.-1)] H.
- by rewrite prednK.
- by rewrite /=; lia.
- move=> k Hk; have -> : k = 0%N by lia.
  by rewrite /= addn0 dk_last.
eexists; eexists; split; first reflexivity.
- by [].
- by move=> k Hk; split; [exact: dk_spd|rewrite /= Hl].
- by move=> k Hk /=; rewrite Hl // chol_solve_spd //; exact: dk_spd.
- by [].
Qed.

(* U D U^T multiplied out *)
Lemma udu_mul N (V T A : nat -> 'M[R]_d) D :
  (forall k, (k < N)%N -> (V k)^T = V k) ->
  (forall k, (k.+1 < N)%N -> V k.+1 *m T k = A k) ->
  (forall k, (k < N)%N -> D k = V k + nextb N (fun k => (A k)^T *m T k) k) ->
  (dense N N (lower_blocks (fun _ => 1%:M) T))^T *m dense N N (bdiag V) *m
    dense N N (lower_blocks (fun _ => 1%:M) T) = dense N N (sym_blocks D A).
Proof.
move=> HV HA HD; rewrite -mulmxA mul_dense tr_dense mul_dense; apply: eq_dense => i j Hi Hj.
rewrite (sum_lower_tr (fun _ => 1%:M) T (fun k => \sum_(k0 < N) bdiag V k k0 *m lower_blocks (fun _ => 1%:M) T k0 j) Hi).
rewrite trmx1 mul1mx (sum_bdiag_l _ (fun k => lower_blocks (fun _ => 1%:M) T k j) Hi) /nextb /sym_blocks.
have En : (i.+1 < N)%N -> (T i)^T *m (\sum_(k0 < N) bdiag V i.+1 k0 *m lower_blocks (fun _ => 1%:M) T k0 j)
    = (A i)^T *m lower_blocks (fun _ => 1%:M) T i.+1 j.
  move=> Hn; rewrite (sum_bdiag_l _ (fun k => lower_blocks (fun _ => 1%:M) T k j) Hn) mulmxA.
  by rewrite -(HV _ Hn) -trmx_mul HA.
have [E|nE] := eqVneq i j.
  subst j; rewrite {1}/lower_blocks eqxx mulmx1 HD // /nextb; congr (_ + _).
  case: ifP => // Hn; rewrite En // /lower_blocks eqxx.
  by have -> : (i.+1 == i) = false by lia.
have [E|nE1] := eqVneq i j.+1.
  rewrite {1}/lower_blocks (negbTE nE) E eqxx -HA -?E // -[RHS]addr0; congr (_ + _).
  case: ifP => // Hn; rewrite En // /lower_blocks.
  have -> : (i.+1 == j) = false by lia.
  have -> : (i.+1 == j.+1) = false by lia.
  by rewrite mulmx0.
rewrite {1}/lower_blocks (negbTE nE) (negbTE nE1) mulmx0 add0r.
have [E|nE2] := eqVneq j i.+1.
  by rewrite {1}E in Hj; rewrite Hj En // /lower_blocks E eqxx mulmx1.
case: ifP => // Hn; rewrite En // /lower_blocks eq_sym (negbTE nE2) eqSS (negbTE nE).
by rewrite mulmx0.
Qed.

Lemma udu_correct N (B U Dg : btd R d) : (0 < N)%N ->
  (forall k, (k < N)%N -> (bt_diag B k)^T = bt_diag B k) ->
  spd (btd_to_dense N true B) ->
  btd_upper_diagonal_lower N B = Some (U, Dg) ->
  [/\ forall k, (k < N)%N -> bt_diag U k = 1%:M,
      forall k, (k < N)%N -> lowpos (bt_diag Dg k),
      bt_sub Dg = None &
      (btd_to_dense N false U)^T *m
        (btd_to_dense N false Dg *m (btd_to_dense N false Dg)^T) *m
        btd_to_dense N false U = btd_to_dense N true B].
Proof.
move=> HN Hs H; case EA: (bt_sub B) => [A|]; last by rewrite /btd_upper_diagonal_lower EA.
have [U' [Dg' [-> HU HD HT HG]]] := udlE EA HN Hs H; case=> EU ED; rewrite -{}EU -{}ED {U Dg}.
split=> //; first by move=> k Hk; have [Hk1 ->] := HD k Hk; exact: chol_lowpos.
rewrite to_dense_sym EA (eq_dense (L := sym_blocks (bt_diag B) A)); last first.
  by move=> i j Hi Hj; rewrite /sym_blocks symm_id // Hs.
rewrite !to_dense_lower HG.
rewrite (eq_dense (L := lower_blocks (fun _ => 1%:M) (fun k => invmx (dk N (bt_diag B) A k.+1) *m A k))); last first.
  move=> i j Hi Hj; rewrite /lower_blocks HU.
  have [//|nE] := eqVneq i j; first by rewrite tril_id // scalar_mx_is_trig.
  by have [E|//] := eqVneq i j.+1; rewrite HT // -E.
rewrite lower_mul_tr; rewrite [X in _ *m X *m _](eq_dense (L := bdiag (dk N (bt_diag B) A))); last first.
  move=> i j Hi Hj; rewrite /sym_blocks /bdiag; have [E|nE] := eqVneq i j.
    have [Hi1 ->] := HD i Hi; rewrite tril_id; last by case: (chol_lowpos Hi1).
    by rewrite chol_mul // /prevb; case: (i) => [|i']; rewrite ?mul0mx addr0.
  by rewrite /osub !mul0mx trmx0 !if_same.
apply: udu_mul => k Hk.
- by apply: spd_sym; case: (HD k Hk).
- by rewrite mulmxA mulmxV ?mul1mx //; apply: spd_unit; case: (HD _ Hk).
- rewrite /nextb; case: ltnP => Hn; first by rewrite dk_step // mulmxA; zmod.
  have -> : k = N.-1 by lia.
  by rewrite dk_last addr0.
Qed.

End UDU.

Section Corollaries.
Variable R : rcfType.
Variables (N d : nat).
Implicit Types B : btd R d.

Lemma cholesky_spec B : spd (btd_to_dense N true B) ->
  let L := btd_to_dense N false (btd_cholesky N B) in
  [/\ lowpos L, L *m L^T = btd_to_dense N true B & L = chol (btd_to_dense N true B)].
Proof.
by move=> H L; rewrite /L cholesky_to_dense //; split=> //; [exact: chol_lowpos|exact: chol_mul].
Qed.

Lemma cholesky_diag B : spd (btd_to_dense N true B) ->
  forall k, (k < N)%N -> lowpos (bt_diag (btd_cholesky N B) k).
Proof. by move=> H k Hk; have [E [C [HE _ Hd _]]] := cholesky_blocks H; rewrite Hd //; apply: HE. Qed.

Lemma udl_defined B : btd_upper_diagonal_lower N B = None <-> bt_sub B = None.
Proof. by rewrite /btd_upper_diagonal_lower; case: (bt_sub B). Qed.

Lemma udu_loop B U Dg A : (0 < N)%N -> bt_sub B = Some A ->
  (forall k, (k < N)%N -> (bt_diag B k)^T = bt_diag B k) ->
  spd (btd_to_dense N true B) ->
  btd_upper_diagonal_lower N B = Some (U, Dg) ->
  let D' k := bt_diag Dg k *m (bt_diag Dg k)^T in
  (forall k, (k < N)%N -> spd (D' k)) /\ D' N.-1 = bt_diag B N.-1 /\
  forall k, (k.+1 < N)%N -> D' k = bt_diag B k - (A k)^T *m invmx (D' k.+1) *m A k.
Proof.
move=> HN EA Hs H; have [U' [Dg' [-> HU HD HT HG]]] := udlE EA HN Hs H; case=> _ <-.
move=> D'; have ED k : (k < N)%N -> D' k = dk N (bt_diag B) A k.
  by move=> Hk; have [Hk1 E] := HD k Hk; rewrite /D' E chol_mul.
split; [|split].
- by move=> k Hk; rewrite ED //; case: (HD k Hk).
- by rewrite ED ?dk_last // prednK.
- by move=> k Hk; rewrite (ED k (ltnW Hk)) (ED _ Hk) dk_step.
Qed.

Lemma chol_inverse_blocks B k : spd (btd_to_dense N true B) -> (k < N)%N ->
  btd_block_diagonal_of_inverse N (btd_cholesky N B) k = blk (invmx (btd_to_dense N true B)) k k.
Proof. by move=> H Hk; rewrite block_diag_inv //; have [_ -> _] := cholesky_spec H. Qed.

End Corollaries.
