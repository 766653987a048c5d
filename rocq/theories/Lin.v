(* Dense matrices of block matrices.  This file is a library: it mentions
   neither the model nor the code, and is the specification side of every
   linear algebra claim.  A block matrix is a function from block coordinates
   to blocks; [dense] lays the blocks out in one ordinary matrix. *)
From mathcomp Require Import all_ssreflect all_algebra.
Set Implicit Arguments.
Unset Strict Implicit.
Unset Printing Implicit Defensive.
Import GRing.Theory.
Local Open Scope ring_scope.

Section Defs.
Variable R : ringType.

(* blocks r 0, r 1, ..., r (N-1) side by side *)
Fixpoint brow p d N (r : nat -> 'M[R]_(p, d)) : 'M[R]_(p, N * d) :=
  match N return 'M[R]_(p, N * d) with
  | 0 => 0
  | N'.+1 => row_mx (r 0%N) (brow N' (fun k => r k.+1))
  end.

(* blocks c 0, ..., c (N-1) on top of each other *)
Fixpoint bcol p d N (c : nat -> 'M[R]_(d, p)) : 'M[R]_(N * d, p) :=
  match N return 'M[R]_(N * d, p) with
  | 0 => 0
  | N'.+1 => col_mx (c 0%N) (bcol N' (fun k => c k.+1))
  end.

(* the N x M block matrix with block K i j at block row i, block column j *)
Definition dense d e N M (K : nat -> nat -> 'M[R]_(d, e)) : 'M[R]_(N * d, M * e) :=
  bcol N (fun i => brow M (K i)).

(* stacked vector *)
Definition flat d N (x : nat -> 'cV[R]_d) : 'cV[R]_(N * d) := bcol N x.

(* block coordinates back from a stacked vector *)
Fixpoint unflat p d N : 'M[R]_(N * d, p) -> nat -> 'M[R]_(d, p) :=
  match N return 'M[R]_(N * d, p) -> nat -> 'M[R]_(d, p) with
  | 0 => fun _ _ => 0
  | N'.+1 => fun X k =>
      match k with
      | 0 => @usubmx R d (N' * d) p X
      | k'.+1 => @unflat p d N' (@dsubmx R d (N' * d) p X) k'
      end
  end.

Definition rblk p d N (X : 'M[R]_(p, N * d)) (k : nat) : 'M[R]_(p, d) :=
  (unflat X^T k)^T.

(* block (i, j) of a dense matrix *)
Definition blk d e N M (X : 'M[R]_(N * d, M * e)) (i j : nat) : 'M[R]_(d, e) :=
  rblk (unflat X i) j.

End Defs.

Arguments brow {R p d} N r.
Arguments bcol {R p d} N c.
Arguments dense {R d e} N M K.
Arguments flat {R d} N x.
Arguments unflat {R p d N} X k.
Arguments rblk {R p d N} X k.
Arguments blk {R d e N M} X i j.

Section Ring.
Variable R : ringType.

Lemma eq_brow p d N (r s : nat -> 'M[R]_(p, d)) :
  (forall k, (k < N)%N -> r k = s k) -> brow N r = brow N s.
Proof.
elim: N r s => [|N IH] r s H //=.
rewrite (H 0%N) //; congr row_mx; apply: IH => k Hk; exact: H.
Qed.

Lemma eq_bcol p d N (r s : nat -> 'M[R]_(d, p)) :
  (forall k, (k < N)%N -> r k = s k) -> bcol N r = bcol N s.
Proof.
elim: N r s => [|N IH] r s H //=.
rewrite (H 0%N) //; congr col_mx; apply: IH => k Hk; exact: H.
Qed.

Lemma eq_dense d e N M (K L : nat -> nat -> 'M[R]_(d, e)) :
  (forall i j, (i < N)%N -> (j < M)%N -> K i j = L i j) -> dense N M K = dense N M L.
Proof.
move=> H; apply: eq_bcol => i Hi; apply: eq_brow => j Hj; exact: H.
Qed.

Lemma brow_inj p d N (r s : nat -> 'M[R]_(p, d)) :
  brow N r = brow N s -> forall k, (k < N)%N -> r k = s k.
Proof.
elim: N r s => [|N IH] r s //= H [|k] Hk.
  by move/eq_row_mx: H => [].
move/eq_row_mx: H => [_ H]; exact: (IH _ _ H).
Qed.

Lemma bcol_inj p d N (r s : nat -> 'M[R]_(d, p)) :
  bcol N r = bcol N s -> forall k, (k < N)%N -> r k = s k.
Proof.
elim: N r s => [|N IH] r s //= H [|k] Hk.
  by move/eq_col_mx: H => [].
move/eq_col_mx: H => [_ H]; exact: (IH _ _ H).
Qed.

Lemma dense_inj d e N M (K L : nat -> nat -> 'M[R]_(d, e)) :
  dense N M K = dense N M L -> forall i j, (i < N)%N -> (j < M)%N -> K i j = L i j.
Proof.
move=> H i j Hi Hj; have := bcol_inj H Hi => Hr; exact: (brow_inj Hr).
Qed.

Lemma unflat_bcol p d N (c : nat -> 'M[R]_(d, p)) k :
  (k < N)%N -> unflat (bcol N c) k = c k.
Proof.
elim: N c k => [|N IH] c [|k] //= Hk; first by rewrite col_mxKu.
by rewrite col_mxKd IH.
Qed.

Lemma bcol_unflat p d N (X : 'M[R]_(N * d, p)) : bcol N (unflat X) = X.
Proof.
elim: N X => [|N IH] X /=; first by apply/matrixP=> -[].
transitivity (@col_mx R d (N * d) p (usubmx X) (dsubmx X)).
  by congr col_mx; rewrite -[RHS]IH.
exact: vsubmxK.
Qed.

Lemma flat_unflat d N (v : 'cV[R]_(N * d)) : flat N (unflat v) = v.
Proof. exact: bcol_unflat. Qed.

Lemma tr_brow p d N (r : nat -> 'M[R]_(p, d)) :
  (brow N r)^T = bcol N (fun k => (r k)^T).
Proof.
elim: N r => [|N IH] r /=; first exact: trmx0.
rewrite tr_row_mx; congr col_mx; exact: IH.
Qed.

Lemma tr_bcol p d N (r : nat -> 'M[R]_(d, p)) :
  (bcol N r)^T = brow N (fun k => (r k)^T).
Proof.
elim: N r => [|N IH] r /=; first exact: trmx0.
rewrite tr_col_mx; congr row_mx; exact: IH.
Qed.

Lemma rblk_brow p d N (r : nat -> 'M[R]_(p, d)) k :
  (k < N)%N -> rblk (brow N r) k = r k.
Proof. by move=> H; rewrite /rblk tr_brow unflat_bcol // trmxK. Qed.

Lemma brow_rblk p d N (X : 'M[R]_(p, N * d)) : brow N (rblk X) = X.
Proof. by apply: trmx_inj; rewrite tr_brow -[RHS]bcol_unflat; apply: eq_bcol => k _; rewrite /rblk trmxK. Qed.

Lemma blk_dense d e N M (K : nat -> nat -> 'M[R]_(d, e)) i j :
  (i < N)%N -> (j < M)%N -> blk (dense N M K) i j = K i j.
Proof. by move=> Hi Hj; rewrite /blk /dense unflat_bcol // rblk_brow. Qed.

Lemma dense_blk d e N M (X : 'M[R]_(N * d, M * e)) : dense N M (blk X) = X.
Proof.
rewrite /dense -[RHS]bcol_unflat; apply: eq_bcol => i _; exact: brow_rblk.
Qed.

Lemma bcol_row_mx p q d N (c : nat -> 'M[R]_(d, p)) (c' : nat -> 'M[R]_(d, q)) :
  bcol N (fun k => row_mx (c k) (c' k)) = row_mx (bcol N c) (bcol N c').
Proof.
elim: N c c' => [|N IH] c c' /=; first by apply/matrixP=> -[].
by rewrite IH -/(block_mx _ _ _ _) block_mxEh.
Qed.

Lemma brow_col_mx p q d N (c : nat -> 'M[R]_(p, d)) (c' : nat -> 'M[R]_(q, d)) :
  brow N (fun k => col_mx (c k) (c' k)) = col_mx (brow N c) (brow N c').
Proof.
elim: N c c' => [|N IH] c c' /=; first by apply/matrixP=> ? -[].
by rewrite IH -block_mxEh -block_mxEv.
Qed.

(* the same matrix built column by column *)
Lemma dense_cols d e N M (K : nat -> nat -> 'M[R]_(d, e)) :
  dense N M K = brow M (fun j => bcol N (fun i => K i j)).
Proof.
rewrite /dense; elim: M K => [|M IH] K /=.
  by apply/matrixP=> i [].
by rewrite bcol_row_mx; congr row_mx; rewrite IH.
Qed.

Lemma tr_dense d e N M (K : nat -> nat -> 'M[R]_(d, e)) :
  (dense N M K)^T = dense M N (fun i j => (K j i)^T).
Proof.
rewrite dense_cols tr_brow /dense; apply: eq_bcol => i _; exact: tr_bcol.
Qed.

Lemma brow0 p d N : brow N (fun _ => 0 : 'M[R]_(p, d)) = 0.
Proof. by elim: N => [|N IH] //=; rewrite IH row_mx0. Qed.

Lemma bcol0 p d N : bcol N (fun _ => 0 : 'M[R]_(d, p)) = 0.
Proof. by elim: N => [|N IH] //=; rewrite IH col_mx0. Qed.

Lemma dense0 d e N M : dense N M (fun _ _ => 0 : 'M[R]_(d, e)) = 0.
Proof. by rewrite /dense -[RHS](bcol0 (M * e) d N); apply: eq_bcol => i _; exact: brow0. Qed.

Lemma browD p d N (r s : nat -> 'M[R]_(p, d)) :
  brow N r + brow N s = brow N (fun k => r k + s k).
Proof.
elim: N r s => [|N IH] r s /=; first by rewrite addr0.
by rewrite add_row_mx IH.
Qed.

Lemma bcolD p d N (r s : nat -> 'M[R]_(d, p)) :
  bcol N r + bcol N s = bcol N (fun k => r k + s k).
Proof.
elim: N r s => [|N IH] r s /=; first by rewrite addr0.
by rewrite add_col_mx IH.
Qed.

Lemma denseD d e N M (K L : nat -> nat -> 'M[R]_(d, e)) :
  dense N M K + dense N M L = dense N M (fun i j => K i j + L i j).
Proof. by rewrite /dense bcolD; apply: eq_bcol => i _; rewrite browD. Qed.

Lemma browN p d N (r : nat -> 'M[R]_(p, d)) : - brow N r = brow N (fun k => - r k).
Proof.
elim: N r => [|N IH] r /=; first by rewrite oppr0.
by rewrite opp_row_mx IH.
Qed.

Lemma bcolN p d N (r : nat -> 'M[R]_(d, p)) : - bcol N r = bcol N (fun k => - r k).
Proof.
elim: N r => [|N IH] r /=; first by rewrite oppr0.
by rewrite opp_col_mx IH.
Qed.

Lemma denseN d e N M (K : nat -> nat -> 'M[R]_(d, e)) :
  - dense N M K = dense N M (fun i j => - K i j).
Proof. by rewrite /dense bcolN; apply: eq_bcol => i _; rewrite browN. Qed.

Lemma bcolB p d N (r s : nat -> 'M[R]_(d, p)) :
  bcol N r - bcol N s = bcol N (fun k => r k - s k).
Proof. by rewrite bcolN bcolD. Qed.

Lemma denseB d e N M (K L : nat -> nat -> 'M[R]_(d, e)) :
  dense N M K - dense N M L = dense N M (fun i j => K i j - L i j).
Proof. by rewrite denseN denseD. Qed.

Lemma browZ p d N a (r : nat -> 'M[R]_(p, d)) : a *: brow N r = brow N (fun k => a *: r k).
Proof.
elim: N r => [|N IH] r /=; first by rewrite scaler0.
by rewrite scale_row_mx IH.
Qed.

Lemma bcolZ p d N a (r : nat -> 'M[R]_(d, p)) : a *: bcol N r = bcol N (fun k => a *: r k).
Proof.
elim: N r => [|N IH] r /=; first by rewrite scaler0.
by rewrite scale_col_mx IH.
Qed.

Lemma denseZ d e N M a (K : nat -> nat -> 'M[R]_(d, e)) :
  a *: dense N M K = dense N M (fun i j => a *: K i j).
Proof. by rewrite /dense bcolZ; apply: eq_bcol => i _; rewrite browZ. Qed.

Lemma mul_mx_brow p q d N (X : 'M[R]_(p, q)) (r : nat -> 'M[R]_(q, d)) :
  X *m brow N r = brow N (fun k => X *m r k).
Proof.
elim: N r => [|N IH] r /=; first by rewrite mulmx0.
by rewrite mul_mx_row IH.
Qed.

Lemma mul_bcol_mx p q d N (X : 'M[R]_(p, q)) (c : nat -> 'M[R]_(d, p)) :
  bcol N c *m X = bcol N (fun k => c k *m X).
Proof.
elim: N c => [|N IH] c /=; first by rewrite mul0mx.
by rewrite mul_col_mx IH.
Qed.

Lemma mul_brow_bcol p q d N (r : nat -> 'M[R]_(p, d)) (c : nat -> 'M[R]_(d, q)) :
  brow N r *m bcol N c = \sum_(k < N) r k *m c k.
Proof.
elim: N r c => [|N IH] r c /=; first by rewrite mul0mx big_ord0.
by rewrite mul_row_col IH big_ord_recl.
Qed.

Lemma mul_dense_bcol d e p N M (K : nat -> nat -> 'M[R]_(d, e)) (c : nat -> 'M[R]_(e, p)) :
  dense N M K *m bcol M c = bcol N (fun i => \sum_(k < M) K i k *m c k).
Proof.
by rewrite /dense mul_bcol_mx; apply: eq_bcol => i _; rewrite mul_brow_bcol.
Qed.

Lemma mul_dense_flat d e N M (K : nat -> nat -> 'M[R]_(d, e)) (x : nat -> 'cV[R]_e) :
  dense N M K *m flat M x = flat N (fun i => \sum_(k < M) K i k *m x k).
Proof. exact: mul_dense_bcol. Qed.

Lemma mul_dense d e f N M P (K : nat -> nat -> 'M[R]_(d, e)) (L : nat -> nat -> 'M[R]_(e, f)) :
  dense N M K *m dense M P L = dense N P (fun i j => \sum_(k < M) K i k *m L k j).
Proof.
rewrite [dense M P L]dense_cols mul_mx_brow [RHS]dense_cols; apply: eq_brow => j _.
exact: mul_dense_bcol.
Qed.

Definition bdiag d (D : nat -> 'M[R]_d) (i j : nat) : 'M[R]_d :=
  if i == j then D i else 0.

Lemma dense_recl d e N M (K : nat -> nat -> 'M[R]_(d, e)) :
  dense N.+1 M.+1 K =
  block_mx (K 0 0)%N (brow M (fun j => K 0 j.+1)%N)
           (bcol N (fun i => K i.+1 0)%N) (dense N M (fun i j => K i.+1 j.+1)).
Proof. by rewrite /dense /= bcol_row_mx block_mxEv. Qed.

Lemma dense1 d N : dense N N (bdiag (fun _ => 1%:M)) = 1%:M :> 'M[R]_(N * d).
Proof.
elim: N => [|N IH]; first by apply/matrixP=> -[].
rewrite dense_recl /bdiag /= brow0 bcol0.
symmetry; rewrite -[X in block_mx _ _ _ X]/(dense N N (bdiag (fun _ => 1%:M))) IH.
exact: scalar_mx_block.
Qed.

Lemma sum_bdiag_l d e N (D : nat -> 'M[R]_d) (L : nat -> 'M[R]_(d, e)) i :
  (i < N)%N -> \sum_(k < N) bdiag D i k *m L k = D i *m L i.
Proof.
move=> Hi; rewrite (bigD1 (Ordinal Hi)) //= /bdiag eqxx big1 ?addr0 // => k.
by rewrite eq_sym -val_eqE /= => /negbTE ->; rewrite mul0mx.
Qed.

Lemma sum_bdiag_r d e N (D : nat -> 'M[R]_d) (L : nat -> 'M[R]_(e, d)) j :
  (j < N)%N -> \sum_(k < N) L k *m bdiag D k j = L j *m D j.
Proof.
move=> Hi; rewrite (bigD1 (Ordinal Hi)) //= /bdiag eqxx big1 ?addr0 // => k.
by rewrite -val_eqE /= => /negbTE ->; rewrite mulmx0.
Qed.

(* scalar product of stacked vectors *)
Lemma flat_dot d N (x y : nat -> 'cV[R]_d) :
  (flat N x)^T *m flat N y = \sum_(k < N) (x k)^T *m y k.
Proof. by rewrite /flat tr_bcol mul_brow_bcol. Qed.

Lemma eq_flat d N (x y : nat -> 'cV[R]_d) :
  (forall k, (k < N)%N -> x k = y k) -> flat N x = flat N y.
Proof. exact: eq_bcol. Qed.

Lemma flatD d N (x y : nat -> 'cV[R]_d) : flat N x + flat N y = flat N (fun k => x k + y k).
Proof. exact: bcolD. Qed.
Lemma flatB d N (x y : nat -> 'cV[R]_d) : flat N x - flat N y = flat N (fun k => x k - y k).
Proof. exact: bcolB. Qed.

(* trace *)
Lemma tr_dense_diag d N (K : nat -> nat -> 'M[R]_d) :
  \tr (dense N N K) = \sum_(k < N) \tr (K k k).
Proof.
elim: N K => [|N IH] K; first by rewrite big_ord0 /mxtrace big_ord0.
rewrite dense_recl -/(mulSn N d) (mxtrace_block (K 0 0)%N) IH big_ord_recl.
by congr (_ + _); apply: eq_bigr.
Qed.

End Ring.

Section Com.
Variable R : comRingType.

(* block lower triangular determinant *)
Lemma det_dense_ltrig d N (K : nat -> nat -> 'M[R]_d) :
  (forall i j, (i < j)%N -> (j < N)%N -> K i j = 0) ->
  \det (dense N N K) = \prod_(k < N) \det (K k k).
Proof.
elim: N K => [|N IH] K H; first by rewrite big_ord0 det_mx00.
rewrite dense_recl (eq_brow (s := fun _ => 0)); last by move=> k Hk; apply: H.
rewrite brow0 det_lblock IH ?big_ord_recl //.
by move=> i j Hij Hj; apply: H.
Qed.

End Com.
