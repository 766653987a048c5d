(* Model of markovflow/block_tri_diag.py.

   One batch element is modelled (batch dimensions are pointwise in the code).
   A tensor [outer_dim, inner_dim, inner_dim] is a function nat -> 'M_d with
   outer_dim = N explicit; entries past N are arbitrary.  A band tensor
   [rows, cols] is a function nat -> nat -> R of (row, column).

   External operations of the banded_matrices package and of tf.linalg are given
   by what they return in exact arithmetic; they carry the prefix [ext_]. *)
From mathcomp Require Import all_ssreflect all_algebra.
From Verif Require Import Alg Lin Ent Spd.
Set Implicit Arguments.
Unset Strict Implicit.
Unset Printing Implicit Defensive.
Import GRing.Theory.
Local Open Scope ring_scope.

Section Ext.
Variable R : rcfType.

(* external, called at block_tri_diag.py:508, 515: tf.linalg.cholesky; reads the lower triangle. *)
Definition ext_cholesky d (M : 'M[R]_d) : 'M[R]_d := chol M.

(* external, called at ssm_gaussian_transformations.py:225-226: tf.linalg.triangular_solve(L, X): L^-1 X, reading only the lower triangle of L;
   adjoint=True: L^-T X. *)
Definition ext_triangular_solve d p (adjoint : bool) (L : 'M[R]_d) (X : 'M[R]_(d, p)) : 'M[R]_(d, p) :=
  if adjoint then invmx (tril L)^T *m X else invmx (tril L) *m X.

(* external, called at block_tri_diag.py:501, 540: tf.linalg.cholesky_solve(L, X): (L L^T)^-1 X by two triangular solves. *)
Definition ext_cholesky_solve d p (L : 'M[R]_d) (X : 'M[R]_(d, p)) : 'M[R]_(d, p) :=
  ext_triangular_solve true L (ext_triangular_solve false L X).

(* external, called at mean_function.py:342, ssm_gaussian_transformations.py:462: tf.linalg.solve *)
Definition ext_solve d p (M : 'M[R]_d) (X : 'M[R]_(d, p)) : 'M[R]_(d, p) := invmx M *m X.

(* external, called at block_tri_diag.py:158: a lower band with w rows stands for the lower triangular
   n x n matrix with entry (i, j) = band (i - j) j for 0 <= i - j < w. *)
Definition ext_unpack_banded w n (band : nat -> nat -> R) : 'M[R]_n :=
  \matrix_(i, j) if (j <= i)%N && (i - j < w)%N then band (i - j)%N j else 0.

(* the lower band with w rows of a matrix; used by the external functions below,
   block_tri_diag.py:231-235, 436 *)
Definition ext_pack_band w n (M : 'M[R]_n) : nat -> nat -> R :=
  fun r c => if (r < w)%N then ent M (r + c) c else 0.

(* symmetric matrix with the given lower triangle; block_tri_diag.py:164-171, 189 *)
Definition ext_symmetrise n (L : 'M[R]_n) : 'M[R]_n :=
  L + L^T - diag_mx (\row_i L i i).

(* external, called at block_tri_diag.py:189: banded_matrices.product_band_mat *)
Definition ext_product_band_mat w n p (band : nat -> nat -> R) (X : 'M[R]_(n, p))
    (transpose_left symmetrise_left : bool) : 'M[R]_(n, p) :=
  let L := ext_unpack_banded w n band in
  let S := if symmetrise_left then ext_symmetrise L else L in
  (if transpose_left then S^T else S) *m X.

(* external, called at block_tri_diag.py:350: banded_matrices.solve_triang_mat *)
Definition ext_solve_triang_mat w n p (band : nat -> nat -> R) (X : 'M[R]_(n, p))
    (transpose_left : bool) : 'M[R]_(n, p) :=
  let L := ext_unpack_banded w n band in
  invmx (if transpose_left then L^T else L) *m X.

(* external, called at block_tri_diag.py:436: banded_matrices.cholesky_band: the band, of the same width, of the Cholesky
   factor of the symmetric matrix whose lower band is given. *)
Definition ext_cholesky_band w n (band : nat -> nat -> R) : nat -> nat -> R :=
  ext_pack_band w (ext_cholesky (ext_symmetrise (ext_unpack_banded w n band))).

(* external, called at block_tri_diag.py:331: banded_matrices.inverse_from_cholesky_band: the band, of the same width, of
   (L L^T)^-1 where L is given by its band. *)
Definition ext_inverse_from_cholesky_band w n (band : nat -> nat -> R) : nat -> nat -> R :=
  let L := ext_unpack_banded w n band in ext_pack_band w (invmx (L *m L^T)).

(* external, called at ssm_gaussian_transformations.py:473: banded_matrices.solve_triang_band(left, right, ..., transpose_left), with the
   result bandwidths as requested: the lower band of L^-1 B (resp. L^-T B).  The
   right operand is passed as a lower band with upper bandwidth 0. *)
Definition ext_solve_triang_band wl wr wres n (left right : nat -> nat -> R)
    (transpose_left : bool) : nat -> nat -> R :=
  let L := ext_unpack_banded wl n left in
  ext_pack_band wres (invmx (if transpose_left then L^T else L) *m ext_unpack_banded wr n right).

(* external, called at block_tri_diag.py:233: banded_matrices.block_to_band(block, block_size): column c of the block
   representation starts at the top of its diagonal block; the band starts at the
   diagonal. *)
Definition ext_block_to_band w d (block : nat -> nat -> R) : nat -> nat -> R :=
  fun r c => if (r + c %% d < w)%N then block (r + c %% d)%N c else 0.

(* external, called at block_tri_diag.py:330, 558: banded_matrices.band_to_block(band, block_size, symmetric): inverse layout; the
   part above the diagonal of the diagonal block is filled by symmetry or by 0. *)
Definition ext_band_to_block d (symmetric : bool) (band : nat -> nat -> R) : nat -> nat -> R :=
  fun r c =>
    let s := (c %% d)%N in
    if (s <= r)%N then band (r - s)%N c
    else if symmetric then band (s - r)%N (c - (s - r))%N else 0.

End Ext.

Section Block.
Variable R : rcfType.
Variables (N d : nat).

(* block_tri_diag.py:45-88, the stored fields of BlockTriDiagonal.  The flag
   [symmetric] is passed to the operations that read it. *)
Record btd := Btd {
  bt_diag : nat -> 'M[R]_d;             (* block_tri_diag.py:132-139 *)
  bt_sub : option (nat -> 'M[R]_d)      (* block_tri_diag.py:141-148 *)
}.

(* block_tri_diag.py:53-84: the checks of the constructor that depend on the outer
   dimension: a sub-diagonal needs outer_dim > 1. *)
Definition btd_ctor_ok (B : btd) : bool :=
  if bt_sub B is Some _ then (1 < N)%N else true.

(* block_tri_diag.py:100-108, number of rows of the band = bandwidth + 1 *)
Definition btd_bandwidth (B : btd) : nat :=
  if bt_sub B is Some _ then (d.-1 + d)%N else d.-1.

(* block_tri_diag.py:206-229.  matrix_transpose, concat on the last axis,
   reshape to [outer*inner, q*inner] and matrix_transpose: row r, column
   k * inner + s holds diag[k][r][s] for r < inner and
   padded_sub_diag[k][r - inner][s] otherwise. *)
Definition btd_concatted (B : btd) : nat -> nat -> R :=
  fun r c =>
    let k := (c %/ d)%N in let s := (c %% d)%N in
    if (r < d)%N then ent (bt_diag B k) r s
    else if bt_sub B is Some A then
      (if (k.+1 < N)%N then ent (A k) (r - d) s else 0) else 0.

(* block_tri_diag.py:90-98 and 231-235 *)
Definition btd_as_band (B : btd) : nat -> nat -> R :=
  ext_block_to_band (if bt_sub B is Some _ then 2 * d else d) d (btd_concatted B).

(* block_tri_diag.py:150-173 *)
Definition btd_to_dense (sym : bool) (B : btd) : 'M[R]_(N * d) :=
  let lower := ext_unpack_banded (btd_bandwidth B).+1 (N * d) (btd_as_band B) in
  if sym then lower + lower^T - diag_mx (\row_i lower i i) else lower.

(* block_tri_diag.py:239-249, row-major reshape [outer, inner] -> [outer * inner, 1] *)
Definition btd_flatten (x : nat -> 'cV[R]_d) : 'cV[R]_(N * d) :=
  \col_i ent (x (i %/ d)%N) (i %% d)%N 0.

(* block_tri_diag.py:251-259 *)
Definition btd_unflatten (v : 'cV[R]_(N * d)) : nat -> 'cV[R]_d :=
  fun k => \col_s ent v (k * d + s) 0.

(* block_tri_diag.py:175-199 *)
Definition btd_dense_mult (sym : bool) (B : btd) (transpose_left : bool) (x : nat -> 'cV[R]_d) :
    nat -> 'cV[R]_d :=
  btd_unflatten (ext_product_band_mat (btd_bandwidth B).+1 (btd_as_band B) (btd_flatten x)
                   transpose_left sym).

(* block_tri_diag.py:339-351 *)
Definition btd_solve (B : btd) (transpose_left : bool) (x : nat -> 'cV[R]_d) : nat -> 'cV[R]_d :=
  btd_unflatten (ext_solve_triang_mat (btd_bandwidth B).+1 (btd_as_band B) (btd_flatten x)
                   transpose_left).

(* block_tri_diag.py:368-380 and 412-421; the same body for both classes *)
Definition btd_add (B C : btd) : btd :=
  Btd (fun k => bt_diag B k + bt_diag C k)
      (match bt_sub B with
       | Some a => match bt_sub C with
                   | Some c => Some (fun k => a k + c k)
                   | None => Some a
                   end
       | None => bt_sub C
       end).

(* block_tri_diag.py:548-592; [q] is the number of block diagonals of the band
   (num_diags, 1 or 2) *)
Definition banded_to_block_tri (q : nat) (band : nat -> nat -> R) : btd :=
  let block := ext_band_to_block d false band in
  let diags p k := \matrix_(r < d, s < d) block (p * d + r)%N (k * d + s)%N in
  Btd (diags 0%N) (if q == 2%N then Some (diags 1%N) else None).

(* block_tri_diag.py:423-436 *)
Definition btd_cholesky (B : btd) : btd :=
  banded_to_block_tri (if bt_sub B is Some _ then 2 else 1)
    (ext_cholesky_band (btd_bandwidth B).+1 (N * d) (btd_as_band B)).

(* block_tri_diag.py:318-337 *)
Definition btd_block_diagonal_of_inverse (B : btd) : nat -> 'M[R]_d :=
  let inv := ext_inverse_from_cholesky_band (btd_bandwidth B).+1 (N * d) (btd_as_band B) in
  let block := ext_band_to_block d true (fun r c => if (r < d)%N then inv r c else 0) in
  fun k => \matrix_(s < d, r < d) block r (k * d + s)%N.

(* block_tri_diag.py:488-511, body of the loop: [chol_D_s] has the latest factor
   in front.  The head of the list is chol_D_s[..., 0, :, :]. *)
Definition udl_step (D A : nat -> 'M[R]_d) (chol_D_s : seq 'M[R]_d) (counter : nat) : seq 'M[R]_d :=
  let d_inv_k := ext_cholesky_solve (head 0 chol_D_s) (A counter) in
  let D_k := D counter - (A counter)^T *m d_inv_k in
  ext_cholesky D_k :: chol_D_s.

(* block_tri_diag.py:513-531: while counter >= 0, starting at outer_dim - 2;
   the argument is counter + 1 *)
Fixpoint udl_loop (D A : nat -> 'M[R]_d) (c : nat) (chol_D_s : seq 'M[R]_d) : seq 'M[R]_d :=
  match c with
  | 0 => chol_D_s
  | c'.+1 => udl_loop D A c' (udl_step D A chol_D_s c')
  end.

(* block_tri_diag.py:438-545.  None models the failed assertion that the
   sub-diagonal exists.  The result is (U^T, chol_D). *)
Definition btd_upper_diagonal_lower (B : btd) : option (btd * btd) :=
  match bt_sub B with
  | None => None
  | Some A =>
      let chol_d_s := udl_loop (bt_diag B) A N.-1 [:: ext_cholesky (bt_diag B N.-1)] in
      let u_s k := ext_cholesky_solve (nth 0 chol_d_s k.+1) (A k) in
      Some (Btd (fun _ => 1%:M) (Some u_s), Btd (fun k => nth 0 chol_d_s k) None)
  end.

End Block.

Arguments Btd {R d} bt_diag bt_sub.
Arguments bt_diag {R d} b _.
Arguments bt_sub {R d} b.
