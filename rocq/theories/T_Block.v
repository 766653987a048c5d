(* Property theorems C01-C08: block tridiagonal algebra.

   Vocabulary: [dense N N K] is the matrix with blocks K i j, [flat N x] the
   stacked vector, [blk M i j] block (i, j) of M (all in Lin.v);
   [lower_blocks]/[sym_blocks] are the layouts of the docstrings, [osub] reads an
   absent sub-diagonal as zero (S_Block.v); [spd], [lowpos], [chol] are in Spd.v;
   [tril] is in Ent.v. *)
From Coq Require Import Reals.
From mathcomp Require Import all_ssreflect all_algebra.
From Verif Require Import RealStruct Nat Alg Lin Ent Spd M_Block S_Block P_Block P_Block2 M_BlockLog P_BlockLog.
Set Implicit Arguments.
Unset Strict Implicit.
Unset Printing Implicit Defensive.
Import GRing.Theory Num.Theory.
Local Open Scope ring_scope.

(* C01.  to_dense is the documented block matrix (only the lower triangle of the
   diagonal blocks is read), and dense_mult is multiplication by it. *)
Theorem C01_to_dense_layout (F : rcfType) (N d : nat) (B : btd F d) :
  btd_to_dense N false B =
    dense N N (lower_blocks (fun k => tril (bt_diag B k)) (osub (bt_sub B))) /\
  btd_to_dense N true B =
    dense N N (sym_blocks (fun k => symm (bt_diag B k)) (osub (bt_sub B))).
Proof. exact: (conj (to_dense_lower N B) (to_dense_sym N B)). Qed.
Print Assumptions C01_to_dense_layout.

Theorem C01_dense_mult (F : rcfType) (N d : nat) (sym tr : bool) (B : btd F d) (x : nat -> 'cV[F]_d) :
  flat N (btd_dense_mult N sym B tr x) =
  (if tr then (btd_to_dense N sym B)^T else btd_to_dense N sym B) *m flat N x.
Proof. exact: dense_multE. Qed.
Print Assumptions C01_dense_mult.

(* the second block of the product for unit blocks: x0 + x1 *)
Example C01_example (F : rcfType) (d : nat) (x : nat -> 'cV[F]_d) :
  btd_dense_mult 3 false (ex_low F d) false x 1%N = x 1%N + x 0%N.
Proof.
rewrite mult_blocks // /= tril_id ?scalar_mx_is_trig // !mul1mx; reflexivity.
Qed.

(* C02 *)
Theorem C02_add (F : rcfType) (N d : nat) (sym : bool) (B C : btd F d) :
  btd_to_dense N sym (btd_add B C) = btd_to_dense N sym B + btd_to_dense N sym C.
Proof. exact: to_dense_add. Qed.
Print Assumptions C02_add.

Example C02_example (F : rcfType) (d : nat) :
  osub (bt_sub (btd_add (ex_low F d) (Btd (fun _ => 1%:M) None))) 0%N = 1%:M.
Proof. reflexivity. Qed.

(* C03 *)
Theorem C03_solve_mult (F : rcfType) (N d : nat) (B : btd F d) (tr : bool) (x : nat -> 'cV[F]_d) :
  (forall k, (k < N)%N -> forall r, bt_diag B k r r != 0) ->
  forall k, (k < N)%N ->
    btd_solve N B tr (btd_dense_mult N false B tr x) k = x k /\
    btd_dense_mult N false B tr (btd_solve N B tr x) k = x k.
Proof. exact: (fun H k Hk => conj (solve_mult tr x H Hk) (mult_solve tr x H Hk)). Qed.
Print Assumptions C03_solve_mult.

(* forward substitution D_0 y_0 = x_0, D_{k+1} y_{k+1} + A_k y_k = x_{k+1}, and
   backward substitution for the transpose *)
Theorem C03_substitution (F : rcfType) (N d : nat) (B : btd F d) (x : nat -> 'cV[F]_d) :
  (forall k, (k < N)%N -> forall r, bt_diag B k r r != 0) ->
  (forall k, (k < N)%N ->
     tril (bt_diag B k) *m btd_solve N B false x k
       + (if k is k'.+1 then osub (bt_sub B) k' *m btd_solve N B false x k' else 0) = x k) /\
  (forall k, (k < N)%N ->
     (tril (bt_diag B k))^T *m btd_solve N B true x k
       + (if (k.+1 < N)%N then (osub (bt_sub B) k)^T *m btd_solve N B true x k.+1 else 0) = x k).
Proof.
exact: (fun H => conj
  (fun k Hk => etrans (esym (mult_blocks B _ Hk)) (mult_solve false x H Hk))
  (fun k Hk => etrans (esym (mult_tr_blocks B _ Hk)) (mult_solve true x H Hk))).
Qed.
Print Assumptions C03_substitution.

Example C03_example (F : rcfType) (d N : nat) :
  forall k, (k < N)%N -> forall r, bt_diag (ex_low F d) k r r != 0.
Proof. exact: ex_low_diag. Qed.

(* C04 *)
Theorem C04_cholesky (F : rcfType) (N d : nat) (B : btd F d) :
  spd (btd_to_dense N true B) ->
  let L := btd_to_dense N false (btd_cholesky N B) in
  [/\ lowpos L, L *m L^T = btd_to_dense N true B & L = chol (btd_to_dense N true B)].
Proof. exact: cholesky_spec. Qed.
Print Assumptions C04_cholesky.

(* and the stored diagonal blocks are themselves lower triangular with positive
   diagonal: nothing is hidden by the triangular read of to_dense *)
Theorem C04_cholesky_blocks (F : rcfType) (N d : nat) (B : btd F d) :
  spd (btd_to_dense N true B) ->
  forall k, (k < N)%N -> lowpos (bt_diag (btd_cholesky N B) k).
Proof. exact: cholesky_diag. Qed.
Print Assumptions C04_cholesky_blocks.

Example C04_example (F : rcfType) (d N : nat) : spd (btd_to_dense N true (ex_sym F d)).
Proof. exact: ex_sym_spd. Qed.

(* C05 *)
Theorem C05_udu (F : rcfType) (N d : nat) (B U Dg : btd F d) :
  (0 < N)%N ->
  (forall k, (k < N)%N -> (bt_diag B k)^T = bt_diag B k) ->
  spd (btd_to_dense N true B) ->
  btd_upper_diagonal_lower N B = Some (U, Dg) ->
  [/\ forall k, (k < N)%N -> bt_diag U k = 1%:M,
      forall k, (k < N)%N -> lowpos (bt_diag Dg k),
      bt_sub Dg = None &
      (btd_to_dense N false U)^T *m
        (btd_to_dense N false Dg *m (btd_to_dense N false Dg)^T) *m
        btd_to_dense N false U = btd_to_dense N true B].
Proof. exact: udu_correct. Qed.
Print Assumptions C05_udu.

(* it succeeds exactly when there is a sub-diagonal *)
Theorem C05_udu_defined (F : rcfType) (N d : nat) (B : btd F d) :
  btd_upper_diagonal_lower N B = None <-> bt_sub B = None.
Proof. exact: udl_defined. Qed.
Print Assumptions C05_udu_defined.

(* every matrix whose Cholesky factor is taken in the loop is positive definite:
   the factor at step k is the factor of D_k - A_k^T D'_{k+1}^-1 A_k *)
Theorem C05_udu_loop (F : rcfType) (N d : nat) (B U Dg : btd F d) (A : nat -> 'M[F]_d) :
  (0 < N)%N -> bt_sub B = Some A ->
  (forall k, (k < N)%N -> (bt_diag B k)^T = bt_diag B k) ->
  spd (btd_to_dense N true B) ->
  btd_upper_diagonal_lower N B = Some (U, Dg) ->
  let D' k := bt_diag Dg k *m (bt_diag Dg k)^T in
  (forall k, (k < N)%N -> spd (D' k)) /\ D' N.-1 = bt_diag B N.-1 /\
  forall k, (k.+1 < N)%N -> D' k = bt_diag B k - (A k)^T *m invmx (D' k.+1) *m A k.
Proof. exact: udu_loop. Qed.
Print Assumptions C05_udu_loop.

Example C05_example (F : rcfType) (d N : nat) :
  (forall k, (k < N)%N -> (bt_diag (ex_sym F d) k)^T = bt_diag (ex_sym F d) k) /\
  exists UD, btd_upper_diagonal_lower N (ex_sym F d) = Some UD.
Proof. by split; [move=> k _; exact: ex_sym_sym|eexists]. Qed.

(* C06 *)
Theorem C06_abs_log_det (N d : nat) (B : btd [rcfType of R] d) :
  (forall k, (k < N)%N -> forall r, bt_diag B k r r != 0) ->
  btd_abs_log_det N B = ln `|\det (btd_to_dense N false B)|.
Proof. exact: abs_log_detE. Qed.
Print Assumptions C06_abs_log_det.

Example C06_example (d N : nat) :
  forall k, (k < N)%N -> forall r, bt_diag (ex_low [rcfType of R] d) k r r != 0.
Proof. exact: ex_low_diag. Qed.

(* C07 *)
Theorem C07_inverse_blocks (F : rcfType) (N d : nat) (B : btd F d) k :
  (k < N)%N ->
  btd_block_diagonal_of_inverse N B k =
  blk (invmx (btd_to_dense N false B *m (btd_to_dense N false B)^T)) k k.
Proof. exact: block_diag_inv. Qed.
Print Assumptions C07_inverse_blocks.

Theorem C07_inverse_blocks_recursion (F : rcfType) (N d : nat) (B : btd F d) :
  (forall k, (k < N)%N -> forall r, bt_diag B k r r != 0) ->
  let S := btd_block_diagonal_of_inverse N B in
  forall k, (k < N)%N ->
  S k = (invmx (tril (bt_diag B k)))^T *m
    (1%:M + (if (k.+1 < N)%N then (osub (bt_sub B) k)^T *m S k.+1 *m osub (bt_sub B) k else 0)) *m
    invmx (tril (bt_diag B k)).
Proof. exact: block_diag_inv_rec. Qed.
Print Assumptions C07_inverse_blocks_recursion.

(* with the factor of a positive definite K: the diagonal blocks of K^-1 *)
Theorem C07_cholesky_inverse_blocks (F : rcfType) (N d : nat) (B : btd F d) k :
  spd (btd_to_dense N true B) -> (k < N)%N ->
  btd_block_diagonal_of_inverse N (btd_cholesky N B) k = blk (invmx (btd_to_dense N true B)) k k.
Proof. exact: chol_inverse_blocks. Qed.
Print Assumptions C07_cholesky_inverse_blocks.

Example C07_example (F : rcfType) (d N : nat) :
  (forall k, (k < N)%N -> forall r, bt_diag (ex_low F d) k r r != 0) /\
  spd (btd_to_dense N true (ex_sym F d)).
Proof. exact: (conj (@ex_low_diag F d N) (ex_sym_spd F d N)). Qed.

(* C08 *)
Theorem C08_band_round_trip (F : rcfType) (N d : nat) (B : btd F d) :
  (forall i j, (i < N * d)%N -> (j < N * d)%N ->
     ent (btd_to_dense N false B) i j =
     if (j <= i)%N && (i - j <= btd_bandwidth B)%N then btd_as_band N B (i - j) j else 0) /\
  let B' := banded_to_block_tri d (if bt_sub B is Some _ then 2 else 1) (btd_as_band N B) in
  (forall k, (k < N)%N -> bt_diag B' k = tril (bt_diag B k)) /\
  (bt_sub B' = None <-> bt_sub B = None) /\
  (forall k, (k.+1 < N)%N -> osub (bt_sub B') k = osub (bt_sub B) k).
Proof. exact: band_round_trip. Qed.
Print Assumptions C08_band_round_trip.

(* the band of a 2-block, inner dimension 2 matrix: entry (3, 1) is block (1, 0), (1, 1) *)
Example C08_example (F : rcfType) : btd_as_band 2 (ex_low F 2) 2 1 = 1.
Proof. by rewrite /btd_as_band /ext_block_to_band /btd_concatted /= (@ent_lt F 2 2 1%:M 1 1 isT isT) mxE. Qed.
