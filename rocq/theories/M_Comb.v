(* Model of the stationary kernels of markovflow/kernels/sde_kernel.py with everything a
   user sees of them (feedback matrix, steady state, emission), and of the kernels that
   combine a list of child kernels: ConcatKernel, Sum, Product, IndependentMultiOutput,
   FactorAnalysisKernel, StackKernel.  One batch element. *)
From mathcomp Require Import all_ssreflect all_algebra.
From Verif Require Import Alg Lin Ent Spd M_Block M_SSM M_Kernel.
Set Implicit Arguments.
Unset Strict Implicit.
Unset Printing Implicit Defensive.
Import GRing.Theory Num.Theory.
Local Open Scope ring_scope.

(* utils.py:107-114: LinearOperatorKronecker.to_dense of two matrices, the block matrix
   [[A11 B, ..., A1n B], ..., [Am1 B, ..., Amn B]] *)
Definition kron (F : ringType) m n p q (A : 'M[F]_(m, n)) (B : 'M[F]_(p, q)) : 'M[F]_(m * p, n * q) :=
  dense m n (fun i j => ent A i j *: B).

Section Comb.
Variable F : rcfType.

(* The public members of a StationaryKernel (sde_kernel.py:353-496) with o outputs and d
   states: state_transitions, feedback_matrix, steady_state_covariance, the matrix of
   generate_emission_model at a time, initial_mean, state_offsets, jitter.  For the
   kernels of the library state_transitions does not read the transition times. *)
Record skernel (o d : nat) := SKernel {
  sk_A : F -> 'M[F]_d;
  sk_F : 'M[F]_d;
  sk_P : 'M[F]_d;
  sk_H : F -> 'M[F]_(o, d);
  sk_mean0 : 'cV[F]_d;
  sk_off : F -> 'cV[F]_d;
  sk_jitter : F
}.

(* sde_kernel.py: the part used to build state space models: transition_statistics 421-447,
   initial_covariance 402-419 *)
Definition to_sde o d (k : skernel o d) : sde_kernel F d :=
  SdeKernel (fun _ dt => sk_A k dt)
    (fun _ dt => sk_P k - sk_A k dt *m sk_P k *m (sk_A k dt)^T + sk_jitter k *: 1%:M)
    (fun _ dt => sk_off k dt)
    (sk_mean0 k)
    (fun _ => sk_P k + sk_jitter k *: 1%:M).

(* sde_kernel.py:460-477 state_offsets, from the state mean of the kernel itself *)
Definition own_offsets d (A : F -> 'M[F]_d) (state_mean : 'cV[F]_d) (dt : F) : 'cV[F]_d :=
  - (A dt - 1%:M) *m state_mean.

(* sde_kernel.py:173-213 generate_emission_model: ones in the first column *)
Definition first_emission o d : 'M[F]_(o, d) := \matrix_(i, j) (val j == 0%N)%:R.

(* sde_kernel.py:353-496: a kernel that is not a combination of others *)
Definition base_kernel o d (A : F -> 'M[F]_d) (Fb P : 'M[F]_d) (state_mean : 'cV[F]_d) (jitter : F) : skernel o d :=
  SKernel A Fb P (fun _ => first_emission o d) state_mean (own_offsets A state_mean) jitter.

(* sde_kernel.py:561-575, 738-751: the members of the list of kernels of a combination, of any
   state dimension *)
Definition child o := {d : nat & skernel o d}.
(* sde_kernel.py:561-575, 738-751 *)
Definition mkchild o d (k : skernel o d) : child o := existT _ d k.

(* ---------- ConcatKernel, sde_kernel.py:540-656 ---------- *)
Section Concat.
Variable o : nat.
Implicit Types ks : seq (child o).

(* sde_kernel.py:574 *)
Fixpoint concat_dim ks : nat := if ks is k :: ks' then (projT1 k + concat_dim ks')%N else 0%N.

(* utils.py:76-85 block_diag, applied to a matrix of every child *)
Fixpoint block_diag (f : forall d, skernel o d -> 'M[F]_d) ks : 'M[F]_(concat_dim ks) :=
  match ks with
  | [::] => 0
  | k :: ks' => block_mx (f _ (projT2 k)) 0 0 (block_diag f ks')
  end.

(* sde_kernel.py:612-629 initial_mean: the child means, concatenated *)
Fixpoint concat_mean0 ks : 'cV[F]_(concat_dim ks) :=
  match ks with
  | [::] => 0
  | k :: ks' => col_mx (sk_mean0 (projT2 k)) (concat_mean0 ks')
  end.

(* sde_kernel.py:670-687 Sum.generate_emission_model *)
Fixpoint sum_emission ks (t : F) : 'M[F]_(o, concat_dim ks) :=
  match ks with
  | [::] => 0
  | k :: ks' => row_mx (sk_H (projT2 k) t) (sum_emission ks' t)
  end.

(* sde_kernel.py, ConcatKernel members: state_transitions 592-610, feedback_matrix 631-642,
   steady_state_covariance 644-656.  state_offsets is inherited from StationaryKernel
   and uses the state mean of the combined kernel itself, which is zero unless
   set_state_mean is called (373-377); the jitter of the children is not used. *)
Definition concat_kernel o' ks (emission : F -> 'M[F]_(o', concat_dim ks)) (jitter : F) : skernel o' (concat_dim ks) :=
  let A dt := block_diag (fun _ k => sk_A k dt) ks in
  SKernel A (block_diag (fun _ k => sk_F k) ks) (block_diag (fun _ k => sk_P k) ks) emission
    (concat_mean0 ks) (own_offsets A 0) jitter.

(* sde_kernel.py:660-687 Sum *)
Definition sum_kernel ks jitter : skernel o (concat_dim ks) := concat_kernel (sum_emission ks) jitter.

(* sde_kernel.py:847-877 IndependentMultiOutput.generate_emission_model: the emission matrices padded with zeros on both sides
   and stacked *)
Fixpoint indep_emission ks (t : F) : 'M[F]_(size ks * o, concat_dim ks) :=
  match ks with
  | [::] => 0
  | k :: ks' => block_mx (sk_H (projT2 k) t) 0 0 (indep_emission ks' t)
  end.

(* sde_kernel.py:826-877 IndependentMultiOutput *)
Definition indep_kernel ks jitter : skernel (size ks * o) (concat_dim ks) :=
  concat_kernel (indep_emission ks) jitter.

(* sde_kernel.py:881-941 FactorAnalysisKernel: emission W H with W = A(t) B.  The emission model is the
   composition of the two matrices (emission_model.py:157-266). *)
Definition factor_kernel o' ks (weight : F -> 'M[F]_(o', size ks * o)) (B : 'M[F]_(size ks * o)) jitter :
    skernel o' (concat_dim ks) :=
  concat_kernel (fun t => (weight t *m B) *m indep_emission ks t) jitter.
End Concat.

(* ---------- Product, sde_kernel.py:691-822; children with one output ---------- *)
Section Product.
Implicit Types ks : seq (child 1).

(* sde_kernel.py:750 *)
Fixpoint prod_dim ks : nat := if ks is k :: ks' then (projT1 k * prod_dim ks')%N else 1%N.

(* sde_kernel.py:766-806, utils.py:107-114: the Kronecker product of a matrix of every child.  Simplification: a last factor of
   size 1 is added so that the recursion starts at the empty list. *)
Fixpoint kron_all (f : forall d, skernel 1 d -> 'M[F]_d) ks : 'M[F]_(prod_dim ks) :=
  match ks with
  | [::] => 1%:M
  | k :: ks' => kron (f _ (projT2 k)) (kron_all f ks')
  end.

(* sde_kernel.py:808-822 generate_emission_model, with the same simplification *)
Fixpoint prod_emission ks (t : F) : 'M[F]_(1, prod_dim ks) :=
  match ks with
  | [::] => 1%:M
  | k :: ks' => kron (sk_H (projT2 k) t) (prod_emission ks' t)
  end.

(* sde_kernel.py, Product: state_transitions 766-781, feedback_matrix 783-793, steady_state_covariance 795-806,
   generate_emission_model 808-822.  initial_mean and state_offsets are inherited from
   StationaryKernel and use the state mean of the product itself (zero). *)
Definition product_kernel ks jitter : skernel 1 (prod_dim ks) :=
  let A dt := kron_all (fun _ k => sk_A k dt) ks in
  SKernel A (kron_all (fun _ k => sk_F k) ks) (kron_all (fun _ k => sk_P k) ks) (prod_emission ks)
    0 (own_offsets A 0) jitter.
End Product.

(* sde_kernel.py:808-822 Product.generate_emission_model for children with o outputs: the Kronecker
   product has o rows per child multiplied together; None: the shape assertion fails *)
Definition prod_rows o (ks : seq (child o)) : nat := \prod_(k <- ks) o.
(* sde_kernel.py:808-822, the columns *)
Definition prod_cols o (ks : seq (child o)) : nat := \prod_(k <- ks) projT1 k.
(* sde_kernel.py:808-822, the shape and its assertion *)
Definition product_emission_shape o (ks : seq (child o)) : option (nat * nat) :=
  let shape := (prod_rows ks, prod_cols ks) in
  if shape == (o, prod_cols ks) then Some shape else None.

(* ---------- StackKernel, sde_kernel.py:945-1201, IndependentMultiOutputStack 1205-1276:
   the member for one child, padded by e states ---------- *)

(* utils.py:117-136 *)
Definition augment_square_matrix d e (fill_zeros : bool) (M : 'M[F]_d) : 'M[F]_(d + e) :=
  block_mx M 0 0 (if fill_zeros then 0 else 1%:M).

(* utils.py:139-156 *)
Definition augment_matrix m d e (M : 'M[F]_(m, d)) : 'M[F]_(m, d + e) := row_mx M 0.

(* sde_kernel.py, StackKernel: state_transitions 1036-1078 (zeros), feedback_matrix 1139-1157 (identity),
   steady_state_covariance 1159-1182 (identity), state_offsets 1100-1137 (those of the
   child), initial_mean 1080-1097 (that of the stack itself), emission 1228-1257 *)
Definition stack_kernel d e (k : skernel 1 d) (own_mean : 'cV[F]_(d + e)) jitter : skernel 1 (d + e) :=
  SKernel (fun dt => augment_square_matrix e true (sk_A k dt)) (augment_square_matrix e false (sk_F k))
    (augment_square_matrix e false (sk_P k)) (fun t => augment_matrix e (sk_H k t))
    own_mean (fun dt => col_mx (sk_off k dt) 0) jitter.

End Comb.
