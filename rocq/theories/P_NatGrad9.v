(* Proofs for natural gradients, part 9: the steps on a sparse variational model are the updates
   of sparse CVI. *)
From Coq Require Import Reals Lra FunctionalExtensionality.
From Coquelicot Require Import Derive_2d.
From mathcomp Require Import all_ssreflect all_algebra.
From Verif Require Import RealStruct Log Nat Alg Lin Ent Spd MCalc MCont M_Block S_Block P_Block P_Block2
  M_SSM S_SSM P_SSM M_SSMLog S_Gauss P_Gauss P_SSMLog M_Trans S_Trans P_Trans P_TransLog P_Elbo
  S_Kalman M_Kalman P_Kalman M_Kernel S_Kernel P_Kernel M_Cond P_Cond P_Cond2 P_Cond3 P_Cond4 M_Emission P_Emission M_Sort P_Sort M_Models S_GP P_Models P_Models2
  M_Cvi S_Cvi P_Cvi P_Cvi3 M_NatGrad S_NatGrad P_NatGrad P_NatGrad2 P_NatGrad3 P_NatGrad4 P_NatGrad5 P_NatGrad6 P_SparseDense P_PredSpd P_PredSpd2.
Set Implicit Arguments.
Unset Strict Implicit.
Unset Printing Implicit Defensive.
Import Order.Theory GRing.Theory Num.Theory.
Local Open Scope ring_scope.

Section Trip.
Variables (d n : nat).
Implicit Types (s : pair_sites d) (delta : triple Rr d).

(* pair sites as a triple of natural parameters *)
Definition trip s : triple Rr d :=
  Triple (fun k => usubmx (ps_nat1 s k.+1) + dsubmx (ps_nat1 s k))
         (fun k => ulsubmx (ps_nat2 s k.+1) + drsubmx (ps_nat2 s k))
         (fun k => 2%:R *: dlsubmx (ps_nat2 s k.+1)).

Lemma trip_exponent s u : (forall m, (m <= n.+1)%N -> (ps_nat2 s m)^T = ps_nat2 s m) ->
  nat_exponent n (trip s) u = pairs_exponent n s u.
Proof. by move=> Hs; rewrite (pairs_exponentE Hs) addrA. Qed.

Definition quad_part (t : triple Rr d) (u : nat -> 'cV[R]_d) : R :=
  \sum_(k < n.+1) qf (t_diag t k) (u k) + \sum_(k < n) ((u k.+1)^T *m t_sub t k *m u k) 0 0.
End Trip.

Section Cols.
Variables (F : rcfType) (d e : nat).

Lemma form_diag (A B : 'M[F]_(d, e)) (E : 'M[F]_d) c : (B^T *m E^T *m A) c c = ((col c A)^T *m E *m col c B) 0 0.
Proof.
have -> : (B^T *m E^T *m A) c c = ((col c B)^T *m E^T *m col c A) 0 0.
  rewrite !mxE; apply: eq_bigr => j _; rewrite !mxE; congr (_ * _).
  by apply: eq_bigr => i _; rewrite !mxE.
rewrite -[in LHS](trmxK ((col c B)^T *m E^T *m col c A)) [LHS]mxE.
by rewrite !trmx_mul !trmxK mulmxA.
Qed.

Lemma tr_form (A B : 'M[F]_(d, e)) (E : 'M[F]_d) : \tr (E^T *m (A *m B^T)) = \sum_c ((col c A)^T *m E *m col c B) 0 0.
Proof. by rewrite mulmxA mxtrace_mulC mulmxA /mxtrace; apply: eq_bigr => c _; exact: form_diag. Qed.

Lemma tr_rank1 (a b : 'cV[F]_d) (E : 'M[F]_d) : \tr (E^T *m (a *m b^T)) = (a^T *m E *m b) 0 0.
Proof.
rewrite mulmxA mxtrace_mulC mulmxA /mxtrace big_ord1.
by rewrite -[in LHS](trmxK (b^T *m E^T *m a)) [LHS]mxE !trmx_mul !trmxK mulmxA.
Qed.

Lemma sum_sq_cols n (w : 'M[F]_(1, n.+1 * d)) (A : nat -> 'M[F]_(d, e)) :
  (w *m (bcol n.+1 A *m (bcol n.+1 A)^T) *m w^T) 0 0 = \sum_c (w *m flat n.+1 (fun k => col c (A k))) 0 0 ^+ 2.
Proof.
rewrite mulmxA -mulmxA -trmx_mul mxE; apply: eq_bigr => c _; rewrite [X in _ * X]mxE expr2.
suff -> : (w *m bcol n.+1 A) 0 c = (w *m flat n.+1 (fun k => col c (A k))) 0 0 by [].
have -> : flat n.+1 (fun k => col c (A k)) = col c (bcol n.+1 A).
  by rewrite colE mul_bcol_mx; apply: eq_bcol => k _; rewrite colE.
by rewrite colE mulmxA -colE [RHS]mxE.
Qed.

Lemma dense_cols_sq n (K : nat -> nat -> 'M[F]_d) (A : nat -> 'M[F]_(d, e)) :
  (forall i j, (i < n)%N -> (j < n)%N -> K i j = A i *m (A j)^T) -> dense n n K = bcol n A *m (bcol n A)^T.
Proof.
move=> H; rewrite tr_bcol mul_bcol_mx /dense; apply: eq_bcol => i Hi.
by rewrite mul_mx_brow; apply: eq_brow => j Hj; exact: H.
Qed.
End Cols.

Section GenMoments.
Variables (F : rcfType) (d n e : nat) (l m : nat -> 'cV[F]_d) (D S : nat -> 'M[F]_d) (K : nat -> nat -> 'M[F]_d) (A : nat -> 'M[F]_(d, e)).
Variables (e1 : nat -> 'cV[F]_d) (e2 e3 : nat -> 'M[F]_d).
Hypothesis E1 : forall k, (k <= n)%N -> e1 k = m k.
Hypothesis E2 : forall k, (k <= n)%N -> e2 k = K k k + m k *m (m k)^T.
Hypothesis E3 : forall k, (k < n)%N -> e3 k = K k.+1 k + m k.+1 *m (m k)^T.
Hypothesis HK : forall i j, (i < n.+1)%N -> (j < n.+1)%N -> K i j = A i *m (A j)^T.

Lemma gen_moments :
  \sum_(k < n.+1) ((l k)^T *m e1 k) 0 0 + \sum_(k < n.+1) \tr ((D k)^T *m e2 k) + \sum_(k < n) \tr ((S k)^T *m e3 k) =
  \sum_(k < n.+1) ((l k)^T *m m k) 0 0 + \sum_(k < n.+1) qf (D k) (m k) + \sum_(k < n) ((m k.+1)^T *m S k *m m k) 0 0 +
  \sum_c (\sum_(k < n.+1) qf (D k) (col c (A k)) + \sum_(k < n) ((col c (A k.+1))^T *m S k *m col c (A k)) 0 0).
Proof.
have D1 : \sum_(k < n.+1) ((l k)^T *m e1 k) 0 0 = \sum_(k < n.+1) ((l k)^T *m m k) 0 0.
  by apply: eq_bigr => k _; rewrite E1 // -ltnS.
have D2 : \sum_(k < n.+1) \tr ((D k)^T *m e2 k) =
    \sum_(k < n.+1) qf (D k) (m k) + \sum_c \sum_(k < n.+1) qf (D k) (col c (A k)).
  rewrite [X in _ = _ + X]exchange_big -[RHS]big_split; apply: eq_bigr => k _.
  rewrite E2; last by rewrite -ltnS.
  by rewrite HK // mulmxDr mxtraceD tr_form tr_rank1 addrC.
have D3 : \sum_(k < n) \tr ((S k)^T *m e3 k) =
    \sum_(k < n) ((m k.+1)^T *m S k *m m k) 0 0 + \sum_c \sum_(k < n) ((col c (A k.+1))^T *m S k *m col c (A k)) 0 0.
  rewrite [X in _ = _ + X]exchange_big -[RHS]big_split; apply: eq_bigr => k _; have Hk := ltn_ord k.
  have Hk' := ltnW Hk : (k < n.+1)%N; have Hk1 : (k.+1 < n.+1)%N by [].
  by rewrite E3 // (HK Hk1 Hk') mulmxDr mxtraceD tr_form tr_rank1 addrC.
rewrite D1 D2 D3 [X in _ = _ + X]big_split /=.
have key (a b c x y : F) : a + (b + x) + (c + y) = a + b + c + (x + y) by zmod.
exact: key.
Qed.
End GenMoments.

Section Moments.
Variables (d n e : nat).
Implicit Types (t : triple Rr d).

Lemma tdot_moments t q m K (A : nat -> 'M[R]_(d, e)) : ssm_nonsing n q -> has_law n.+1 n.+1 (ssm_path q) m K ->
  (forall i j, (i < n.+1)%N -> (j < n.+1)%N -> K i j = A i *m (A j)^T) ->
  tdot n t (ssm_to_expectations n q) = nat_exponent n t m + \sum_c quad_part n t (fun k => col c (A k)).
Proof.
move=> Nq L HK; have [E1 E2 E3] := expectations_law Nq L.
exact: (@gen_moments Rr d n e (t_lin t) m (t_diag t) (t_sub t) K A _ _ _ E1 E2 E3 HK).
Qed.

Lemma cov_factor (q : ssm Rr d) : exists (e' : nat) (A : nat -> 'M[R]_(d, e')),
  forall i j, (i < n.+1)%N -> (j < n.+1)%N -> ssm_cov q i j = A i *m (A j)^T.
Proof.
have [G [_ HK]] := ssm_has_law n q; exists (n.+1 * d)%N, (fun i => brow n.+1 (G i)) => i j Hi Hj.
by rewrite HK // tr_brow mul_brow_bcol.
Qed.
End Moments.

Section GenLin.
Variables (F : comRingType) (d : nat) (a b : F).
Lemma usub_lin (x y : 'cV[F]_(d + d)) : usubmx (a *: x + b *: y) = a *: usubmx x + b *: usubmx y.
Proof. by apply/matrixP => i j; rewrite !mxE. Qed.
Lemma dsub_lin (x y : 'cV[F]_(d + d)) : dsubmx (a *: x + b *: y) = a *: dsubmx x + b *: dsubmx y.
Proof. by apply/matrixP => i j; rewrite !mxE. Qed.
Lemma ulsub_lin (x y : 'M[F]_(d + d)) : ulsubmx (a *: x + b *: y) = a *: ulsubmx x + b *: ulsubmx y.
Proof. by apply/matrixP => i j; rewrite !mxE. Qed.
Lemma drsub_lin (x y : 'M[F]_(d + d)) : drsubmx (a *: x + b *: y) = a *: drsubmx x + b *: drsubmx y.
Proof. by apply/matrixP => i j; rewrite !mxE. Qed.
Lemma dlsub_lin (x y : 'M[F]_(d + d)) : dlsubmx (a *: x + b *: y) = a *: dlsubmx x + b *: dlsubmx y.
Proof. by apply/matrixP => i j; rewrite !mxE. Qed.
Lemma lin4 p q (x y u v : 'M[F]_(p, q)) : (a *: x + b *: y) + (a *: u + b *: v) = a *: (x + u) + b *: (y + v).
Proof. by rewrite !scalerDr addrACA. Qed.
Lemma lin2 p q (c : F) (x y : 'M[F]_(p, q)) : c *: (a *: x + b *: y) = a *: (c *: x) + b *: (c *: y).
Proof. by rewrite scalerDr !scalerA mulrC [c * b]mulrC. Qed.
End GenLin.

Section Lin.
Variables (d n : nat).
Implicit Types (s : pair_sites d).
Definition ps_lin (a : R) s (b : R) s' : pair_sites d :=
  PairSites (fun m => a *: ps_nat1 s m + b *: ps_nat1 s' m) (fun m => a *: ps_nat2 s m + b *: ps_nat2 s' m).

Lemma trip_lin a s b s' : same_triple n (trip (ps_lin a s b s')) (triple_lincomb a (trip s) b (trip s')).
Proof.
split=> k _.
- change (usubmx (a *: ps_nat1 s k.+1 + b *: ps_nat1 s' k.+1) + dsubmx (a *: ps_nat1 s k + b *: ps_nat1 s' k) =
    a *: (usubmx (ps_nat1 s k.+1) + dsubmx (ps_nat1 s k)) + b *: (usubmx (ps_nat1 s' k.+1) + dsubmx (ps_nat1 s' k))).
  by rewrite usub_lin dsub_lin lin4.
- change (ulsubmx (a *: ps_nat2 s k.+1 + b *: ps_nat2 s' k.+1) + drsubmx (a *: ps_nat2 s k + b *: ps_nat2 s' k) =
    a *: (ulsubmx (ps_nat2 s k.+1) + drsubmx (ps_nat2 s k)) + b *: (ulsubmx (ps_nat2 s' k.+1) + drsubmx (ps_nat2 s' k))).
  by rewrite ulsub_lin drsub_lin lin4.
- change (2%:R *: dlsubmx (a *: ps_nat2 s k.+1 + b *: ps_nat2 s' k.+1) =
    a *: (2%:R *: dlsubmx (ps_nat2 s k.+1)) + b *: (2%:R *: dlsubmx (ps_nat2 s' k.+1))).
  by rewrite dlsub_lin lin2.
Qed.

Lemma trip_same s s' : (forall m, (m <= n.+1)%N -> ps_nat1 s m = ps_nat1 s' m) ->
  (forall m, (m <= n.+1)%N -> ps_nat2 s m = ps_nat2 s' m) -> same_triple n (trip s) (trip s').
Proof.
move=> H1 H2; split=> k Hk.
- have -> : t_lin (trip s) k = usubmx (ps_nat1 s k.+1) + dsubmx (ps_nat1 s k) by [].
  by rewrite (H1 k.+1) ?(H1 k) // ltnW // ltnS ltnS.
- have -> : t_diag (trip s) k = ulsubmx (ps_nat2 s k.+1) + drsubmx (ps_nat2 s k) by [].
  by rewrite (H2 k.+1) ?(H2 k) // ltnW // ltnS ltnS.
- have -> : t_sub (trip s) k = 2%:R *: dlsubmx (ps_nat2 s k.+1) by [].
  by rewrite (H2 k.+1) // ltnS ltnW.
Qed.
End Lin.
