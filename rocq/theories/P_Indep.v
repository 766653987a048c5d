(* Regression with independent outputs: the joint model is one model per output. *)
From Coq Require Import Reals.
From mathcomp Require Import all_ssreflect all_algebra.
From Verif Require Import RealStruct Nat Alg Lin Ent Spd Log M_Block S_Block P_Block M_SSM S_SSM P_SSM M_SSMLog P_SSMLog S_Gauss
  P_Gauss S_Kalman M_Kalman P_Kalman P_KalmanLog M_Kernel S_Kernel M_Cond M_Emission M_Sort M_Models S_GP P_Models P_Models2
  P_Models3 M_Comb S_Comb P_Kron P_Comb P_Comb2 P_Comb3.
Set Implicit Arguments.
Unset Strict Implicit.
Unset Printing Implicit Defensive.
Import GRing.Theory Num.Theory Order.TTheory.
Local Open Scope ring_scope.

Section Pick.
Variable F : rcfType.

Lemma det_orth_cast a b (e : a = b) (E : 'M[F]_(a, b)) (M : 'M[F]_a) : E^T *m E = 1%:M ->
  \det (E^T *m M *m E) = \det M.
Proof.
case: b / e E => E H; rewrite !det_mulmx mulrAC mulrC.
by rewrite -[X in _ * X]det_mulmx H det1 mulr1.
Qed.

Lemma lownz_rdiag c o (L : nat -> 'M[F]_o) : (forall a, (a < c)%N -> lownz (L a)) -> lownz (dense c c (rdiag L)).
Proof.
elim: c L => [|c IH] L H; first by split; [apply/is_trig_mxP => -[]|case].
have Hl := IH (fun a => L a.+1) (fun a Ha => H a.+1 Ha).
have -> : dense c.+1 c.+1 (rdiag L) = block_mx (L 0%N) 0 0 (dense c c (rdiag (fun a => L a.+1))).
  rewrite dense_recl; congr block_mx.
  - by rewrite -[RHS](@brow0 F o o c); apply: eq_brow.
  - by rewrite -[RHS](@bcol0 F o o c); apply: eq_bcol.
have [T0 N0] := H 0%N isT; have [T1 N1] := Hl; split.
  apply/is_trig_mxP => i j; rewrite -(splitK i) -(splitK j).
  case: (split i) => i'; case: (split j) => j' /= Hij.
  - by rewrite block_mxEul; apply: (is_trig_mxP T0).
  - by rewrite block_mxEur mxE.
  - by rewrite block_mxEdl mxE.
  - by rewrite block_mxEdr; apply: (is_trig_mxP T1); rewrite -(ltn_add2l o).
by move=> i; rewrite -(splitK i); case: (split i) => i' /=; rewrite ?block_mxEul ?block_mxEdr.
Qed.

Variables (c o N : nat).

Definition pick (a : nat) : 'M[F]_(o, c * o) := brow c (fun b => if b == a then 1%:M else 0).

Lemma pick_unflat a p (x : 'M[F]_(c * o, p)) : (a < c)%N -> pick a *m x = unflat x a.
Proof.
move=> Ha; rewrite -{1}(bcol_unflat x) mul_brow_bcol.
rewrite (@sum_ord_at c _ (fun k => (if k == a then 1%:M else 0) *m unflat x k) a) // ?eqxx ?mul1mx //.
by move=> k _ /negbTE ->; rewrite mul0mx.
Qed.

Lemma pick_tr (a : nat) : (pick a)^T = bcol c (fun b => if b == a then 1%:M else 0).
Proof. by rewrite tr_brow; apply: eq_bcol => b _; case: eqP => _; rewrite ?trmx1 ?trmx0. Qed.

Lemma pick_mul a b : (a < c)%N -> (b < c)%N -> pick a *m (pick b)^T = if a == b then 1%:M else 0.
Proof. by move=> Ha Hb; rewrite pick_unflat // pick_tr unflat_bcol. Qed.

(* stacking one block per output *)
Lemma pick_sum (D : nat -> 'M[F]_o) : \sum_(a < c) (pick a)^T *m D a *m pick a = dense c c (rdiag D).
Proof.
have E (a : 'I_c) : (pick a)^T *m D a *m pick a = dense c c (fun b b' => if b == a then (if b' == a then D a else 0) else 0).
  rewrite pick_tr mul_bcol_mx mul_bcol_mx; apply: eq_bcol => b Hb.
  rewrite mul_mx_brow; apply: eq_brow => b' Hb'.
  by case: eqP => _; case: eqP => _; rewrite ?mul0mx ?mul1mx ?mulmx1 ?mulmx0.
rewrite (eq_bigr _ (fun a _ => E a)) => {E}.
have S m (f : nat -> nat -> nat -> 'M[F]_o) : \sum_(a < m) dense c c (f a) = dense c c (fun b b' => \sum_(a < m) f a b b').
  elim: m => [|m IH]; first by rewrite big_ord0 -(@dense0 F o o c c); apply: eq_dense => i j _ _; rewrite big_ord0.
  by rewrite big_ord_recr /= IH denseD; apply: eq_dense => i j _ _; rewrite big_ord_recr.
rewrite (S c (fun a b b' => if b == a then (if b' == a then D a else 0) else 0)); apply: eq_dense => b b' Hb Hb'.
rewrite (@sum_ord_at c _ (fun a => if b == a then (if b' == a then D a else 0) else 0) b) //.
  by rewrite eqxx /rdiag eq_sym.
by move=> a _; rewrite eq_sym => /negbTE ->.
Qed.

Definition U (a : nat) : 'M[F]_(N * o, N * (c * o)) := dense N N (rdiag (fun _ => pick a)).

Lemma U_flat a (y : nat -> 'cV[F]_(c * o)) : (a < c)%N -> U a *m flat N y = flat N (fun i => unflat (y i) a).
Proof. by move=> Ha; rewrite rdiag_flat; apply: eq_flat => i _; rewrite pick_unflat. Qed.

Lemma U_mul a b : (a < c)%N -> (b < c)%N -> U a *m (U b)^T = if a == b then 1%:M else 0.
Proof.
move=> Ha Hb; rewrite /U rdiag_tr rdiag_mul (pick_mul Ha Hb); case: eqP => _.
  by rewrite -dense1; apply: eq_dense.
by rewrite -(@dense0 F o o N N); apply: eq_dense => i j _ _; rewrite /rdiag; case: ifP.
Qed.

(* one covariance per output, and the joint covariance over the times *)
Definition joint (K : nat -> nat -> nat -> 'M[F]_o) : 'M[F]_(N * (c * o)) :=
  dense N N (fun i j => dense c c (rdiag (fun a => K a i j))).

Lemma dense_sum d e M P m (f : nat -> nat -> nat -> 'M[F]_(d, e)) :
  \sum_(a < m) dense M P (f a) = dense M P (fun b b' => \sum_(a < m) f a b b').
Proof.
elim: m => [|m IH]; first by rewrite big_ord0 -(@dense0 F d e M P); apply: eq_dense => i j _ _; rewrite big_ord0.
by rewrite big_ord_recr /= IH denseD; apply: eq_dense => i j _ _; rewrite big_ord_recr.
Qed.

Lemma jointE K : joint K = \sum_(a < c) (U a)^T *m dense N N (K a) *m U a.
Proof.
have E (a : 'I_c) : (U a)^T *m dense N N (K a) *m U a = dense N N (fun i j => (pick a)^T *m K a i j *m pick a).
  have -> : U a = (dense N N (rdiag (fun _ => (pick a)^T)))^T.
    by rewrite rdiag_tr; apply: eq_dense => i j _ _; rewrite /rdiag trmxK.
  by rewrite trmxK rdiag_sandwich; apply: eq_dense => i j _ _; rewrite trmxK.
rewrite (eq_bigr _ (fun a _ => E a)) (dense_sum N N c (fun a i j => (pick a)^T *m K a i j *m pick a)).
by apply: eq_dense => i j _ _; rewrite -pick_sum.
Qed.

Lemma U_sum : \sum_(a < c) (U a)^T *m U a = 1%:M.
Proof.
have := jointE (fun _ => bdiag (fun _ => 1%:M)) => E.
transitivity (\sum_(a < c) (U a)^T *m dense N N (bdiag (fun _ => 1%:M)) *m U a).
  by apply: eq_bigr => a _; rewrite dense1 mulmx1.
rewrite -E /joint -(dense1 F (c * o) N); apply: eq_dense => i j _ _.
rewrite /bdiag; case: eqP => _; first by rewrite -(dense1 F o c); apply: eq_dense.
by rewrite -(@dense0 F o o c c); apply: eq_dense => a b _ _; rewrite /rdiag; case: ifP.
Qed.

Lemma joint_mul p (V W : nat -> 'M[F]_(N * o)) (X : nat -> 'M[F]_(p, N * o)) :
  (\sum_(a < c) X a *m V a *m U a) *m (\sum_(a < c) (U a)^T *m W a *m U a) = \sum_(a < c) X a *m (V a *m W a) *m U a.
Proof.
rewrite mulmx_suml; apply: eq_bigr => a _; rewrite mulmx_sumr.
rewrite (bigD1 a) //= big1 ?addr0.
  rewrite !mulmxA -(mulmxA (X a *m V a)) (U_mul (ltn_ord a) (ltn_ord a)) eqxx mulmx1 //.
move=> b Hb; rewrite !mulmxA -(mulmxA (X a *m V a)) (U_mul (ltn_ord a) (ltn_ord b)).
rewrite (_ : (a == b :> nat) = false) ?mulmx0 ?mul0mx //.
by apply/negbTE; rewrite eq_sym.
Qed.

Lemma joint_inv K : (forall a, (a < c)%N -> dense N N (K a) \in unitmx) ->
  invmx (joint K) = \sum_(a < c) (U a)^T *m invmx (dense N N (K a)) *m U a.
Proof.
move=> H; apply: mulmx1_inv; rewrite jointE.
rewrite (joint_mul (fun a => dense N N (K a)) (fun a => invmx (dense N N (K a))) (fun a => (U a)^T)) -U_sum.
by apply: eq_bigr => a _; rewrite mulmxV ?H // mulmx1.
Qed.

Lemma joint_det K : \det (joint K) = \det (dense c c (rdiag (fun a => dense N N (K a)))).
Proof.
pose E : 'M[F]_(c * (N * o), N * (c * o)) := bcol c U.
have HE : E^T *m E = 1%:M by rewrite tr_bcol mul_brow_bcol -U_sum.
have e : (c * (N * o))%N = (N * (c * o))%N by rewrite !mulnA (mulnC c).
rewrite -(det_orth_cast e (E := E)) // /E.
congr (\det _); rewrite jointE tr_bcol -mulmxA mul_dense_bcol mul_brow_bcol.
apply: eq_bigr => a _; rewrite -mulmxA; congr (_ *m _).
by rewrite (sum_rdiag_l (fun a => dense N N (K a)) U (ltn_ord a)).
Qed.

Lemma joint_qf (W : nat -> 'M[F]_(N * o)) x :
  qf (\sum_(a < c) (U a)^T *m W a *m U a) x = \sum_(a < c) qf (W a) (U a *m x).
Proof.
rewrite /qf mulmx_sumr mulmx_suml mxsumE; apply: eq_bigr => a _.
by rewrite trmx_mul !mulmxA.
Qed.

(* a covariance between one time and all times *)
Lemma cross (K : nat -> nat -> 'M[F]_o) :
  brow N (fun j => dense c c (rdiag (fun a => K a j))) = \sum_(a < c) (pick a)^T *m brow N (K a) *m U a.
Proof.
have E (a : 'I_c) : (pick a)^T *m brow N (K a) *m U a = brow N (fun j => (pick a)^T *m K a j *m pick a).
  apply: trmx_inj; rewrite 2!trmx_mul rdiag_tr (tr_brow N (K a)) trmxK (tr_brow N (fun j => (pick a)^T *m K a j *m pick a)).
  rewrite (mul_bcol_mx N (pick a) (fun k => (K a k)^T)) mul_dense_bcol; apply: eq_bcol => i Hi.
  rewrite (sum_rdiag_l (fun _ => (pick a)^T) (fun k => (K a k)^T *m pick a) Hi).
  by rewrite !trmx_mul trmxK.
rewrite (eq_bigr _ (fun a _ => E a)).
have S m (f : nat -> nat -> 'M[F]_(c * o)) : \sum_(a < m) brow N (f a) = brow N (fun j => \sum_(a < m) f a j).
  elim: m => [|m IH]; first by rewrite big_ord0 -(@brow0 F (c * o) (c * o) N); apply: eq_brow => j _; rewrite big_ord0.
  by rewrite big_ord_recr /= IH browD; apply: eq_brow => j _; rewrite big_ord_recr.
rewrite (S c (fun a j => (pick a)^T *m K a j *m pick a)); apply: eq_brow => j _.
by rewrite -pick_sum.
Qed.

(* the formulas of conditioning, output by output *)
Lemma joint_mean (Kt : nat -> nat -> 'M[F]_o) (W : nat -> 'M[F]_(N * o)) (x : 'cV[F]_(N * (c * o))) b : (b < c)%N ->
  pick b *m ((\sum_(a < c) (pick a)^T *m brow N (Kt a) *m U a) *m (\sum_(a < c) (U a)^T *m W a *m U a) *m x) =
  brow N (Kt b) *m W b *m (U b *m x).
Proof.
move=> Hb.
have -> : \sum_(a < c) (pick a)^T *m brow N (Kt a) *m U a = \sum_(a < c) ((pick a)^T *m brow N (Kt a)) *m 1%:M *m U a.
  by apply: eq_bigr => a _; rewrite mulmx1.
rewrite (joint_mul (fun _ => 1%:M) W (fun a => (pick a)^T *m brow N (Kt a))) mulmx_suml mulmx_sumr.
rewrite (@sum_ord_at c _ (fun a => pick b *m ((pick a)^T *m brow N (Kt a) *m (1%:M *m W a) *m U a *m x)) b) //.
  by rewrite !mulmxA (pick_mul Hb Hb) eqxx mul1mx mulmx1.
move=> a Ha; rewrite eq_sym => /negbTE E.
by rewrite !mulmxA (pick_mul Hb Ha) E !mul0mx.
Qed.

Lemma joint_cov (Kt : nat -> nat -> 'M[F]_o) (K0 : nat -> 'M[F]_o) (W : nat -> 'M[F]_(N * o)) :
  let Kj := \sum_(a < c) (pick a)^T *m brow N (Kt a) *m U a in
  dense c c (rdiag K0) - Kj *m (\sum_(a < c) (U a)^T *m W a *m U a) *m Kj^T =
  dense c c (rdiag (fun a => K0 a - brow N (Kt a) *m W a *m (brow N (Kt a))^T)).
Proof.
move=> Kj.
have E1 : Kj *m (\sum_(a < c) (U a)^T *m W a *m U a) = \sum_(a < c) (pick a)^T *m brow N (Kt a) *m W a *m U a.
  have -> : Kj = \sum_(a < c) ((pick a)^T *m brow N (Kt a)) *m 1%:M *m U a by apply: eq_bigr => a _; rewrite mulmx1.
  rewrite (joint_mul (fun _ => 1%:M) W (fun a => (pick a)^T *m brow N (Kt a))).
  by apply: eq_bigr => a _; rewrite mul1mx.
have E2 : Kj^T = \sum_(a < c) (U a)^T *m (brow N (Kt a))^T *m pick a.
  by rewrite /Kj raddf_sum; apply: eq_bigr => a _; rewrite /= !trmx_mul trmxK mulmxA.
rewrite E1 E2 -!pick_sum mulmx_suml -sumrB; apply: eq_bigr => a _.
rewrite mulmx_sumr (@sum_ord_at c _ (fun b => (pick a)^T *m brow N (Kt a) *m W a *m U a *m ((U b)^T *m (brow N (Kt b))^T *m pick b)) a) //.
  by rewrite !mulmxA -(mulmxA _ (U a)) (U_mul (ltn_ord a) (ltn_ord a)) eqxx mulmx1 mulmxBr mulmxBl !mulmxA.
move=> b Hb; rewrite eq_sym => /negbTE E.
by rewrite !mulmxA -(mulmxA _ (U a)) (U_mul (ltn_ord a) Hb) E mulmx0 !mul0mx.
Qed.
End Pick.
