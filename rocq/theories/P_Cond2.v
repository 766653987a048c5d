(* Proofs about state prediction: inserting a time point and conditioning. *)
From mathcomp Require Import all_ssreflect all_algebra.
From Verif Require Import Nat Alg Lin Ent Spd M_Block S_Block P_Block P_Block2 M_SSM S_SSM P_SSM
  S_Kalman M_Kalman P_Kalman P_Trans M_Kernel S_Kernel P_Kernel M_Cond P_Cond.
Set Implicit Arguments.
Unset Strict Implicit.
Unset Printing Implicit Defensive.
Import GRing.Theory Num.Theory Order.TTheory.
Local Open Scope ring_scope.

Section Pick.
Variable R : ringType.
Lemma sum_pick d e N (X : 'M[R]_(e, d)) p (c : nat -> 'M[R]_(d, p)) a : (a < N)%N ->
  \sum_(l < N) (if val l == a then X else 0) *m c l = X *m c a.
Proof.
move=> Ha; rewrite (bigD1 (Ordinal Ha)) //= eqxx big1 ?addr0 // => i Hi.
by case: eqP => [E|_]; [case/eqP: Hi; apply: val_inj|rewrite mul0mx].
Qed.
End Pick.

Section Insert.
Variable F : rcfType.
Variables (d n k : nat).
Hypothesis Hk : (k < n)%N.

Definition skip i := if (i <= k)%N then i else i.+1.
Definition unskip i := if (i <= k)%N then i else i.-1.
Lemma unskipK i : i != k.+1 -> skip (unskip i) = i.
Proof. by rewrite /skip /unskip; case: (leqP i k) => H H'; [rewrite H|case: leqP => H2; lia]. Qed.
Lemma skipK i : unskip (skip i) = i.
Proof. by rewrite /skip /unskip; case: (leqP i k) => H; [rewrite H|case: leqP => H2; lia]. Qed.
Lemma skip_lt i : (i < n.+1)%N -> (skip i < n.+2)%N.
Proof. by rewrite /skip; case: (leqP i k); lia. Qed.
Lemma unskip_lt i : (i < n.+2)%N -> (unskip i < n.+1)%N.
Proof. by rewrite /unskip; case: (leqP i k); lia. Qed.
Lemma skip_neq i : (skip i == k.+1) = false.
Proof. by rewrite /skip; case: (leqP i k); lia. Qed.
Lemma skip_k : skip k = k. Proof. by rewrite /skip leqnn. Qed.
Lemma skip_k1 : skip k.+1 = k.+2. Proof. by rewrite /skip ltnn. Qed.

Variables (D E T : 'M[F]_d) (Kp : nat -> nat -> 'M[F]_d).
Hypothesis Ksym : forall i j, (i < n.+2)%N -> (j < n.+2)%N -> (Kp i j)^T = Kp j i.
Hypothesis Kres : forall j, (j < n.+2)%N -> j != k.+1 -> Kp k.+1 j = D *m Kp k j + E *m Kp k.+2 j.
Hypothesis KT : Kp k.+1 k.+1 = D *m Kp k k.+1 + E *m Kp k.+2 k.+1 + T.

Hypothesis Tsym : T^T = T.

Let K i j := Kp (skip i) (skip j).
Let Pm : 'M[F]_(n.+1 * d, n.+2 * d) := dense n.+1 n.+2 (@skip_blocks F d k).
Definition Jb i l : 'M[F]_d := if i == k.+1 then (if l == k then D else 0) + (if l == k.+1 then E else 0)
  else if l == unskip i then 1%:M else 0.
Let J : 'M[F]_(n.+2 * d, n.+1 * d) := dense n.+2 n.+1 Jb.

Lemma Jrow p (c : nat -> 'M[F]_(d, p)) : \sum_(l < n.+1) Jb k.+1 l *m c l = D *m c k + E *m c k.+1.
Proof.
rewrite /Jb eqxx; transitivity (\sum_(l < n.+1) ((if val l == k then D else 0) *m c l +
   (if val l == k.+1 then E else 0) *m c l)).
  by apply: eq_bigr => l _; rewrite mulmxDl.
by rewrite big_split /= sum_pick ?sum_pick //; lia.
Qed.

Lemma PmC p (c : nat -> 'M[F]_(d, p)) : Pm *m bcol n.+2 c = bcol n.+1 (fun i => c (skip i)).
Proof.
rewrite /Pm mul_dense_bcol; apply: eq_bcol => i Hi.
by rewrite (sum_pick _ c (skip_lt Hi)) mul1mx.
Qed.

Lemma JC p (c : nat -> 'M[F]_(d, p)) : J *m bcol n.+1 c =
  bcol n.+2 (fun i => if i == k.+1 then D *m c k + E *m c k.+1 else c (unskip i)).
Proof.
rewrite /J mul_dense_bcol; apply: eq_bcol => i Hi.
case: (eqVneq i k.+1) => [->|Hik]; first exact: Jrow.
have -> : \sum_(l < n.+1) Jb i l *m c l = \sum_(l < n.+1) (if val l == unskip i then 1%:M else 0) *m c l.
  by apply: eq_bigr => l _; rewrite /Jb (negbTE Hik).
by rewrite (sum_pick _ c (unskip_lt Hi)) mul1mx.
Qed.

Let Kd := dense n.+2 n.+2 Kp.
Lemma Kd_sym : Kd^T = Kd.
Proof. by rewrite /Kd tr_dense; apply: eq_dense => i j Hi Hj; rewrite Ksym. Qed.

Lemma PmK : Pm *m Kd = dense n.+1 n.+2 (fun i j => Kp (skip i) j).
Proof. by rewrite /Kd /dense PmC. Qed.

Lemma KPm : Kd *m Pm^T = dense n.+2 n.+1 (fun i j => Kp i (skip j)).
Proof.
rewrite -{1}Kd_sym -trmx_mul PmK tr_dense; apply: eq_dense => i j Hi Hj.
by rewrite Ksym // skip_lt.
Qed.

Lemma JK : Kd *m Pm^T = J *m dense n.+1 n.+1 K.
Proof.
rewrite KPm {1 2}/dense JC; apply: eq_bcol => i Hi.
case: (eqVneq i k.+1) => [->|Hik].
  rewrite !mul_mx_brow browD; apply: eq_brow => j Hj.
  by rewrite /K skip_k skip_k1 Kres ?skip_lt // skip_neq.
by apply: eq_brow => j Hj; rewrite /K unskipK.
Qed.

Lemma PKP : Pm *m Kd *m Pm^T = dense n.+1 n.+1 K.
Proof. by rewrite -mulmxA KPm {1}/dense PmC. Qed.

Definition Te : 'M[F]_(n.+2 * d) := dense n.+2 n.+2 (fun i j => if (i == k.+1) && (j == k.+1) then T else 0).

Lemma Kd_split : Kd = J *m dense n.+1 n.+1 K *m J^T + Te.
Proof.
have ETe : Te^T = Te.
  rewrite /Te tr_dense; apply: eq_dense => i j Hi Hj; rewrite andbC.
  by case: ifP => // _; rewrite trmx0.
have E1 : J *m dense n.+1 n.+1 K *m J^T = (J *m (Pm *m Kd))^T.
  by rewrite -JK -mulmxA -trmx_mul -[in LHS]Kd_sym -trmx_mul mulmxA.
rewrite E1 -ETe -trmxD -[LHS]Kd_sym; congr (_^T).
rewrite PmK /Te /Kd /dense JC bcolD; apply: eq_bcol => i Hi.
case: (eqVneq i k.+1) => [->|Hik]; last by rewrite unskipK // brow0 addr0.
rewrite skip_k skip_k1 !mul_mx_brow !browD.
apply: eq_brow => j Hj /=.
by case: (eqVneq j k.+1) => [->|Hj']; [exact: KT|rewrite addr0 Kres].
Qed.

Variable p : nat.
Variables (G : 'M[F]_(p, n.+1 * d)) (Sg : 'M[F]_p) (y : 'cV[F]_p) (mp : nat -> 'cV[F]_d).
Hypothesis Hm : mp k.+1 = D *m mp k + E *m mp k.+2.
Let m i := mp (skip i).

Lemma Pm_m : Pm *m flat n.+2 mp = flat n.+1 m.
Proof. exact: PmC. Qed.
Lemma J_m : J *m flat n.+1 m = flat n.+2 mp.
Proof.
rewrite /flat JC; apply: eq_bcol => i Hi; rewrite /m skip_k skip_k1.
by case: (eqVneq i k.+1) => [->|Hik]; rewrite ?Hm ?unskipK.
Qed.

Lemma insert_mean : cond_mean (flat n.+2 mp) Kd (G *m Pm) Sg y =
  J *m cond_mean (flat n.+1 m) (dense n.+1 n.+1 K) G Sg y.
Proof.
rewrite /cond_mean trmx_mul !mulmxA JK [RHS]mulmxDr J_m; congr (_ + _).
have -> : G *m Pm *m Kd *m Pm^T *m G^T = G *m dense n.+1 n.+1 K *m G^T by rewrite -PKP !mulmxA.
by rewrite -[G *m Pm *m _]mulmxA Pm_m !mulmxA.
Qed.

Lemma insert_cov : cond_cov Kd (G *m Pm) Sg = J *m cond_cov (dense n.+1 n.+1 K) G Sg *m J^T + Te.
Proof.
rewrite /cond_cov trmx_mul !mulmxA JK.
have -> : G *m Pm *m Kd *m Pm^T *m G^T = G *m dense n.+1 n.+1 K *m G^T by rewrite -PKP !mulmxA.
have KdsymK : (dense n.+1 n.+1 K)^T = dense n.+1 n.+1 K.
  by rewrite -PKP !trmx_mul trmxK Kd_sym mulmxA.
have PK : Pm *m Kd = dense n.+1 n.+1 K *m J^T.
  by rewrite -[LHS]trmxK trmx_mul Kd_sym JK trmx_mul KdsymK.
rewrite {1}Kd_split -!mulmxA PK mulmxBl [J *m (_ - _)]mulmxBr !mulmxA.
by zmod.
Qed.

(* the blocks of the inserted state *)
Lemma J_block (v : nat -> 'cV[F]_d) : unflat (J *m flat n.+1 v) k.+1 = D *m v k + E *m v k.+1.
Proof. by rewrite /flat JC unflat_bcol ?eqxx //; lia. Qed.

Lemma unflat_mul q r N (X : 'M[F]_(N * d, q)) (Y : 'M[F]_(q, r)) i : (i < N)%N ->
  unflat (X *m Y) i = unflat X i *m Y.
Proof. by move=> Hi; rewrite -{1}[X]bcol_unflat mul_bcol_mx unflat_bcol. Qed.

Lemma JCJ_block (C : nat -> nat -> 'M[F]_d) :
  blk (J *m dense n.+1 n.+1 C *m J^T + Te) k.+1 k.+1 =
  T + row_mx D E *m block_mx (C k k) (C k k.+1) (C k.+1 k) (C k.+1 k.+1) *m (row_mx D E)^T.
Proof.
have Hk1 : (k.+1 < n.+2)%N by lia.
have -> : J *m dense n.+1 n.+1 C *m J^T = dense n.+2 n.+2 (fun i j =>
   \sum_(l < n.+1) (\sum_(l' < n.+1) Jb i l' *m C l' l) *m (Jb j l)^T).
  by rewrite /J tr_dense !mul_dense.
rewrite /Te denseD blk_dense // eqxx /= addrC; congr (_ + _).
have -> : \sum_(l < n.+1) (\sum_(l' < n.+1) Jb k.+1 l' *m C l' l) *m (Jb k.+1 l)^T =
  (\sum_(l < n.+1) Jb k.+1 l *m (D *m C k l + E *m C k.+1 l)^T)^T.
  rewrite raddf_sum /=; apply: eq_bigr => l _.
  by rewrite trmx_mul trmxK (Jrow (fun l' => C l' l)).
rewrite (Jrow (fun l => (D *m C k l + E *m C k.+1 l)^T)).
rewrite trmxD !trmx_mul !trmxK tr_row_mx mul_row_block mul_row_col.
by rewrite !mulmxDl.
Qed.
End Insert.
