(* Covariance functions of space and of time: products and conditional covariances. *)
From mathcomp Require Import all_ssreflect all_algebra.
From Verif Require Import RealStruct Nat Alg Lin Ent Spd M_Block S_Block P_Block P_Block2 M_SSM S_SSM P_SSM M_Trans S_Trans P_Trans
  M_Kernel S_Kernel P_Kernel M_Comb S_Comb P_Comb P_Comb2 P_Comb3 M_Cond P_Cond M_Emission P_Emission P_Kron M_Sort P_Sort S_GP P_Models S_Kalman P_Models3 M_Space S_Space P_Space.
Set Implicit Arguments.
Unset Strict Implicit.
Unset Printing Implicit Defensive.
Import GRing.Theory Num.Theory Order.TTheory.
Local Open Scope ring_scope.

Section Cov.
Variable F : rcfType.

Let ge0_eq (a b : F) : 0 <= a -> a = b -> 0 <= b.
Proof. by move=> H <-. Qed.
Let psd_eq m (A B : 'M[F]_m) : psd A -> A = B -> psd B.
Proof. by move=> H <-. Qed.

(* scalar Gram matrices by their entries *)
Definition psd_fun N (c : nat -> nat -> F) : Prop :=
  (forall i j, (i < N)%N -> (j < N)%N -> c i j = c j i) /\
  forall a : nat -> F, 0 <= \sum_(i < N) \sum_(j < N) a i * a j * c i j.

Definition gram N (c : nat -> nat -> F) : 'M[F]_(N * 1) := dense N N (fun i j => (c i j)%:M).

Lemma qf_gram N c (a : nat -> 'cV[F]_1) : qf (gram N c) (flat N a) = \sum_(i < N) \sum_(j < N) a i 0 0 * a j 0 0 * c i j.
Proof.
rewrite /qf -mulmxA mul_dense_flat flat_dot mxsumE; apply: eq_bigr => i _.
rewrite mulmx_sumr mxsumE; apply: eq_bigr => j _.
rewrite mul_scalar_mx -scalemxAr mxE mxE big_ord1 mxE mulrC; congr (_ * _ * _).
Qed.

Lemma psd_gram N c : psd (gram N c) <-> psd_fun N c.
Proof.
split=> -[Hs Hp]; split.
- move: Hs; rewrite /gram tr_dense => Hs i j Hi Hj.
  by have := dense_inj Hs Hi Hj; rewrite tr_scalar_mx => /matrixP /(_ 0 0); rewrite !mxE mulr1n.
- move=> a; have := Hp (flat N (fun i => (a i)%:M)); rewrite qf_gram => H.
  apply: (ge0_eq H); apply: eq_bigr => i _; apply: eq_bigr => j _.
  by rewrite !mxE !mulr1n.
- by rewrite /gram tr_dense; apply: eq_dense => i j Hi Hj; rewrite tr_scalar_mx Hs.
- by move=> x; rewrite -(flat_unflat x) qf_gram; exact: (Hp (fun i => unflat x i 0 0)).
Qed.

Lemma psd_fun_factor N c : psd_fun N c -> exists b : nat -> 'rV[F]_(N * 1),
  forall i j, (i < N)%N -> (j < N)%N -> c i j = \sum_(l < N * 1) b i 0 l * b j 0 l.
Proof.
move=> /psd_gram /psd_factor [B E]; exists (fun i => unflat B i) => i j Hi Hj.
move: E; rewrite -{1 2}(bcol_unflat B) tr_bcol mul_bcol_mx.
have -> : bcol N (fun k => unflat B k *m brow N (fun l => (unflat B l)^T)) = dense N N (fun k l => unflat B k *m (unflat B l)^T).
  by apply: eq_bcol => k _; rewrite mul_mx_brow.
move=> E; have := dense_inj E Hi Hj => /matrixP /(_ 0 0); rewrite mxE mulr1n => ->.
by rewrite mxE; apply: eq_bigr => l _; rewrite mxE.
Qed.

Lemma psd_fun_mul N a b : psd_fun N a -> psd_fun N b -> psd_fun N (fun i j => a i j * b i j).
Proof.
move=> Ha [Hs Hp]; have [f Ef] := psd_fun_factor Ha; have [Hsa _] := Ha; split=> [i j Hi Hj|x].
  by rewrite Hsa // Hs.
have -> : \sum_(i < N) \sum_(j < N) x i * x j * (a i j * b i j) =
    \sum_(l < N * 1) \sum_(i < N) \sum_(j < N) (x i * f i 0 l) * (x j * f j 0 l) * b i j.
  rewrite [RHS]exchange_big; apply: eq_bigr => i _; rewrite [RHS]exchange_big; apply: eq_bigr => j _.
  rewrite Ef // mulr_suml mulr_sumr; apply: eq_bigr => l _; crng.
by apply: sumr_ge0 => l _; exact: (Hp (fun i => x i * f i 0 l)).
Qed.

Lemma psd_fun_cov (S : Type) (k : S -> S -> F) N x : covariance_function k -> psd_fun N (fun i j => k (x i) (x j)).
Proof. by move=> [Hs Hp]; split=> [i j _ _|a]; [exact: Hs | exact: Hp]. Qed.

(* the covariance of values of a process given its values at the points Z *)
Lemma psd_fun_given (S : Type) (k : S -> S -> F) N M (x Z : nat -> S) : covariance_function k ->
  let Kmm := \matrix_(i < M, j < M) k (Z i) (Z j) in let kx i := \row_(j < M) k (x i) (Z j) in
  spd Kmm -> psd_fun N (fun i j => k (x i) (x j) - (kx i *m invmx Kmm *m (kx j)^T) 0 0).
Proof.
move=> Hk Kmm kx HK; have [Hs Hp] := Hk; have [sK _] := HK; have uK := spd_unit HK.
have sI : (invmx Kmm)^T = invmx Kmm by rewrite tr_invmx sK.
split=> [i j _ _|a].
  rewrite Hs; congr (_ - _).
  have -> : kx j *m invmx Kmm *m (kx i)^T = (kx i *m invmx Kmm *m (kx j)^T)^T by rewrite !trmx_mul trmxK sI mulmxA.
  by rewrite [RHS]mxE.
pose u : 'rV[F]_M := \sum_(i < N) a i *: kx i.
pose b : 'cV[F]_M := - (invmx Kmm *m u^T).
have kxE i (j : 'I_M) : kx i 0 j = k (x i) (Z j) by rewrite mxE.
have KE (i j : 'I_M) : Kmm i j = k (Z i) (Z j) by rewrite mxE.
pose y i := if (i < N)%N then x i else Z (i - N)%N.
pose w i := if (i < N)%N then a i else (if insub (i - N)%N is Some k then b k 0 else 0).
have H := Hp (N + M)%N y w.
have yl (i : 'I_N) : y (lshift M i) = x i by rewrite /y /= ltn_ord.
have yr (i : 'I_M) : y (rshift N i) = Z i by rewrite /y /= ltnNge leq_addr addKn.
have wl (i : 'I_N) : w (lshift M i) = a i by rewrite /w /= ltn_ord.
have wr (i : 'I_M) : w (rshift N i) = b i 0 by rewrite /w /= ltnNge leq_addr addKn valK.
have E : \sum_(i < N + M) \sum_(j < N + M) w i * w j * k (y i) (y j) =
    \sum_(i < N) \sum_(j < N) a i * a j * k (x i) (x j) + (u *m b) 0 0 + ((u *m b) 0 0 + (b^T *m Kmm *m b) 0 0).
  rewrite big_split_ord; congr (_ + _).
    transitivity (\sum_(i < N) (\sum_(j < N) a i * a j * k (x i) (x j) + \sum_(j < M) a i * b j 0 * k (x i) (Z j))).
      apply: eq_bigr => i _; rewrite big_split_ord; congr (_ + _).
        by apply: eq_bigr => j _; rewrite !wl !yl.
      by apply: eq_bigr => j _; rewrite wl wr yl yr.
    rewrite big_split; congr (_ + _); rewrite /u mulmx_suml mxsumE; apply: eq_bigr => i _.
    by rewrite -scalemxAl mxE mxE mulr_sumr; apply: eq_bigr => j _; rewrite kxE; crng.
  transitivity (\sum_(i < M) (\sum_(j < N) b i 0 * a j * k (Z i) (x j) + \sum_(j < M) b i 0 * b j 0 * k (Z i) (Z j))).
    apply: eq_bigr => i _; rewrite big_split_ord; congr (_ + _).
      by apply: eq_bigr => j _; rewrite wl wr yl yr.
    by apply: eq_bigr => j _; rewrite !wr !yr.
  rewrite big_split; congr (_ + _).
    rewrite exchange_big /u mulmx_suml mxsumE; apply: eq_bigr => j _.
    rewrite -scalemxAl mxE mxE mulr_sumr; apply: eq_bigr => i _; rewrite kxE Hs; crng.
  rewrite -mulmxA [RHS]mxE; apply: eq_bigr => i _; rewrite [b^T 0 i]mxE [(Kmm *m b) i 0]mxE mulr_sumr; apply: eq_bigr => j _.
  by rewrite KE; crng.
have Eb : b^T *m Kmm *m b = - (u *m b).
  have Nt (A : 'cV[F]_M) : (- A)^T = - A^T by apply/matrixP => i j; rewrite !mxE.
  rewrite /b Nt trmx_mul trmxK sI mulNmx mulmxKV // mulNmx mulmxN opprK.
  by [].
have Eu : (u *m b) 0 0 = - \sum_(i < N) \sum_(j < N) a i * a j * (kx i *m invmx Kmm *m (kx j)^T) 0 0.
  rewrite /b mulmxN mxE mulmxA; congr (- _).
  rewrite {1}/u !mulmx_suml mxsumE; apply: eq_bigr => i _.
  rewrite /u linear_sum mulmx_sumr mxsumE; apply: eq_bigr => j _.
  rewrite linearZ /= -!scalemxAl -scalemxAr mxE mxE; crng.
move: H; rewrite E Eb [(- (u *m b)) 0 0]mxE Eu subrr addr0 => H; apply: (ge0_eq H).
rewrite -sumrB; apply: eq_bigr => i _; rewrite -sumrB; apply: eq_bigr => j _; crng.
Qed.

(* values of a Markovian process at any times *)
Lemma psd_fun_time d (kt : skernel F 1 d) N (t : nat -> F) : plain_kernel kt -> noisy kt ->
  psd_fun N (fun i j => fcov kt (t i) (t j) 0 0).
Proof.
move=> Hp Hn; have [Hk _ Ef] := plain_markov Hp Hn.
have Hz : increasing 1 (fun _ : nat => 0 : F) by [].
have := cond_psd N t Hk Hz; cbv zeta.
set B := _ *m invmx _; set Kzz := dense 1 1 _; set Kxx := dense N N _ => H.
have HK : spd Kzz.
  have [S [ES NS LS]] := kernel_law Hk Hz.
  by have [_ E] := ssm_lawE LS; rewrite /Kzz E; apply: cov_spd.
have HX : psd Kxx.
  have := psdD H (psd_congr' B (spd_psd HK)); by rewrite subrK.
have := psd_congr' (dense N N (rdiag (fun i => sk_H kt (t i)))) HX; rewrite rdiag_sandwich => HF.
apply/psd_gram; apply: (psd_eq HF); apply: eq_dense => i j _ _.
by rewrite -Ef /f_cov; apply/matrixP => p q; rewrite (ord1 p) (ord1 q) [RHS]mxE mulr1n.
Qed.

Variables (S : Type) (space : S -> S -> F) (d : nat) (kt : skernel F 1 d) (Ms : nat) (Z : nat -> S).
Hypothesis Hspace : covariance_function space.
Hypothesis Hp : plain_kernel kt.
Hypothesis Hnoisy : noisy kt.
Notation K := (st_kernel space kt Ms Z).
Notation Kmm := (st_Kmm space kt Ms Z).
Notation Knm := (st_Knm space kt Ms Z).
Hypothesis HK : spd Kmm.
Variables (n : nat) (z : nat -> F).
Hypothesis Hz : increasing n.+1 z.
Variables (N : nat) (x : nat -> S) (t : nat -> F).
Let ker := to_sde K.
Let Kzz := x_gram ker n.+1 z.
Let w k := Knm (x k) *m invmx Kmm.
Let row k := weights_on_states ker (st_emission space kt Ms Z) n z (w k) (t k).
Let G := bcol N row.

Lemma G_cong (C : 'M[F]_(n.+1 * concat_dim (st_children kt Ms))) :
  G *m C *m G^T = gram N (fun i j => (row i *m C *m (row j)^T) 0 0).
Proof.
rewrite /G tr_bcol mul_bcol_mx mul_bcol_mx; apply: eq_bcol => i Hi.
rewrite mul_mx_brow; apply: eq_brow => j Hj.
by apply/matrixP => p q; rewrite (ord1 p) (ord1 q) [RHS]mxE mulr1n.
Qed.

(* the covariance of the data given the inducing states *)
Lemma st_cond_psd : psd (gram N (fun i j => st_cov space kt (x i) (t i) (x j) (t j)) - G *m Kzz *m G^T).
Proof.
have [Hker Hm0 Ef] := plain_markov (st_plain space Ms Z Hp) (st_noisy space Ms Z Hnoisy).
pose h k := w k *m st_emission space kt Ms Z (t k).
pose Hd := dense N N (rdiag h).
have := cond_psd N t Hker Hz; cbv zeta.
set B := _ *m invmx _ => HD.
have EG : G = Hd *m B.
  rewrite /B mulmxA /Hd rdiag_l /dense mul_bcol_mx; apply: eq_bcol => i Hi.
  by rewrite /row /weights_on_states -/(h i) mul_mx_brow.
have H2 := psd_congr' Hd HD.
have E2 : Hd *m (dense N N (fun i j => state_cov ker (t i) (t j)) - B *m Kzz *m B^T) *m Hd^T =
    gram N (fun i j => (w i *m Kmm *m (w j)^T) 0 0 * fcov kt (t i) (t j) 0 0) - G *m Kzz *m G^T.
  rewrite mulmxBr mulmxBl rdiag_sandwich EG [(Hd *m B)^T]trmx_mul; congr (_ - _); last by rewrite !mulmxA.
  apply: eq_dense => i j Hi Hj.
  have -> : h i *m state_cov ker (t i) (t j) *m (h j)^T = w i *m fcov K (t i) (t j) *m (w j)^T.
    by rewrite -Ef /f_cov /h trmx_mul !mulmxA.
  rewrite (st_fcov _ _ HK) -scalemxAr -scalemxAl.
  by apply/matrixP => p q; rewrite (ord1 p) (ord1 q) !(mxE, mulr1n) mulrC.
move: H2; rewrite -/Kzz E2 => H2.
have H1 : psd (gram N (fun i j => (space (x i) (x j) - (w i *m Kmm *m (w j)^T) 0 0) * fcov kt (t i) (t j) 0 0)).
  apply/psd_gram/psd_fun_mul; last exact: psd_fun_time.
  have [Hs Hq] := psd_fun_given N x Hspace HK.
  have E i j : (w i *m Kmm *m (w j)^T) 0 0 = (Knm (x i) *m invmx Kmm *m (Knm (x j))^T) 0 0.
    have [sK _] := HK.
    by rewrite /w trmx_mul tr_invmx sK !mulmxA mulmxKV // (spd_unit HK).
  by split=> [i j Hi Hj|a]; rewrite ?E; [exact: Hs | under eq_bigr do under eq_bigr do rewrite E; exact: Hq].
apply: (psd_eq (psdD H1 H2)); rewrite addrA; congr (_ - _); rewrite /gram denseD; apply: eq_dense => i j _ _.
by rewrite -raddfD /= -mulrDl subrK.
Qed.
End Cov.
