(* The value of the spatio-temporal bound for a Gaussian likelihood, and when it is a bound. *)
From Coq Require Import Reals Lra.
From mathcomp Require Import all_ssreflect all_algebra.
From Verif Require Import MCalc RealStruct Nat Alg Lin Ent Spd Log M_Block S_Block P_Block P_Block2 M_SSM S_SSM P_SSM M_SSMLog P_SSMLog S_Gauss P_Gauss
  M_Trans S_Trans P_Trans P_TransLog S_Kalman M_Kalman P_Kalman P_KalmanLog P_Kalman2 M_Kernel S_Kernel P_Kernel M_Comb S_Comb P_Comb P_Comb2 P_Comb3 M_Cond P_Cond P_Cond2 P_Cond3 P_Cond4
  M_Emission P_Emission M_Sort P_Sort M_Models S_GP P_Elbo P_Models P_Models2 P_Models3 M_Cvi S_Cvi P_Cvi P_Cvi3 M_Space S_Space P_Space P_SpaceCov P_Space2.
Set Implicit Arguments.
Unset Strict Implicit.
Unset Printing Implicit Defensive.
Import GRing.Theory Num.Theory Order.TTheory.
Local Open Scope ring_scope.

Section Elbo.
Variables (S : Type) (space : S -> S -> R) (d : nat) (kt : skernel Rr 1 d) (Ms : nat) (Z : nat -> S).
Variables (mf : option (S -> R -> R)).
Variables (n : nat) (z : nat -> R).
Notation K := (st_kernel (F := Rr) space kt Ms Z).
Notation Kmm := (st_Kmm (F := Rr) space kt Ms Z).
Notation Knm := (st_Knm (F := Rr) space kt Ms Z).
Notation D := (concat_dim (st_children kt Ms)).
Hypothesis Hsym : forall x y, space x y = space y x.
Hypothesis Hp : plain_kernel kt.
Hypothesis Hnoisy : noisy kt.
Hypothesis HK : spd Kmm.
Hypothesis Hz : increasing n.+1 z.
Variables (N : nat) (x : nat -> S) (t Y : nat -> R).
Hypothesis Ht : forall k, (k < N)%N -> covered n z (t k).
Let ker := to_sde K.
Let Hker : markov_kernel ker.
Proof. by have [] := plain_markov (st_plain space Ms Z Hp) (st_noisy space Ms Z Hnoisy). Qed.
Let Hm0 : k_mean0 ker = 0.
Proof. by have [] := plain_markov (st_plain space Ms Z Hp) (st_noisy space Ms Z Hnoisy). Qed.
Let w k := Knm (x k) *m invmx Kmm.
Let row k := weights_on_states ker (st_emission (F := Rr) space kt Ms Z) n z (w k) (t k).
Let Kzz := x_gram ker n.+1 z.
Let G := bcol N row.
Let mean k := if mf is Some m then m (x k) (t k) else 0.
Let Yv := flat N (fun k => const_mx (Y k - mean k) : 'cV[R]_1).

Variables (q : ssm Rr D) (m' : nat -> 'cV[R]_D) (K' : nat -> nat -> 'M[R]_D) (s2 : R).
Hypothesis Nq : ssm_nonsing n q.
Hypothesis Lq : has_law n.+1 n.+1 (ssm_path q) m' K'.
Hypothesis Hs : 0 < s2.
Let var k := (st_predict_f (F := Rr) space Z mf n q z x t k).2.
Let excess k := var k - (row k *m dense n.+1 n.+1 K' *m (row k)^T) 0 0.

Lemma st_ve_sum :
  let f := st_predict_f (F := Rr) space Z mf n q z x t in
  \sum_(k < N) ext_gaussian_ve1 s2 (f k).1 (f k).2 (Y k) =
  gauss_logpdf (G *m flat n.+1 m') (s2%:M) Yv - 2%:R^-1 * \tr (invmx s2%:M *m (G *m dense n.+1 n.+1 K' *m G^T))
  - (2%:R * s2)^-1 * \sum_(k < N) excess k.
Proof.
move=> f.
pose V i j : 'M[R]_1 := ((row i *m dense n.+1 n.+1 K' *m (row j)^T) 0 0)%:M + rdiag (fun k => (excess k)%:M) i j.
pose fm k := (row k *m flat n.+1 m') 0 0.
have Em k : (k < N)%N -> (f k).1 = fm k + mean k.
  by move=> Hk; exact: (@st_predict_mean Rr S space d kt Ms Z Hsym n z q m' K' Hp Hnoisy HK Hz Nq Lq mf x t k (Ht Hk)).
have Ev k : \col_r V k k r r = const_mx (var k) :> 'cV[R]_1.
  apply/colP => r; rewrite (ord1 r) [LHS]mxE [RHS]mxE /V /rdiag eqxx [LHS]mxE.
  by rewrite [X in X + _]mxE [X in _ + X]mxE !mulr1n /excess addrC subrK.
have E k : (k < N)%N -> ext_gaussian_ve1 s2 (f k).1 (f k).2 (Y k) =
    ext_gaussian_ve s2 (const_mx (fm k)) (\col_r V k k r r) (const_mx (Y k - mean k) : 'cV[R]_1).
  move=> Hk; rewrite Ev (Em k Hk) /ext_gaussian_ve1 /ext_gaussian_ve !big_ord1.
  have -> : (const_mx (fm k + mean k) : 'cV[R]_1) 0 0 = fm k + mean k by rewrite mxE.
  have -> : (const_mx (Y k) : 'cV[R]_1) 0 0 = Y k by rewrite mxE.
  have -> : (const_mx (fm k) : 'cV[R]_1) 0 0 = fm k by rewrite mxE.
  have -> : (const_mx (Y k - mean k) : 'cV[R]_1) 0 0 = Y k - mean k by rewrite mxE.
  by have -> : Y k - (fm k + mean k) = Y k - mean k - fm k by zmod.
rewrite (eq_bigr (fun k : 'I_N => ext_gaussian_ve s2 (const_mx (fm k)) (\col_r V k k r r) (const_mx (Y k - mean k) : 'cV[R]_1))); last first.
  by move=> k _; rewrite E.
rewrite (@ve_sum 1 N s2 (fun k => const_mx (fm k)) (fun k => const_mx (Y k - mean k)) V Hs) -/Yv.
have -> : dense N N V = G *m dense n.+1 n.+1 K' *m G^T + dense N N (rdiag (fun k => (excess k)%:M)).
  by rewrite (@G_cong Rr) denseD.
have -> : flat N (fun k => const_mx (fm k) : 'cV[R]_1) = G *m flat n.+1 m'.
  rewrite /G mul_bcol_mx; apply: eq_bcol => k _.
  by apply/matrixP => i j; rewrite (ord1 i) (ord1 j) [LHS]mxE.
rewrite mulmxDr mxtraceD mulrDr opprD addrA; congr (_ - _).
rewrite invmx_scalar mul_scalar_mx mxtraceZ tr_dense_diag invfM mulrA; congr (_ * _).
by apply: eq_bigr => k _; rewrite /rdiag eqxx mxtrace_scalar mulr1n.
Qed.

Let collapsed := gauss_logpdf 0 (G *m Kzz *m G^T + s2%:M) Yv.

Lemma st_elbo_value :
  st_elbo space Z mf n z (ext_gaussian_ve1 s2) None N x t Y q =
  Some (collapsed - (2%:R * s2)^-1 * (\sum_(k < N) excess k)
    - gauss_kl (flat n.+1 m') (dense n.+1 n.+1 K') (cond_mean 0 Kzz G s2%:M Yv) (cond_cov Kzz G s2%:M)).
Proof.
have [p [Ep Np Lp]] := kernel_law Hker Hz.
rewrite /st_elbo -/ker Ep /Option.map /Option.bind /Option.apply; cbv zeta beta.
rewrite st_ve_sum mulr1; congr Some.
have [-> _ _ _] := kl_law Nq Np Lq Lp.
have HS : spd (s2%:M : 'M[R]_(N * 1)) by apply: (@spd_scalar Rr).
have HK1 : spd (dense n.+1 n.+1 K') by have [_ ->] := ssm_lawE Lq; apply: cov_spd.
have HKzz : spd Kzz by exact: Kzz_spd.
have -> : flat n.+1 (fun _ => k_mean0 ker) = 0.
  by rewrite Hm0 -[RHS](subrr (flat n.+1 (fun _ => 0))) flatB; apply: eq_flat => k Hk; rewrite subrr.
have := gauss_elbo (flat n.+1 m') 0 G Yv HK1 HKzz HS.
rewrite mulmx0 /collapsed.
move: (gauss_logpdf _ _ _) (gauss_logpdf _ _ _) (gauss_kl _ _ _ _) (gauss_kl _ _ _ _) (\tr _) (\sum_(_ < _) _) ((2%:R * s2)^-1) => a b c e f g' h.
by rewrite ?halfR; toR_ops; lra.
Qed.

Hypothesis Hspace : covariance_function (F := Rr) space.
Let Kff := dense N N (fun i j => (st_cov (F := Rr) space kt (x i) (t i) (x j) (t j))%:M : 'M[R]_1).

(* the variances that the code predicts at the data are not too small *)
Hypothesis Hvar : forall k, (k < N)%N ->
  st_cov (F := Rr) space kt (x k) (t k) (x k) (t k) - (row k *m Kzz *m (row k)^T) 0 0
    + (row k *m dense n.+1 n.+1 K' *m (row k)^T) 0 0 <= var k.

Lemma st_elbo_bound e : st_elbo space Z mf n z (ext_gaussian_ve1 s2) None N x t Y q = Some e ->
  e <= gauss_logpdf 0 (Kff + s2%:M) Yv.
Proof.
rewrite st_elbo_value => [[<-]].
have HS : spd (s2%:M : 'M[R]_(N * 1)) by apply: (@spd_scalar Rr).
have HK1 : spd (dense n.+1 n.+1 K') by have [_ ->] := ssm_lawE Lq; apply: cov_spd.
have HKzz : spd Kzz by exact: Kzz_spd.
have HC : spd (cond_cov Kzz G s2%:M).
  by rewrite (@cond_cov_info Rr) //; apply: (@spd_inv Rr); exact: info_spd.
have [Hkl _] := gauss_kl_ge0 (flat n.+1 m') (cond_mean 0 Kzz G s2%:M Yv) HK1 HC.
have HQ : psd (G *m Kzz *m G^T) by apply: psd_congr'; apply: spd_psd.
have HD : psd (Kff - G *m Kzz *m G^T) := @st_cond_psd Rr S space d kt Ms Z Hspace Hp Hnoisy HK n z Hz N x t.
have := titsias 0 Yv HQ HS HD.
have -> : G *m Kzz *m G^T + (Kff - G *m Kzz *m G^T) + s2%:M = Kff + s2%:M by zmod.
have Etr : \tr (invmx s2%:M *m (Kff - G *m Kzz *m G^T)) = s2^-1 *
    \sum_(k < N) (st_cov (F := Rr) space kt (x k) (t k) (x k) (t k) - (row k *m Kzz *m (row k)^T) 0 0).
  rewrite invmx_scalar mul_scalar_mx mxtraceZ; congr (_ * _).
  rewrite (@G_cong Rr) /Kff denseB tr_dense_diag; apply: eq_bigr => k _.
  rewrite -raddfB /= mxtrace_scalar mulr1n; reflexivity.
rewrite Etr /collapsed.
have Hsum : \sum_(k < N) (st_cov (F := Rr) space kt (x k) (t k) (x k) (t k) - (row k *m Kzz *m (row k)^T) 0 0) <= \sum_(k < N) excess k.
  by apply: ler_sum => k _; rewrite /excess ler_subr_addr; exact: Hvar.
have Hi : 0 <= (2%:R * s2)^-1 by rewrite invr_ge0 mulr_ge0 ?ler0n ?ltW.
have := ler_wpmul2l Hi Hsum; rewrite mulrA -invfM.
move: Hkl; move: (gauss_kl _ _ _ _) (gauss_logpdf _ _ _) (gauss_logpdf _ _ _) => c g1 g2.
move: (_ * \sum_(_ < _) _) (_ * \sum_(_ < _) _) => a b.
move=> /RleP H1 /RleP H2 /RleP H3; apply/RleP; move: H1 H2 H3; toR_ops => H1 H2 H3; lra.
Qed.
End Elbo.

(* one inducing point of space *)
Section One.
Variable F : rcfType.

Lemma chol_one_psd (A : 'M[F]_1) : psd A -> (tril (chol A))^T *m tril (chol A) = A.
Proof.
move=> [_ H].
have HA : 0 <= A 0 0.
  have := H 1%:M; rewrite /qf trmx1 mul1mx mulmx1; exact.
have EL : chol A 0 0 = Num.sqrt (A 0 0).
  pose L := @block_mx F 1 0 1 0 (Num.sqrt (@ulsubmx F 1 0 1 0 A 0 0))%:M 0
    ((Num.sqrt (@ulsubmx F 1 0 1 0 A 0 0))^-1 *: @dlsubmx F 1 0 1 0 A)
    (@drsubmx F 1 0 1 0 A - (@ulsubmx F 1 0 1 0 A 0 0)^-1 *: (@dlsubmx F 1 0 1 0 A *m (@dlsubmx F 1 0 1 0 A)^T)).
  have -> : chol A 0 0 = L (lshift 0 0) (lshift 0 0) by rewrite -[chol A]/L; congr (L _ _); apply: val_inj.
  rewrite /L block_mxEul mxE mulr1n; congr (Num.sqrt _).
  by rewrite !mxE; congr (A _ _); apply: val_inj.
apply/matrixP => i j; rewrite (ord1 i) (ord1 j) mxE big_ord1 mxE.
have -> : tril (chol A) 0 0 = chol A 0 0 by rewrite mxE.
by rewrite EL -expr2 sqr_sqrtr.
Qed.

Variables (S : Type) (space : S -> S -> F) (d : nat) (kt : skernel F 1 d) (Ms : nat) (Z : nat -> S).
Notation K := (st_kernel space kt Ms Z).
Notation Kmm := (st_Kmm space kt Ms Z).
Notation Knm := (st_Knm space kt Ms Z).
Notation D := (concat_dim (st_children kt Ms)).
Hypothesis Hspace : covariance_function space.
Hypothesis Hp : plain_kernel kt.
Hypothesis Hnoisy : noisy kt.
Hypothesis HK : spd Kmm.
Variables (n : nat) (z : nat -> F).
Hypothesis Hz : increasing n.+1 z.
Variables (q : ssm F D) (m' : nat -> 'cV[F]_D) (K' : nat -> nat -> 'M[F]_D).
Hypothesis Nq : ssm_nonsing n q.
Hypothesis Lq : has_law n.+1 n.+1 (ssm_path q) m' K'.
Variables (mf : option (S -> F -> F)) (x : nat -> S) (t : nat -> F) (i : nat).
Hypothesis Ht : covered n z (t i).
Let ker := to_sde K.
Let w := Knm (x i) *m invmx Kmm.
Let H s := st_emission space kt Ms Z s.
Let row := weights_on_states ker H n z w (t i).
Let Kzz := x_gram ker n.+1 z.
Let B := brow n.+1 (fun j => state_cov ker (t i) (z j)) *m invmx Kzz.
Let C := H (t i) *m (k_P0 ker (t i) - B *m Kzz *m B^T + B *m dense n.+1 n.+1 K' *m B^T) *m (H (t i))^T.
Let v := fcov kt (t i) (t i) 0 0.
Let right := st_cov space kt (x i) (t i) (x i) (t i) - (row *m Kzz *m row^T) 0 0 + (row *m dense n.+1 n.+1 K' *m row^T) 0 0.
Let Q := (Knm (x i) *m invmx Kmm *m (Knm (x i))^T) 0 0.


Lemma st_C_psd : psd C.
Proof.
have [Hker Hm0 Ef] := plain_markov (st_plain space Ms Z Hp) (st_noisy space Ms Z Hnoisy).
have HK1 : spd (dense n.+1 n.+1 K') by have [_ ->] := ssm_lawE Lq; apply: cov_spd.
apply: psd_congr'; apply: psdD; last by apply: psd_congr'; apply: spd_psd.
have P1 := cond_psd 1 (fun _ => t i) Hker Hz; cbv zeta in P1.
pose sel : 'M[F]_(D, 1 * D) := brow 1 (fun _ => 1%:M).
have Es p (c : nat -> 'M[F]_(D, p)) : sel *m bcol 1 c = c 0%N by rewrite /sel mul_brow_bcol big_ord1 mul1mx.
have Ed e M (c : nat -> nat -> 'M[F]_(D, e)) : sel *m dense 1 M c = brow M (c 0%N) by rewrite /dense Es.
have := psd_congr' sel P1; rewrite mulmxBr mulmxBl.
have -> : sel *m dense 1 1 (fun _ _ => state_cov (to_sde K) (t i) (t i)) *m sel^T = k_P0 ker (t i).
  by rewrite Ed /sel tr_brow mul_brow_bcol big_ord1 trmx1 mulmx1 (state_cov_diag _ Hker).
set B1 := dense 1 n.+1 _ *m invmx _.
have EB : sel *m B1 = B by rewrite /B1 mulmxA Ed.
have -> : sel *m (B1 *m dense n.+1 n.+1 (fun i0 j : nat => state_cov (to_sde K) (z i0) (z j)) *m B1^T) *m sel^T = B *m Kzz *m B^T.
  by clearbody B1; rewrite -EB [(sel *m B1)^T]trmx_mul !mulmxA.
exact.
Qed.

Lemma st_space_ge : Q <= space (x i) (x i).
Proof.
have [_ Hq] := psd_fun_given 1 (fun _ => x i) Hspace HK; have := Hq (fun _ => 1).
by rewrite !big_ord1 !mul1r subr_ge0.
Qed.

(* the predicted variance when the factor of the covariance of the outputs at the inducing points commutes with its transpose *)
Lemma st_var_normal : (tril (chol C))^T *m tril (chol C) = C ->
  (st_predict_f space Z mf n q z x t i).2 = right + (1 - v) * (space (x i) (x i) - Q).
Proof.
move=> EC; have [Hs _] := Hspace; have [sK _] := HK.
have [Hker Hm0 Ef] := plain_markov (st_plain space Ms Z Hp) (st_noisy space Ms Z Hnoisy).
rewrite (st_predict_var Hp Hnoisy HK Hz Nq Lq mf x Ht); cbv zeta; rewrite -/C EC.
rewrite /mixed_var (Kmn_tr _ _ _ Hs) trmxK -/Q.
have -> : Knm (x i) *m invmx Kmm *m C *m invmx Kmm *m (Knm (x i))^T = w *m C *m w^T.
  by rewrite /w trmx_mul tr_invmx sK !mulmxA.
have -> : w *m C *m w^T = v *: (Knm (x i) *m invmx Kmm *m (Knm (x i))^T) - row *m Kzz *m row^T + row *m dense n.+1 n.+1 K' *m row^T.
  have Er : row = w *m H (t i) *m B by rewrite /row /weights_on_states /B mulmxA.
  have E0 : w *m (H (t i) *m k_P0 ker (t i) *m (H (t i))^T) *m w^T = v *: (Knm (x i) *m invmx Kmm *m (Knm (x i))^T).
    have -> : H (t i) *m k_P0 ker (t i) *m (H (t i))^T = fcov K (t i) (t i).
      by rewrite -Ef /f_cov (state_cov_diag _ Hker).
    rewrite (st_fcov _ _ HK) -scalemxAr -scalemxAl; congr (_ *: _).
    by rewrite /w trmx_mul tr_invmx sK !mulmxA mulmxKV // (spd_unit HK).
  rewrite -E0 Er /C !trmx_mul mulmxDr mulmxDl mulmxBr mulmxBl mulmxDr mulmxDl mulmxBr mulmxBl !mulmxA.
  by [].
rewrite /right /st_cov -/v; move: (row *m Kzz *m _) (row *m dense _ _ _ *m _) => a b.
rewrite !mxlin -/Q; move: Q (space _ _) => c e; crng.
Qed.
End One.

Section OneReal.
Variables (S : Type) (space : S -> S -> R) (d : nat) (kt : skernel Rr 1 d) (Z : nat -> S).
Variables (mf : option (S -> R -> R)).
Variables (n : nat) (z : nat -> R).
Notation K := (st_kernel (F := Rr) space kt 1 Z).
Notation D := (concat_dim (st_children kt 1)).

Lemma st_one_var (q : ssm Rr D) m' K' (x : nat -> S) (t : nat -> R) i :
  covariance_function (F := Rr) space -> plain_kernel kt -> noisy kt -> spd (st_Kmm (F := Rr) space kt 1 Z) -> increasing (F := Rr) n.+1 z ->
  ssm_nonsing n q -> has_law n.+1 n.+1 (ssm_path q) m' K' -> covered (F := Rr) n z (t i) ->
  let row := weights_on_states (to_sde K) (sk_H K) n z ((\row_j space (x i) (Z j)) *m invmx (st_Kmm (F := Rr) space kt 1 Z)) (t i) in
  (st_predict_f (F := Rr) space Z mf n q z x t i).2 =
  st_cov (F := Rr) space kt (x i) (t i) (x i) (t i) - (row *m x_gram (to_sde K) n.+1 z *m row^T) 0 0 + (row *m dense n.+1 n.+1 K' *m row^T) 0 0
    + (1 - fcov kt (t i) (t i) 0 0) *
      (space (x i) (x i) - ((\row_j space (x i) (Z j)) *m invmx (st_Kmm (F := Rr) space kt 1 Z) *m (\row_j space (x i) (Z j))^T) 0 0).
Proof.
move=> Hs Hp Hn HK Hz Nq Lq Ht row.
apply: (@st_var_normal Rr S space d kt 1 Z Hs Hp Hn HK n z Hz q m' K' Nq Lq mf x t i Ht).
by apply: (@chol_one_psd Rr); exact: (@st_C_psd Rr S space d kt 1 Z Hp Hn n z Hz q m' K' Nq Lq t i).
Qed.

Lemma st_one_bound N (x : nat -> S) (t Y : nat -> R) (q : ssm Rr D) (s2 : R) e :
  covariance_function (F := Rr) space -> plain_kernel kt -> noisy kt -> spd (st_Kmm (F := Rr) space kt 1 Z) -> increasing (F := Rr) n.+1 z ->
  (forall k, (k < N)%N -> covered (F := Rr) n z (t k) /\ fcov kt (t k) (t k) 0 0 <= 1) ->
  ssm_nonsing n q -> 0 < s2 ->
  st_elbo space Z mf n z (ext_gaussian_ve1 s2) None N x t Y q = Some e ->
  e <= gauss_logpdf 0 (dense N N (fun i j => (st_cov (F := Rr) space kt (x i) (t i) (x j) (t j))%:M : 'M[R]_1) + s2%:M)
         (flat N (fun k => const_mx (Y k - (if mf is Some m then m (x k) (t k) else 0)) : 'cV[R]_1)).
Proof.
move=> Hs Hp Hn HK Hz Ht Nq H0; have Lq := ssm_has_law n q; have [Hsym _] := Hs.
have Hc k : (k < N)%N -> covered (F := Rr) n z (t k) by move=> /Ht [].
apply: (@st_elbo_bound S space d kt 1 Z mf n z Hsym Hp Hn HK Hz N x t Y Hc q _ _ s2 Nq Lq H0 Hs) => k Hk.
have [Hck Hv] := Ht k Hk.
have E := @st_one_var q _ _ x t k Hs Hp Hn HK Hz Nq Lq Hck; cbv zeta in E.
rewrite E ler_addl; apply: mulr_ge0; first by rewrite subr_ge0.
by rewrite subr_ge0; exact: (@st_space_ge Rr S space d kt 1 Z Hs HK x k).
Qed.
End OneReal.

Section Batch.
Variables (S : Type) (space : S -> S -> R) (d : nat) (kt : skernel Rr 1 d) (Ms : nat) (Z : nat -> S).
Variables (mf : option (S -> R -> R)).
Notation D := (concat_dim (st_children kt Ms)).

Lemma st_minibatch ve n z N b k (bt : nat -> nat -> nat) c x t Y (q : ssm Rr D) :
  (forall i, (i < n)%N -> z i <= z i.+1) -> (0 < b)%N -> (0 < k)%N ->
  (forall B i, (B < k)%N -> (i < b)%N -> (bt B i < N)%N) ->
  (forall j, (j < N)%N -> (\sum_(B < k) \sum_(i < b) (bt B i == j))%N = c) ->
  exists e (eb : nat -> R),
  [/\ st_elbo space Z mf n z ve (Some N%:R) N x t Y q = Some e,
      st_elbo space Z mf n z ve None N x t Y q = Some e,
      forall B, (B < k)%N -> st_elbo space Z mf n z ve (Some N%:R) b
          (fun i => x (bt B i)) (fun i => t (bt B i)) (fun i => Y (bt B i)) q = Some (eb B) &
      (\sum_(B < k) eb B) / k%:R = e].
Proof.
move=> Hz Hb0 Hk0 Hb Hc.
pose f := st_predict_f (F := Rr) space Z mf n q z x t.
have Hpt (s : nat -> nat) i : st_predict_f (F := Rr) space Z mf n q z (fun i => x (s i)) (fun i => t (s i)) i = f (s i) by [].
have [p Ep] : exists p, kernel_ssm n (to_sde (st_kernel (F := Rr) space kt Ms Z)) z = Some p.
  have : to_delta_time (F := Rr) n.+1 z <> None by apply/to_deltaE => i Hi; apply: Hz; lia.
  by rewrite /kernel_ssm; case: to_delta_time => // dt _; eexists.
pose v j := ve (f j).1 (f j).2 (Y j).
pose kl := ssm_kl_divergence n q p.
have EN N' x' t' Y' : st_elbo space Z mf n z ve (Some N%:R) N' x' t' Y' q =
    let g := st_predict_f (F := Rr) space Z mf n q z x' t' in
    Some ((\sum_(j < N') ve (g j).1 (g j).2 (Y' j)) * (N%:R / N'%:R) - kl).
  by rewrite /st_elbo Ep.
exists (\sum_(j < N) v j - kl), (fun B => (\sum_(i < b) v (bt B i)) * (N%:R / b%:R) - kl); split.
- rewrite EN; cbv zeta; rewrite -/f; case: (posnP N) => [->|HN]; first by rewrite !big_ord0 mul0r.
  by rewrite divff ?mulr1 // pnatr_eq0 -lt0n.
- by rewrite /st_elbo Ep; congr Some; rewrite mulr1.
- move=> B HB.
  have := EN b (fun i => x (bt B i)) (fun i => t (bt B i)) (fun i => Y (bt B i)); cbv zeta => ->.
  have Hs (s s' : R) : s = s' -> Some (s * (N%:R / b%:R) - kl) = Some (s' * (N%:R / b%:R) - kl) by move=> ->.
  apply: Hs; apply: eq_bigr => i _.
  by have -> := Hpt (bt B) i.
rewrite sumrB sumr_const card_ord -big_distrl /= (balanced_sum v Hb Hc).
have := balanced_count Hb Hc; rewrite natrM => E.
have Hb1 : b%:R != 0 :> R by rewrite pnatr_eq0 -lt0n.
have Hk1 : k%:R != 0 :> R by rewrite pnatr_eq0 -lt0n.
rewrite mulrBl -[kl *+ k]mulr_natr (mulfK Hk1 kl); congr (_ - _).
clearbody kl v; set tt := \sum_(j < N) v j; clearbody tt.
have -> : c%:R * tt * (N%:R / b%:R) / k%:R = tt * ((c%:R * N%:R) * (k%:R * b%:R)^-1).
  by rewrite invfM; move: (c%:R : R) (N%:R : R) (b%:R^-1 : R) (k%:R^-1 : R) => a1 a2 a3 a4; crng.
by rewrite -E divff ?mulr1 // mulf_neq0.
Qed.
End Batch.
