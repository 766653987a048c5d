(* Proofs about pathwise sampling, extrapolation and cyclic reduction statistics. *)
From mathcomp Require Import all_ssreflect all_algebra.
From Verif Require Import Nat Alg Lin Ent Spd M_Block S_Block P_Block P_Block2 M_SSM S_SSM P_SSM
  S_Kalman M_Kalman P_Kalman P_Kalman2 P_Trans M_Kernel S_Kernel P_Kernel M_Cond P_Cond P_Cond2 P_Cond3.
Set Implicit Arguments.
Unset Strict Implicit.
Unset Printing Implicit Defensive.
Import GRing.Theory Num.Theory Order.TTheory.
Local Open Scope ring_scope.

Section Matheron.
Variable F : comRingType.
Variables (c d N N' Nt n1 q : nat).
Variables (Xp Xq : (nat -> 'cV[F]_c) -> nat -> 'cV[F]_d).
Variables (mt m' : nat -> 'cV[F]_d) (Kt K' : nat -> nat -> 'M[F]_d) (a b : nat -> nat) (J : nat -> nat -> 'M[F]_d).
Hypothesis Lp : has_law Nt N Xp mt Kt.
Hypothesis Lq : has_law n1 N' Xq m' K'.
Hypothesis Ha : forall i, (i < q)%N -> (a i < Nt)%N.
Hypothesis Hb : forall i, (i < n1)%N -> (b i < Nt)%N.
Hypothesis HJ : forall i j, (i < q)%N -> (j < n1)%N -> Kt (a i) (b j) = \sum_(l < n1) J i l *m Kt (b l) (b j).

Definition matheron (eps : nat -> 'cV[F]_c) (i : nat) : 'cV[F]_d :=
  Xp eps (a i) - \sum_(l < n1) J i l *m (Xp eps (b l) - Xq (fun l => eps (N + l)%N) l).

Let Jd := dense q n1 J.
Let Knn := dense q q (fun i j => Kt (a i) (a j)).
Let Knz := dense q n1 (fun i j => Kt (a i) (b j)).
Let Kzz := dense n1 n1 (fun i j => Kt (b i) (b j)).

Lemma matheron_law : has_law q (N + N') matheron
  (fun i => mt (a i) - \sum_(l < n1) J i l *m (mt (b l) - m' l))
  (blk (Knn - Jd *m Kzz *m Jd^T + Jd *m dense n1 n1 K' *m Jd^T)).
Proof.
have [Gp [HGp HKp]] := Lp; have [Gq [HGq HKq]] := Lq.
pose G1 i l := Gp (a i) l - \sum_(j < n1) J i j *m Gp (b j) l.
pose G2 i l := \sum_(j < n1) J i j *m Gq j l.
exists (fun i l => if (l < N)%N then G1 i l else G2 i (l - N)%N); split.
  move=> eps i Hi; rewrite big_split_ord /=.
  have -> : \sum_(l < N) (if (l < N)%N then G1 i l else G2 i (l - N)%N) *m eps l = \sum_(l < N) G1 i l *m eps l.
    by apply: eq_bigr => l _; rewrite ltn_ord.
  have -> : \sum_(l < N') (if (N + l < N)%N then G1 i (N + l)%N else G2 i (N + l - N)%N) *m eps (N + l)%N =
            \sum_(l < N') G2 i l *m eps (N + l)%N.
    by apply: eq_bigr => l _; rewrite addKn; have -> : (N + l < N)%N = false by lia.
  rewrite /matheron HGp ?Ha //.
  have -> : \sum_(l < n1) J i l *m (Xp eps (b l) - Xq (fun l => eps (N + l)%N) l) =
     \sum_(l < n1) J i l *m (mt (b l) - m' l) + \sum_(j < N) (\sum_(l < n1) J i l *m Gp (b l) j) *m eps j
      - \sum_(j < N') G2 i j *m eps (N + j)%N.
    have E1 : \sum_(j < N) (\sum_(l < n1) J i l *m Gp (b l) j) *m eps j =
              \sum_(l < n1) J i l *m \sum_(j < N) Gp (b l) j *m eps j.
      transitivity (\sum_(j < N) \sum_(l < n1) J i l *m (Gp (b l) j *m eps j)).
        by apply: eq_bigr => j _; rewrite mulmx_suml; apply: eq_bigr => l _; rewrite mulmxA.
      by rewrite exchange_big /=; apply: eq_bigr => l _; rewrite mulmx_sumr.
    have E2 : \sum_(j < N') G2 i j *m eps (N + j)%N =
              \sum_(l < n1) J i l *m \sum_(j < N') Gq l j *m eps (N + j)%N.
      transitivity (\sum_(j < N') \sum_(l < n1) J i l *m (Gq l j *m eps (N + j)%N)).
        by apply: eq_bigr => j _; rewrite mulmx_suml; apply: eq_bigr => l _; rewrite mulmxA.
      by rewrite exchange_big /=; apply: eq_bigr => l _; rewrite mulmx_sumr.
    rewrite E1 E2 -big_split /= -sumrB; apply: eq_bigr => l _.
    by rewrite HGp ?Hb // (HGq (fun l => eps (N + l)%N)) // -mulmxDr -mulmxBr; congr (_ *m _); zmod.
  have -> : \sum_(l < N) G1 i l *m eps l = \sum_(l < N) Gp (a i) l *m eps l
     - \sum_(j < N) (\sum_(l < n1) J i l *m Gp (b l) j) *m eps j.
    by rewrite -sumrB; apply: eq_bigr => l _; rewrite /G1 mulmxBl.
  by zmod.
have HA : dense q N G1 = dense q N (fun i => Gp (a i)) - Jd *m dense n1 N (fun j => Gp (b j)).
  by rewrite /Jd mul_dense denseB.
have HB : dense q N' G2 = Jd *m dense n1 N' Gq by rewrite /Jd mul_dense.
have Enn : Knn = dense q N (fun i => Gp (a i)) *m (dense q N (fun i => Gp (a i)))^T.
  by rewrite tr_dense mul_dense; apply: eq_dense => i j Hi Hj; rewrite HKp // Ha.
have Ezz : Kzz = dense n1 N (fun i => Gp (b i)) *m (dense n1 N (fun i => Gp (b i)))^T.
  by rewrite tr_dense mul_dense; apply: eq_dense => i j Hi Hj; rewrite HKp // Hb.
have Enz : Knz = dense q N (fun i => Gp (a i)) *m (dense n1 N (fun i => Gp (b i)))^T.
  by rewrite tr_dense mul_dense; apply: eq_dense => i j Hi Hj; rewrite HKp ?Ha ?Hb.
have Eq : dense n1 n1 K' = dense n1 N' Gq *m (dense n1 N' Gq)^T.
  by rewrite tr_dense mul_dense; apply: eq_dense => i j Hi Hj; rewrite HKq.
have EJ : Knz = Jd *m Kzz by rewrite /Knz /Jd /Kzz mul_dense; apply: eq_dense.
have EJ' : Knz^T = Kzz *m Jd^T by rewrite EJ trmx_mul; congr (_ *m _); rewrite Ezz trmx_mul trmxK.
have Ed : Knn - Jd *m Kzz *m Jd^T + Jd *m dense n1 n1 K' *m Jd^T =
   dense q N G1 *m (dense q N G1)^T + dense q N' G2 *m (dense q N' G2)^T.
  rewrite HA HB trmxB !trmx_mul Eq mulmxBl !mulmxBr -Enn !mulmxA -Enz.
  rewrite -[Jd *m _ *m (dense q N _)^T]mulmxA.
  have -> : dense n1 N (fun j => Gp (b j)) *m (dense q N (fun i => Gp (a i)))^T = Knz^T.
    by rewrite Enz trmx_mul trmxK.
  have -> : Jd *m dense n1 N (fun j => Gp (b j)) *m (dense n1 N (fun j => Gp (b j)))^T = Jd *m Kzz.
    by rewrite Ezz mulmxA.
  by rewrite EJ' EJ !mulmxA; zmod.
move=> i j Hi Hj.
rewrite Ed !tr_dense !mul_dense denseD blk_dense // /wn_cov big_split_ord /=; congr (_ + _).
  by apply: eq_bigr => l _; rewrite ltn_ord.
by apply: eq_bigr => l _; rewrite addKn; have -> : (N + l < N)%N = false by lia.
Qed.
End Matheron.

(* the posterior sample has the conditional law *)
Lemma matheron_cond (F : fieldType) c d N N' Nt n1 q p (Xp Xq : (nat -> 'cV[F]_c) -> nat -> 'cV[F]_d)
   mt m' Kt K' a b (J : nat -> nat -> 'M[F]_d) (G : 'M[F]_(p, n1 * d)) Sg y :
  has_law Nt N Xp mt Kt -> has_law n1 N' Xq m' K' ->
  (forall i, (i < q)%N -> (a i < Nt)%N) -> (forall i, (i < n1)%N -> (b i < Nt)%N) ->
  (forall i j, (i < q)%N -> (j < n1)%N -> Kt (a i) (b j) = \sum_(l < n1) J i l *m Kt (b l) (b j)) ->
  let Kzz := dense n1 n1 (fun i j => Kt (b i) (b j)) in
  let Knz := dense q n1 (fun i j => Kt (a i) (b j)) in
  let Knn := dense q q (fun i j => Kt (a i) (a j)) in
  let mz := flat n1 (fun i => mt (b i)) in
  flat n1 m' = cond_mean mz Kzz G Sg y -> dense n1 n1 K' = cond_cov Kzz G Sg ->
  let W := invmx (G *m Kzz *m G^T + Sg) in
  has_law q (N + N') (matheron N n1 Xp Xq a b J)
    (unflat (flat q (fun i => mt (a i)) + Knz *m G^T *m W *m (y - G *m mz)))
    (blk (Knn - Knz *m G^T *m W *m G *m Knz^T)).
Proof.
move=> Lp Lq Ha Hb HJ Kzz Knz Knn mz Em EK W.
have := matheron_law Lp Lq Ha Hb HJ; rewrite -/Knn -/Kzz => L.
have EJ : Knz = dense q n1 J *m Kzz by rewrite /Knz /Kzz mul_dense; apply: eq_dense.
have [Gp [_ HKp]] := Lp.
have sK : Kzz^T = Kzz.
  rewrite /Kzz tr_dense; apply: eq_dense => i j Hi Hj.
  rewrite !HKp ?Hb // /wn_cov raddf_sum /=; apply: eq_bigr => l _.
  by rewrite trmx_mul trmxK.
have [G0 [H1 H2]] := L; exists G0; split.
  move=> eps i Hi; rewrite H1 //; congr (_ + _).
  have -> : Knz *m G^T *m W *m (y - G *m mz) = dense q n1 J *m (flat n1 m' - mz).
    by rewrite Em /cond_mean [mz + _]addrC addrK -/W EJ !mulmxA.
  rewrite /mz flatB mul_dense_flat flatD /flat unflat_bcol //; congr (_ + _).
  rewrite -sumrN; apply: eq_bigr => l _.
  by rewrite -mulmxN opprB.
move=> i j Hi Hj; rewrite -H2 //; congr (blk _ i j).
rewrite EK /cond_cov -/W EJ trmx_mul sK !mulmxA mulmxBr mulmxBl !mulmxA.
by zmod.
Qed.

Section Sampling.
Variable F : rcfType.
Variables (d : nat) (ker : sde_kernel F d) (n : nat) (z : nat -> F).
Hypothesis Hker : markov_kernel ker.
Hypothesis Hz : increasing n.+1 z.

(* the statistics used at one new point *)
Definition cs_D t := lsubmx (conditional_statistics ker n.+1 z t).1.1.
Definition cs_E t := rsubmx (conditional_statistics ker n.+1 z t).1.1.
Definition cs_J t (l : nat) : 'M[F]_d :=
  (if l == (ext_searchsorted n.+1 z t).-1 then cs_D t else 0) + (if l == ext_searchsorted n.+1 z t then cs_E t else 0).

Lemma sum_J k t p (c : nat -> 'M[F]_(d, p)) : (k < n)%N -> z k < t -> t < z k.+1 ->
  \sum_(l < n.+1) cs_J t l *m c l = cs_D t *m c k + cs_E t *m c k.+1.
Proof.
move=> Hk H1 H2; rewrite /cs_J (searchsorted_inner Hz _ H1 (ltW H2)) //=.
transitivity (\sum_(l < n.+1) ((if val l == k then cs_D t else 0) *m c l +
   (if val l == k.+1 then cs_E t else 0) *m c l)).
  by apply: eq_bigr => l _; rewrite mulmxDl.
by rewrite big_split /= sum_pick ?sum_pick //; lia.
Qed.

Lemma sample_stateE k t u v w : (k < n)%N -> z k < t -> t < z k.+1 ->
  sample_state ker n z t u v w = u - \sum_(l < n.+1) cs_J t l *m (v l - w l).
Proof.
move=> Hk H1 H2; rewrite (sum_J (fun l => v l - w l) Hk H1 H2) /sample_state.
rewrite (searchsorted_inner Hz _ H1 (ltW H2)) //.
have Hk1 : (k < n.+1)%N by lia.
rewrite !extend_in // /cs_D /cs_E -{1}[(conditional_statistics _ _ _ _).1.1]hsubmxK.
by rewrite mul_row_col.
Qed.

Lemma J_cov k t j : (k < n)%N -> z k < t -> t < z k.+1 -> (j < n.+1)%N ->
  state_cov ker t (z j) = \sum_(l < n.+1) cs_J t l *m state_cov ker (z l) (z j).
Proof.
move=> Hk H1 H2 Hj; rewrite (sum_J (fun l => state_cov ker (z l) (z j)) Hk H1 H2).
have [D [E [T [ES _ HR _]]]] := kernel_conditional Hker Hz Hk H1 H2.
rewrite /cs_D /cs_E ES /= row_mxKl row_mxKr.
have := HR (skip k j); rewrite insert_skip (skip_neq Hk); apply=> //.
exact: (skip_lt Hk).
Qed.
End Sampling.

(* the law of the samples at new points inside the range, jointly with the samples at
   the conditioning points *)
Lemma sample_law_core (F : rcfType) d (ker : sde_kernel F d) n nt q p (z tau : nat -> F) (pos_z pos_t : nat -> nat)
    prior joint post m' K' (G : 'M[F]_(p, n.+1 * d)) Sg y :
  markov_kernel ker -> increasing n.+1 z -> increasing nt.+1 tau ->
  (forall j, (j < n.+1)%N -> (pos_z j < nt.+1)%N /\ tau (pos_z j) = z j) ->
  (forall i, (i < q)%N -> (pos_t i < nt.+1)%N /\
     exists k, [/\ (k < n)%N, z k < tau (pos_t i) & tau (pos_t i) < z k.+1]) ->
  kernel_ssm n ker z = Some prior -> kernel_ssm nt ker tau = Some joint ->
  has_law n.+1 n.+1 (ssm_path post) m' K' ->
  let Kzz := dense n.+1 n.+1 (fun i j => state_cov ker (z i) (z j)) in
  let mz := flat n.+1 (fun _ => k_mean0 ker) in
  flat n.+1 m' = cond_mean mz Kzz G Sg y -> dense n.+1 n.+1 K' = cond_cov Kzz G Sg ->
  let t i := tau (pos_t i) in
  let sample eps i :=
    let post_z := ssm_sample n post (fun l => eps (nt.+1 + l)%N) in
    let prior_all := ssm_sample nt joint eps in
    if (i < q)%N then sample_state ker n z (t i) (prior_all (pos_t i)) (fun j => prior_all (pos_z j)) post_z
    else post_z (i - q)%N in
  let u i := if (i < q)%N then t i else z (i - q)%N in
  let Kuz := dense (q + n.+1) n.+1 (fun i j => state_cov ker (u i) (z j)) in
  let Kuu := dense (q + n.+1) (q + n.+1) (fun i j => state_cov ker (u i) (u j)) in
  let W := invmx (G *m Kzz *m G^T + Sg) in
  has_law (q + n.+1) (nt.+1 + n.+1) sample
    (unflat (flat (q + n.+1) (fun _ => k_mean0 ker) + Kuz *m G^T *m W *m (y - G *m mz)))
    (blk (Kuu - Kuz *m G^T *m W *m G *m Kuz^T)).
Proof.
move=> Hker Hz Htau Hpz Hpt Eprior Ejoint Lpost Kzz mz Em EK t sample u Kuz Kuu W.
pose a i := if (i < q)%N then pos_t i else pos_z (i - q)%N.
pose J i l : 'M[F]_d := if (i < q)%N then cs_J ker n z (t i) l else if l == (i - q)%N then 1%:M else 0.
have Ltau : has_law nt.+1 nt.+1 (ssm_sample nt joint) (fun _ => k_mean0 ker) (fun i j => state_cov ker (tau i) (tau j)).
  by apply: sample_law; move: Ejoint; rewrite (kernel_ssmE ker Htau) => -[<-]; apply: kssm_law.
have Lp := sample_law Lpost.
have Ha i : (i < q + n.+1)%N -> (a i < nt.+1)%N.
  rewrite /a => Hi; case: ifP => Hq; first by case: (Hpt i Hq).
  by case: (Hpz (i - q)%N); [lia|].
have Hb j : (j < n.+1)%N -> (pos_z j < nt.+1)%N by case/Hpz.
have Eu i : (i < q + n.+1)%N -> tau (a i) = u i.
  rewrite /a /u => Hi; case: ifP => Hq //.
  by case: (Hpz (i - q)%N); [lia|].
have HJ i j : (i < q + n.+1)%N -> (j < n.+1)%N ->
   state_cov ker (tau (a i)) (tau (pos_z j)) = \sum_(l < n.+1) J i l *m state_cov ker (tau (pos_z l)) (tau (pos_z j)).
  move=> Hi Hj; rewrite Eu //; case: (Hpz j Hj) => _ ->.
  transitivity (\sum_(l < n.+1) J i l *m state_cov ker (z l) (z j)); last first.
    by apply: eq_bigr => l _; case: (Hpz l (ltn_ord l)) => _ ->.
  rewrite /u /J; case: ifP => Hq.
    by have [_ [k [Hk H1 H2]]] := Hpt i Hq; apply: (J_cov Hker Hz Hk H1 H2).
  have Hi' : (i - q < n.+1)%N by lia.
  by rewrite (sum_pick 1%:M (fun l => state_cov ker (z l) (z j)) Hi') mul1mx.
have EKzz : dense n.+1 n.+1 (fun i j => state_cov ker (tau (pos_z i)) (tau (pos_z j))) = Kzz.
  by apply: eq_dense => i j Hi Hj; case: (Hpz i Hi) => _ ->; case: (Hpz j Hj) => _ ->.
have EKuz : dense (q + n.+1) n.+1 (fun i j => state_cov ker (tau (a i)) (tau (pos_z j))) = Kuz.
  by apply: eq_dense => i j Hi Hj; rewrite Eu //; case: (Hpz j Hj) => _ ->.
have EKuu : dense (q + n.+1) (q + n.+1) (fun i j => state_cov ker (tau (a i)) (tau (a j))) = Kuu.
  by apply: eq_dense => i j Hi Hj; rewrite !Eu.
have := @matheron_cond F d d nt.+1 n.+1 nt.+1 n.+1 (q + n.+1) p _ _ _ m' _ K' a pos_z J G Sg y Ltau Lp Ha Hb HJ.
cbv zeta; rewrite EKzz EKuz EKuu => /(_ Em EK) [G0 [H1 H2]].
exists G0; split=> // eps i Hi; rewrite -H1 //.
rewrite /sample /matheron /a /J; case: ifP => Hq.
  by have [_ [k [Hk Hl Hr]]] := Hpt i Hq; rewrite (sample_stateE ker Hz _ _ _ Hk Hl Hr).
have Hi' : (i - q < n.+1)%N by lia.
rewrite (sum_pick 1%:M (fun l => ssm_sample nt joint eps (pos_z l) -
   ssm_sample n post (fun l => eps (nt.+1 + l)%N) l) Hi') mul1mx.
by rewrite opprB addrC subrK.
Qed.

(* prediction inside the range, from the covariance function *)
Lemma predict_textbook (F : rcfType) d (ker : sde_kernel F d) n z k t t0 p post m' K' (G : 'M[F]_(p, n.+1 * d)) Sg y :
  markov_kernel ker -> k_mean0 ker = 0 -> increasing n.+1 z -> (k < n)%N -> z k < t -> t < z k.+1 ->
  ssm_nonsing n post -> has_law n.+1 n.+1 (ssm_path post) m' K' ->
  let Kzz := dense n.+1 n.+1 (fun i j => state_cov ker (z i) (z j)) in
  let Ktz := brow n.+1 (fun j => state_cov ker t (z j)) in
  let W := invmx (G *m Kzz *m G^T + Sg) in
  flat n.+1 m' = Kzz *m G^T *m W *m y -> dense n.+1 n.+1 K' = cond_cov Kzz G Sg ->
  predict_state ker n post z t0 t =
    (Ktz *m G^T *m W *m y, k_P0 ker t - Ktz *m G^T *m W *m G *m Ktz^T).
Proof.
move=> Hker H0 Hz Hk H1 H2 NP LP Kzz Ktz W Em EK.
have [D [E [T [ES HTs HR HT]]]] := kernel_conditional Hker Hz Hk H1 H2.
have sK : Kzz^T = Kzz.
  by rewrite /Kzz tr_dense; apply: eq_dense => i j Hi Hj; rewrite state_cov_tr.
have rowDE q (c : nat -> 'M[F]_(d, q)) : brow n.+1 (Jb k D E k.+1) *m bcol n.+1 c = D *m c k + E *m c k.+1.
  by rewrite mul_brow_bcol Jrow.
have KJ : Ktz = brow n.+1 (Jb k D E k.+1) *m Kzz.
  rewrite /Kzz /dense rowDE !mul_mx_brow browD; apply: eq_brow => j Hj.
  have := HR (skip k j); rewrite insert_skip (skip_neq Hk); apply=> //.
  exact: (skip_lt Hk).
set Jr := brow n.+1 _ in KJ.
have Et : k_P0 ker t = T + Jr *m Kzz *m Jr^T.
  rewrite -state_cov_diag // HT addrC; congr (_ + _).
  rewrite -KJ /Ktz /Jr tr_brow mul_brow_bcol.
  have -> : \sum_(l < n.+1) state_cov ker t (z l) *m (Jb k D E k.+1 l)^T =
            (\sum_(l < n.+1) Jb k D E k.+1 l *m state_cov ker (z l) t)^T.
    by rewrite raddf_sum /=; apply: eq_bigr => l _; rewrite trmx_mul state_cov_tr.
  have -> := Jrow Hk D E (fun l => state_cov ker (z l) t).
  move: HT; set X := D *m _ + _ => HT.
  have := congr1 trmx HT; rewrite [RHS]trmxD state_cov_tr // HT (spd_sym HTs).
  by move/addIr.
rewrite (predict_stateE _ _ ES).
have [-> ->] := pairwise_inner NP LP (k_mean0 ker) (k_P0 ker t0) Hk.
congr (_, _).
  have -> : Ktz *m G^T *m W *m y = Jr *m (Kzz *m G^T *m W *m y) by rewrite KJ !mulmxA.
  by rewrite -Em /flat rowDE mul_row_col.
have -> : row_mx D E *m block_mx (K' k k) (K' k k.+1) (K' k.+1 k) (K' k.+1 k.+1) *m (row_mx D E)^T =
   Jr *m dense n.+1 n.+1 K' *m Jr^T.
  rewrite /dense rowDE !mul_mx_brow browD /Jr tr_brow mul_brow_bcol.
  have -> : \sum_(l < n.+1) (D *m K' k l + E *m K' k.+1 l) *m (Jb k D E k.+1 l)^T =
            (\sum_(l < n.+1) Jb k D E k.+1 l *m (D *m K' k l + E *m K' k.+1 l)^T)^T.
    by rewrite raddf_sum /=; apply: eq_bigr => l _; rewrite trmx_mul trmxK.
  have -> := Jrow Hk D E (fun l => (D *m K' k l + E *m K' k.+1 l)^T).
  rewrite trmxD !trmx_mul !trmxK tr_row_mx mul_row_block mul_row_col.
  by rewrite !mulmxDl.
rewrite EK /cond_cov -/W Et KJ trmx_mul sK mulmxBr mulmxBl !mulmxA.
by zmod.
Qed.

Section Outside.
Variable F : rcfType.
Variables (d : nat) (ker : sde_kernel F d) (n : nat) (z : nat -> F).
Hypothesis Hker : markov_kernel ker.
Hypothesis Hz : increasing n.+1 z.
Notation INF := (APPROX_INF F).

Lemma searchsorted_right t : z n < t -> ext_searchsorted n.+1 z t = n.+1.
Proof.
move=> H; have [Hi Hl Hg] := searchsorted_spec t (increasing_sorted Hz).
have [//|Hlt] : ext_searchsorted n.+1 z t = n.+1 \/ (ext_searchsorted n.+1 z t <= n)%N by lia.
by have := Hg n Hlt (ltnSn n); rewrite leNgt H.
Qed.

Lemma searchsorted_left t : t <= z 0%N -> ext_searchsorted n.+1 z t = 0%N.
Proof.
move=> H; have [Hi Hl Hg] := searchsorted_spec t (increasing_sorted Hz).
by case: (ext_searchsorted _ _ _) Hl => // i /(_ 0%N erefl); rewrite ltNge H.
Qed.

(* what is computed to the right of the conditioning points *)
Lemma predict_right t t0 post m' K' : z n < t -> t < INF ->
  ssm_nonsing n post -> has_law n.+1 n.+1 (ssm_path post) m' K' ->
  let A := k_trans ker (z n) (t - z n) in let Q := k_cov ker (z n) (t - z n) in
  let A' := k_trans ker t (INF - t) in let Q' := k_cov ker t (INF - t) in
  let E := Q *m A'^T *m invmx (Q' + A' *m Q *m A'^T) in
  predict_state ker n post z t0 t =
   (A *m m' n + E *m (k_mean0 ker - A' *m (A *m m' n)),
    (1%:M - E *m A') *m Q + (1%:M - E *m A') *m (A *m K' n n *m A^T) *m (1%:M - E *m A')^T
      + E *m k_P0 ker t0 *m E^T).
Proof.
move=> H1 H2 NP LP A Q A' Q' E.
have HQ : spd Q by apply: (mk_cov_spd Hker); rewrite subr_gt0.
have HQ' : spd Q' by apply: (mk_cov_spd Hker); rewrite subr_gt0.
have EST : conditional_statistics ker n.+1 z t =
   (row_mx ((1%:M - E *m A') *m A) E, (1%:M - E *m A') *m Q, n.+1).
  rewrite /conditional_statistics (searchsorted_right H1) /augment_times ltnSn ltnn.
  rewrite (cond_statsE _ (spd_sym HQ)); last exact: (mp_spd A).
  by rewrite /= -/E !mulmxBl !mul1mx.
rewrite (predict_stateE _ _ EST).
have [-> ->] := pairwise_last NP LP (k_mean0 ker) (k_P0 ker t0).
congr (_, _); first by rewrite mul_row_col; mxring.
rewrite tr_row_mx mul_row_block mul_row_col !mulmx0 addr0 add0r.
by rewrite trmx_mul !mulmxA addrA.
Qed.

(* ... equals propagating the last marginal when the kernel has forgotten everything
   at the artificial end point *)
Lemma predict_right_limit t t0 post m' K' : z n < t -> t < INF -> k_trans ker t (INF - t) = 0 ->
  ssm_nonsing n post -> has_law n.+1 n.+1 (ssm_path post) m' K' ->
  let A := k_trans ker (z n) (t - z n) in let Q := k_cov ker (z n) (t - z n) in
  predict_state ker n post z t0 t = (A *m m' n, A *m K' n n *m A^T + Q).
Proof.
move=> H1 H2 HA NP LP A Q; rewrite (predict_right t0 H1 H2 NP LP) HA trmx0 mulmx0 !mul0mx addr0.
by rewrite subr0 !mul1mx trmx1 mulmx1 addr0; congr (_, _); rewrite [RHS]addrC.
Qed.

Lemma predict_left_limit t t0 post m' K' : - INF < t -> t < z 0%N -> k_trans ker (- INF) (t + INF) = 0 ->
  ssm_nonsing n post -> has_law n.+1 n.+1 (ssm_path post) m' K' ->
  let B := state_cov ker t (z 0%N) *m invmx (k_P0 ker (z 0%N)) in
  predict_state ker n post z t0 t =
   (B *m m' 0%N, k_P0 ker t - B *m state_cov ker (z 0%N) t + B *m K' 0%N 0%N *m B^T).
Proof.
move=> H1 H2 HA NP LP B.
have HtI : 0 < t + INF by rewrite -[INF]opprK subr_gt0.
have Htz : 0 < z 0%N - t by rewrite subr_gt0.
have HQt : k_cov ker (- INF) (t + INF) = k_P0 ker t.
  have := mk_P0 Hker (- INF) (ltW HtI); rewrite HA !mul0mx add0r => <-.
  by rewrite addrC addrK.
have HQ : spd (k_P0 ker t) by apply: mk_P0_spd.
have HQ' : spd (k_cov ker t (z 0%N - t)) by apply: (mk_cov_spd Hker).
have EW : k_cov ker t (z 0%N - t) + k_trans ker t (z 0%N - t) *m k_P0 ker t *m (k_trans ker t (z 0%N - t))^T =
   k_P0 ker (z 0%N).
  by have := mk_P0 Hker t (ltW Htz); rewrite addrBK => ->; rewrite addrC.
have E1 : state_cov ker (z 0%N) t = k_trans ker t (z 0%N - t) *m k_P0 ker t by rewrite /state_cov (ltW H2).
have E2 : state_cov ker t (z 0%N) = k_P0 ker t *m (k_trans ker t (z 0%N - t))^T.
  by rewrite -state_cov_tr // E1 trmx_mul (spd_sym HQ).
have EST : conditional_statistics ker n.+1 z t =
   (row_mx 0 B, k_P0 ker t - B *m state_cov ker (z 0%N) t, 0%N).
  rewrite /conditional_statistics (searchsorted_left (ltW H2)) /augment_times ltn0Sn opprK HA HQt.
  rewrite (cond_statsE _ (spd_sym HQ)) EW /=; last exact: mk_P0_spd.
  by rewrite -E2 -/B mulmx0 subr0 E1 !mulmxA.
rewrite (predict_stateE _ _ EST).
have [-> ->] := pairwise_first NP LP (k_mean0 ker) (k_P0 ker t0).
congr (_, _); first by rewrite mul_row_col mul0mx add0r.
by rewrite tr_row_mx mul_row_block mul_row_col !mulmx0 !mul0mx trmx0 !mulmx0 !add0r.
Qed.
End Outside.

(* cyclic reduction: the statistics of one explained point *)
Section Cyclic.
Variable F : rcfType.
Variables (d : nat) (ker : sde_kernel F d) (nc : nat) (te tc : nat -> F).

Lemma cyclic_meaning k Ft Gt L : let minus := augment_times nc tc k in let plus := augment_times nc tc k.+1 in
  spd (k_cov ker minus (te k - minus)) -> spd (k_cov ker (te k) (plus - te k)) ->
  cyclic_statistics ker nc te tc k = (Ft, Gt, L) ->
  let: (D, E, T) := cond_stats_from_transitions (k_trans ker minus (te k - minus)) (k_cov ker minus (te k - minus))
     (k_trans ker (te k) (plus - te k)) (k_cov ker (te k) (plus - te k)) in
  [/\ lowpos L, L *m L^T = invmx T &
   forall x y : 'cV[F]_d, - (invmx L^T *m (Gt^T *m x + Ft^T *m y)) = D *m x + E *m y].
Proof.
move=> minus plus HQ HQ'.
case ES: (cond_stats_from_transitions (k_trans ker minus _) _ _ _) => [[D E] T].
rewrite /cyclic_statistics -/minus -/plus ES /= => -[<- <- EL].
have HT := @cond_T_prec F d (k_trans ker minus (te k - minus)) _ (k_trans ker (te k) (plus - te k)) _ HQ HQ'.
rewrite ES /= in HT.
have HP := cond_prec_spd (k_trans ker (te k) (plus - te k)) HQ HQ'.
have HL : lowpos L by rewrite -EL; apply: chol_lowpos.
split=> //; first by rewrite -HT invmxK -EL; apply: chol_mul.
move=> x y; rewrite EL !trmxN !trmx_mul !trmxK !mulNmx -opprD mulmxN opprK -!mulmxA -mulmxDr mulKmx //.
by rewrite unitmx_tr; apply: lowpos_unit.
Qed.

Lemma cyclic_shapes ne F3 G3 L3 :
  cyclic_reduction_conditional_statistics ker ne nc te tc = Some (F3, G3, L3) ->
  [/\ t3_shape F3 = (ne, d, d.-1), t3_shape G3 = (ne, d, minn nc d) & t3_shape L3 = (ne, d, d)].
Proof.
rewrite /cyclic_reduction_conditional_statistics.
case: (to_delta_time ne te) => // _; case: (to_delta_time nc tc) => // _.
by case: ifP => // _ [<- <- <-].
Qed.
End Cyclic.

(* a Markov process over any real closed field: Brownian motion run by a clock that is
   positive and increasing *)
Section Clock.
Variable F : rcfType.
Definition clock (s : F) : F := if s <= 0 then (1 - s)^-1 else 1 + s.

Lemma clock_gt0 s : 0 < clock s.
Proof.
rewrite /clock; case: (leP s 0) => H; first by rewrite invr_gt0 subr_gt0 (le_lt_trans H) ?ltr01.
by rewrite addr_gt0 ?ltr01.
Qed.

Lemma clock_lt s t : s < t -> clock s < clock t.
Proof.
move=> H; rewrite /clock; case: (leP t 0) => Ht; case: (leP s 0) => Hs.
- rewrite ltf_pinv ?posrE ?subr_gt0 ?(le_lt_trans Ht) ?(le_lt_trans Hs) ?ltr01 //.
  by rewrite ltr_add2l ltr_opp2.
- by have := lt_trans Hs H; rewrite ltNge Ht.
- apply: (@le_lt_trans _ _ 1); last by rewrite ltr_addl.
  by rewrite invf_le1 ?subr_gt0 ?(le_lt_trans Hs) ?ltr01 // ler_addl oppr_ge0.
- by rewrite ltr_add2l.
Qed.

Definition clock_kernel d : sde_kernel F d :=
  SdeKernel (fun _ _ => 1%:M) (fun s a => (clock (s + a) - clock s)%:M) (fun _ _ => 0) 0 (fun s => (clock s)%:M).

Lemma spd_scalar d (c : F) : 0 < c -> spd (c%:M : 'M[F]_d).
Proof.
move=> Hc; split; first by rewrite tr_scalar_mx.
move=> x Hx; rewrite /qf -scalemx1 -scalemxAr -scalemxAl mxE mulr_gt0 //.
by have [_ /(_ x Hx)] := spd1 F d.
Qed.

Lemma clock_markov d : markov_kernel (clock_kernel d).
Proof.
split=> /= [//|s|s a b Ha Hb|s a b Ha Hb|s a Ha|s|s a Ha|s a Ha].
- by rewrite addr0 subrr raddf0.
- by rewrite mulmx1.
- by rewrite mul1mx trmx1 mulmx1 -raddfD /= addrA; congr (_%:M); zmod.
- by apply: spd_scalar; rewrite subr_gt0 clock_lt // ltr_addl.
- exact/spd_scalar/clock_gt0.
- by rewrite mul1mx trmx1 mulmx1 -raddfD /=; congr (_%:M); zmod.
- by rewrite mul1mx addr0.
Qed.

(* the same process with an independent restart at time c *)
Definition keep c (s a : F) : F := (~~ ((s < c) && (c <= s + a)))%:R.

Lemma keep0 c s : keep c s 0 = 1.
Proof. by rewrite /keep addr0; case: (ltP s c). Qed.

Lemma keepD c s a b : 0 <= a -> 0 <= b -> keep c s (a + b) = keep c (s + a) b * keep c s a.
Proof.
move=> Ha Hb; rewrite /keep addrA; case: (ltP s c) => H1 /=.
  case: (ltP (s + a) c) => H2 /=; first by case: (leP c (s + a + b)); rewrite ?mulr1 ?mul0r.
  by rewrite mulr0 (le_trans H2) // ler_addl.
by have -> : (s + a < c) = false; [apply/negbTE; rewrite -leNgt (le_trans H1) // ler_addl|rewrite mulr1].
Qed.

Lemma keep2 c s a : keep c s a * keep c s a = keep c s a.
Proof. by rewrite /keep; case: (_ && _); rewrite ?mulr1 ?mulr0. Qed.

Definition reset_kernel c d : sde_kernel F d :=
  SdeKernel (fun s a => (keep c s a)%:M) (fun s a => (clock (s + a) - keep c s a * clock s)%:M)
    (fun _ _ => 0) 0 (fun s => (clock s)%:M).

Lemma reset_markov c d : markov_kernel (reset_kernel c d).
Proof.
split=> /= [s|s|s a b Ha Hb|s a b Ha Hb|s a Ha|s|s a Ha|s a Ha].
- by rewrite keep0.
- by rewrite keep0 addr0 mul1r subrr raddf0.
- by rewrite keepD // scalar_mxM.
- rewrite tr_scalar_mx -!scalar_mxM -raddfD /= keepD // addrA; congr (_%:M).
  by rewrite [X in _ = X + _]mulrAC keep2; crng.
- apply: spd_scalar; rewrite subr_gt0 /keep; case: (_ && _); rewrite ?mul0r ?clock_gt0 // mul1r.
  by rewrite clock_lt // ltr_addl.
- exact/spd_scalar/clock_gt0.
- rewrite tr_scalar_mx -!scalar_mxM -raddfD /=; congr (_%:M).
  by rewrite [X in _ = X + _]mulrAC keep2; crng.
- by rewrite mulmx0 addr0.
Qed.
End Clock.

(* further lemmas for the statements in T_Cond *)
Section Misc.
Variable F : rcfType.

Lemma inf_gt1 : 1 < APPROX_INF F.
Proof. by rewrite /APPROX_INF ltr1n -[1%N](expn0 10) ltn_exp2l. Qed.

Lemma neighbours d (ker : sde_kernel F d) N z t :
  (forall i, (i.+1 < N)%N -> z i <= z i.+1) -> - APPROX_INF F < t -> t <= APPROX_INF F ->
  let i := (conditional_statistics ker N z t).2 in
  let minus := augment_times N z i in let plus := augment_times N z i.+1 in
  [/\ minus < t, t <= plus,
      forall j, (j < N)%N -> z j <= minus \/ plus <= z j,
      forall j, (j < N)%N -> z j = t -> plus = t &
      (i <= N)%N].
Proof.
move=> Hz H1 H2; rewrite /conditional_statistics; cbv zeta; rewrite [(_, _).2]/=.
have [Hi Hl Hg] := searchsorted_spec t Hz.
move: (ext_searchsorted N z t) Hi Hl Hg => i Hi Hl Hg.
have mono a b : (a <= b)%N -> (b < N)%N -> z a <= z b.
  elim: b => [|b IH]; first by rewrite leqn0 => /eqP ->.
  move=> Hab Hb; have [->//|Hab'] : a = b.+1 \/ (a <= b)%N by lia.
  by apply: le_trans (Hz _ Hb); apply: IH => //; lia.
have Hm : augment_times N z i < t.
  case: i Hi Hl Hg => [|i] Hi Hl Hg //=.
  by rewrite Hi Hl.
have Hp : t <= augment_times N z i.+1.
  by rewrite /=; case: ltnP => H //; apply: Hg.
split=> //.
- move=> j Hj; case: (ltnP j i) => Hji; [left|right].
    case: i Hi Hl Hg Hm Hp Hji => [//|i] Hi Hl Hg Hm Hp Hji /=.
    by rewrite Hi mono //; lia.
  rewrite /=; have -> : (i < N)%N by lia.
  by apply: mono.
- move=> j Hj Ej; apply/eqP; rewrite eq_le Hp andbT -Ej.
  case: (ltnP j i) => Hji; first by have := Hl j Hji; rewrite Ej ltxx.
  rewrite /=; have -> : (i < N)%N by lia.
  exact: mono.
Qed.

Lemma neighbours_example : let z i : F := if i is 0%N then 0 else 1 in
  [/\ forall i, (i.+1 < 3)%N -> z i <= z i.+1, - APPROX_INF F < (1 : F), (1 : F) <= APPROX_INF F &
      (conditional_statistics (clock_kernel F 1) 3 z 1).2 = 1%N].
Proof.
split.
- by case=> [|i] _ //=; rewrite ler01.
- by rewrite (lt_trans _ (@ltr01 F)) // oppr_lt0 (lt_trans (@ltr01 F) inf_gt1).
- exact/ltW/inf_gt1.
- by rewrite /conditional_statistics /ext_searchsorted /= lexx leNgt ltr01.
Qed.

Lemma cyclic_refuted : exists d (ker : sde_kernel F d) ne nc te tc F3 G3 L3,
  [/\ markov_kernel ker, increasing ne te, increasing nc tc,
      (forall k, (k < nc)%N -> te k < tc k /\ ((k.+1 < ne)%N -> tc k < te k.+1)) &
      [/\ cyclic_reduction_conditional_statistics ker ne nc te tc = Some (F3, G3, L3),
      t3_shape F3 <> (nc, d, d) & t3_shape G3 <> (ne.-1, d, d)]].
Proof.
pose te i : F := (2 * i)%:R; pose tc i : F := (2 * i + 1)%:R.
have He : increasing 3 te by move=> i _; rewrite ltr_nat; lia.
have Hc : increasing 2 tc by move=> i _; rewrite ltr_nat; lia.
case E: (cyclic_reduction_conditional_statistics (clock_kernel F 2) 3 2 te tc) => [[[F3 G3] L3]|]; last first.
  by move: E; rewrite /cyclic_reduction_conditional_statistics !increasing_delta.
have [E1 E2 _] := cyclic_shapes E.
exists 2%N, (clock_kernel F 2), 3%N, 2%N, te, tc, F3, G3, L3; split=> //.
- exact: clock_markov.
- by move=> k _; rewrite !ltr_nat; split; lia.
- by rewrite E1 E2.
Qed.

Lemma grid_refinement d (A : F -> 'M[F]_d) P mean n z n' (sub : nat -> nat) S S' m K m' K' :
  A 0 = 1%:M -> (forall a b, 0 <= a -> 0 <= b -> A (a + b) = A b *m A a) -> spd P ->
  (forall a, 0 < a -> spd (P - A a *m P *m (A a)^T)) ->
  increasing n.+1 z -> (forall i, (i < n')%N -> (sub i < sub i.+1)%N) -> (sub n' <= n)%N ->
  kernel_ssm n (stationary_kernel A P 0 mean) z = Some S -> has_law n.+1 n.+1 (ssm_path S) m K ->
  kernel_ssm n' (stationary_kernel A P 0 mean) (fun i => z (sub i)) = Some S' ->
  has_law n'.+1 n'.+1 (ssm_path S') m' K' ->
  (forall i, (i <= n')%N -> m' i = m (sub i)) /\
  (forall i j, (i <= n')%N -> (j <= n')%N -> K' i j = K (sub i) (sub j)).
Proof.
move=> A0 Aab HP HQ Hz Hs Hsn ES LS ES' LS'.
have Hk := stationary_markov mean A0 Aab HP HQ.
have Hsub i : (i <= n')%N -> (sub i <= n)%N.
  move=> Hi; suff H l : (i + l <= n')%N -> (sub i <= sub (i + l)%N)%N.
    by have := H (n' - i)%N; rewrite subnKC // => /(_ (leqnn _)); lia.
  elim: l => [|l IH] Hl; first by rewrite addn0.
  have H1 := Hs (i + l)%N ltac:(lia); have H2 := IH ltac:(lia).
  by rewrite addnS; lia.
have Hz' : increasing n'.+1 (fun i => z (sub i)).
  by move=> i Hi; apply: (increasing_lt Hz); [apply: Hs|apply: Hsub]; lia.
have [T [ET _ LT]] := kernel_law Hk Hz; have [T' [ET' _ LT']] := kernel_law Hk Hz'.
move: ES ES'; rewrite ET ET' => -[E1] [E2]; rewrite E1 in LT; rewrite E2 in LT'.
have [HM HK] := has_law_unique LS LT; have [HM' HK'] := has_law_unique LS' LT'.
by split=> [i Hi|i j Hi Hj]; [rewrite HM' // HM //|rewrite HK' // HK //]; apply: Hsub.
Qed.

Lemma stationary_marginals d (A : F -> 'M[F]_d) P mean n z S :
  A 0 = 1%:M -> (forall a b, 0 <= a -> 0 <= b -> A (a + b) = A b *m A a) -> spd P ->
  (forall a, 0 < a -> spd (P - A a *m P *m (A a)^T)) -> increasing n.+1 z ->
  kernel_ssm n (stationary_kernel A P 0 mean) z = Some S ->
  forall k, (k <= n)%N -> ssm_marginal_means n S k = mean /\ ssm_marginal_covariances n S k = P.
Proof.
move=> A0 Aab HP HQ Hz ES k Hk.
have Hm := stationary_markov mean A0 Aab HP HQ.
have [T [ET NT LT]] := kernel_law Hm Hz; move: ES; rewrite ET => -[<-].
have [H1 H2 _ _] := ssm_covariances NT LT.
by rewrite H1 // H2 // state_cov_diag //= scale0r addr0.
Qed.

Lemma delta_refuted : exists N (z : nat -> F), ~ increasing N z /\ to_delta_time N z <> None.
Proof.
exists 2%N, (fun _ => 0); split; first by move=> /(_ 0%N isT); rewrite ltxx.
by apply/to_deltaE.
Qed.

Lemma delta_spec N (z : nat -> F) :
  (to_delta_time N z <> None <-> forall i, (i.+1 < N)%N -> z i <= z i.+1) /\
  (forall dt, to_delta_time N z = Some dt -> forall i, (i.+1 < N)%N -> z i + dt i = z i.+1).
Proof.
split; first exact: to_deltaE.
move=> dt; rewrite /to_delta_time; case: ifP => // _ [<-] i _.
exact: addrBK.
Qed.

Lemma half_grid n : let z i : F := i%:R in let tau i : F := i%:R / 2%:R in
  let pos_z j := (2 * j)%N in let pos_t i := (2 * i + 1)%N in
  [/\ increasing n.+1 z, increasing (2 * n).+1 tau,
      forall j, (j < n.+1)%N -> (pos_z j < (2 * n).+1)%N /\ tau (pos_z j) = z j &
      forall i, (i < n)%N -> (pos_t i < (2 * n).+1)%N /\
     exists k, [/\ (k < n)%N, z k < tau (pos_t i) & tau (pos_t i) < z k.+1]].
Proof.
have P2 : (0 : F) < 2%:R by rewrite ltr0n.
split.
- by move=> i _; rewrite ltr_nat.
- by move=> i _; rewrite ltr_pmul2r ?invr_gt0 // ltr_nat.
- by move=> j Hj; split; [lia|rewrite mulnC natrM mulfK // gt_eqF].
- move=> i Hi; split; first by lia.
  by exists i; rewrite ltr_pdivl_mulr // ltr_pdivr_mulr // -!natrM !ltr_nat; split; lia.
Qed.
End Misc.
