(* Proofs: more inducing points never make the best bound worse. *)
From Coq Require Import Reals Lra.
From mathcomp Require Import all_ssreflect all_algebra.
From Verif Require Import RealStruct Nat Alg Lin Ent Spd Log M_Block M_SSM S_SSM P_SSM M_SSMLog P_SSMLog S_Gauss P_Gauss
  S_Kalman M_Kalman P_Kalman P_KalmanLog M_Kernel S_Kernel P_Kernel M_Cond P_Cond P_Cond2 P_Cond3 P_Cond4
  M_Emission P_Emission M_Sort P_Sort M_Models S_GP P_Elbo P_Models P_Models2 P_Models3 M_Comb S_Comb M_KernelR S_KernelR M_Cvi S_Cvi P_Cvi P_Cvi2 P_Cvi3 P_Cvi4 S_Expect P_Expect.
Set Implicit Arguments.
Unset Strict Implicit.
Unset Printing Implicit Defensive.
Import GRing.Theory Num.Theory Order.POrderTheory.
Local Open Scope ring_scope.

Section Gen.
Variable F : rcfType.

Lemma nystrom_mono N n m (C : 'M[F]_(N, m)) (K : 'M[F]_m) (P : 'M[F]_(n, m)) : spd K -> spd (P *m K *m P^T) ->
  psd (C *m invmx K *m C^T - (C *m P^T) *m invmx (P *m K *m P^T) *m (C *m P^T)^T).
Proof.
move=> HK HPK; have uK := spd_unit HK; have sK := spd_sym HK.
set M := invmx (P *m K *m P^T).
have uP := spd_unit HPK; have sM : M^T = M by rewrite /M tr_invmx (spd_sym HPK).
pose W := 1%:M - K *m P^T *m M *m P.
have E1 : W *m K *m W^T = K - K *m P^T *m M *m P *m K.
  rewrite /W linearB /= trmx1 !trmx_mul sM sK trmxK mulmxBl mul1mx mulmxBr mulmx1 mulmxBl.
  have -> : K *m P^T *m M *m P *m K *m (P^T *m (M *m (P *m K))) = K *m P^T *m M *m P *m K.
    have -> : K *m P^T *m M *m P *m K *m (P^T *m (M *m (P *m K))) = K *m P^T *m (M *m (P *m K *m P^T)) *m M *m P *m K by rewrite !mulmxA.
    by rewrite /M mulVmx // mulmx1.
  have -> : K *m (P^T *m (M *m (P *m K))) = K *m P^T *m M *m P *m K by rewrite !mulmxA.
  by rewrite subrr subr0.
have -> : C *m invmx K *m C^T - (C *m P^T) *m M *m (C *m P^T)^T = (C *m invmx K *m W) *m K *m (C *m invmx K *m W)^T.
  have -> : (C *m invmx K *m W) *m K *m (C *m invmx K *m W)^T = C *m invmx K *m (W *m K *m W^T) *m (invmx K *m C^T).
    by rewrite !trmx_mul tr_invmx sK !mulmxA.
  rewrite E1 mulmxBr mulmxBl mulmxKV //; congr (_ - _); first by rewrite mulmxA.
  rewrite trmx_mul trmxK.
  have -> : C *m invmx K *m (K *m P^T *m M *m P *m K) *m (invmx K *m C^T) =
      C *m (invmx K *m K) *m P^T *m M *m P *m (K *m invmx K) *m C^T by rewrite !mulmxA.
  by rewrite mulVmx // mulmxV // !mulmx1 !mulmxA.
by apply: psd_congr'; apply: spd_psd.
Qed.

Lemma dense_pick N N' M o d (b : nat -> nat) (L : nat -> nat -> 'M[F]_(o, d)) : (forall i, (i < M)%N -> (b i < N')%N) ->
  dense N N' L *m (@pick F d M N' b)^T = dense N M (fun i j => L i (b j)).
Proof.
move=> Hb; apply: trmx_inj; rewrite trmx_mul trmxK !tr_dense mul_dense; apply: eq_dense => i j Hi Hj.
by rewrite (sum_pick 1%:M (fun l => (L j l)^T)) ?Hb // mul1mx.
Qed.
End Gen.

Section Optimal.
Variables (d : nat) (ker : sde_kernel Rr d) (emission : R -> 'M[R]_(1, d)) (mean : R -> 'cV[R]_1).
Hypothesis Hker : markov_kernel ker.
Hypothesis Hm0 : k_mean0 ker = 0.

(* some distribution over the inducing states attains the collapsed bound *)
Lemma optimal_exists n z N X Y (s2 : R) : increasing (F := Rr) n.+1 z -> (0 < n)%N -> - APPROX_INF Rr < z 0%N -> 0 < s2 ->
  (forall k, (k < N)%N -> z 0%N <= X k <= z n) ->
  let Kzz := x_gram ker n.+1 z in let Kfz := fx_gram ker emission N n.+1 X z in let G := Kfz *m invmx Kzz in
  let r := flat N (fun k => Y k - mean (X k)) in
  exists q, ssm_nonsing n q /\ forall m K, has_law n.+1 n.+1 (ssm_path q) m K ->
      flat n.+1 m = cond_mean 0 Kzz G s2%:M r /\ dense n.+1 n.+1 K = cond_cov Kzz G s2%:M.
Proof.
move=> Hz Hn Hinf Hs2 HX Kzz Kfz G r.
have HX' k : (k < N)%N -> covered (F := Rr) n z (X k).
  by move=> Hi; have /andP [H1 H2] := HX k Hi; apply: (@covered_range Rr).
have H01 : 0 <= (1 : R) <= 1 by rewrite ler01 lexx.
have Hg := gauss_has_grad Hs2.
have Hs : valid_pairs n (scvi_initial_sites d) by case: (@scvi_example d n (fun _ => 0) 0 (fun k Hk => ltac:(by []))).
pose Y' k := (Y k - mean (X k)) 0 0.
have [s' [E1 E2 E3]] := scvi_gauss_update emission Hker Hm0 Hz Hn Y' Hs2 Hg HX' H01 Hs.
have E4 u : pairs_exponent n s' u = \sum_(k < N) (Y' k / s2 * projected ker emission n z (X k) u
    + - (2%:R * s2)^-1 * projected ker emission n z (X k) u ^+ 2).
  by rewrite E3 subrr mul0r add0r mul1r.
have [q [F1 F2 F3]] := scvi_exact Hker Hm0 Hz Hn Hs2 E2 E4.
exists q; split=> // m K L; have [-> ->] := F3 m K L; split=> //.
by congr (cond_mean _ _ _ _ _); apply: eq_flat => k Hk; apply/matrixP => i j; rewrite !ord1 mxE.
Qed.
End Optimal.

Section Grow.
Variables (o d : nat) (ker : sde_kernel Rr d) (emission : R -> 'M[R]_(o, d)).
Hypothesis Hker : markov_kernel ker.
Variables (N : nat) (X : nat -> R).

Definition nystrom n (z : nat -> R) : 'M[R]_(N * o) :=
  fx_gram ker emission N n.+1 X z *m invmx (x_gram ker n.+1 z) *m (fx_gram ker emission N n.+1 X z)^T.

Lemma nystrom_grow n z n' z' pos : increasing (F := Rr) n.+1 z -> increasing (F := Rr) n'.+1 z' ->
  (forall j, (j < n.+1)%N -> (pos j < n'.+1)%N /\ z' (pos j) = z j) ->
  psd (nystrom n' z' - nystrom n z).
Proof.
move=> Hz Hz' Hp.
have Hb j : (j < n.+1)%N -> (pos j < n'.+1)%N by case/Hp.
pose P := @pick Rr d n.+1 n'.+1 pos.
have E1 : x_gram ker n.+1 z = P *m x_gram ker n'.+1 z' *m P^T.
  rewrite /x_gram (@pick_dense Rr _ _ _ _ _ _ _ Hb Hb); apply: eq_dense => i j Hi Hj.
  have [_ E] := Hp i Hi; have [_ E'] := Hp j Hj; by rewrite E E'.
have E2 : fx_gram ker emission N n.+1 X z = fx_gram ker emission N n'.+1 X z' *m P^T.
  rewrite /fx_gram (@dense_pick Rr _ _ _ _ _ _ _ Hb); apply: eq_dense => i j Hi Hj.
  have [_ E'] := Hp j Hj; by rewrite E'.
rewrite /nystrom E2 E1; apply: (@nystrom_mono Rr); first exact: Kzz_spd.
by rewrite -E1; exact: Kzz_spd.
Qed.

Lemma nystrom_psd n z : increasing (F := Rr) n.+1 z -> psd (nystrom n z).
Proof.
move=> Hz; have HK := Kzz_spd Hker Hz.
by apply: (@psd_congr' Rr); apply: spd_psd; apply: spd_inv.
Qed.

Definition best_bound n z (s2 : R) (r : 'cV[R]_(N * o)) : R :=
  gauss_logpdf 0 (nystrom n z + s2%:M) r - (2%:R * s2)^-1 * \tr (f_gram ker emission N N X X - nystrom n z).

Lemma best_grow n z n' z' pos (s2 : R) r : 0 < s2 -> increasing (F := Rr) n.+1 z -> increasing (F := Rr) n'.+1 z' ->
  (forall j, (j < n.+1)%N -> (pos j < n'.+1)%N /\ z' (pos j) = z j) ->
  best_bound n z s2 r <= best_bound n' z' s2 r.
Proof.
move=> Hs Hz Hz' Hp.
have HS : spd (s2%:M : 'M[R]_(N * o)) by apply: (@spd_scalar Rr).
have := titsias 0 r (nystrom_psd Hz) HS (nystrom_grow Hz Hz' Hp).
have -> : nystrom n z + (nystrom n' z' - nystrom n z) = nystrom n' z' by zmod.
rewrite invmx_scalar mul_scalar_mx mxtraceZ mulrA => H.
rewrite /best_bound.
have -> : \tr (f_gram ker emission N N X X - nystrom n z) =
   \tr (nystrom n' z' - nystrom n z) + \tr (f_gram ker emission N N X X - nystrom n' z').
  by rewrite -mxtraceD; congr (\tr _); zmod.
rewrite mulrDr opprD addrA ler_add2r.
by rewrite invfM.
Qed.

(* the times of the data are among the inducing times: nothing is approximated *)
Lemma nystrom_full n z pos : increasing (F := Rr) n.+1 z -> (forall k, (k < N)%N -> (pos k < n.+1)%N /\ z (pos k) = X k) ->
  nystrom n z = f_gram ker emission N N X X.
Proof.
move=> Hz Hp.
pose L : 'M[R]_(N * o, n.+1 * d) := dense N n.+1 (fun k j => if j == pos k then emission (X k) else 0).
have uK : x_gram ker n.+1 z \in unitmx by exact: (Kzz_unit Hker Hz).
have sK : (x_gram ker n.+1 z)^T = x_gram ker n.+1 z by apply: (@spd_sym Rr); exact: Kzz_spd.
have E1 : fx_gram ker emission N n.+1 X z = L *m x_gram ker n.+1 z.
  rewrite /fx_gram /L /x_gram (@mul_dense Rr); apply: eq_dense => i j Hi Hj; have [H1 H2] := Hp i Hi.
  by rewrite (sum_pick (emission (X i)) (fun l => state_cov ker (z l) (z j))) // H2.
have -> : nystrom n z = L *m (fx_gram ker emission N n.+1 X z)^T by rewrite /nystrom {1}E1 mulmxK.
rewrite /fx_gram /L (@tr_dense Rr) (@mul_dense Rr) /f_gram; apply: eq_dense => i j Hi Hj.
have [H1 H2] := Hp i Hi.
rewrite (sum_pick (emission (X i)) (fun l => (emission (X j) *m state_cov ker (X j) (z l))^T)) // H2.
by rewrite /f_cov trmx_mul mulmxA state_cov_tr.
Qed.
End Grow.

Section Main.
Variables (d : nat) (ker : sde_kernel Rr d) (emission : R -> 'M[R]_(1, d)) (mean : R -> 'cV[R]_1).
Hypothesis Hker : markov_kernel ker.
Hypothesis Hm0 : k_mean0 ker = 0.
Variables (N : nat) (X : nat -> R) (Y : nat -> 'cV[R]_1) (s2 : R).
Hypothesis Hs2 : 0 < s2.
Let elbo n z q := svgp_elbo ker emission mean (ext_gaussian_ve s2) n z None N X Y q.
Let r := flat N (fun k => Y k - mean (X k)).

Lemma any_below n z q : increasing (F := Rr) n.+1 z -> - APPROX_INF Rr < z 0%N ->
  (forall k, (k < N)%N -> z 0%N <= X k <= z n) -> ssm_nonsing n q ->
  exists2 e, elbo n z q = Some e & e <= best_bound ker emission X n z s2 r.
Proof.
move=> Hz Hinf HX Nq; have Lq := @ssm_has_law Rr d n q.
have [e [E1 E2 _]] := svgp_collapsed emission mean Y Hker Hm0 Hz Hs2 Hinf HX Nq Lq.
exists e => //; rewrite E2 /best_bound -/(nystrom ker emission N X n z) -/r.
have HK := Kzz_spd Hker Hz.
have PS : spd (s2%:M : 'M[R]_(N * 1)) by apply: (@spd_scalar Rr).
set a := cond_mean _ _ _ _ _; set C := cond_cov _ _ _.
have HC : spd C by rewrite /C (@cond_cov_info Rr) //; apply: (@spd_inv Rr); exact: info_spd.
have HQ : spd (dense n.+1 n.+1 (ssm_cov q)) by exact: cov_spd.
have [] := gauss_kl_ge0 (flat n.+1 (ssm_marginal_means n q)) a HQ HC.
move: (gauss_kl _ _ _ _) => D.
by move=> H _; rewrite ler_subl_addr ler_addl.
Qed.

Lemma best_attained n z : increasing (F := Rr) n.+1 z -> (0 < n)%N -> - APPROX_INF Rr < z 0%N ->
  (forall k, (k < N)%N -> z 0%N <= X k <= z n) ->
  exists2 q, ssm_nonsing n q & elbo n z q = Some (best_bound ker emission X n z s2 r).
Proof.
move=> Hz Hn Hinf HX; have [q [Nq Hq]] := optimal_exists emission mean Hker Hm0 Y Hz Hn Hinf Hs2 HX.
exists q => //; have Lq := @ssm_has_law Rr d n q; have [Em EK] := Hq _ _ Lq.
have [e [E1 E2 _]] := svgp_collapsed emission mean Y Hker Hm0 Hz Hs2 Hinf HX Nq Lq.
rewrite /elbo E1; congr Some; rewrite E2 /best_bound -/(nystrom ker emission N X n z) -/r Em EK.
have HK := Kzz_spd Hker Hz.
set a := cond_mean _ _ _ _ _; set C := cond_cov _ _ _.
have HC : spd C.
  have PS : spd (s2%:M : 'M[R]_(N * 1)) by apply: (@spd_scalar Rr).
  by rewrite /C (@cond_cov_info Rr) //; apply: (@spd_inv Rr); exact: info_spd.
have [_ H] := gauss_kl_ge0 a a HC HC.
have -> : gauss_kl a C a C = 0 by apply/H.
by rewrite subr0.
Qed.

Lemma grow n z n' z' pos : increasing (F := Rr) n.+1 z -> increasing (F := Rr) n'.+1 z' -> (0 < n')%N ->
  - APPROX_INF Rr < z' 0%N -> (forall k, (k < N)%N -> z 0%N <= X k <= z n) ->
  (forall j, (j < n.+1)%N -> (pos j < n'.+1)%N /\ z' (pos j) = z j) ->
  exists q' e', [/\ ssm_nonsing n' q', elbo n' z' q' = Some e',
    forall q, ssm_nonsing n' q -> exists2 e, elbo n' z' q = Some e & e <= e',
    forall q, ssm_nonsing n q -> exists2 e, elbo n z q = Some e & e <= e' &
    forall pos', (forall k, (k < N)%N -> (pos' k < n'.+1)%N /\ z' (pos' k) = X k) ->
    e' = gauss_logpdf (flat N (fun k => mean (X k))) (f_gram ker emission N N X X + s2%:M) (flat N Y)].
Proof.
move=> Hz Hz' Hn' Hinf HX Hp.
have H0 j : (j < n.+1)%N -> z' 0%N <= z j <= z' n'.
  move=> Hj; have [H1 <-] := Hp j Hj.
  by rewrite !(increasing_le (F := Rr) Hz') //.
have HX' k : (k < N)%N -> z' 0%N <= X k <= z' n'.
  move=> Hk; have /andP [H1 H2] := HX k Hk; have /andP [H3 _] := H0 0%N isT; have /andP [_ H4] := H0 n (ltnSn n).
  by rewrite (le_trans H3 H1) (le_trans H2 H4).
have Hinf0 : - APPROX_INF Rr < z 0%N by have /andP [H3 _] := H0 0%N isT; apply: lt_le_trans Hinf H3.
have [q' Nq' E'] := best_attained Hz' Hn' Hinf HX'.
exists q', (best_bound ker emission X n' z' s2 r); split=> // [q Nq|q Nq|pos' Hp'].
- exact: any_below.
- have [e E1 E2] := any_below Hz Hinf0 HX Nq; exists e => //; apply: le_trans E2 _; exact: (best_grow emission Hker X _ Hs2 Hz Hz' Hp).
rewrite /best_bound (nystrom_full emission Hker Hz' Hp') subrr mxtrace0 mulr0 subr0 /r -flatB.
by rewrite /gauss_logpdf subr0.
Qed.

Lemma position n (z : nat -> R) M (w : nat -> R) : (forall k, (k < M)%N -> exists2 i, (i < n)%N & z i = w k) ->
  exists pos, forall k, (k < M)%N -> (pos k < n)%N /\ z (pos k) = w k.
Proof.
move=> H; exists (fun k => if [pick i : 'I_n | z i == w k] is Some i then val i else 0%N) => k Hk.
case: pickP => [i /eqP E|E]; first by split; [exact: ltn_ord|].
by have [i Hi Ei] := H k Hk; have := E (Ordinal Hi); rewrite /= Ei eqxx.
Qed.

Lemma grow_any n z n' z' : increasing (F := Rr) n.+1 z -> increasing (F := Rr) n'.+1 z' -> (0 < n')%N ->
  - APPROX_INF Rr < z' 0%N -> (forall k, (k < N)%N -> z 0%N <= X k <= z n) ->
  (forall j, (j < n.+1)%N -> exists2 i, (i < n'.+1)%N & z' i = z j) ->
  exists q' e', [/\ ssm_nonsing n' q', elbo n' z' q' = Some e',
    forall q, ssm_nonsing n' q -> exists2 e, elbo n' z' q = Some e & e <= e',
    forall q, ssm_nonsing n q -> exists2 e, elbo n z q = Some e & e <= e' &
    (forall k, (k < N)%N -> exists2 i, (i < n'.+1)%N & z' i = X k) ->
    e' = gauss_logpdf (flat N (fun k => mean (X k))) (f_gram ker emission N N X X + s2%:M) (flat N Y)].
Proof.
move=> Hz Hz' Hn Hi HX /position [pos Hp].
have [q' [e' [H1 H2 H3 H4 H5]]] := grow Hz Hz' Hn Hi HX Hp.
by exists q', e'; split=> // /position [pos' Hp']; apply: (H5 pos').
Qed.
End Main.

Lemma grow_example (l v : R) n : 0 < l -> 0 < v -> (0 < n)%N ->
  let ker := to_sde (matern32 1 0 l v 0) in
  let z i : R := i%:R in let z' i : R := i%:R / 2%:R in let X k : R := (2 * k + 1)%:R / 2%:R in
  [/\ markov_kernel ker, k_mean0 ker = 0, increasing (F := Rr) n.+1 z & - APPROX_INF Rr < z' 0%N] /\
  [/\ increasing (F := Rr) (2 * n).+1 z', (0 < 2 * n)%N, forall k, (k < n)%N -> z 0%N <= X k <= z n,
      forall j, (j < n.+1)%N -> exists2 i, (i < (2 * n).+1)%N & z' i = z j &
      forall k, (k < n)%N -> exists2 i, (i < (2 * n).+1)%N & z' i = X k].
Proof.
move=> Hl Hv Hn ker z z' X.
have [H1 H2 H3 H4 _] := models_example n 0 0 Hl Hv.
have [_ G2 G3 G4] := @half_grid Rr n.
split; split=> //.
- by move: H4; rewrite /z' mul0r.
- by rewrite muln_gt0.
- move=> k Hk; have [_ [j [Hj K1 K2]]] := G4 k Hk.
  have I1 := increasing_le (F := Rr) H3 (leq0n j) (ltnW Hj : (j < n.+1)%N).
  have I2 : j.+1%:R <= n%:R :> R by rewrite ler_nat.
  by rewrite (le_trans I1 (ltW K1)) (le_trans (ltW K2) I2).
- by move=> j /G3 [K1 K2]; exists (2 * j)%N.
- by move=> k Hk; have [K1 _] := G4 k Hk; exists (2 * k + 1)%N.
Qed.
