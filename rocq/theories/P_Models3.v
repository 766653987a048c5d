(* Regression with the stationary kernels of the library; examples. *)
From Coq Require Import Reals Lra.
From mathcomp Require Import all_ssreflect all_algebra.
From Verif Require Import RealStruct Nat Alg Lin Ent Spd Log M_Block M_SSM S_SSM P_SSM M_SSMLog P_SSMLog S_Gauss P_Gauss
  S_Kalman M_Kalman P_Kalman P_KalmanLog M_Kernel S_Kernel P_Kernel M_Cond
  M_Emission M_Sort M_Models S_GP P_Elbo P_Models P_Models2 M_Comb S_Comb P_Comb P_Comb2 M_KernelR S_KernelR P_KernelR
  P_KernelR2 P_KernelR3 P_Cond4.
Set Implicit Arguments.
Unset Strict Implicit.
Unset Printing Implicit Defensive.
Import GRing.Theory Num.Theory Order.TTheory.
Local Open Scope ring_scope.

Lemma plain_markov (F : rcfType) o d (k : skernel F o d) : plain_kernel k -> noisy k ->
  [/\ markov_kernel (to_sde k), k_mean0 (to_sde k) = 0 &
      forall s t, f_cov (to_sde k) (sk_H k) s t = fcov k s t].
Proof.
move=> Hp Hn; have Hm := plain_mean Hp; have Ho := plain_off Hp.
split=> [|//|s t].
  apply: good_markov => //; [exact: plain_good|by move=> a _; rewrite Hm Ho mulmx0 addr0|exact: plain_jitter|exact: plain_A0].
rewrite /f_cov /fcov /state_cov /= (plain_jitter Hp) scale0r addr0.
by case: (ltgtP t s) => // ->; rewrite subrr (plain_A0 Hp) mul1mx.
Qed.

Lemma gpr_library o d (k : skernel Rr o d) mean n z y cR new i :
  library_kernel true k -> sk_jitter k = 0 -> sk_mean0 k = 0 -> noisy k ->
  increasing n.+1 z -> lownz cR ->
  let mu := flat n.+1 (fun k => mean (z k)) in
  let Kyy := dense n.+1 n.+1 (fun i j => fcov k (z i) (z j)) + dense n.+1 n.+1 (rdiag (fun _ => cR *m cR^T)) in
  let Kt := brow n.+1 (fun j => fcov k (new i) (z j)) in
  gpr_log_likelihood (to_sde k) (sk_H k) mean n z y cR = Some (gauss_logpdf mu Kyy (flat n.+1 y)) /\
  ((0 < n)%N -> - APPROX_INF Rr < z 0%N -> z 0%N <= new i -> new i <= z n ->
   omap (fun p => p i) (gpr_predict_f (to_sde k) (sk_H k) mean n z y cR new) =
   Some (mean (new i) + Kt *m invmx Kyy *m (flat n.+1 y - mu),
         fcov k (new i) (new i) - Kt *m invmx Kyy *m Kt^T)).
Proof.
move=> Hl Hj Hm Hn Hz HR mu Kyy Kt.
have [Hk H0 Ef] := plain_markov (lib_plain Hl Hj Hm) Hn.
have Eg : f_gram (to_sde k) (sk_H k) n.+1 n.+1 z z = dense n.+1 n.+1 (fun i j => fcov k (z i) (z j)).
  by apply: eq_dense => a b _ _; exact: Ef.
split; first by rewrite (gpr_evidence (sk_H k) mean Hk H0 y Hz HR) Eg.
move=> Hn0 Hinf H1 H2.
have := gpr_predict (sk_H k) mean Hk H0 y Hz HR Hn0 Hinf H1 H2; cbv zeta.
have -> : brow n.+1 (fun j => f_cov (to_sde k) (sk_H k) (new i) (z j)) = Kt.
  by apply: eq_brow => j _; exact: Ef.
by rewrite Eg Ef.
Qed.

Lemma matern_ready (o : nat) (l s2 : R) : 0 < l -> 0 < s2 ->
  let ready d (k : skernel Rr o d) (c : R -> R) :=
    [/\ library_kernel true k, sk_jitter k = 0, sk_mean0 k = 0, noisy k &
        forall s t, fcov k s t = const_mx (c `|s - t|)] in
  [/\ ready _ (matern12 o 0 l s2 0) (cov_matern12 l s2),
      ready _ (matern32 o 0 l s2 0) (cov_matern32 l s2) &
      ready _ (matern52 o 0 l s2 0) (cov_matern52 l s2)].
Proof.
move=> Hl Hs.
have m12n : noisy (matern12 o 0 l s2 0).
  by apply: (k1_noisy (m12_A _ _ _ _ _) (m12_F _ _ _ _ _) (m12_P _ _ _ _ _)); rewrite ?invr_gt0.
split; split=> //; try by constructor.
- by move=> s t; apply: m12_cov.
- exact: m32_noisy.
- by move=> s t; apply: m32_cov.
- exact: m52_noisy.
- by move=> s t; apply: m52_cov.
Qed.

Lemma matern_markov (l s2 : R) : 0 < l -> 0 < s2 ->
  let k := matern32 1 0 l s2 0 in markov_kernel (to_sde k) /\ k_mean0 (to_sde k) = 0.
Proof.
move=> Hl Hs k; have [_ [H1 H2 H3 H4 _] _] := matern_ready 1 Hl Hs.
by have [] := plain_markov (lib_plain H1 H2 H3) H4.
Qed.

(* integer times, every q of the family started at mu, moved by b *)
Lemma models_example (l s2 : R) n (mu b : 'cV[R]_2) : 0 < l -> 0 < s2 ->
  let k := matern32 1 0 l s2 0 in let z i : R := i%:R in
  [/\ markov_kernel (to_sde k), k_mean0 (to_sde k) = 0, increasing (F := Rr) n.+1 z, - APPROX_INF Rr < z 0%N &
      ssm_nonsing n (ex_ssm (F := Rr) mu b)].
Proof.
move=> Hl Hs k z; have [H1 H2] := matern_markov Hl Hs; split=> //.
- by move=> i _; rewrite /z ltr_nat.
- by rewrite /z oppr_lt0; apply: lt_trans ltr01 (@inf_gt1 Rr).
- exact: ex_ssm_nonsing.
Qed.

Lemma partition_balanced k b :
  (forall B i, (B < k)%N -> (i < b)%N -> (B * b + i < k * b)%N) /\
  (forall j, (j < k * b)%N -> (\sum_(B < k) \sum_(i < b) (B * b + i == j))%N = 1%N).
Proof.
split=> [B i HB Hi|j Hj]; first by nia.
have Hb : (0 < b)%N by case: b Hj => //; rewrite muln0.
have HB : (j %/ b < k)%N by rewrite ltn_divLR.
rewrite (bigD1 (Ordinal HB)) //= (bigD1 (Ordinal (ltn_pmod j Hb))) //= -divn_eq eqxx.
rewrite big1 => [|i Hi]; last first.
  apply/eqP; rewrite eqb0; apply: contra Hi => /eqP E; apply/eqP/val_inj => /=.
  by rewrite -E modnMDl modn_small.
rewrite big1 // => B HB'; rewrite big1 // => i _.
apply/eqP; rewrite eqb0; apply: contra HB' => /eqP E; apply/eqP/val_inj => /=.
by rewrite -E divnMDl // divn_small // addn0.
Qed.

Lemma gpr_loss_ok o d (ker : sde_kernel Rr d) (emission : R -> 'M[R]_(o, d)) mean :
  markov_kernel ker -> k_mean0 ker = 0 -> forall n z y (cR : 'M[R]_o), increasing n.+1 z -> lownz cR ->
  gpr_loss ker emission mean n z y cR =
  Some (- gauss_logpdf (flat n.+1 (fun k => mean (z k)))
    (f_gram ker emission n.+1 n.+1 z z + dense n.+1 n.+1 (rdiag (fun _ => cR *m cR^T))) (flat n.+1 y)).
Proof. by move=> Hk H0 n z y cR Hz HR; rewrite /gpr_loss gpr_evidence. Qed.
