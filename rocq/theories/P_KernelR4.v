(* Closing lemmas for the theorems on kernels. *)
From Coq Require Import Reals Lra.
From mathcomp Require Import all_ssreflect all_algebra.
From Verif Require Import RealStruct Log Nat Alg Lin Ent Spd M_SSM S_SSM P_SSM M_SSMLog P_SSMLog M_Kernel S_Kernel P_Kernel M_Cond P_Cond P_Cond3 P_Cond4
  M_Comb S_Comb P_Kron P_Comb P_Comb2 P_Comb3 MCalc MExp MLyap M_KernelR P_Matern S_KernelR P_KernelR P_KernelR2 P_KernelR3.
Set Implicit Arguments.
Unset Strict Implicit.
Unset Printing Implicit Defensive.
Import Order.Theory GRing.Theory Num.Theory.
Local Open Scope ring_scope.

Lemma lib_process_covariance o d (k : skernel Rr o d) : library_kernel true k -> spd (sk_P k) /\
  forall s a, 0 < a ->
    psd (sk_P k - sk_A k a *m sk_P k *m (sk_A k a)^T) /\
    k_cov (to_sde k) s a = sk_P k - sk_A k a *m sk_P k *m (sk_A k a)^T + sk_jitter k *: 1%:M.
Proof. by move=> /lib_good [H1 H2 H3]; split=> // s a Ha; split=> //; apply: H3. Qed.

Lemma base_noise (o d : nat) (jitter l s2 : R) m1 m2 m3 (N Rot : 'M[R]_d) : 0 < l -> 0 < s2 ->
  [/\ noisy (matern12 o jitter l s2 m1), noisy (ornstein_uhlenbeck o jitter l s2 m1),
      noisy (matern32 o jitter l s2 m2) & noisy (matern52 o jitter l s2 m3)] /\
  [/\ N \in unitmx -> noisy (leg_kernel N Rot jitter), noiseless (constant_kernel o jitter s2) &
      noiseless (harmonic_oscillator o jitter s2 l)].
Proof.
move=> Hl Hs; split; split.
- by apply: (k1_noisy (m12_A _ _ _ _ _) (m12_F _ _ _ _ _) (m12_P _ _ _ _ _)); rewrite ?invr_gt0.
- exact: ou_noisy.
- exact: m32_noisy.
- exact: m52_noisy.
- exact: leg_noisy.
- exact: const_noiseless.
- exact: ho_noiseless.
Qed.

Lemma base_law (F : rcfType) o d (k : skernel F o d.+1) n z (c : F -> F) (x : F) :
  good_kernel k -> noisy k \/ noiseless k -> steady_mean k -> sk_jitter k = 0 ->
  (forall t, sk_H k t = first_emission F o d.+1) -> increasing n.+1 z -> sk_mean0 k 0 0 = x ->
  (forall s t, fcov k s t = const_mx (c `|s - t|)) ->
  prior_f_law k n z (fun _ => const_mx x) (fun i j => const_mx (c `|z i - z j|)).
Proof.
move=> H1 H2 H3 H4 H5 Hz Hx Hc; apply: (prior_f_law_ext (comb_law H1 H2 H4 Hz H3)) => //.
move=> i _; rewrite H5 -Hx; apply/matrixP => a b; rewrite !mxE big_ord_recl mxE eqxx mul1r big1 ?addr0 ?(ord1 b) // => j _.
by rewrite mxE mul0r.
Qed.

Lemma base_laws (o n : nat) (l s2 : R) m1 m2 m3 z : 0 < l -> 0 < s2 -> increasing (F := Rr) n.+1 z ->
  let law d (k : skernel Rr o d) (mean : R) (c : R -> R) :=
    prior_f_law k n z (fun _ => const_mx mean) (fun i j => const_mx (c `|z i - z j|)) in
  [/\ law _ (matern12 o 0 l s2 m1) (m1 0 0) (cov_matern12 l s2),
      law _ (ornstein_uhlenbeck o 0 l s2 m1) (m1 0 0) (cov_ou l s2),
      law _ (matern32 o 0 l s2 m2) (m2 0 0) (cov_matern32 l s2) &
      law _ (matern52 o 0 l s2 m3) (m3 0 0) (cov_matern52 l s2)] /\
  [/\ law _ (constant_kernel o 0 s2) 0 (fun _ => s2) &
      law _ (harmonic_oscillator o 0 s2 l) 0 (cov_cosine s2 l)].
Proof.
move=> Hl Hs Hz law.
have lg o' d (k : skernel Rr o' d) : library_kernel true k -> good_kernel k by exact: lib_good.
have [[B1 B2 B3 B4] [_ B5 B6]] := @base_noise o 0 0 l s2 m1 m2 m3 0 0 Hl Hs.
split; split; rewrite /law.
- apply: (base_law (lg _ _ _ (lib_matern12 true o 0 m1 Hl Hs)) (or_introl B1) _ _ _ Hz) => // [|s t].
    exact: base_steady.
  exact: m12_cov.
- apply: (base_law (lg _ _ _ (lib_ou true o 0 m1 Hl Hs)) (or_introl B2) _ _ _ Hz) => // [|s t].
    exact: base_steady.
  exact: ou_cov.
- apply: (base_law (lg _ _ _ (lib_matern32 true o 0 m2 Hl Hs)) (or_introl B3) _ _ _ Hz) => // [|s t].
    exact: base_steady.
  exact: m32_cov.
- apply: (base_law (lg _ _ _ (lib_matern52 true o 0 m3 Hl Hs)) (or_introl B4) _ _ _ Hz) => // [|s t].
    exact: base_steady.
  exact: m52_cov.
- apply: (base_law (lg _ _ _ (lib_constant true o 0 Hs)) (or_intror B5) _ _ _ Hz) => // [||s t].
  + exact: base_steady.
  + by rewrite /= mxE.
  + exact: const_cov.
- apply: (base_law (lg _ _ _ (lib_harmonic true o 0 Hs Hl)) (or_intror B6) _ _ _ Hz) => // [||s t].
  + exact: base_steady.
  + by rewrite /= mxE.
  + exact: ho_cov.
Qed.

Lemma cov_at0 (l s2 : R) : 0 < l ->
  [/\ cov_matern12 l s2 0 = s2, cov_ou l s2 0 = s2 / (2%:R * l), cov_matern32 l s2 0 = s2 & cov_matern52 l s2 0 = s2] /\
  cov_cosine s2 l 0 = s2.
Proof.
move=> Hl; have Hl' : l <> 0%Re by apply/eqP; rewrite gt_eqF.
have E0 x : (x = 0 -> exp (Ropp x) = 1)%Re by move=> ->; rewrite Ropp_0 exp_0.
split; first split.
- rewrite /cov_matern12 E0; first by Rf.
  by change (0 / l = 0)%Re; field.
- rewrite /cov_ou E0; last by change (l * 0 = 0)%Re; ring.
  have H2 : 2%:R * l <> 0 :> R by apply/eqP; rewrite mulf_neq0 ?pnatr_eq0 ?gt_eqF.
  rewrite (invrR H2) twoR; toR_ops; change (s2 / (2 * l) * 1 = s2 * / (2 * l))%Re; field; exact: Hl'.
- rewrite /cov_matern32 E0; last by change (sqrt 3%Re * 0 / l = 0)%Re; field.
  change (s2 * (1 + sqrt 3%Re * 0 / l) * 1 = s2)%Re; field; exact: Hl'.
- rewrite /cov_matern52 E0; last by change (sqrt 5%Re * 0 / l = 0)%Re; field.
  change (s2 * (1 + sqrt 5%Re * 0 / l + 5 * 0 ^ 2 / (3 * l ^ 2)) * 1 = s2)%Re; field; exact: Hl'.
rewrite /cov_cosine (_ : (2 * PI * 0 / l)%Re = 0%Re); last by field.
by rewrite cos_0; change (s2 * 1 = s2)%Re; ring.
Qed.

Lemma leg_law d n (N Rot : 'M[R]_d.+1) z : N \in unitmx -> increasing (F := Rr) n.+1 z ->
  prior_f_law (leg_kernel N Rot 0) n z (fun _ => 0)
    (fun i j => const_mx (mexp (leg_feedback N Rot) `|z i - z j| 0 0)).
Proof.
move=> HN Hz.
have Hs : steady_mean (leg_kernel N Rot 0) by exact: base_steady.
have H := base_law (leg_good N Rot 0) (or_introl (@leg_noisy d.+1 N Rot 0 HN)) Hs erefl (fun _ => erefl) Hz erefl.
have {}H := H (fun r => mexp (leg_feedback N Rot) r 0 0).
apply: (prior_f_law_ext (H _)) => //; last by move=> i _; apply/matrixP => a b; rewrite !mxE.
move=> s t; apply: (@lag_cov d.+1 d (leg_kernel N Rot 0) (fun r => mexp (leg_feedback N Rot) r 0 0)) => //.
  by rewrite leg_exp mexp0.
by move=> r _; rewrite leg_exp /= mulmx1.
Qed.

Lemma product_feedback_refuted : exists ks : seq (child Rr 1),
  (forall k, List.In k ks -> library_kernel false (projT2 k)) /\
  forall t, 0 < t -> sk_A (product_kernel ks 0) t <> mexp (sk_F (product_kernel ks 0)) t.
Proof.
exists (two_m12 1 1); split=> [k /= [<-|[<-|[]]] /=|t Ht]; try (apply: lib_matern12; exact: ltr01).
by apply: product_feedback_wrong => //; exact: ltr01.
Qed.

Lemma product_kron_sum (ks : seq (child Rr 1)) jitter :
  (forall k, List.In k ks -> library_kernel false (projT2 k)) ->
  forall t, sk_A (product_kernel ks jitter) t = mexp (kron_sum ks) t.
Proof.
move=> H; apply: generates_exp; apply: product_generates => k Hk.
by apply: exp_generates; apply: lib_exp; apply: H.
Qed.

Lemma mean_laws_exist (l s2 : R) (m : 'cV[R]_1) e n z : 0 < l -> 0 < s2 -> increasing (F := Rr) n.+2 z ->
  (exists mf K, prior_f_law (sum_kernel [:: mkchild (matern12 1 0 l s2 m)] 0) n.+1 z mf K) /\
  (exists mf K, prior_f_law (stack_kernel (e := e) (matern12 1 0 l s2 m) 0 0) n.+1 z mf K).
Proof.
move=> Hl Hs Hz.
have one (p : forall d, skernel Rr 1 d -> Prop) : p _ (matern12 1 0 l s2 m) -> every p [:: mkchild (matern12 1 0 l s2 m)].
  by move=> Hp k /= [<-|].
split; do 2 eexists.
- apply: (@sum_law Rr) => //; [exact: one (m12_good m Hl Hs)|exact: one (m12_A0 l s2 m)|].
  by left; split=> //; left; exact: one (m12_noisy m Hl Hs).
- apply: (@stack_law Rr) => //; [exact: m12_good|exact: m12_noisy|exact: base_steady|exact: m12_A0].
Qed.

Lemma extrapolate_example : increasing (F := Rr) 2 (fun i => i%:R) /\
  exists m' K', [/\ ssm_nonsing 1 (ex_ssm (F := Rr) (d := 1) 1%:M 0),
    has_law 2 2 (ssm_path (ex_ssm (F := Rr) (d := 1) 1%:M 0)) m' K' & m' 1%N != 0].
Proof.
split; first by move=> i _; rewrite ltr_nat.
have HN := @ex_ssm_nonsing Rr 1 1 1%:M 0.
do 2 eexists; split=> //; first exact: ssm_has_law.
rewrite marginal_meansE //= mul1mx addr0.
by apply/eqP => /matrixP /(_ 0 0); rewrite !mxE /=; apply/eqP; rewrite oner_eq0.
Qed.

Lemma base_jitter_law (F : rcfType) o d (A : F -> 'M[F]_d) Fb P m jitter n z (k := base_kernel o A Fb P m jitter) :
  good_kernel k -> A 0 = 1%:M -> 0 < jitter -> increasing n.+1 z ->
  prior_f_law k n z (fun _ => first_emission F o d *m m)
    (fun i j => fcov k (z i) (z j) + jitter *: (first_emission F o d *m
       (\sum_(l < (minn i j).+1) A (z i - z l) *m (A (z j - z l))^T) *m (first_emission F o d)^T)).
Proof.
move=> Hg HA Hj Hz; apply: (law_gen Hg Hz (or_intror Hj) HA (mu := fun _ => m)) => // i Hi.
by apply: (base_steady o A Fb P m jitter); rewrite subr_gt0; apply: Hz; rewrite ltnS.
Qed.

Lemma concat_no_factor (F : rcfType) o o' (ks : seq (child F o)) (E : F -> 'M[F]_(o', concat_dim ks)) s (a : F) :
  0 < a -> some (fun d k => noisy k /\ (0 < d)%N) ks -> some (fun d k => noiseless k /\ (0 < d)%N) ks ->
  let Q := k_cov (to_sde (concat_kernel E 0)) s a in
  Q <> 0 /\ forall L, lownz L -> L *m L^T <> Q.
Proof.
move=> Ha H1 H2; have [D1 D2] := concat_step_degenerate E 0 Ha H1 H2.
rewrite [k_cov _ _ _]/= scale0r addr0; split; first exact: D1.
exact: not_spd_no_factor D2.
Qed.

Lemma stack_no_factor (F : rcfType) d e (k : skernel F 1 d.+1) (m : 'cV[F]_(d.+1 + e.+1)) s (a : F) :
  0 < a -> noiseless k ->
  let Q := k_cov (to_sde (stack_kernel k m 0)) s a in
  Q <> 0 /\ forall L, lownz L -> L *m L^T <> Q.
Proof.
move=> Ha H1; have [D1 D2] := stack_step_degenerate m 0 Ha H1.
rewrite [k_cov _ _ _]/= scale0r addr0; split; first exact: D1.
exact: not_spd_no_factor D2.
Qed.

Lemma stack_not_exp d e (k : skernel Rr 1 d) (m : 'cV[R]_(d + e.+1)) jitter t :
  sk_A (stack_kernel k m jitter) t <> mexp (sk_F (stack_kernel k m jitter)) t.
Proof.
move=> E; have := mexpD (sk_F (stack_kernel k m jitter)) t (- t); rewrite subrr mexp0 -E.
move=> /(congr1 (fun M => M *m col_mx 0 (const_mx 1 : 'cV[R]_e.+1))).
rewrite mul1mx -mulmxA [sk_A _ _ *m _]mul_block_col !mul0mx mulmx0 !addr0 col_mx0 mulmx0.
move=> /matrixP /(_ (rshift d 0) 0); rewrite col_mxEd mxE [RHS]mxE => /eqP.
by rewrite oner_eq0.
Qed.
