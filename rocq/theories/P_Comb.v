(* Stationary kernels and their combinations: laws of the priors. *)
From mathcomp Require Import all_ssreflect all_algebra.
From Verif Require Import Nat Alg Lin Ent Spd M_SSM S_SSM P_SSM M_Kernel S_Kernel P_Kernel M_Comb S_Comb P_Kron.
Set Implicit Arguments.
Unset Strict Implicit.
Unset Printing Implicit Defensive.
Import Order.Theory GRing.Theory Num.Theory.
Local Open Scope ring_scope.

Section Comb.
Variable F : rcfType.

(* ---------- the law of the prior ---------- *)
Section Law.
Variables (o d : nat) (k : skernel F o d) (n : nat) (z : nat -> F).
Hypothesis Hk : good_kernel k.
Hypothesis HQ : noisy k \/ noiseless k.
Hypothesis Hj : sk_jitter k = 0.
Hypothesis Hz : increasing n.+1 z.
Notation S := (kssm (to_sde k) z).

Lemma comb_Qc i : (i < n.+1)%N -> ssm_Qc S i = if i is i'.+1 then step_cov k (z i - z i') else sk_P k.
Proof.
rewrite /ssm_Qc; case: i => [|i] Hi /=.
  by rewrite Hj scale0r addr0; apply: cholesky_or_zero_mul; left; apply: good_P.
rewrite Hj scale0r addr0 -/(step_cov k _); apply: cholesky_or_zero_mul.
have H : 0 < z i.+1 - z i by rewrite subr_gt0 Hz.
by case: HQ => H'; [left|right]; apply: H'.
Qed.

Lemma comb_phi i m : (i + m.+1 < n.+1)%N -> phi (s_A S) i m.+1 = sk_A k (z (i + m.+1)%N - z i).
Proof.
elim: m => [|m IH] Him; first by rewrite /= mulmx1 addn0 addn1.
rewrite [LHS]/= -[_ *m phi _ _ _]/(phi (s_A S) i m.+1) IH; last by lia.
have -> : z (i + m.+2)%N - z i = (z (i + m.+1)%N - z i) + (z (i + m.+1).+1 - z (i + m.+1)%N).
  by rewrite addnS [RHS]addrC addrA subrK.
by rewrite [RHS](good_semi Hk) ?subr_gt0 //; apply: (increasing_lt Hz); lia.
Qed.

Lemma step_covK a : step_cov k a + sk_A k a *m sk_P k *m (sk_A k a)^T = sk_P k.
Proof. by rewrite /step_cov subrK. Qed.

Lemma comb_var i : (i < n.+1)%N -> chain_var (s_A S) (ssm_Qc S) i = sk_P k.
Proof.
elim: i => [|i IH] Hi; first by rewrite /= comb_Qc.
by rewrite /= IH 1?comb_Qc // 1?addrC ?step_covK //; lia.
Qed.

Lemma comb_cov i j : (i < n.+1)%N -> (j < n.+1)%N ->
  ssm_cov S i j = if z j < z i then sk_A k (z i - z j) *m sk_P k
                  else if z i < z j then (sk_A k (z j - z i) *m sk_P k)^T else sk_P k.
Proof.
move=> Hi Hj'; rewrite /ssm_cov /chain_cov !(increasing_lt_iff Hz) //.
have HP := spd_sym (good_P Hk).
case: (ltngtP j i) => Hij.
- rewrite comb_var //; case E : (i - j)%N => [|m]; first by lia.
  rewrite comb_phi; last by lia.
  by rewrite (_ : (j + m.+1)%N = i) //; lia.
- rewrite comb_var //; case E : (j - i)%N => [|m]; first by lia.
  rewrite comb_phi; last by lia.
  by rewrite trmx_mul HP (_ : (i + m.+1)%N = j) //; lia.
by rewrite Hij subnn /= mul1mx comb_var.
Qed.

Lemma comb_mean (Hm : steady_mean k) i : (i < n.+1)%N -> gen_path (s_mu0 S) (s_cholP0 S) (s_A S) (s_b S) (s_cholQ S) (fun _ => 0) i = sk_mean0 k.
Proof.
elim: i => [|i IH] Hi /=; first by rewrite mulmx0 addr0.
rewrite IH; last by lia.
by rewrite mulmx0 addr0 -Hm // subr_gt0 Hz.
Qed.

Lemma comb_law (Hm : steady_mean k) :
  prior_f_law k n z (fun i => sk_H k (z i) *m sk_mean0 k) (fun i j => fcov k (z i) (z j)).
Proof.
exists S; first exact: kernel_ssmE.
have [G [HG HK]] := ssm_has_law n S; exists (fun i l => sk_H k (z i) *m G i l); split=> [eps i Hi|i j Hi Hj'].
  have := HG (fun _ => 0) i Hi; rewrite /ssm_path comb_mean // => E.
  rewrite -[LHS]/(sk_H k (z i) *m ssm_path S eps i) HG // mulmxDr mulmx_sumr; congr (_ *m _ + _); last by apply: eq_bigr => l _; rewrite mulmxA.
  by rewrite E big1 ?addr0 // => l _; rewrite mulmx0.
rewrite /fcov -comb_cov // HK // /wn_cov mulmx_sumr mulmx_suml; apply: eq_bigr => l _.
by rewrite trmx_mul !mulmxA.
Qed.
End Law.

Lemma base_steady o d (A : F -> 'M[F]_d) Fb P m jitter : steady_mean (base_kernel o A Fb P m jitter).
Proof. by move=> a _ /=; rewrite /own_offsets mulNmx mulmxBl mul1mx opprB addrC subrK. Qed.

(* the first emission reads the first state *)
Lemma first_emissionE o d (X : 'M[F]_d.+1) :
  first_emission F o d.+1 *m X *m (first_emission F o d.+1)^T = const_mx (X 0 0).
Proof.
apply/matrixP => i j; rewrite !mxE (bigD1 0) //= big1 ?addr0; last first.
  by move=> l Hl; rewrite !mxE (_ : (val l == 0%N) = false) ?mulr0 //; apply/negbTE.
rewrite !mxE mulr1 (bigD1 0) //= big1 ?addr0; first by rewrite !mxE mul1r.
by move=> l Hl; rewrite !mxE (_ : (val l == 0%N) = false) ?mul0r //; apply/negbTE.
Qed.

Lemma good_markov o d (k : skernel F o d) : good_kernel k -> noisy k -> steady_mean k -> sk_jitter k = 0 ->
  sk_A k 0 = 1%:M -> sk_off k 0 = 0 -> markov_kernel (to_sde k).
Proof.
move=> Hk HQ Hm Hj A0 O0.
have semi a b : 0 <= a -> 0 <= b -> sk_A k (a + b) = sk_A k b *m sk_A k a.
  rewrite !le_eqVlt => /orP [/eqP <-|Ha] => [_|]; first by rewrite add0r A0 mulmx1.
  by move=> /orP [/eqP <-|Hb]; [rewrite addr0 A0 mul1mx | apply: (good_semi Hk)].
split=> /= [_|_|_ a b Ha Hb|_ a b Ha Hb|_ a Ha|_|_ a Ha|_ a Ha]; rewrite ?Hj ?scale0r ?addr0 //.
- by rewrite A0 mul1mx trmx1 mulmx1 subrr.
- exact: semi.
- rewrite semi // mulmxBr mulmxBl trmx_mul !mulmxA addrA.
  by rewrite addrAC [_ + sk_P k]addrC; zmod.
- exact: HQ.
- exact: (good_P Hk).
- by rewrite addrC subrK.
- by move: Ha; rewrite le_eqVlt => /orP [/eqP <-|Ha]; [rewrite A0 O0 mul1mx addr0 | apply: Hm].
Qed.

(* ---------- lists of children ---------- *)
Lemma every_cons o (p : forall d, skernel F o d -> Prop) k ks :
  every p (k :: ks) <-> p _ (projT2 k) /\ every p ks.
Proof.
split=> [H|[H1 H2] k' [<-|]] //; first by split=> [|k' Hk']; apply: H; [left|right].
exact: H2.
Qed.

(* ---------- ConcatKernel ---------- *)
Section Concat.
Variables (o : nat).
Implicit Types ks : seq (child F o).

Lemma psd_block_diag m n (A : 'M[F]_m) (B : 'M[F]_n) : psd A -> psd B -> psd (block_mx A 0 0 B).
Proof.
move=> [sA pA] [sB pB]; split; first by rewrite tr_block_mx !trmx0 sA sB.
move=> x; rewrite -[x]vsubmxK qf_block !mulmx0 !mul0mx !mxE !addr0; exact: addr_ge0.
Qed.

Lemma spd_block_diag m n (A : 'M[F]_m) (B : 'M[F]_n) : spd A -> spd B -> spd (block_mx A 0 0 B).
Proof.
move=> HA HB; have := @spd_block _ _ _ A 0 B HA; rewrite trmx0 mul0mx mul0mx subr0; exact.
Qed.

Lemma block_diag_mul (f g : forall d, skernel F o d -> 'M[F]_d) ks :
  block_diag f ks *m block_diag g ks = block_diag (fun d k => f d k *m g d k) ks.
Proof.
elim: ks => [|k ks IH] /=; first by rewrite mul0mx.
by rewrite mulmx_block !mulmx0 !mul0mx !addr0 add0r IH.
Qed.

Lemma block_diag_tr (f : forall d, skernel F o d -> 'M[F]_d) ks :
  (block_diag f ks)^T = block_diag (fun d k => (f d k)^T) ks.
Proof. by elim: ks => [|k ks IH] /=; [rewrite trmx0|rewrite tr_block_mx !trmx0 IH]. Qed.

Lemma block_diagB (f g : forall d, skernel F o d -> 'M[F]_d) ks :
  block_diag f ks - block_diag g ks = block_diag (fun d k => f d k - g d k) ks.
Proof.
elim: ks => [|k ks IH] /=; first by rewrite subrr.
by rewrite opp_block_mx add_block_mx !subr0 IH.
Qed.

Lemma eq_block_diag (f g : forall d, skernel F o d -> 'M[F]_d) ks :
  every (fun d k => f d k = g d k) ks -> block_diag f ks = block_diag g ks.
Proof. by elim: ks => [//|k ks IH] /every_cons [H1 H2] /=; rewrite H1 IH. Qed.

Lemma block_diag1 ks : block_diag (fun d _ => 1%:M) ks = 1%:M.
Proof. by elim: ks => [|k ks IH] /=; [apply/matrixP=> -[]|rewrite IH scalar_mx_block]. Qed.

Lemma block_diag0 ks : block_diag (fun d _ => 0) ks = 0.
Proof. by elim: ks => [|k ks IH] //=; rewrite IH /block_mx !row_mx0 col_mx0. Qed.

Lemma block_diag_psd (f : forall d, skernel F o d -> 'M[F]_d) ks :
  every (fun d k => psd (f d k)) ks -> psd (block_diag f ks).
Proof.
elim: ks => [_|k ks IH /every_cons [H1 H2]] /=; first exact: psd0.
by apply: psd_block_diag => //; apply: IH.
Qed.

Lemma block_diag_spd (f : forall d, skernel F o d -> 'M[F]_d) ks :
  every (fun d k => spd (f d k)) ks -> spd (block_diag f ks).
Proof.
elim: ks => [_|k ks IH /every_cons [H1 H2]] /=; last by apply: spd_block_diag => //; apply: IH.
split; first by rewrite trmx0.
by move=> x; rewrite (_ : x = 0) ?eqxx //; apply/matrixP => -[].
Qed.

Section K.
Variables (o' : nat) (ks : seq (child F o)) (E : F -> 'M[F]_(o', concat_dim ks)) (jitter : F).
Notation K := (concat_kernel E jitter).

Lemma concat_step a : step_cov K a = block_diag (fun d k => step_cov k a) ks.
Proof. by rewrite /step_cov /= block_diag_mul block_diag_tr block_diag_mul block_diagB. Qed.

Lemma concat_good : every (fun d k => good_kernel k) ks -> good_kernel K.
Proof.
move=> H; split=> [a b Ha Hb||a Ha] /=.
- by rewrite block_diag_mul; apply: eq_block_diag => k Hk; apply: (good_semi (H k Hk)).
- by apply: block_diag_spd => k Hk; apply: (good_P (H k Hk)).
- by rewrite concat_step; apply: block_diag_psd => k Hk; apply: (good_step (H k Hk)).
Qed.

Lemma concat_noisy : every (fun d k => noisy k) ks -> noisy K.
Proof. by move=> H a Ha; rewrite concat_step; apply: block_diag_spd => k Hk; apply: H. Qed.

Lemma concat_noiseless : every (fun d k => noiseless k) ks -> noiseless K.
Proof.
move=> H a Ha; rewrite concat_step -[RHS]block_diag0; apply: eq_block_diag => k Hk; exact: H.
Qed.

Lemma concat_A0 : every (fun d k => sk_A k 0 = 1%:M) ks -> sk_A K 0 = 1%:M.
Proof. by move=> H /=; rewrite -[RHS]block_diag1; apply: eq_block_diag => k Hk; apply: H. Qed.

Lemma own_offsets0 d (A : F -> 'M[F]_d) a : own_offsets A 0 a = 0.
Proof. by rewrite /own_offsets mulmx0. Qed.

Lemma concat_mean0_0 : every (fun d k => sk_mean0 k = 0) ks -> concat_mean0 ks = 0.
Proof. by elim: ks => [//|k ks' IH] /every_cons [H1 H2] /=; rewrite H1 IH // col_mx0. Qed.

Lemma concat_steady : every (fun d k => sk_mean0 k = 0) ks -> steady_mean K.
Proof. by move=> H a Ha /=; rewrite own_offsets0 concat_mean0_0 // mulmx0 addr0. Qed.
End K.

(* the covariance between two times, before emission *)
Definition scov o1 d (k : skernel F o1 d) (s t : F) : 'M[F]_d :=
  if t < s then sk_A k (s - t) *m sk_P k else if s < t then (sk_A k (t - s) *m sk_P k)^T else sk_P k.

Lemma fcovE o1 d (k : skernel F o1 d) s t : fcov k s t = sk_H k s *m scov k s t *m (sk_H k t)^T.
Proof. by []. Qed.

Lemma concat_scov o' ks (E : F -> 'M[F]_(o', concat_dim ks)) jitter s t :
  scov (concat_kernel E jitter) s t = block_diag (fun d k => scov k s t) ks.
Proof.
rewrite /scov /=; case: ifP => _; first by rewrite block_diag_mul.
by case: ifP => _ //; rewrite block_diag_mul block_diag_tr.
Qed.

Lemma sum_fcov ks jitter s t : fcov (sum_kernel ks jitter) s t = \sum_(k <- ks) fcov (projT2 k) s t.
Proof.
rewrite fcovE concat_scov /=; elim: ks => [|k ks IH] /=; first by rewrite big_nil mul0mx mul0mx.
rewrite big_cons mul_row_block !mulmx0 !addr0 add0r tr_row_mx mul_row_col; congr (_ + _).
by rewrite IH.
Qed.

Lemma indep_fcov ks jitter s t : fcov (indep_kernel ks jitter) s t = diag_children ks (fun d k => fcov k s t).
Proof.
rewrite fcovE concat_scov /= /diag_children; elim: ks => [|k ks IH] /=.
  by apply/matrixP => -[].
rewrite tr_block_mx !trmx0 !mulmx_block; do ![rewrite ?mulmx0 ?mul0mx ?addr0 ?add0r].
rewrite IH dense_recl; congr block_mx.
- by rewrite -[LHS](@brow0 F o o (size ks)); apply: eq_brow.
- by rewrite -[LHS](@bcol0 F o o (size ks)); apply: eq_bcol.
Qed.

Lemma factor_fcov o' ks (weight : F -> 'M[F]_(o', size ks * o)) (B : 'M[F]_(size ks * o)) jitter s t :
  fcov (factor_kernel weight B jitter) s t =
  (weight s *m B) *m diag_children ks (fun d k => fcov k s t) *m (weight t *m B)^T.
Proof.
rewrite -(indep_fcov ks jitter) !fcovE !concat_scov /=.
by rewrite !trmx_mul !mulmxA.
Qed.
End Concat.

(* ---------- Product ---------- *)
Section Product.
Implicit Types ks : seq (child F 1).

Lemma kron_all_mul (f g : forall d, skernel F 1 d -> 'M[F]_d) ks :
  kron_all f ks *m kron_all g ks = kron_all (fun d k => f d k *m g d k) ks.
Proof. by elim: ks => [|k ks IH] /=; [rewrite mul1mx|rewrite kronM IH]. Qed.

Lemma kron_all_tr (f : forall d, skernel F 1 d -> 'M[F]_d) ks :
  (kron_all f ks)^T = kron_all (fun d k => (f d k)^T) ks.
Proof. by elim: ks => [|k ks IH] /=; [rewrite trmx1|rewrite tr_kron IH]. Qed.

Lemma eq_kron_all (f g : forall d, skernel F 1 d -> 'M[F]_d) ks :
  every (fun d k => f d k = g d k) ks -> kron_all f ks = kron_all g ks.
Proof. by elim: ks => [//|k ks IH] /every_cons [H1 H2] /=; rewrite H1 IH. Qed.

Lemma kron_all1 ks : kron_all (fun d _ => 1%:M) ks = 1%:M.
Proof. by elim: ks => [//|k ks IH] /=; rewrite IH kron1. Qed.

Lemma kron_all_spd (f : forall d, skernel F 1 d -> 'M[F]_d) ks :
  every (fun d k => spd (f d k)) ks -> spd (kron_all f ks).
Proof.
elim: ks => [_|k ks IH /every_cons [H1 H2]] /=; first exact: spd1.
by apply: spd_kron => //; apply: IH.
Qed.

Lemma product_step k ks jitter a :
  step_cov (product_kernel (k :: ks) jitter) a =
  kron (step_cov (projT2 k) a) (kron_all (fun d k => sk_P k) ks)
  + kron (sk_A (projT2 k) a *m sk_P (projT2 k) *m (sk_A (projT2 k) a)^T) (step_cov (product_kernel ks jitter) a).
Proof.
rewrite /step_cov /= tr_kron !kronM kronDl kronNl kronDr kronNr; zmod.
Qed.

Lemma product_psd ks jitter a : every (fun d k => good_kernel k) ks -> 0 < a ->
  psd (step_cov (product_kernel ks jitter) a).
Proof.
move=> + Ha; elim: ks => [_|k ks IH /every_cons [H1 H2]].
  by rewrite /step_cov /= mulmx1 trmx1 mulmx1 subrr; apply: psd0.
rewrite product_step; apply: psdD; apply: psd_kron.
- exact: good_step.
- by apply/spd_psd/kron_all_spd => k' Hk'; apply: (good_P (H2 k' Hk')).
- by apply/psd_congr'/spd_psd/good_P.
- exact: IH.
Qed.

Lemma product_good ks jitter : every (fun d k => good_kernel k) ks -> good_kernel (product_kernel ks jitter).
Proof.
move=> H; split=> [a b Ha Hb||a Ha].
- by rewrite /= kron_all_mul; apply: eq_kron_all => k Hk; apply: (good_semi (H k Hk)).
- by apply: kron_all_spd => k Hk; apply: (good_P (H k Hk)).
- exact: product_psd.
Qed.

(* the step covariance of a process over which A is invertible *)
Lemma product_noisy_hd k ks jitter : good_kernel (projT2 k) -> noisy (projT2 k) -> every (fun d k => good_kernel k) ks ->
  noisy (product_kernel (k :: ks) jitter).
Proof.
move=> H1 Hn H2 a Ha; rewrite product_step; apply: spdD.
  by apply: spd_kron; [exact: Hn|apply: kron_all_spd => k' Hk'; apply: (good_P (H2 k' Hk'))].
by apply: psd_kron; [apply/psd_congr'/spd_psd/good_P|apply: product_psd].
Qed.

Lemma product_step' k ks jitter a :
  step_cov (product_kernel (k :: ks) jitter) a =
  kron (sk_P (projT2 k)) (step_cov (product_kernel ks jitter) a)
  + kron (step_cov (projT2 k) a)
      (let A := kron_all (fun d k => sk_A k a) ks in A *m kron_all (fun d k => sk_P k) ks *m A^T).
Proof.
rewrite /step_cov /= tr_kron !kronM kronDl kronNl kronDr kronNr; zmod.
Qed.

(* one child that adds noise is enough *)
Lemma product_noisy ks jitter : every (fun d k => good_kernel k) ks -> some (fun d k => noisy k) ks ->
  noisy (product_kernel ks jitter).
Proof.
elim: ks => [_ []//|k ks IH /every_cons [H1 H2] [k' [<-|Hk'] Hn]]; first exact: product_noisy_hd.
move=> a Ha; rewrite product_step'; apply: spdD.
  by apply: spd_kron; [exact: good_P|apply: IH => //; exists k'].
apply: psd_kron; first exact: good_step.
by apply/psd_congr'/spd_psd/kron_all_spd => k2 Hk2; apply: (good_P (H2 k2 Hk2)).
Qed.

Lemma product_noiseless ks jitter : every (fun d k => noiseless k) ks -> noiseless (product_kernel ks jitter).
Proof.
move=> + a Ha; elim: ks => [_|k ks IH /every_cons [H1 H2]].
  by rewrite /step_cov /= mulmx1 trmx1 mulmx1 subrr.
by rewrite product_step IH // H1 // kron0l kron0r addr0.
Qed.

Lemma product_A0 ks jitter : every (fun d k => sk_A k 0 = 1%:M) ks -> sk_A (product_kernel ks jitter) 0 = 1%:M.
Proof. by move=> H /=; rewrite -[RHS](kron_all1 ks); apply: eq_kron_all => k Hk; apply: H. Qed.

Lemma product_steady ks jitter : steady_mean (product_kernel ks jitter).
Proof. by move=> a Ha /=; rewrite own_offsets0 mulmx0 addr0. Qed.

Lemma product_scov ks jitter s t : scov (product_kernel ks jitter) s t = kron_all (fun d k => scov k s t) ks.
Proof.
rewrite /scov /=; case: ifP => _; first by rewrite kron_all_mul.
by case: ifP => _ //; rewrite kron_all_mul kron_all_tr.
Qed.

Lemma product_fcov ks jitter s t :
  fcov (product_kernel ks jitter) s t = (\prod_(k <- ks) fcov (projT2 k) s t 0 0)%:M.
Proof.
rewrite fcovE product_scov /=; elim: ks => [|k ks IH] /=.
  by rewrite big_nil !mul1mx trmx1.
transitivity (kron (fcov (projT2 k) s t) ((\prod_(j <- ks) fcov (projT2 j) s t 0 0)%:M : 'M[F]_1)).
  rewrite -IH fcovE -!kronM -tr_kron; by [].
by rewrite kron11 big_cons [X in _ * X]mxE eqxx mulr1n.
Qed.
End Product.

(* ---------- StackKernel ---------- *)
Section Stack.
Variables (d e : nat) (k : skernel F 1 d) (m : 'cV[F]_(d + e)) (jitter : F).
Notation K := (stack_kernel k m jitter).

Lemma stack_step a : step_cov K a = block_mx (step_cov k a) 0 0 1%:M.
Proof.
rewrite /step_cov /= /augment_square_matrix tr_block_mx !trmx0 !mulmx_block !mulmx0 !mul0mx !addr0.
by rewrite ?mul0mx opp_block_mx add_block_mx !subr0.
Qed.

Lemma stack_good : good_kernel k -> good_kernel K.
Proof.
move=> H; split=> [a b Ha Hb||a Ha].
- by rewrite /= /augment_square_matrix mulmx_block !mulmx0 !mul0mx !addr0 (good_semi H).
- by apply: spd_block_diag; [exact: good_P|exact: spd1].
- by rewrite stack_step; apply: psd_block_diag; [exact: good_step|exact/spd_psd/spd1].
Qed.

Lemma stack_noisy : noisy k -> noisy K.
Proof. by move=> H a Ha; rewrite stack_step; apply: spd_block_diag; [exact: H|exact: spd1]. Qed.

Lemma stack_fcov s t : fcov K s t = fcov k s t.
Proof.
rewrite !fcovE; set X := scov k s t.
have [Y ->] : exists Y, scov K s t = block_mx X 0 0 Y.
  rewrite /X /scov /= /augment_square_matrix; case: ifP => _.
    by exists 0; rewrite mulmx_block !mulmx0 !mul0mx !addr0 ?mul0mx.
  case: ifP => _; last by exists 1%:M.
  by exists 0; rewrite mulmx_block !mulmx0 !mul0mx !addr0 tr_block_mx !trmx0.
by rewrite /= /augment_matrix mul_row_block !mulmx0 !mul0mx !addr0 tr_row_mx trmx0 mul_row_col mulmx0 addr0.
Qed.
End Stack.

End Comb.
