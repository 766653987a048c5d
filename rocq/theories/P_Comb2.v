(* Combined kernels, continued: semigroups, Lyapunov equations, the effect of the jitter
   and of the state means. *)
From mathcomp Require Import all_ssreflect all_algebra.
From Verif Require Import Nat Alg Lin Ent Spd M_SSM S_SSM P_SSM M_Kernel S_Kernel P_Kernel M_Comb S_Comb P_Kron P_Comb.
Set Implicit Arguments.
Unset Strict Implicit.
Unset Printing Implicit Defensive.
Import Order.Theory GRing.Theory Num.Theory.
Local Open Scope ring_scope.

Section Comb2.
Variable F : rcfType.

Lemma spd_scalar d (c : F) : 0 < c -> spd (c%:M : 'M[F]_d).
Proof.
move=> Hc; split; first by rewrite tr_scalar_mx.
move=> x Hx; rewrite /qf -scalemx1 -scalemxAr -scalemxAl mxE mulr_gt0 //.
by have [_ /(_ x Hx)] := spd1 F d.
Qed.

(* ---------- semigroups ---------- *)
Lemma concat_semigroup o o' (ks : seq (child F o)) (E : F -> 'M[F]_(o', concat_dim ks)) jitter :
  every (fun d k => semigroup k) ks -> semigroup (concat_kernel E jitter).
Proof.
move=> H; split=> [|s t Hs Ht]; first by apply: concat_A0 => k Hk; case: (H k Hk).
rewrite /= block_diag_mul; apply: eq_block_diag => k Hk; case: (H k Hk) => _ H'; exact: H'.
Qed.

Lemma product_semigroup (ks : seq (child F 1)) jitter :
  every (fun d k => semigroup k) ks -> semigroup (product_kernel ks jitter).
Proof.
move=> H; split=> [|s t Hs Ht]; first by apply: product_A0 => k Hk; case: (H k Hk).
rewrite /= kron_all_mul; apply: eq_kron_all => k Hk; case: (H k Hk) => _ H'; exact: H'.
Qed.

Lemma stack_compose d e (k : skernel F 1 d) (m : 'cV[F]_(d + e)) jitter s t :
  semigroup k -> 0 <= s -> 0 <= t ->
  sk_A (stack_kernel k m jitter) (s + t) = sk_A (stack_kernel k m jitter) t *m sk_A (stack_kernel k m jitter) s.
Proof.
move=> [_ H] Hs Ht; rewrite /= /augment_square_matrix mulmx_block H //.
by do ![rewrite ?mulmx0 ?mul0mx ?addr0 ?add0r].
Qed.

Lemma stack_A0 d e (k : skernel F 1 d) (m : 'cV[F]_(d + e.+1)) jitter :
  sk_A (stack_kernel k m jitter) 0 != 1%:M.
Proof.
apply/eqP => /matrixP /(_ (rshift d 0) (rshift d 0)).
rewrite /= /augment_square_matrix block_mxEdr !mxE eqxx => /eqP.
by rewrite eq_sym oner_eq0.
Qed.

(* ---------- Lyapunov ---------- *)
Lemma lyapunov0 (o d : nat) (k : skernel F o d) :
  sk_F k *m sk_P k + sk_P k *m (sk_F k)^T = 0 -> lyapunov k.
Proof. by move=> H; exists 0%N, 0; rewrite H mul0mx oppr0. Qed.

Lemma block_diag_cat o (ks : seq (child F o)) :
  every (fun d k => lyapunov k) ks -> exists r (B : 'M[F]_(concat_dim ks, r)),
  block_diag (fun d k => sk_F k) ks *m block_diag (fun d k => sk_P k) ks +
  block_diag (fun d k => sk_P k) ks *m (block_diag (fun d k => sk_F k) ks)^T = - (B *m B^T).
Proof.
elim: ks => [|k ks IH] /= H.
  by exists 0%N, 0; rewrite !(mulmx0, mul0mx) oppr0 addr0.
have [r [B HB]] := H k (or_introl erefl).
have {IH} [r' [B' HB']] := IH (fun k' Hk' => H k' (or_intror Hk')).
exists (r + r')%N, (block_mx B 0 0 B').
rewrite !tr_block_mx !trmx0 !mulmx_block !(mulmx0, mul0mx, addr0, add0r) add_block_mx opp_block_mx HB HB'.
by rewrite !oppr0 !addr0.
Qed.

Lemma concat_lyapunov o o' (ks : seq (child F o)) (E : F -> 'M[F]_(o', concat_dim ks)) jitter :
  every (fun d k => lyapunov k) ks -> lyapunov (concat_kernel E jitter).
Proof. exact: block_diag_cat. Qed.

Lemma fcov_jitter0 o d (k : skernel F o d) z i j : sk_jitter k = 0 -> fcov_jitter k z i j = fcov k (z i) (z j).
Proof. by move=> H; rewrite /fcov_jitter H scale0r addr0. Qed.

Lemma has_law_ext a b N N' (X : (nat -> 'cV[F]_a) -> nat -> 'cV[F]_b) m K m' K' :
  has_law N' N X m K -> (forall i, (i < N')%N -> m' i = m i) ->
  (forall i j, (i < N')%N -> (j < N')%N -> K' i j = K i j) -> has_law N' N X m' K'.
Proof.
move=> [G [H1 H2]] Hm HK; exists G; split=> [eps i Hi|i j Hi Hj]; first by rewrite Hm ?H1.
by rewrite HK ?H2.
Qed.

Lemma prior_f_law_ext o d (k : skernel F o d) n z m K m' K' :
  prior_f_law k n z m K -> (forall i, (i <= n)%N -> m' i = m i) ->
  (forall i j, (i <= n)%N -> (j <= n)%N -> K' i j = K i j) -> prior_f_law k n z m' K'.
Proof.
move=> [S HS HL] Hm HK; exists S => //; apply: (has_law_ext HL) => [i|i j]; rewrite !ltnS; [exact: Hm|exact: HK].
Qed.

Lemma law_core o d (k : skernel F o d) n (z : nat -> F) (mu : nat -> 'cV[F]_d) K : 
  increasing n.+1 z -> mu 0%N = sk_mean0 k ->
  (forall i, (i < n)%N -> mu i.+1 = sk_A k (z i.+1 - z i) *m mu i + sk_off k (z i.+1 - z i)) ->
  (forall i j, (i < n.+1)%N -> (j < n.+1)%N -> ssm_cov (kssm (to_sde k) z) i j = K i j) ->
  prior_f_law k n z (fun i => sk_H k (z i) *m mu i) (fun i j => sk_H k (z i) *m K i j *m (sk_H k (z j))^T).
Proof.
move=> Hz Hm0 Hm HC; set S := kssm _ _ in HC *; exists S; first exact: kernel_ssmE.
have Hmean i : (i < n.+1)%N -> gen_path (s_mu0 S) (s_cholP0 S) (s_A S) (s_b S) (s_cholQ S) (fun _ => 0) i = mu i.
  elim: i => [|i IH] Hi /=; first by rewrite mulmx0 addr0 Hm0.
  by rewrite IH ?mulmx0 ?addr0 1?Hm //; lia.
have [G [HG HK]] := ssm_has_law n S; exists (fun i l => sk_H k (z i) *m G i l); split=> [eps i Hi|i j Hi Hj'].
  have := HG (fun _ => 0) i Hi; rewrite /ssm_path Hmean // => E.
  rewrite -[LHS]/(sk_H k (z i) *m ssm_path S eps i) HG // mulmxDr mulmx_sumr; congr (_ *m _ + _); last by apply: eq_bigr => l _; rewrite mulmxA.
  by rewrite E big1 ?addr0 // => l _; rewrite mulmx0.
rewrite -HC // HK // /wn_cov mulmx_sumr mulmx_suml; apply: eq_bigr => l _.
by rewrite trmx_mul !mulmxA.
Qed.

Lemma semi_grid o d (k : skernel F o d) n (z : nat -> F) i :
  good_kernel k -> sk_A k 0 = 1%:M -> increasing n.+1 z -> (i < n)%N ->
  sk_A k (z i.+1 - z 0%N) = sk_A k (z i.+1 - z i) *m sk_A k (z i - z 0%N).
Proof.
move=> Hk HA0 Hz; case: i => [|i] Hi; first by rewrite subrr HA0 mulmx1.
rewrite -(good_semi Hk) ?subr_gt0; [congr (sk_A k _); zmod|by apply: (increasing_lt Hz); lia|by apply: Hz].
Qed.

(* ---------- the law of the prior, with jitter and with any means ---------- *)
Section Law.
Variables (o d : nat) (k : skernel F o d) (n : nat) (z : nat -> F).
Hypothesis Hk : good_kernel k.
Hypothesis Hz : increasing n.+1 z.
Notation S := (kssm (to_sde k) z).

Definition Qc0 i := if i is i'.+1 then step_cov k (z i - z i') else sk_P k.

Lemma var0 i : (i < n.+1)%N -> chain_var (s_A S) Qc0 i = sk_P k.
Proof.
elim: i => [|i IH] Hi //.
rewrite [chain_var _ _ _]/= IH; last by lia.
by rewrite addrC step_covK.
Qed.

Lemma cov0 i j : (i < n.+1)%N -> (j < n.+1)%N ->
  chain_cov (s_A S) Qc0 i j = if z j < z i then sk_A k (z i - z j) *m sk_P k
                  else if z i < z j then (sk_A k (z j - z i) *m sk_P k)^T else sk_P k.
Proof.
move=> Hi Hj'; rewrite /chain_cov !(increasing_lt_iff Hz) //.
have HP := spd_sym (good_P Hk).
case: (ltngtP j i) => Hij.
- rewrite var0 //; case E : (i - j)%N => [|m]; first by lia.
  rewrite (comb_phi Hk Hz); last by lia.
  by rewrite (_ : (j + m.+1)%N = i) //; lia.
- rewrite var0 //; case E : (j - i)%N => [|m]; first by lia.
  rewrite (comb_phi Hk Hz); last by lia.
  by rewrite trmx_mul HP (_ : (i + m.+1)%N = j) //; lia.
by rewrite Hij subnn /= mul1mx var0.
Qed.

Definition covered := ((noisy k \/ noiseless k) /\ sk_jitter k = 0) \/ 0 < sk_jitter k.
Hypothesis Hc : covered.

Lemma jit_Qc i : (i < n.+1)%N -> ssm_Qc S i = Qc0 i + sk_jitter k *: 1%:M.
Proof.
move=> Hi; have Hd i' : (i'.+1 < n.+1)%N -> 0 < z i'.+1 - z i' by move=> ?; rewrite subr_gt0 Hz.
rewrite /ssm_Qc; case: i Hi => [|i] Hi; apply: cholesky_or_zero_mul; rewrite /= -?/(step_cov k _); case: Hc => [[HQ Hj]|Hj].
- by left; rewrite Hj scale0r addr0; apply: good_P.
- left; apply: spdD; first exact: good_P.
  by rewrite scalemx1; apply/spd_psd/spd_scalar.
- by rewrite Hj scale0r addr0; case: HQ => H; [left|right]; apply: H; apply: Hd.
- left; rewrite addrC; apply: spdD; first by rewrite scalemx1; apply: spd_scalar.
  by apply: (good_step Hk); apply: Hd.
Qed.

Hypothesis HA0 : sk_A k 0 = 1%:M.

Lemma phi_leE i l : (i < n.+1)%N -> (l <= i)%N -> phi_le (s_A S) i l = sk_A k (z i - z l).
Proof.
move=> Hi Hl; rewrite /phi_le Hl; case E : (i - l)%N => [|m].
  by have -> : i = l by [lia]; rewrite subrr HA0.
by rewrite (comb_phi Hk Hz); [rewrite (_ : (l + m.+1)%N = i) //; lia | lia].
Qed.

Lemma jit_cov i j : (i < n.+1)%N -> (j < n.+1)%N ->
  ssm_cov S i j = chain_cov (s_A S) Qc0 i j + sk_jitter k *:
    (\sum_(l < (minn i j).+1) sk_A k (z i - z l) *m (sk_A k (z j - z l))^T).
Proof.
move=> Hi Hj; rewrite /ssm_cov !(chain_cov_sum _ _ Hi Hj).
rewrite (eq_bigr (fun l : 'I_n.+1 => phi_le (s_A S) i l *m Qc0 l *m (phi_le (s_A S) j l)^T +
   sk_jitter k *: (phi_le (s_A S) i l *m (phi_le (s_A S) j l)^T))); last first.
  by move=> l _; rewrite jit_Qc // mulmxDr mulmxDl -scalemxAr mulmx1 -scalemxAl.
rewrite big_split /= -scaler_sumr; congr (_ + _ *: _).
rewrite (big_ord_widen n.+1 (fun l => sk_A k (z i - z l) *m (sk_A k (z j - z l))^T)); last by rewrite gtn_min Hi.
rewrite [RHS]big_mkcond /=; apply: eq_bigr => l _; rewrite ltnS leq_min.
case: (leqP l i) => Hli; last by rewrite /phi_le leqNgt Hli /= mul0mx.
case: (leqP l j) => Hlj; last by rewrite /= /phi_le [(l <= j)%N]leqNgt Hlj /= trmx0 mulmx0.
by rewrite /= !phi_leE.
Qed.

Lemma law_gen (mu : nat -> 'cV[F]_d) : mu 0%N = sk_mean0 k ->
  (forall i, (i < n)%N -> mu i.+1 = sk_A k (z i.+1 - z i) *m mu i + sk_off k (z i.+1 - z i)) ->
  prior_f_law k n z (fun i => sk_H k (z i) *m mu i) (fun i j => fcov_jitter k z i j).
Proof.
move=> Hm0 Hm; apply: (prior_f_law_ext (law_core Hz Hm0 Hm jit_cov)) => // i j Hi Hj.
by rewrite /fcov_jitter /fcov -cov0 // scalemxAl scalemxAr -mulmxDl -mulmxDr.
Qed.
End Law.

(* the mean of a sum decays from the children's means *)
Lemma sum_mean o (ks : seq (child F o)) s a :
  sum_emission ks s *m (block_diag (fun d k => sk_A k a) ks *m concat_mean0 ks) =
  \sum_(k <- ks) sk_H (projT2 k) s *m (sk_A (projT2 k) a *m sk_mean0 (projT2 k)).
Proof.
elim: ks => [|k ks IH] /=; first by rewrite big_nil mul0mx.
by rewrite big_cons mul_block_col !mul0mx addr0 add0r mul_row_col IH.
Qed.

Lemma sum_law o (ks : seq (child F o)) jitter n z :
  every (fun d k => good_kernel k) ks -> every (fun d k => sk_A k 0 = 1%:M) ks ->
  ((every (fun d k => noisy k) ks \/ every (fun d k => noiseless k) ks) /\ jitter = 0) \/ 0 < jitter ->
  increasing n.+1 z ->
  prior_f_law (sum_kernel ks jitter) n z
    (fun i => \sum_(k <- ks) sk_H (projT2 k) (z i) *m (sk_A (projT2 k) (z i - z 0%N) *m sk_mean0 (projT2 k)))
    (fun i j => fcov_jitter (sum_kernel ks jitter) z i j).
Proof.
move=> Hg H0 Hc Hz.
have Hk : good_kernel (sum_kernel ks jitter) by apply: concat_good.
have HA0 : sk_A (sum_kernel ks jitter) 0 = 1%:M by apply: concat_A0.
have Hcov : covered (sum_kernel ks jitter).
  case: Hc => [[Hc Hj]|Hj]; [left; split=> //|by right].
  by case: Hc => Hc; [left; apply: concat_noisy|right; apply: concat_noiseless].
pose mu i := sk_A (sum_kernel ks jitter) (z i - z 0%N) *m concat_mean0 ks.
have := @law_gen _ _ _ n z Hk Hz Hcov HA0 mu.
move=> H; apply: (prior_f_law_ext (H _ _)) => //.
- by rewrite /mu subrr HA0 mul1mx.
- move=> i Hi; rewrite /mu [sk_off _ _]own_offsets0 addr0 mulmxA.
  by rewrite -(semi_grid Hk HA0 Hz).
- by move=> i Hi; rewrite -sum_mean.
Qed.

(* one member of a stack: the mean rises to the child's mean *)
Lemma stack_law d e (k : skernel F 1 d) jitter n z :
  good_kernel k -> noisy k -> steady_mean k -> sk_A k 0 = 1%:M -> jitter = 0 -> increasing n.+1 z ->
  prior_f_law (stack_kernel (e := e) k 0 jitter) n z
    (fun i => sk_H k (z i) *m (sk_mean0 k - sk_A k (z i - z 0%N) *m sk_mean0 k))
    (fun i j => fcov k (z i) (z j)).
Proof.
move=> Hg Hn Hm HA0 Hj Hz.
have Hk : good_kernel (stack_kernel (e := e) k 0 jitter) by apply: stack_good.
have HN : noisy (stack_kernel (e := e) k 0 jitter) by apply: stack_noisy.
pose mu i : 'cV[F]_(d + e) := col_mx (sk_mean0 k - sk_A k (z i - z 0%N) *m sk_mean0 k) 0.
have Hmu0 : mu 0%N = 0 by rewrite /mu subrr HA0 mul1mx subrr col_mx0.
apply: (prior_f_law_ext (law_core (k := stack_kernel (e := e) k 0 jitter) (mu := mu) Hz _ _ (comb_cov Hk (or_introl HN) Hj Hz))) => //.
- move=> i Hi; rewrite /mu /= /augment_square_matrix mul_block_col mulmx0 !mul0mx !addr0 add_col_mx addr0; congr col_mx.
  rewrite mulmxBr mulmxA -(semi_grid Hg HA0 Hz) //; have Hlt : 0 < z i.+1 - z i by rewrite subr_gt0; apply: Hz.
  by rewrite [RHS]addrAC -(Hm _ Hlt).
- by move=> i Hi; rewrite /mu /= /augment_matrix mul_row_col mul0mx addr0.
- by move=> i j Hi Hj'; rewrite -(stack_fcov (e := e) k 0 jitter) fcovE.
Qed.

Lemma base_off0 o d (A : F -> 'M[F]_d) Fb P m jitter : A 0 = 1%:M -> sk_off (base_kernel o A Fb P m jitter) 0 = 0.
Proof. by move=> H; rewrite /= /own_offsets H subrr oppr0 mul0mx. Qed.

Lemma base_markov o d (A : F -> 'M[F]_d) Fb P m (k := base_kernel o A Fb P m 0) :
  good_kernel k -> noisy k -> A 0 = 1%:M -> markov_kernel (to_sde k).
Proof. by move=> Hg Hn H0; apply: good_markov => //; [exact: base_steady|exact: base_off0]. Qed.

End Comb2.
