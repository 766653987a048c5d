(* Proofs about kernels: the law of the state space model of a kernel. *)
From mathcomp Require Import all_ssreflect all_algebra.
From Verif Require Import Nat Alg Lin Ent Spd M_Block S_Block P_Block P_Block2 M_SSM S_SSM P_SSM
  M_Kernel S_Kernel.
Set Implicit Arguments.
Unset Strict Implicit.
Unset Printing Implicit Defensive.
Import GRing.Theory Num.Theory Order.TTheory.
Local Open Scope ring_scope.

Section Kernel.
Variable F : rcfType.
Variable d : nat.
Implicit Types (k : sde_kernel F d) (z : nat -> F).

Lemma to_deltaE N z : to_delta_time N z <> None <->
  forall i, (i.+1 < N)%N -> z i <= z i.+1.
Proof.
rewrite /to_delta_time; case: forallP => H; split.
- move=> _ i Hi; have Hi' : (i < N.-1)%N by lia.
  by have := H (Ordinal Hi'); rewrite subr_ge0.
- by [].
- by [].
- by move=> H'; case: H => i; rewrite subr_ge0; apply: H'; have := ltn_ord i; lia.
Qed.

Lemma addrBK (x y : F) : x + (y - x) = y.
Proof. by rewrite addrC subrK. Qed.

Lemma increasing_delta N z : increasing N z ->
  to_delta_time N z = Some (fun i => z i.+1 - z i).
Proof.
move=> H; rewrite /to_delta_time; case: forallP => // -[] i.
by rewrite subr_ge0 ltW // H //; have := ltn_ord i; lia.
Qed.

Lemma increasing_lt N z i j : increasing N z -> (i < j)%N -> (j < N)%N -> z i < z j.
Proof.
move=> H; elim: j => // j IH Hij Hj.
have [E|Hij'] : i = j \/ (i < j)%N by lia.
  by rewrite E; apply: H.
by apply: lt_trans (H _ Hj); apply: IH => //; lia.
Qed.

Lemma increasing_le N z i j : increasing N z -> (i <= j)%N -> (j < N)%N -> z i <= z j.
Proof.
move=> H Hij Hj; have [->//|Hij'] : i = j \/ (i < j)%N by lia.
by apply/ltW/(increasing_lt H).
Qed.

Lemma increasing_lt_iff N z i j : increasing N z -> (i < N)%N -> (j < N)%N -> (z i < z j) = (i < j)%N.
Proof.
move=> H Hi Hj; have [Hij|Hij] := ltnP i j; first exact: (increasing_lt H).
by apply/negbTE; rewrite -leNgt; apply: (increasing_le H).
Qed.

Lemma increasing_le_iff N z i j : increasing N z -> (i < N)%N -> (j < N)%N -> (z i <= z j) = (i <= j)%N.
Proof. by move=> H Hi Hj; rewrite leNgt (increasing_lt_iff H) // -leqNgt. Qed.

Section Law.
Variables (k : sde_kernel F d) (n : nat) (z : nat -> F).
Hypothesis Hk : markov_kernel k.
Hypothesis Hz : increasing n.+1 z.

Definition kssm : ssm F d := ssm_from_covariances (k_mean0 k) (k_P0 k (z 0%N))
      (fun i => k_trans k (z i) (z i.+1 - z i)) (fun i => k_off k (z i) (z i.+1 - z i))
      (fun i => k_cov k (z i) (z i.+1 - z i)).

Lemma kernel_ssmE : kernel_ssm n k z = Some kssm.
Proof. by rewrite /kernel_ssm increasing_delta. Qed.

Lemma kssm_chol : lowpos (s_cholP0 kssm) /\ forall i, (i < n)%N -> lowpos (s_cholQ kssm i).
Proof.
split=> [|i Hi] /=.
  by apply/cholesky_or_zero_low/mk_P0_spd.
have Hq : spd (k_cov k (z i) (z i.+1 - z i)) by apply: mk_cov_spd => //; rewrite subr_gt0 Hz.
exact: cholesky_or_zero_low.
Qed.

Lemma kssm_nonsing : ssm_nonsing n kssm.
Proof. by have [H0 H] := kssm_chol; split=> [|i Hi]; apply: lowpos_nz; auto. Qed.

Lemma kssm_Qc i : (i < n.+1)%N -> ssm_Qc kssm i =
  if i is i'.+1 then k_cov k (z i') (z i - z i') else k_P0 k (z 0%N).
Proof.
rewrite /ssm_Qc; case: i => [|i] Hi /=.
  by apply: cholesky_or_zero_mul; left; apply: mk_P0_spd.
have Hq : spd (k_cov k (z i) (z i.+1 - z i)) by apply: mk_cov_spd => //; rewrite subr_gt0 Hz.
by apply: cholesky_or_zero_mul; left.
Qed.

Lemma kssm_phi i m : (i + m < n.+1)%N -> phi (s_A kssm) i m = k_trans k (z i) (z (i + m)%N - z i).
Proof.
elim: m => [|m IH] Him; first by rewrite addn0 subrr (mk_trans0 Hk).
rewrite [LHS]/= IH; last by lia.
have -> : z (i + m.+1)%N - z i = (z (i + m)%N - z i) + (z (i + m).+1 - z (i + m)%N).
  by rewrite addnS [RHS]addrC addrA subrK.
rewrite [RHS](mk_trans Hk) ?subr_ge0; first by rewrite addrBK.

- by apply: (increasing_le Hz); lia.
- by apply: (increasing_le Hz); lia.
Qed.

Lemma kssm_var i : (i < n.+1)%N -> chain_var (s_A kssm) (ssm_Qc kssm) i = k_P0 k (z i).
Proof.
elim: i => [|i IH] Hi; first by rewrite /= kssm_Qc.
rewrite /= IH; last by lia.
rewrite kssm_Qc // -[in RHS](addrBK (z i) (z i.+1)) (mk_P0 Hk) //.
by rewrite subr_ge0; apply: (increasing_le Hz); lia.
Qed.

Lemma kssm_cov i j : (i < n.+1)%N -> (j < n.+1)%N -> ssm_cov kssm i j = state_cov k (z i) (z j).
Proof.
move=> Hi Hj; rewrite /ssm_cov /chain_cov /state_cov (increasing_le_iff Hz) //.
case: (leqP j i) => Hij; first by rewrite kssm_phi ?kssm_var ?subnKC //; lia.
rewrite kssm_phi ?kssm_var ?subnKC //; [|lia|lia].
by rewrite trmx_mul (spd_sym (mk_P0_spd Hk _)).
Qed.

Lemma kssm_mean i : (i < n.+1)%N -> ssm_marginal_means n kssm i = k_mean0 k.
Proof.
have [H0 H _ _] := ssm_moments_rec kssm_nonsing.
elim: i => [|i IH] Hi; first by rewrite H0.
rewrite H // IH /=; last by lia.
by rewrite -mk_mean // subr_ge0; apply: (increasing_le Hz); lia.
Qed.

Lemma kssm_law : has_law n.+1 n.+1 (ssm_path kssm) (fun _ => k_mean0 k) (fun i j => state_cov k (z i) (z j)).
Proof.
have [G [HG HK]] := ssm_has_law n kssm; exists G; split=> [eps i Hi|i j Hi Hj].
  by rewrite HG // kssm_mean.
by rewrite -HK // kssm_cov.
Qed.
End Law.

Lemma kernel_law k n z : markov_kernel k -> increasing n.+1 z ->
  exists S, [/\ kernel_ssm n k z = Some S, ssm_nonsing n S &
    has_law n.+1 n.+1 (ssm_path S) (fun _ => k_mean0 k) (fun i j => state_cov k (z i) (z j))].
Proof. by move=> Hk Hz; exists (kssm k z); split; [exact: kernel_ssmE|exact: kssm_nonsing|exact: kssm_law]. Qed.

(* stationary kernels: the semigroup law of the transitions is enough *)
Lemma stationary_markov (A : F -> 'M[F]_d) P mean :
  A 0 = 1%:M -> (forall a b, 0 <= a -> 0 <= b -> A (a + b) = A b *m A a) -> spd P ->
  (forall a, 0 < a -> spd (P - A a *m P *m (A a)^T)) ->
  markov_kernel (stationary_kernel A P 0 mean).
Proof.
move=> A0 Aab HP HQ; split=> /= [_|_|_ a b Ha Hb|_ a b Ha Hb|_ a Ha|_|_ a Ha|_ a Ha]; rewrite ?scale0r ?addr0 //.
- by rewrite A0 mul1mx trmx1 mulmx1 subrr.
- exact: Aab.
- rewrite Aab // mulmxBr mulmxBl trmx_mul !mulmxA addrA.
  by rewrite addrAC [_ + P]addrC; zmod.
- exact: HQ.
- by rewrite addrC subrK.
- by rewrite mulNmx mulmxBl mul1mx opprB addrC subrK.
Qed.

Lemma state_cov_tr k s t : markov_kernel k -> (state_cov k s t)^T = state_cov k t s.
Proof.
move=> Hk; rewrite /state_cov; case: (ltgtP s t) => H; rewrite ?trmxK //.
by rewrite H subrr (mk_trans0 Hk) mul1mx (spd_sym (mk_P0_spd Hk _)).
Qed.

Lemma state_cov_diag k s : markov_kernel k -> state_cov k s s = k_P0 k s.
Proof. by move=> Hk; rewrite /state_cov lexx subrr (mk_trans0 Hk) mul1mx. Qed.

End Kernel.
