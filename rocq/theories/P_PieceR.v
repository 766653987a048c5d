(* Piecewise kernels of two Matern 1/2 kernels: unsorted times, and transitions across a
   change point. *)
From Coq Require Import Reals.
From mathcomp Require Import all_ssreflect all_algebra.
From Verif Require Import RealStruct Nat Alg Lin Ent Spd Log M_Block M_SSM S_SSM P_SSM M_SSMLog M_Kernel S_Kernel P_Kernel M_Cond
  M_Comb S_Comb P_Comb2 M_KernelR S_KernelR P_KernelR P_KernelR2 P_KernelR3 M_Piece S_Piece P_Piece P_Piece2.
Set Implicit Arguments.
Unset Strict Implicit.
Unset Printing Implicit Defensive.
Import GRing.Theory Num.Theory Order.TTheory.
Local Open Scope ring_scope.

Section Pair.
Variables (l1 l2 : R).
Hypotheses (Hl1 : 0 < l1) (Hl2 : 0 < l2).

Definition pair_m12 : seq (skernel Rr 1 1) := [:: matern12 1 0 l1 1 0; matern12 1 0 l2 1 0].

Lemma inf_gt n : (n <= 9)%N -> (n%:R : R) < APPROX_INF Rr.
Proof.
move=> Hn; rewrite /APPROX_INF ltr_nat; apply: (leq_ltn_trans Hn).
by rewrite -[9.+1](expn1 10) leq_exp2l.
Qed.

Lemma range_nat n : (n <= 9)%N -> in_range (n%:R : Rr).
Proof.
move=> Hn; apply/andP; split; last exact: inf_gt.
by apply: (@le_trans _ _ 0); rewrite ?ler0n // oppr_le0 /APPROX_INF ler0n.
Qed.

Lemma pair_args : pw_args pair_m12 [:: (1 : Rr)].
Proof. by split=> //=; rewrite andbT; apply: (range_nat (n := 1)). Qed.

Lemma m12_process (l : R) : 0 < l -> pw_process (matern12 1 0 l 1 0).
Proof.
move=> Hl; have H1 : (0 : R) < 1 by apply: ltr01.
have HG := m12_good 0 Hl H1; split.
- by split; [apply: (good_P HG)|apply: m12_noisy].
- exact: (good_semi HG).
by move=> a b _ _; rewrite /= /own_offsets !mulmx0 addr0.
Qed.

Lemma pair_process k : List.In k pair_m12 -> pw_process k.
Proof. by move=> /= [<-|[<-|[]]]; apply: m12_process. Qed.

Lemma active1 (t : Rr) : active [:: (1 : Rr)] t = (1 <= t)%R.
Proof. by rewrite /active /= addn0. Qed.

(* unsorted: the transitions come out grouped by segment *)
Lemma unsorted_wrong (a b : R) :
  pw_state_transitions pair_m12 [:: (1 : Rr)] [:: (2%:R : Rr); 0] [:: a; b] =
  Some [:: sk_A (matern12 1 0 l1 1 0 : skernel Rr 1 1) b; sk_A (matern12 1 0 l2 1 0 : skernel Rr 1 1) a].
Proof.
rewrite [LHS](by_segmentE (matern12 1 0 l1 1 0) pair_args) //; last first.
  by rewrite /= (range_nat (n := 2)) // (range_nat (n := 0)).
have H2 : (1 <= 2%:R :> Rr) = true by rewrite (ler_nat _ 1 2).
have H0 : (1 <= 0 :> Rr) = false by rewrite (ler_nat _ 1 0).
by rewrite /grouped /active /= H2 H0 /= H2 H0.
Qed.

(* a transition across the change point: adding the change point to the grid changes the
   law of the states at the other two times *)
Lemma crossing S S' m K m' K' : l1 <> l2 ->
  pw_state_space_model pair_m12 [:: (1 : Rr)] 0 [:: (0 : Rr); 2%:R] = Some S ->
  pw_state_space_model pair_m12 [:: (1 : Rr)] 0 [:: (0 : Rr); 1; 2%:R] = Some S' ->
  has_law 2 2 (ssm_path S) m K -> has_law 3 3 (ssm_path S') m' K' -> K' 2%N 0%N <> K 1%N 0%N.
Proof.
move=> Hne E1 E2 L1 L2; pose k0 := matern12 1 0 l1 1 0 : skernel Rr 1 1.
have Hg k : List.In k pair_m12 -> pw_good k by move=> /pair_process [].
have H0 : (1 <= 0 :> Rr) = false by rewrite (ler_nat _ 1 0).
have s1 : sorted <%R [:: (0 : Rr); 2%:R] by rewrite /= ltr0n.
have s2 : sorted <%R [:: (0 : Rr); 1; 2%:R] by rewrite /= ltr01 ltr1n.
have r1 : all (@in_range Rr) [:: (0 : Rr); 2%:R] by rewrite /= (range_nat (n := 2)) // (range_nat (n := 0)).
have r2 : all (@in_range Rr) [:: (0 : Rr); 1; 2%:R].
  by rewrite /= (range_nat (n := 2)) // (range_nat (n := 0)) // (range_nat (n := 1)).
have [_ K0 _ _ K1] := @pw_relax Rr 1 1 pair_m12 [:: (1 : Rr)] k0 0 pair_args Hg (lexx _) 1 [:: (0 : Rr); 2%:R] S m K erefl s1 r1 E1 L1.
have [_ K0' _ _ K1'] := @pw_relax Rr 1 1 pair_m12 [:: (1 : Rr)] k0 0 pair_args Hg (lexx _) 2 [:: (0 : Rr); 1; 2%:R] S' m' K' erefl s2 r2 E2 L2.
have A0 : active [:: (1 : Rr)] 0 = 0%N by rewrite /active /= H0.
have A1 : active [:: (1 : Rr)] 1 = 1%N by rewrite /active /= lexx.
have := K1 0%N 0%N isT isT; have := K1' 0%N 0%N isT isT; have := K1' 1%N 0%N isT isT.
rewrite K0 K0'.
have -> : nth 0 [:: (0 : Rr); 1; 2%:R] 1 = 1 by [].
have -> : nth 0 [:: (0 : Rr); 1; 2%:R] 0 = 0 by [].
have -> : nth 0 [:: (0 : Rr); 2%:R] 0 = 0 by [].
have -> : nth 0 [:: (0 : Rr); 2%:R] 1 = 2%:R by [].
have -> : nth 0 [:: (0 : Rr); 1; 2%:R] 2 = 2%:R by [].
rewrite {K0 K0' K1 K1' E1 E2 L1 L2} A0 A1 /pair_m12 => -> -> ->.
have -> : nth k0 [:: matern12 1 0 l1 1 0; matern12 1 0 l2 1 0] 0 = matern12 1 0 l1 1 0 by [].
have -> : nth k0 [:: matern12 1 0 l1 1 0; matern12 1 0 l2 1 0] 1 = matern12 1 0 l2 1 0 by [].
rewrite !m12_A !m12_P !subr0 -!scalar_mxM !mulr1 => /matrixP /(_ 0 0); rewrite !mxE eqxx !mulr1n.
have -> : (2%:R - 1 : R) = 1 by rewrite -[2%N]addn1 natrD addrK.
rewrite -[_ * _]exp_plus => /exp_inv H; apply: Hne; apply: invr_inj.
have : - l2^-1 - l1^-1 = - l1^-1 - l1^-1 :> R.
  by rewrite -[RHS]mulr2n -[RHS]mulr_natr -H mulr1.
by move=> /addIr /oppr_inj.
Qed.
End Pair.

Lemma pair_example : pw_args (pair_m12 1 2%:R) [:: (1 : Rr)] /\
  (forall k, List.In k (pair_m12 1 2%:R) -> pw_process k) /\
  sorted <%R [:: (0 : Rr); 1; 2%:R] /\ all (@in_range Rr) [:: (0 : Rr); 1; 2%:R] /\
  active [:: (1 : Rr)] 0 = 0%N /\ active [:: (1 : Rr)] 1 = 1%N.
Proof.
split; first exact: pair_args; split; first by apply: pair_process; [apply: ltr01|rewrite ltr0n].
have H0 : (1 <= 0 :> Rr) = false by rewrite (ler_nat _ 1 0).
split; first by rewrite /= ltr01 ltr1n.
split; first by rewrite /= (range_nat (n := 2)) // (range_nat (n := 0)) // (range_nat (n := 1)).
by split; rewrite /active /= ?H0 ?lexx.
Qed.

Lemma unsorted_witness : exists (kernels : seq (skernel Rr 1 1)) (cps times deltas : seq Rr) As Ps,
  [/\ pw_args kernels cps, size deltas = size times /\ all (@in_range Rr) times,
      pw_state_transitions kernels cps times deltas = Some As,
      pw_steady_state_covariances kernels cps times = Some Ps &
      exists k, [/\ List.In k kernels, nth 0 times 0 = 2%:R /\ active cps 2%:R = 1%N, drop 1 kernels = [:: k],
        nth 0 Ps 0 = sk_P k & nth 0 As 0 <> sk_A k (nth 0 deltas 0)]].
Proof.
have H2 : (1 <= 2%:R :> Rr) = true by rewrite (ler_nat _ 1 2).
have Hr : all (@in_range Rr) [:: (2%:R : Rr); 0] by rewrite /= (range_nat (n := 2)) // (range_nat (n := 0)).
have A2 : active [:: (1 : Rr)] 2%:R = 1%N by rewrite /active /= H2.
exists (pair_m12 1 2%:R), [:: (1 : Rr)], [:: (2%:R : Rr); 0], [:: (1 : Rr); 1].
have HP := tileE (matern12 1 0 1 1 0) (pair_args 1 2%:R) (@sk_P Rr 1 1) Hr.
exists [:: sk_A (matern12 1 0 1 1 0 : skernel Rr 1 1) 1; sk_A (matern12 1 0 2%:R 1 0 : skernel Rr 1 1) 1].
exists [seq sk_P (nth (matern12 1 0 1 1 0) (pair_m12 1 2%:R) (active [:: (1 : Rr)] t)) | t <- [:: (2%:R : Rr); 0]].
split=> //; first exact: pair_args; first exact: unsorted_wrong.
exists (matern12 1 0 2%:R 1 0); split=> //; first by right; left.
- have E1 a b (f : Rr -> 'M[Rr]_1) : nth 0 [seq f t | t <- [:: a; b]] 0 = f a by [].
  by rewrite E1 A2.
have -> : nth 0 [:: sk_A (matern12 1 0 1 1 0 : skernel Rr 1 1) 1; sk_A (matern12 1 0 2%:R 1 0 : skernel Rr 1 1) 1] 0 =
  sk_A (matern12 1 0 1 1 0 : skernel Rr 1 1) 1 by [].
have -> : nth 0 [:: (1 : Rr); 1] 0 = 1 by [].
rewrite !m12_A !mulr1 => /matrixP /(_ 0 0); rewrite !mxE eqxx !mulr1n => /exp_inv /oppr_inj /invr_inj /eqP.
by rewrite eq_sym -subr_eq0 -[2%N]addn1 natrD addrK oner_eq0.
Qed.
