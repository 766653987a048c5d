(* Proofs for M_Pep.v: powers below one, log expected densities, examples. *)
From Coq Require Import Reals Lra FunctionalExtensionality.
From mathcomp Require Import all_ssreflect all_algebra.
From Verif Require Import MCalc RealStruct Nat Alg Lin Ent Spd Log M_Block S_Block P_Block M_SSM S_SSM P_SSM M_SSMLog P_SSMLog S_Gauss P_Gauss
  M_Trans S_Trans P_Trans S_Kalman M_Kalman P_Kalman M_Kernel S_Kernel P_Kernel M_Cond P_Cond P_Cond4
  M_Emission P_Emission M_Sort P_Sort M_Models S_GP P_Models P_Models2 M_Cvi S_Cvi P_Cvi P_Cvi3 M_Pep S_Pep P_Block2 P_Pep P_Pep2 P_KernelR P_KernelR2 M_KernelR P_Models3 P_KalmanLog P_TransLog P_Pep3 P_Pep4.
Set Implicit Arguments.
Unset Strict Implicit.
Unset Printing Implicit Defensive.
Import GRing.Theory Num.Theory Order.TTheory.
Local Open Scope ring_scope.





Lemma gc_alpha (s2 alpha mu v yk : R) : 0 < s2 -> 0 <= v -> 0 < alpha <= 1 ->
  let g := pep_gaussian_grads s2 alpha mu v yk in
  gradient_correction mu v g.1 g.2 = (alpha * yk / (s2 + (1 - alpha) * v), - alpha / (2%:R * (s2 + (1 - alpha) * v))).
Proof.
move=> s0 v0 /andP [a0 a1]; rewrite /pep_gaussian_grads /gradient_correction.
have n1 : alpha <> 0%Re by apply/eqP; exact: lt0r_neq0.
have n2 : (s2 + v)%Re <> 0%Re by apply/eqP; apply: lt0r_neq0; exact: ltr_paddr.
have n3 : (s2 + (1 + - alpha) * v)%Re <> 0%Re.
  by apply/eqP; apply: lt0r_neq0; apply: ltr_paddr => //; apply: mulr_ge0 => //; rewrite subr_ge0.
have E : (v + R1 * / (- alpha * R1 * / (s2 + v)))%Re = (- (s2 + (1 + - alpha) * v) / alpha)%Re by field.
rewrite ![(_, _).1]/= ![(_, _).2]/=; congr pair; eqR; toF; rewrite E; field => //.
Qed.

Section Pep.
Variables (d : nat) (ker : sde_kernel Rr d) (emission : R -> 'M[R]_(1, d)).
Hypothesis Hker : markov_kernel ker.
Hypothesis Hm0 : k_mean0 ker = 0.
Variables (n : nat) (z : nat -> R).
Hypothesis Hz : increasing n.+1 z.
Hypothesis Hn : (0 < n)%N.
Let H (k : nat) := emission (z k).




Lemma cavity_var alpha s f k : 0 <= alpha <= 1 -> (k <= n)%N -> (forall j, (j <= n)%N -> st_nat2 s j <= 0) ->
  pep_cavity ker emission n z alpha s = Some f -> 0 <= (f k).2 /\ ((f k).2 = 0 <-> H k = 0).
Proof.
move=> Ha Hk Hs; have [q Eq Nq] := dist_q_exists emission Hker Hm0 Hz Hn Hs.
rewrite /pep_cavity Eq /Option.map /Option.bind /Option.apply => /Some_inj <-.
have [q0 Eq0 Nq0] := dist_q_exists emission Hker Hm0 Hz Hn (scaled_le0 k Ha Hs).
have L0 := ssm_has_law n q0.
have [P0 _] := cavity_nats Hker Hm0 Hz Hn Hk Ha Hs Eq Eq0 Nq L0.
have [_ ->] := cavity Hker Hm0 Hz Hn Hk Ha Hs Eq Eq0 Nq L0.
rewrite [(_, _).2]/=; split; first exact: cov_ge0.
split=> [E|]; last by rewrite /H => ->; rewrite !mul0mx mxE.
apply/eqP; apply: contraT => HH; have : 0 < qf (ssm_cov q0 k k) (H k)^T.
  by case: P0 => _; apply; rewrite -(trmx0 R_ringType 1 d) (inj_eq trmx_inj).
by rewrite /qf trmxK E ltxx.
Qed.

Lemma power_fixed (s2 : R) y alpha lr l s k : 0 < s2 -> 0 < alpha <= 1 -> uniq l -> (k <= n)%N -> k \in l ->
  (forall j, (j <= n)%N -> st_nat2 (pe_sites s) j <= 0) ->
  st_nat2 (pe_sites s) k = - (2%:R * s2)^-1 ->
  exists2 s', pep_update_sites ker emission (pep_gaussian_led s2) (pep_gaussian_grads s2) n z y alpha lr (Some l) s = Some s' &
  st_nat2 (pe_sites s') k = st_nat2 (pe_sites s) k <-> [\/ alpha = 1, lr = 0 | H k = 0].
Proof.
move=> s0 Ha Hl Hk kl Hs E2.
have Ha' : 0 <= alpha <= 1 by case/andP: Ha => /ltW -> ->.
have [s' [q [f [F1 [F2 F3] F4 F5 F6]]]] := update_some emission Hker Hm0 Hz Hn (pep_gaussian_led s2) (pep_gaussian_grads s2) y lr Hl Ha' Hs.
exists s' => //; have := F6 k; rewrite kl /pep_gradients gc_alpha ?F5 //; cbv zeta => -[_ -> _]; rewrite [(_, _).2]/= E2.
have [V0 HH] := cavity_var Ha' Hk Hs F4; case/andP: Ha => a0 a1.
suff : (1 - lr) * - (2%:R * s2)^-1 + lr * ((1 - alpha) * - (2%:R * s2)^-1 + - alpha / (2%:R * (s2 + (1 - alpha) * (f k).2))) =
    - (2%:R * s2)^-1 <-> [\/ alpha = 1, lr = 0 | (f k).2 = 0].
  by move=> [A B]; split=> [/A [|| /HH]|[||/HH] ?]; do ?[by constructor 1 | by constructor 2 | by constructor 3];
    apply: B; [constructor 1 | constructor 2 | constructor 3].
move: (f k).2 V0 => v V0 {HH}.
have p0 : 0 < s2 + (1 - alpha) * v by apply: ltr_paddr => //; apply: mulr_ge0 => //; rewrite subr_ge0.
have n1 : s2 <> 0%Re by apply/eqP; exact: lt0r_neq0.
have n2 : (s2 + (1 + - alpha) * v)%Re <> 0%Re by apply/eqP; exact: lt0r_neq0.
have n3 : alpha != 0 by exact: lt0r_neq0.
set x := (X in X = _ <-> _); set x0 := (X in _ = X <-> _).
have E : x - x0 = lr * alpha * ((1 - alpha) * v) / (2%:R * s2 * (s2 + (1 - alpha) * v)).
  by rewrite /x /x0; eqR; toF; field.
have En : (2%:R * s2 * (s2 + (1 - alpha) * v)) != 0.
  by rewrite !mulf_neq0 ?two_neq0 //; exact: lt0r_neq0.
suff [A B] : (x = x0 <-> lr * alpha * ((1 - alpha) * v) = 0) /\ (lr * alpha * ((1 - alpha) * v) = 0 <-> [\/ alpha = 1, lr = 0 | v = 0]).
  by split=> [/A /B|/B /A].
split.
  split=> [Ex|E0]; last by apply/eqP; rewrite -subr_eq0 E E0 mul0r; exact: eqxx.
  apply: (mulIf (invr_neq0 En)); rewrite -E Ex subrr mul0r; reflexivity.
split=> [/eqP|[->|->|->]]; last 3 first.
- by rewrite subrr mul0r mulr0.
- by rewrite !mul0r.
- by rewrite !mulr0.
rewrite !mulf_eq0 (negbTE n3) orbF subr_eq0 => /or3P [/eqP ->|/eqP <-|/eqP ->]; by [constructor 2 | constructor 1 | constructor 3].
Qed.
End Pep.
