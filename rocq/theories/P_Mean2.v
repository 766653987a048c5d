(* The step mean function of a kernel whose feedback matrix is not the one it follows. *)
From Coq Require Import Reals Lra.
From mathcomp Require Import all_ssreflect all_algebra.
From Verif Require Import RealStruct Nat Alg Lin Ent Spd M_Block S_Block P_Block P_Block2 M_SSMLog M_Kernel S_Kernel M_Cond P_Cond M_Comb S_Comb
  MCalc MExp M_KernelR S_KernelR P_Kron P_KernelR P_KernelR2 P_KernelR3 M_Mean S_Mean P_Mean.
Set Implicit Arguments.
Unset Strict Implicit.
Unset Printing Implicit Defensive.
Import GRing.Theory Num.Theory Order.TTheory.
Local Open Scope ring_scope.

Section Step.
Variables (o d : nat) (kernel : skernel Rr o d) (M : 'M[R]_d) (N : nat) (tau : nat -> R) (u : nat -> 'cV[R]_d).
Hypothesis HN : (0 < N)%N.
Hypothesis Htau : increasing N tau.
Hypothesis Hgen : generates M (sk_A kernel).
Hypothesis HF : sk_F kernel \in unitmx.
Local Notation A := (sk_A kernel).
(* the steps on which the two matrices agree *)
Hypothesis Hu : forall k, (k < N)%N -> M *m (invmx (sk_F kernel) *m u k) = u k.

Lemma step_condition : exists2 x, response M N tau u (fun _ => 0) x &
  forall t, step_mean kernel N tau u t = sk_H kernel t *m x t.
Proof.
pose x t := step_a kernel u (action_index (F := Rr) N tau t) +
  A (t - step_times (F := Rr) tau (action_index (F := Rr) N tau t)) *m
  step_b kernel N tau u (action_index (F := Rr) N tau t).
exists x => //; pose a := step_a kernel u.
pose b := btd_solve N (action_system kernel N tau) false (fun k => a k - a k.+1).
have Hrest t : t <= tau 0%N -> x t = 0 by move=> H; rewrite /x index_rest // mulmx0 addr0.
have Hp k t : (k < N)%N -> tau k < t -> ((k.+1 < N)%N -> t <= tau k.+1) -> x t = a k.+1 + A (t - tau k) *m b k.
  by move=> Hk H1 H2; rewrite /x (index_piece HN Htau Hk H1 H2).
apply: (@pieces_response _ _ _ _ _ _ Htau A b (fun k => a k.+1) x Hgen Hrest Hp).
- by move=> k Hk; rewrite /a /step_a /= mulmxN opprK /ext_solve Hu.
move=> [|k] Hk; rewrite addr0 /b action_solve // -/b.
  by rewrite add0r addrCA subrr addr0 Hrest ?lexx.
rewrite (Hp k) ?lexx //; [|exact: ltnW|exact: Htau].
by rewrite addrC -addrA subrK addrC.
Qed.
End Step.

Lemma step_product ks N tau u : every (fun d k => library_kernel false k) ks ->
  let k := product_kernel ks 0 in
  (0 < N)%N -> increasing (F := Rr) N tau -> sk_F k \in unitmx ->
  (forall i, (i < N)%N -> kron_sum ks *m (invmx (sk_F k) *m u i) = u i) ->
  exists2 x, response (kron_sum ks) N tau u (fun _ => 0) x & forall t, step_mean k N tau u t = sk_H k t *m x t.
Proof.
move=> Hl k HN Ht HF Hu; apply: step_condition => //.
by apply: product_generates => c Hc; apply: exp_generates; apply: lib_exp; apply: Hl.
Qed.

(* the matrices of a product of one kernel *)
Lemma one_child d (k : skernel Rr 1 d) : sk_F k \in unitmx ->
  let p := product_kernel [:: mkchild k] 0 in sk_F p \in unitmx /\ kron_sum [:: mkchild k] = sk_F p.
Proof.
move=> HF p.
have Ep : sk_F p = kron (sk_F k) 1%:M by [].
have Es : kron_sum [:: mkchild k] = kron (sk_F k) 1%:M + kron 1%:M 0 by [].
split; last by rewrite Es Ep kron0r addr0.
rewrite Ep; apply: kron_unit => //; exact: unitmx1.
Qed.

Lemma one_child_steps d (k : skernel Rr 1 d) (u : 'cV[R]_(prod_dim [:: mkchild k])) : sk_F k \in unitmx ->
  let p := product_kernel [:: mkchild k] 0 in
  sk_F p \in unitmx /\ kron_sum [:: mkchild k] *m (invmx (sk_F p) *m u) = u.
Proof. by move=> HF p; have [U E] := one_child HF; split=> //; rewrite E mulKVmx. Qed.

Lemma two_m12_wrong (l1 l2 : R) : 0 < l1 -> 0 < l2 -> let ks := two_m12 l1 l2 in
  [/\ forall k, List.In k ks -> library_kernel false (projT2 k),
      generates (kron_sum ks) (sk_A (product_kernel ks 0)),
      sk_F (product_kernel ks 0) \in unitmx &
      ~ exists x, response (kron_sum ks) 1 (fun _ => 0) (fun _ => const_mx 1) (fun _ => 0) x /\
        forall t, step_mean (product_kernel ks 0) 1 (fun _ => 0) (fun _ => const_mx 1) t = sk_H (product_kernel ks 0) t *m x t].
Proof.
move=> h1 h2 ks.
have Hl k : List.In k ks -> library_kernel false (projT2 k).
  by move=> /= [<-|[<-|[]]] /=; apply: lib_matern12; rewrite ?ltr01.
have Hg : generates (kron_sum ks) (sk_A (product_kernel ks 0)).
  by apply: product_generates => k Hk; apply: exp_generates; apply: lib_exp; apply: Hl.
have EF : sk_F (product_kernel ks 0) = (- l1^-1 * - l2^-1)%:M :> 'M[Rr]_1.
  by rewrite -two_m12_product -!(m12_F 1 0 _ 1 0).
have EG : kron_sum ks = (- l1^-1 + - l2^-1)%:M :> 'M[Rr]_1.
  by rewrite -two_m12_sum -!(m12_F 1 0 _ 1 0).
have EH t : sk_H (product_kernel ks 0) t = 1%:M :> 'M[Rr]_1.
  exact: two_m12_emission.
have i1 : 0 < l1^-1 by rewrite invr_gt0.
have i2 : 0 < l2^-1 by rewrite invr_gt0.
have U : sk_F (product_kernel ks 0) \in unitmx.
  by rewrite (unitmxE (n := 1)) EF det_scalar1 unitfE mulf_neq0 // oppr_eq0 lt0r_neq0.
split=> //.
apply: (@step_wrong (product_kernel ks 0 : skernel Rr 1 1) (kron_sum ks) Hg) => //.
move=> E; have {E} : ((- l1^-1 + - l2^-1)%:M : 'M[Rr]_1) = (- l1^-1 * - l2^-1)%:M by rewrite -EF -EG E.
move=> /matrixP /(_ 0 0); rewrite !mxE !eqxx !mulr1n mulrNN => /eqP.
by rewrite lt_eqF // (@lt_trans _ _ 0) // ?mulr_gt0 // -opprD oppr_lt0 addr_gt0.
Qed.
