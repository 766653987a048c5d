(* Laws of combined kernels in terms of the laws of the children. *)
From mathcomp Require Import all_ssreflect all_algebra.
From Verif Require Import Nat Alg Lin Ent Spd M_SSM S_SSM P_SSM M_Kernel S_Kernel P_Kernel M_Comb S_Comb P_Kron P_Comb P_Comb2.
Set Implicit Arguments.
Unset Strict Implicit.
Unset Printing Implicit Defensive.
Import Order.Theory GRing.Theory Num.Theory.
Local Open Scope ring_scope.

Section Laws.
Variable F : rcfType.

Lemma prior_f_law_unique o d (k : skernel F o d) n z m K m' K' :
  prior_f_law k n z m K -> prior_f_law k n z m' K' ->
  (forall i, (i <= n)%N -> m i = m' i) /\ (forall i j, (i <= n)%N -> (j <= n)%N -> K i j = K' i j).
Proof.
move=> [S HS HL] [S' HS' HL']; rewrite HS in HS'; case: HS' => ES; subst S'.
by have [H H'] := has_law_unique HL HL'.
Qed.

Variables (n : nat) (z : nat -> F).
Hypothesis Hz : increasing n.+1 z.

Lemma plain_steady o d (k : skernel F o d) : plain_kernel k -> steady_mean k.
Proof. by move=> [_ _ _ Hm Ho] a _; rewrite Hm Ho mulmx0 addr0. Qed.

Lemma plain_law o d (k : skernel F o d) : plain_kernel k -> noisy k \/ noiseless k ->
  prior_f_law k n z (fun _ => 0) (fun i j => fcov k (z i) (z j)).
Proof.
move=> H HQ; have Hs := plain_steady H; case: H => Hg _ Hj Hm _.
have := comb_law Hg HQ Hj Hz Hs; rewrite Hm => H.
by apply: (prior_f_law_ext H) => // i _; rewrite mulmx0.
Qed.

Section Concat.
Variables (o : nat) (ks : seq (child F o)) (K : child F o -> nat -> nat -> 'M[F]_o).
Hypothesis Hg : every (fun d k => plain_kernel k) ks.
Hypothesis HQ : every (fun d k => noisy k) ks \/ every (fun d k => noiseless k) ks.
Hypothesis HK : forall k, List.In k ks -> prior_f_law (projT2 k) n z (fun _ => 0) (K k).

Lemma child_K k i j : List.In k ks -> (i <= n)%N -> (j <= n)%N -> K k i j = fcov (projT2 k) (z i) (z j).
Proof.
move=> Hk Hi Hj.
have HQk : noisy (projT2 k) \/ noiseless (projT2 k) by case: HQ => H; [left|right]; apply: H.
by have [_ H] := prior_f_law_unique (HK Hk) (plain_law (Hg Hk) HQk); apply: H.
Qed.

Lemma concat_plain o' (E : F -> 'M[F]_(o', concat_dim ks)) : plain_kernel (concat_kernel E 0).
Proof.
split=> //.
- by apply: concat_good => k /Hg [].
- by apply: concat_A0 => k /Hg [].
- by apply: concat_mean0_0 => k /Hg [].
- by move=> a; apply: own_offsets0.
Qed.

Lemma concat_noise o' (E : F -> 'M[F]_(o', concat_dim ks)) : noisy (concat_kernel E 0) \/ noiseless (concat_kernel E 0).
Proof. by case: HQ => H; [left; apply: concat_noisy|right; apply: concat_noiseless]. Qed.

Lemma big_In (T : Type) (s : seq T) (f g : T -> 'M[F]_o) : (forall k, List.In k s -> f k = g k) ->
  \sum_(k <- s) f k = \sum_(k <- s) g k.
Proof.
elim: s => [|k s IH] H; first by rewrite !big_nil.
by rewrite !big_cons (H k) ?IH //=; [move=> k' Hk'; apply: H; right|left].
Qed.

Lemma sum_children : prior_f_law (sum_kernel ks 0) n z (fun _ => 0) (fun i j => \sum_(k <- ks) K k i j).
Proof.
apply: (prior_f_law_ext (plain_law (concat_plain _) (concat_noise _))) => // i j Hi Hj.
by rewrite [RHS]sum_fcov; apply: big_In => k Hk; rewrite child_K.
Qed.

Lemma eq_diag_children (f g : forall d, skernel F o d -> 'M[F]_o) : (forall k, List.In k ks -> f _ (projT2 k) = g _ (projT2 k)) ->
  diag_children ks f = diag_children ks g.
Proof.
move=> H; apply: eq_dense => a b Ha Hb; case: ifP => // _.
have : forall k, ohead (drop a ks) = Some k -> List.In k ks.
  move: a Ha {Hb}; clear; elim: ks => [|k0 s IH] [|a] //= Ha k => [[->]|/IH H]; first by left.
  by right; apply: H.
by case: (ohead _) => // k /(_ k erefl); apply: H.
Qed.

Lemma indep_children : prior_f_law (indep_kernel ks 0) n z (fun _ => 0)
  (fun i j => diag_children ks (fun d k => K (mkchild k) i j)).
Proof.
apply: (prior_f_law_ext (plain_law (concat_plain _) (concat_noise _))) => // i j Hi Hj.
rewrite [RHS]indep_fcov; apply: eq_diag_children => -[d k] Hk /=.
by rewrite (child_K Hk).
Qed.

Lemma factor_children o' (weight : F -> 'M[F]_(o', size ks * o)) (B : 'M[F]_(size ks * o)) :
  prior_f_law (factor_kernel weight B 0) n z (fun _ => 0)
  (fun i j => (weight (z i) *m B) *m diag_children ks (fun d k => K (mkchild k) i j) *m (weight (z j) *m B)^T).
Proof.
apply: (prior_f_law_ext (plain_law (concat_plain _) (concat_noise _))) => // i j Hi Hj.
rewrite [RHS]factor_fcov; congr (_ *m _ *m _); apply: eq_diag_children => -[d k] Hk /=.
by rewrite (child_K Hk).
Qed.
End Concat.

Section Product.
Variables (ks : seq (child F 1)) (K : child F 1 -> nat -> nat -> 'M[F]_1).
Hypothesis Hg : every (fun d k => plain_kernel k) ks.
Hypothesis HQk : every (fun d k => noisy k \/ noiseless k) ks.
Hypothesis HK : forall k, List.In k ks -> prior_f_law (projT2 k) n z (fun _ => 0) (K k).

Lemma product_plain : plain_kernel (product_kernel ks 0).
Proof.
split=> //.
- by apply: product_good => k /Hg [].
- by apply: product_A0 => k /Hg [].
- by move=> a; apply: own_offsets0.
Qed.

Lemma product_noise : noisy (product_kernel ks 0) \/ noiseless (product_kernel ks 0).
Proof.
have [H|H] : some (fun d k => noisy k) ks \/ every (fun d k => noiseless k) ks.
  elim: ks HQk => [|k s IH] H; first by right.
  have [|E|E] := IH; first by move=> k' Hk'; apply: H; right.
    by left; case: E => k' H1 H2; exists k' => //; right.
  have [E'|E'] := H k (or_introl erefl); first by left; exists k => //; left.
  by right=> k' [<-|/E].
  by left; apply: product_noisy => // k /Hg [].
by right; apply: product_noiseless.
Qed.

Lemma product_children : prior_f_law (product_kernel ks 0) n z (fun _ => 0)
  (fun i j => (\prod_(k <- ks) K k i j 0 0)%:M).
Proof.
apply: (prior_f_law_ext (plain_law product_plain product_noise)) => // i j Hi Hj.
rewrite [RHS]product_fcov; congr (_%:M).
have : forall k, List.In k ks -> K k i j = fcov (projT2 k) (z i) (z j).
  move=> k Hk; have [_ H] := prior_f_law_unique (HK Hk) (plain_law (Hg Hk) (HQk Hk)).
  exact: H.
elim: ks => [|k s IH] H; first by rewrite !big_nil.
by rewrite !big_cons H ?IH //; [move=> k' Hk'; apply: H; right|left].
Qed.
End Product.

Lemma stack_children d e (k : skernel F 1 d) K : plain_kernel k -> noisy k ->
  prior_f_law k n z (fun _ => 0) K -> prior_f_law (stack_kernel (e := e) k 0 0) n z (fun _ => 0) K.
Proof.
move=> H Hn HL; have Hs := plain_steady H.
have [_ E] := prior_f_law_unique HL (plain_law H (or_introl Hn)).
case: H => Hg HA _ Hm _; apply: (prior_f_law_ext (stack_law e Hg Hn Hs HA erefl Hz)) => //.
by move=> i _; rewrite Hm mulmx0 subrr mulmx0.
Qed.
End Laws.
