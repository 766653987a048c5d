(* Proofs about kernel expressions. *)
From mathcomp Require Import all_ssreflect all_algebra.
From Verif Require Import Nat Alg Lin Ent Spd M_SSM S_SSM P_SSM M_Kernel S_Kernel P_Kernel M_Comb S_Comb P_Kron P_Comb P_Comb2 P_Comb3
  M_Expr S_Expr.
Set Implicit Arguments.
Unset Strict Implicit.
Unset Printing Implicit Defensive.
Import Order.Theory GRing.Theory Num.Theory.
Local Open Scope ring_scope.

Section Expr.
Variable F : rcfType.
Notation plain_child := (fun k : child F 1 => plain_kernel (projT2 k)).

Lemma every2 o (p : forall d, skernel F o d -> Prop) (a b : child F o) : p _ (projT2 a) -> p _ (projT2 b) -> every p [:: a; b].
Proof. by move=> Ha Hb k /= [<-|[<-|[]]]. Qed.

Lemma expr_plain e : leaves plain_child e -> plain_kernel (projT2 (kernel_of e)).
Proof.
elim: e => [k|a IHa b IHb|a IHa b IHb] //= [/IHa Ha /IHb Hb].
  exact: (concat_plain (@every2 _ (fun d k => plain_kernel k) _ _ Ha Hb)).
exact: (product_plain (@every2 _ (fun d k => plain_kernel k) _ _ Ha Hb)).
Qed.

Lemma expr_noise b e : leaves plain_child e -> noise b e ->
  if b then noisy (projT2 (kernel_of e)) else noiseless (projT2 (kernel_of e)).
Proof.
move=> + H; elim: H => {b e} [k|k|b a c _ IHa _ IHc|b1 b2 a c _ IHa _ IHc] //=.
  move=> [/IHa + /IHc]; case: b {IHa IHc} => Ha Hc.
    exact: (concat_noisy _ _ (@every2 _ (fun d k => noisy k) _ _ Ha Hc)).
  exact: (concat_noiseless _ _ (@every2 _ (fun d k => noiseless k) _ _ Ha Hc)).
move=> [La Lc]; have Pa := plain_good (expr_plain La); have Pc := plain_good (expr_plain Lc).
have G : every (fun d k => good_kernel k) [:: kernel_of a; kernel_of c] by apply: every2.
case: b1 IHa => /(_ La) Ha /=.
  by apply: (product_noisy 0 G); exists (kernel_of a) => //; left.
case: b2 IHc => /(_ Lc) Hc; last exact: (product_noiseless _ (@every2 _ (fun d k => noiseless k) _ _ Ha Hc)).
by apply: (product_noisy 0 G); exists (kernel_of c) => //; right; left.
Qed.

Lemma expr_fcov e s t : fcov (projT2 (kernel_of e)) s t 0 0 = expr_cov (fun (k : child F 1) (s t : F) => fcov (projT2 k) s t 0 0) e s t.
Proof.
elim: e => [k|a IHa b IHb|a IHa b IHb]; first by [].
  rewrite (_ : fcov _ s t = fcov (sum_kernel [:: kernel_of a; kernel_of b] 0) s t) //.
  by rewrite sum_fcov !big_cons big_nil addr0 mxE IHa IHb.
rewrite (_ : fcov _ s t = fcov (product_kernel [:: kernel_of a; kernel_of b] 0) s t) //.
by rewrite product_fcov !big_cons big_nil mulr1 mxE eqxx mulr1n IHa IHb.
Qed.

Lemma eq_expr_cov c c' (p : child F 1 -> Prop) e s t : (forall k, p k -> c k s t = c' k s t) -> leaves p e ->
  expr_cov c e s t = expr_cov c' e s t.
Proof.
move=> E; elim: e => [k|a IHa b IHb|a IHa b IHb] /=; first exact: E.
  by move=> [/IHa -> /IHb ->].
by move=> [/IHa -> /IHb ->].
Qed.

Lemma expr_law b e n z : leaves plain_child e -> noise b e -> increasing n.+1 z ->
  prior_f_law (projT2 (kernel_of e)) n z (fun _ => 0)
    (fun i j => (expr_cov (fun (k : child F 1) (s t : F) => fcov (projT2 k) s t 0 0) e (z i) (z j))%:M).
Proof.
move=> L N Hz; have Q : noisy (projT2 (kernel_of e)) \/ noiseless (projT2 (kernel_of e)).
  by have := expr_noise L N; case: (b); [left|right].
apply: (prior_f_law_ext (plain_law Hz (expr_plain L) Q)) => // i j _ _.
by rewrite -expr_fcov -mx11_scalar.
Qed.

Lemma expr_markov e : leaves plain_child e -> noise true e -> markov_kernel (to_sde (projT2 (kernel_of e))).
Proof.
move=> L N; have P := expr_plain L.
apply: good_markov; [exact: plain_good|exact: (expr_noise L N)|exact: plain_steady|exact: plain_jitter|exact: plain_A0|].
exact: plain_off.
Qed.

(* the prior of a stack, kernel by kernel *)
Lemma stack_ops (ks ks' : seq (child F 1)) : size ks = size ks' -> exists s p, [/\ stack_add ks ks' = Some s, stack_mul ks ks' = Some p,
  size s = size ks, size p = size ks &
  forall k0 i, (i < size ks)%N ->
    nth k0 s i = kernel_of (KAdd (KLeaf (nth k0 ks i)) (KLeaf (nth k0 ks' i))) /\
    nth k0 p i = kernel_of (KMul (KLeaf (nth k0 ks i)) (KLeaf (nth k0 ks' i)))].
Proof.
move=> E; rewrite /stack_add /stack_mul /stack_zip E eqxx.
exists [seq kernel_add p.1 p.2 | p <- zip ks ks'], [seq kernel_mul p.1 p.2 | p <- zip ks ks']; split; [by []|by []|by rewrite size_map size_zip E minnn|by rewrite size_map size_zip E minnn|].
move=> k0 i Hi; rewrite !(nth_map (k0, k0)) ?size_zip -?E ?minnn //.
by rewrite nth_zip.
all: by rewrite E.
Qed.

Lemma stack_refused (ks ks' : seq (child F 1)) : size ks <> size ks' -> stack_add ks ks' = None /\ stack_mul ks ks' = None.
Proof. by move=> /eqP/negPf E; rewrite /stack_add /stack_mul /stack_zip E. Qed.
End Expr.
