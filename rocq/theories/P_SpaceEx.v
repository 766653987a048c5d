(* Examples for the spatio-temporal bound. *)
From Coq Require Import Reals Lra.
From mathcomp Require Import all_ssreflect all_algebra.
From Verif Require Import MCalc RealStruct Nat Alg Lin Ent Spd M_Block M_SSM S_SSM P_SSM M_SSMLog M_Kernel S_Kernel P_Kernel M_Comb S_Comb P_Comb P_Comb2 P_Comb3
  M_KernelR S_KernelR P_Matern P_KernelR P_KernelR2 P_KernelR3 M_Cond P_Cond M_Sort P_Sort M_Models S_GP P_Models P_Models3 P_Cond4 M_Space S_Space P_Space P_Space2 P_Space3.
Set Implicit Arguments.
Unset Strict Implicit.
Unset Printing Implicit Defensive.
Import GRing.Theory Num.Theory Order.TTheory.
Local Open Scope ring_scope.

(* a sum of products of features is a covariance function *)
Lemma feature_cov (F : rcfType) (S : Type) L (phi : S -> 'I_L -> F) :
  covariance_function (fun x y => \sum_l phi x l * phi y l).
Proof.
split=> [x y|p y a]; first by apply: eq_bigr => l _; rewrite mulrC.
have -> : \sum_(i < p) \sum_(j < p) a i * a j * (\sum_l phi (y i) l * phi (y j) l) =
    \sum_l (\sum_(i < p) a i * phi (y i) l) ^+ 2.
  rewrite [RHS](eq_bigr (fun l => \sum_(i < p) \sum_(j < p) (a i * phi (y i) l) * (a j * phi (y j) l))); last first.
    by move=> l _; rewrite expr2 big_distrlr.
  rewrite [RHS]exchange_big; apply: eq_bigr => i _; rewrite [RHS]exchange_big; apply: eq_bigr => j _.
  rewrite mulr_sumr; apply: eq_bigr => l _; crng.
by apply: sumr_ge0 => l _; rewrite sqr_ge0.
Qed.

Lemma covariance_eq (F : rcfType) (S : Type) (k k' : S -> S -> F) : (forall x y, k x y = k' x y) ->
  covariance_function k -> covariance_function k'.
Proof.
move=> E [Hs Hp]; split=> [x y|p y a]; first by rewrite -!E.
have H := Hp p y a; rewrite (eq_bigr (fun i : 'I_p => \sum_(j < p) a i * a j * k (y i) (y j))) // => i _.
by apply: eq_bigr => j _; rewrite E.
Qed.

Lemma bspace_cov (c : R) : c ^+ 2 <= 1 -> covariance_function (F := Rr) (bspace c).
Proof.
move=> Hc; pose phi (x : bool) (l : 'I_2) : R := if x then (if l == 0 then c else Num.sqrt (1 - c ^+ 2)) else (l == 0)%:R.
apply: (covariance_eq (k := fun x y => \sum_l phi x l * phi y l)); last exact: (@feature_cov Rr).
have H : 0 <= 1 - c ^+ 2 by rewrite subr_ge0.
by case=> -[]; rewrite big_ord_recl big_ord1 /phi /bspace /= ?(mulr1, mul1r, mulr0, mul0r, addr0) // -!expr2 sqr_sqrtr // addrC subrK.
Qed.

Lemma st_bound_example (l v c : R) n N (t : nat -> R) : 0 < l -> 0 < v -> v <= 1 -> c ^+ 2 < 1 ->
  (forall k, (k < N)%N -> 0 <= t k <= n%:R) ->
  let kt := matern12 1 0 l v 0 in let z i : R := i%:R in let Z (_ : nat) := false in
  [/\ covariance_function (F := Rr) (bspace c), plain_kernel kt, noisy kt, spd (st_Kmm (F := Rr) (bspace c) kt 1 Z) & increasing (F := Rr) n.+1 z] /\
  (forall k, (k < N)%N -> covered (F := Rr) n z (t k) /\ fcov kt (t k) (t k) 0 0 <= 1) /\
  exists2 q, st_initial_q (bspace c) kt 1 Z n z = Some q & ssm_nonsing n q.
Proof.
move=> Hl Hv Hv1 Hc Ht kt z Z.
have [Hp Hn] : plain_kernel kt /\ noisy kt by split; [exact: m12_plain | exact: m12_noisy].
have Hz := @grid_inc n.
split; first by split=> //; [apply: bspace_cov; exact: ltW | apply: (@spd_mx1 Rr); rewrite mxE /bspace eqxx ltr01].
split.
  move=> k Hk; have /andP [H1 H2] := Ht k Hk; split; last by rewrite m12_var.
  apply: (@covered_range Rr) => //; rewrite /z oppr_lt0; exact: (lt_trans ltr01 (inf_gt1 Rr)).
have [Hker _ _] := plain_markov (st_plain (bspace c) 1 Z Hp) (st_noisy (bspace c) 1 Z Hn).
exists (kssm (to_sde (st_kernel (F := Rr) (bspace c) kt 1 Z)) z); first exact: kernel_ssmE.
exact: kssm_nonsing.
Qed.
