(* Gradients of the importance weighted objectives. *)
From Coq Require Import Reals Lra.
From Coquelicot Require Import Coquelicot.
From mathcomp Require Import all_ssreflect all_algebra.
From Verif Require Import RealStruct Log M_SSMLog M_IW S_IW P_IW.
Set Implicit Arguments.
Unset Strict Implicit.
Unset Printing Implicit Defensive.
Import GRing.Theory Num.Theory Order.TTheory.
Local Open Scope ring_scope.

Lemma is_derive_eq (f : R -> R) (x a b : R) : a = b -> is_derive f x a -> is_derive f x b.
Proof. by move=> ->. Qed.

Lemma derive_sum K (f : nat -> R -> R) (x : R) (f' : nat -> R) : (forall k, (k < K)%N -> is_derive (f k) x (f' k)) ->
  is_derive (fun h => \sum_(k < K) f k h) x (\sum_(k < K) f' k).
Proof.
elim: K => [|K IH] H.
  apply: (is_derive_ext (fun _ => 0 : R)); first by move=> h; rewrite big_ord0.
  by rewrite big_ord0; exact: (is_derive_const (0 : R)).
apply: (is_derive_ext (fun h => Rplus (\sum_(k < K) f k h) (f K h))); first by move=> h; rewrite big_ord_recr.
rewrite big_ord_recr; apply: (is_derive_plus (fun h => \sum_(k < K) f k h) (f K)); last exact: H.
by apply: IH => k Hk; apply: H; exact: ltnW.
Qed.

Lemma derive_exp (f : R -> R) (x a : R) : is_derive f x a -> is_derive (fun h => exp (f h)) x (exp (f x) * a).
Proof.
move=> H; apply: is_derive_eq (is_derive_comp exp f x (exp (f x)) a _ H); first by rewrite /scal /= /mult /= mulrC.
exact: is_derive_exp.
Qed.

Lemma derive_scale (f : R -> R) (x a c : R) : is_derive f x a -> is_derive (fun h => c * f h) x (c * a).
Proof. by move=> H; exact: (is_derive_scal f x c a H). Qed.

Lemma derive_sumexp K (l : nat -> R -> R) (x : R) (l' : nat -> R) : (forall k, (k < K)%N -> is_derive (l k) x (l' k)) ->
  is_derive (fun h => \sum_(k < K) exp (l k h)) x (\sum_(k < K) exp (l k x) * l' k).
Proof. by move=> H; apply: (@derive_sum K (fun k h => exp (l k h)) x (fun k => exp (l k x) * l' k)) => k Hk; apply: derive_exp; exact: H. Qed.

Lemma derive_elbo K (l : nat -> R -> R) (x : R) (l' : nat -> R) : (0 < K)%N -> (forall k, (k < K)%N -> is_derive (l k) x (l' k)) ->
  is_derive (fun h => iw_elbo K (fun k => l k h)) x (\sum_(k < K) ext_softmax K (fun k => l k x) k * l' k).
Proof.
move=> HK H; set S := \sum_(j < K) exp (l j x).
have S0 : 0 < S by exact: (sumexp_gt0 (fun j => l j x) HK).
have D := derive_sumexp H.
have DL := is_derive_comp ln (fun h => \sum_(k < K) exp (l k h)) x (Rinv S) _ (proj2 (is_derive_Reals _ _ _) (derivable_pt_lim_ln S (RltP _ _ S0))) D.
apply: (is_derive_ext (fun h => Rplus (ln (\sum_(k < K) exp (l k h))) (- ln (K%:R : R)))) => //.
apply: is_derive_eq (is_derive_plus _ (fun _ => - ln (K%:R : R)) x _ 0 DL (is_derive_const _ _)).
have -> : \sum_(k < K) ext_softmax K (fun k => l k x) k * l' k = (\sum_(k < K) exp (l k x) * l' k) / S.
  by rewrite mulr_suml; apply: eq_bigr => k _; rewrite /ext_softmax -/S mulrAC.
rewrite [X in X = _](_ : _ = (\sum_(k < K) exp (l k x) * l' k) * Rinv S + 0) //.
by rewrite addr0 invrR //; apply/eqP; rewrite gt_eqF.
Qed.

Lemma derive_dregs K (l : nat -> R -> R) (x : R) (l' stopped : nat -> R) : (forall k, (k < K)%N -> is_derive (l k) x (l' k)) ->
  is_derive (fun h => iw_dregs K stopped (fun k => l k h)) x (\sum_(k < K) ext_softmax K stopped k ^+ 2 * l' k).
Proof.
move=> H; apply: (@derive_sum K (fun k h => ext_softmax K stopped k ^+ 2 * l k h) x (fun k => ext_softmax K stopped k ^+ 2 * l' k)).
by move=> k Hk; apply: derive_scale; exact: H.
Qed.

(* the weight of draw k when only the log weight of draw k moves *)
Lemma derive_weight K (l : nat -> R) (f : R -> R) (x g : R) k : (k < K)%N -> f x = l k -> is_derive f x g ->
  is_derive (fun h => ext_softmax K (fun j => if j == k then f h else l j) k) x
    (ext_softmax K l k * (1 - ext_softmax K l k) * g).
Proof.
move=> Hk Ef Df; have HK : (0 < K)%N by exact: leq_ltn_trans Hk.
set S := \sum_(j < K) exp (l j); have S0 : 0 < S by exact: (sumexp_gt0 l HK).
set M := fun h j => if j == k then f h else l j.
have DM : forall j, (j < K)%N -> is_derive (M^~ j) x (if j == k then g else 0).
  by move=> j _; rewrite /M; case: eqP => _ //; exact: (is_derive_const (l j)).
have EM j : M x j = l j by rewrite /M; case: eqP => // ->.
have DS : is_derive (fun h => \sum_(j < K) exp (M h j)) x (exp (l k) * g).
  apply: is_derive_eq (derive_sumexp (l := fun j h => M h j) DM).
  rewrite (bigD1 (Ordinal Hk)) //= eqxx EM big1 ?addr0 // => j Hj.
  have -> : (val j == k) = false by apply/negbTE; exact: Hj.
  by rewrite mulr0.
have Dk : is_derive (fun h => exp (M h k)) x (exp (l k) * g).
  by apply: is_derive_eq (derive_exp (DM k Hk)); rewrite EM eqxx.
have ES : \sum_(j < K) exp (M x j) = S by apply: eq_bigr => j _; rewrite EM.
have N0 : (\sum_(j < K) exp (M x j)) <> 0%Re by rewrite ES; apply/eqP; rewrite gt_eqF.
apply: (is_derive_ext (fun h => Rdiv (exp (M h k)) (\sum_(j < K) exp (M h j)))).
  move=> h; rewrite /ext_softmax -/(M h); by rewrite invrR //; apply/eqP; rewrite gt_eqF //; exact: (sumexp_gt0 (M h)).
apply: is_derive_eq (is_derive_div _ _ _ _ _ Dk DS N0).
rewrite ES EM /ext_softmax -/S.
have key (a b c : R) : b <> 0%Re -> ((a * c * b - a * (a * c)) / (b * (b * 1)))%Re = a / b * (1 - a / b) * c.
  by move=> Hb; rewrite (invrR Hb); toR_ops; rfield.
by apply: key; rewrite -ES.
Qed.

Section Dregs.
Variables (T : Type) (K : nat) (x : nat -> T) (flow : R -> T -> T) (lw : R -> T -> R) (g s : T -> R).
Hypothesis HK : (0 < K)%N.
Hypothesis flow0 : forall y, flow 0 y = y.
Hypothesis Dg : forall k, (k < K)%N -> is_derive (fun h => lw 0 (flow h (x k))) 0 (g (x k)).
Hypothesis Ds : forall k, (k < K)%N -> is_derive (fun h => lw h (flow h (x k))) 0 (g (x k) - s (x k)).

Lemma dregs_gradient : let w k (x : nat -> T) := exp (lw 0 (x k)) / \sum_(j < K) exp (lw 0 (x j)) in
  exists De Dd D, [/\ is_derive (fun h => iw_elbo K (fun k => lw h (flow h (x k)))) 0 De,
    is_derive (fun h => iw_dregs K (fun k => lw 0 (x k)) (fun k => lw 0 (flow h (x k)))) 0 Dd,
    forall k, (k < K)%N -> is_derive (fun h => w k (move_draw flow k h x)) 0 (D k) &
    De = Dd + \sum_(k < K) (D k - w k x * s (x k))].
Proof.
move=> w; pose W k := ext_softmax K (fun j => lw 0 (x j)) k.
exists (\sum_(k < K) W k * (g (x k) - s (x k))), (\sum_(k < K) W k ^+ 2 * g (x k)), (fun k => W k * (1 - W k) * g (x k)); split.
- apply: is_derive_eq (derive_elbo (l := fun k h => lw h (flow h (x k))) HK Ds).
  by apply: eq_bigr => k _; rewrite /W /ext_softmax flow0; congr (_ / _ * _); apply: eq_bigr => j _; rewrite flow0.
- exact: (@derive_dregs K (fun k h => lw 0 (flow h (x k))) 0 (fun k => g (x k)) _ Dg).
- move=> k Hk.
  have := @derive_weight K (fun j => lw 0 (x j)) (fun h => lw 0 (flow h (x k))) 0 (g (x k)) k Hk.
  rewrite flow0 => /(_ erefl (Dg Hk)); apply: is_derive_ext => h.
  rewrite /w /ext_softmax /move_draw eqxx; congr (_ / _).
  by apply: eq_bigr => j _; case: eqP => // ->.
- rewrite -big_split; apply: eq_bigr => k _; rewrite (_ : w k x = W k) //=.
  have key (a b c : R) : (a * (b - c))%Re = a ^+ 2 * b + (a * (1 - a) * b - a * c) by rfield.
  exact: key.
Qed.
End Dregs.

(* one observation y of a latent normal variable, proposal with mean 0 and variance 1 *)
Lemma dregs_example (y t : R) :
  let flow h u : R := u + h in let lw (h u : R) : R := - (y - u) ^+ 2 + (u - h) ^+ 2 / 2%:R in
  [/\ forall u, flow 0 u = u,
      is_derive (fun h => lw 0 (flow h t)) 0 (2%:R * (y - t) + t) &
      is_derive (fun h => lw h (flow h t)) 0 (2%:R * (y - t) + t - t)].
Proof.
move=> flow lw; have E h u : lw h u = (- ((y - u) * (y - u)) + (u - h) * (u - h) / 2)%Re.
  by rewrite /lw !expr2 twoR invrR; toR_ops; [rfield | lra].
split; first by move=> u; exact: addr0.
- apply: (is_derive_ext (fun h => - ((y - (t + h)) * (y - (t + h))) + (t + h - 0) * (t + h - 0) / 2)%Re); first by move=> h; rewrite E.
  by auto_derive => //; rewrite twoR; toR_ops; change (@eq R) with (@eq R); lra.
- apply: (is_derive_ext (fun h => - ((y - (t + h)) * (y - (t + h))) + (t + h - h) * (t + h - h) / 2)%Re); first by move=> h; rewrite E.
  by auto_derive => //; rewrite twoR; toR_ops; change (@eq R) with (@eq R); lra.
Qed.
