(* Shapes of a linear drift, counterexamples for the Euler path, and a quadrature rule. *)
From Coq Require Import Reals Lra.
From Coquelicot Require Import Coquelicot.
From mathcomp Require Import all_ssreflect all_algebra.
From Verif Require Import Nat RealStruct Log Alg Lin Spd M_Block M_SSM S_SSM P_SSM S_Gauss P_Gauss M_SSMLog P_SSMLog M_Sde S_Sde P_Sde.
Set Implicit Arguments.
Unset Strict Implicit.
Unset Printing Implicit Defensive.
Import GRing.Theory Num.Theory Order.TTheory.
Local Open Scope ring_scope.

Lemma handle_id s k s' : handle_tensor_shape s k.+1 = Some s' -> handle_tensor_shape s' k.+1 = Some s' /\ size s' = k.+1.
Proof.
rewrite /handle_tensor_shape; case: eqP => [E [<-]|_]; first by rewrite E eqxx.
case: andP => [[/eqP E _] [<-]|_]; first by rewrite size_behead E eqxx.
case: eqP => [/= E [<-]|//]; have E' : size (1%N :: s) = k.+1 by rewrite /= E.
by rewrite E' eqxx.
Qed.

Lemma to_ssm_ranks s q times mean chol s' : to_ssm_shapes s q times mean chol = Some s' ->
  [/\ size (sh_A s') = 4%N, size (sh_b s') = 3%N, to_ssm_shapes s' q times mean chol = Some s' &
      forall mu cov, squared_drift_ok s' mu cov = false].
Proof.
rewrite /to_ssm_shapes.
case EA: (handle_tensor_shape (sh_A s) 4) => [A|//]; case Eb: (handle_tensor_shape (sh_b s) 3) => [b|//].
have [EA' SA] := handle_id EA; have [Eb' Sb] := handle_id Eb.
case Et: (handle_tensor_shape times 1) => [t|//]; case Eq: (handle_tensor_shape q 4) => [q'|//].
case Em: (handle_tensor_shape mean 2) => [mn|//]; case Ec: (handle_tensor_shape chol 3) => [ch|//].
case: b Eb Eb' Sb => [//|B [//|N [//|D [|//]]]] _ Eb' Sb.
case: ifP => // HH [<-]; rewrite /= EA' HH; split=> // mu cov.
rewrite /squared_drift_ok; case: (handle_tensor_shape mu 2) => // m'; case: (handle_tensor_shape cov 3) => // c'.
by rewrite /= !andbF.
Qed.

Section Refute.
Variable F : rcfType.
Definition unit_sde : sde F 1 := Sde (fun _ _ => 1%:M) (fun _ _ => 0).

Lemma unit_path : euler_maruyama unit_sde 0 [:: 0; 1; 2%:R] [:: 0; 0; 0] = [:: 0; 0; 1%:M].
Proof.
rewrite /euler_maruyama /= !scaler0 !mul0mx !addr0 !subr0 !scale0r add0r scale1r.
by rewrite add0r.
Qed.
Lemma unit_path1 : euler_maruyama unit_sde 0 [:: 1] [:: 0] = [:: 0].
Proof. by []. Qed.

Lemma rule2 : gauss_hermite (F := F) 2 (fun h => if h == 0%N then 1 else -1) (fun _ => 2%:R^-1).
Proof.
have h2 : 2%:R != 0 :> F by rewrite pnatr_eq0.
case=> [|[|[|[|//]]]] _; rewrite !big_ord_recl big_ord0 /= /nmom /= ?expr0 ?expr1 ?mulr1 ?addr0 ?mulrN1 ?subrr ?mulr0 //.
- by rewrite -mulr2n -[_ *+ 2]mulr_natl divff.
- by rewrite expr1n sqrrN expr1n mulr1 -mulr2n -[_ *+ 2]mulr_natl divff.
- by rewrite expr1n exprS sqrrN expr1n mulr1 mulr1 mulrN1 subrr.
Qed.
End Refute.

Lemma euler_grid_refuted (F : rcfType) : exists (s : sde F 1) x0 grid noise,
  [/\ grid = [:: 0; 1; 2%:R], size noise = size grid, (forall x t, drift s x t = 1%:M /\ diffusion s x t = 0),
      euler_maruyama s x0 grid noise = [:: 0; 0; 1%:M] &
      ~ euler_path (drift s) (diffusion s) x0 grid noise (euler_maruyama s x0 grid noise)].
Proof.
exists (unit_sde F), 0, [:: 0; 1; 2%:R], [:: 0; 0; 0]; split=> //; first exact: unit_path.
rewrite unit_path => -[_ _ _ /(_ 0%N isT)] /=; rewrite /euler_update /= subr0 scale1r mul0mx scaler0 addr0 add0r.
by move/matrixP/(_ 0 0)/eqP; rewrite !mxE eq_sym oner_eq0.
Qed.

Lemma euler_size (F : rcfType) d (s : sde F d) x0 grid noise : (0 < size grid)%N -> size noise = size grid ->
  size (euler_maruyama s x0 grid noise) = size grid.
Proof. by move=> H0 Hs; have [-> _ _ _] := @euler_values F d s x0 grid noise H0 Hs; rewrite size_belast. Qed.

Lemma shapes_before N : exists s, set_from_ssm_shapes [:: N; 1%N; 1%N] [:: N; 1%N] = Some s /\
  squared_drift_ok s [:: N; 1%N] [:: N; 1%N; 1%N].
Proof. by eexists; split; [reflexivity|rewrite /squared_drift_ok /= !eqxx]. Qed.
Lemma shapes_after s q times mean chol s' : to_ssm_shapes s q times mean chol = Some s' ->
  to_ssm_shapes s' q times mean chol = Some s' /\ forall mu cov, squared_drift_ok s' mu cov = false.
Proof. by move=> /to_ssm_ranks[]. Qed.

Lemma double_well_derive (q x : R) :
  is_derive (drift1 (double_well1 (F := Rr) q) : R -> R) x (gradient_drift1 (double_well1 (F := Rr) q) x).
Proof.
apply: (@is_derive_ext R_AbsRing R_NormedModule (fun x : R => (4 * x * (1 - x * x))%Re)).
  by move=> t; rewrite /= /double_well_drift expr2 natrR /=; toR_ops; lra.
have -> : gradient_drift1 (double_well1 (F := Rr) q) x = (4 - 12 * (x * x))%Re.
  by rewrite /= expr2 !natrR /=; toR_ops; lra.
by auto_derive => //; ring.
Qed.

Lemma chain_rule_case : exists (S : ssm Rr 2) m K, ssm_nonsing 3 S /\ has_law 4 4 (ssm_path S) m K.
Proof.
exists (Ssm (0 : 'cV[R]_2) 1%:M (fun _ => 2%:R%:M) (fun _ => 0) (fun _ => 1%:M)); eexists; eexists; split; last exact: (@ssm_has_law Rr).
have h : lownz (R := Rr) (1%:M : 'M[R]_2).
  by split; [exact: scalar_mx_is_trig|move=> i; rewrite mxE eqxx; exact: oner_neq0].
by split.
Qed.

Lemma drift_kl_case : exists (ld : linear_drift Rr 1) (S S' : ssm Rr 1) m K,
  let s := ou1 (F := Rr) 1 1 in let q (_ : nat) := ext_cholesky (R := Rr) ((q1 s)%:M : 'M_1) in
  [/\ forall x, drift1 s x = -1 * x + 0, forall k, k.+1%:R - k%:R = 1 :> R,
      to_ssm (Some ld) q (fun k => k%:R) 0 1%:M = Some S,
      to_ssm (Some (LinearDrift (fun _ => (-1)%:M) (fun _ => 0%:M))) q (fun k => k%:R) 0 1%:M = Some S' &
      has_law 4 4 (ssm_path S) m K].
Proof.
exists (LinearDrift (fun k => k%:R%:M) (fun _ => 1%:M)); do 4 eexists; split; try reflexivity.
- by move=> x; rewrite addr0.
- by move=> k; rewrite -addn1 natrD addrC addKr.
- exact: (@ssm_has_law Rr).
Qed.
