(* One Euler step of the stochastic differential equations of the library. *)
From mathcomp Require Import all_ssreflect all_algebra.
From Verif Require Import RealStruct Alg Spd M_Block M_SSM M_Sde.
Set Implicit Arguments.
Unset Strict Implicit.
Unset Printing Implicit Defensive.
Import GRing.Theory Num.Theory.
Local Open Scope ring_scope.

Section Step.
Variables (F : rcfType) (d : nat).

Lemma step_noise (q : 'M[F]_d) (dt : F) : 0 <= dt -> spd q ->
  (Num.sqrt dt *: chol q) *m (Num.sqrt dt *: chol q)^T = dt *: q.
Proof.
move=> Hdt Hq; have [_ E] := chol_spec Hq.
have -> : (Num.sqrt dt *: chol q)^T = Num.sqrt dt *: (chol q)^T by rewrite linearZ.
by rewrite -scalemxAr -scalemxAl scalerA E -expr2 sqr_sqrtr.
Qed.

Lemma library_steps (q : 'M[F]_d) decay x t t' : t <= t' -> spd q ->
  exists2 M : 'M[F]_d, M *m M^T = (t' - t) *: q &
  forall w, em_step (ou_sde decay q) (x, t) (w, t') = (x + (t' - t) *: (- (decay *: x)) + M *m w, t') /\
    em_step (double_well_sde q) (x, t) (w, t') = (x + (t' - t) *: (\col_i (4%:R * x i 0 * (1 - x i 0 ^+ 2))) + M *m w, t').
Proof.
move=> Ht Hq; exists (Num.sqrt (t' - t) *: chol q); first by apply: step_noise => //; rewrite subr_ge0.
by move=> w; split; rewrite /em_step //= scaleNr.
Qed.
End Step.
