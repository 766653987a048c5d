(* Mean functions in the predictive densities. *)
From Coq Require Import Reals FunctionalExtensionality.
From mathcomp Require Import all_ssreflect all_algebra.
From Verif Require Import RealStruct M_Block M_SSM M_SSMLog M_Kalman M_Kernel M_Cond M_Emission M_Sort M_Models M_Cvi M_Pep M_Lik M_Density M_Mean P_Order
  P_MeanModel.
Set Implicit Arguments.
Unset Strict Implicit.
Unset Printing Implicit Defensive.
Import GRing.Theory.
Local Open Scope ring_scope.

Lemma mvn_shift o (L : 'M[R]_o) m y c : ext_mvn_tril_log_prob (m + c) L y = ext_mvn_tril_log_prob m L (y - c).
Proof. by rewrite /ext_mvn_tril_log_prob [m + c]addrC opprD addrA. Qed.

Section Shift.
Variables (o d : nat) (ker : sde_kernel Rr d) (emission : R -> 'M[R]_(o, d)) (mean : R -> 'cV[R]_o).
Variables (n : nat) (z : nat -> R) (y : nat -> 'cV[R]_o) (cR : 'M[R]_o).
Notation zero := (@zero_mean Rr o).
Let y' k := y k - mean (z k).

Lemma predict_fE new : gpr_predict_f ker emission mean n z y cR new =
  omap (fun p i => ((p i).1 + mean (new i), (p i).2)) (gpr_predict_f ker emission zero n z y' cR new).
Proof.
rewrite /gpr_predict_f posterior_shift -/y'; case: (gpr_posterior _ _ _ _ _ _ _) => [q|]; last by [].
congr Some; apply: functional_extensionality => i.
by rewrite /model_predict_f_full /predict_f_full /zero_mean; cbn [fst snd]; rewrite addr0.
Qed.

Lemma predict_y_shift new : gpr_predict_y ker emission mean n z y cR new =
  omap (fun p i => ((p i).1 + mean (new i), (p i).2)) (gpr_predict_y ker emission zero n z y' cR new).
Proof. by rewrite /gpr_predict_y predict_fE; case: (gpr_predict_f _ _ _ _ _ _ _ _). Qed.

Lemma predict_density_shift new w : gpr_predict_density ker emission mean n z y cR new w =
  gpr_predict_density ker emission zero n z y' cR new (fun i => w i - mean (new i)).
Proof.
rewrite /gpr_predict_density predict_fE; case: (gpr_predict_f _ _ _ _ _ _ _ _) => [p|]; last by [].
congr Some; apply: functional_extensionality => i; exact: mvn_shift.
Qed.

Lemma log_density_shift pld : (forall m v x c, pld (m + c) v (x + c) = pld m v x) -> forall q new w i,
  svgp_predict_log_density ker emission mean pld n q z new w i =
  svgp_predict_log_density ker emission zero pld n q z new (fun i => w i - mean (new i)) i.
Proof. by move=> H q new w i; exact: (@ve_shift o d ker emission mean n z pld H q new w i). Qed.
End Shift.

Lemma gaussian_pld_shift o (s2 : R) m v x c : @ext_gaussian_pld_outputs o s2 (m + c) v (x + c) = ext_gaussian_pld_outputs s2 m v x.
Proof. by apply: eq_bigr => i _; rewrite !mxE /ext_gaussian_pld /ext_logdensity_gaussian opprD addrACA subrr addr0. Qed.
