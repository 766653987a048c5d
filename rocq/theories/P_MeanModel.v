(* Mean functions in regression: subtracted from the observations and added to the predictions. *)
From Coq Require Import Reals FunctionalExtensionality.
From mathcomp Require Import all_ssreflect all_algebra.
From Verif Require Import RealStruct Spd M_Block M_SSM M_SSMLog M_Kalman M_Kernel M_Cond M_KernelR M_Comb M_Emission M_Sort M_Models M_Mean P_Order
  P_Models3.
Set Implicit Arguments.
Unset Strict Implicit.
Unset Printing Implicit Defensive.
Import GRing.Theory Num.Theory Order.TTheory.
Local Open Scope ring_scope.

Section Shift.
Variables (o d : nat) (ker : sde_kernel Rr d) (emission : R -> 'M[R]_(o, d)) (mean : R -> 'cV[R]_o).
Variables (n : nat) (z : nat -> R) (y : nat -> 'cV[R]_o) (cR : 'M[R]_o).
Notation zero := (@zero_mean Rr o).
Let y' k := y k - mean (z k).

Lemma residuals_shift : gpr_residuals mean z y = gpr_residuals zero z y'.
Proof. by apply: functional_extensionality => k; rewrite /gpr_residuals /zero_mean subr0. Qed.

Lemma lik_shift : gpr_log_likelihood ker emission mean n z y cR = gpr_log_likelihood ker emission zero n z y' cR.
Proof. by rewrite /gpr_log_likelihood residuals_shift. Qed.

Lemma posterior_shift : gpr_posterior ker emission mean n z y cR = gpr_posterior ker emission zero n z y' cR.
Proof. by rewrite /gpr_posterior residuals_shift. Qed.

Lemma predict_shift new i :
  omap (fun p => p i) (gpr_predict_f ker emission mean n z y cR new) =
  omap (fun p => ((p i).1 + mean (new i), (p i).2)) (gpr_predict_f ker emission zero n z y' cR new).
Proof.
rewrite /gpr_predict_f posterior_shift; apply: eq_omap2 => q.
by rewrite /model_predict_f_full /predict_f_full /zero_mean; cbn [fst snd]; rewrite addr0.
Qed.

Lemma loss_shift : gpr_loss ker emission mean n z y cR = gpr_loss ker emission zero n z y' cR.
Proof. by rewrite /gpr_loss lik_shift. Qed.

Section Bound.
Variable ve : 'cV[R]_o -> 'cV[R]_o -> 'cV[R]_o -> R.
Hypothesis Hve : forall m v x c, ve (m + c) v (x + c) = ve m v x.

Lemma ve_shift q X (Y : nat -> 'cV[R]_o) k :
  let f mean := model_predict_f_diag ker emission mean n q z X k in
  ve (f mean).1 (f mean).2 (Y k) = ve (f zero).1 (f zero).2 (Y k - mean (X k)).
Proof.
move=> f; rewrite /f /model_predict_f_diag /predict_f_diag /zero_mean; cbn [fst snd].
by rewrite addr0 -{1}[Y k](subrK (mean (X k))) Hve.
Qed.

Lemma svgp_shift num_data N X Y q :
  svgp_elbo ker emission mean ve n z num_data N X Y q =
  svgp_elbo ker emission zero ve n z num_data N X (fun k => Y k - mean (X k)) q.
Proof.
apply: eq_omapf => p; apply: (congr1 (fun v => v * _ - _)).
by apply: eq_bigr => k _; exact: ve_shift.
Qed.

Lemma vgp_shift q : vgp_elbo ker emission mean ve n z y q = vgp_elbo ker emission zero ve n z y' q.
Proof.
apply: eq_omapf => p; apply: (congr1 (fun v => v - _)).
by apply: eq_bigr => k _; exact: ve_shift.
Qed.
End Bound.

Lemma model_shift q X k :
  let f := model_predict_f_full ker emission zero n q z X k in
  model_predict_f_full ker emission mean n q z X k = (f.1 + mean (X k), f.2).
Proof. by rewrite /model_predict_f_full /predict_f_full /zero_mean; cbn [fst snd]; rewrite addr0. Qed.
End Shift.

Lemma gaussian_ve_shift o (s2 : R) m v x c : @ext_gaussian_ve o s2 (m + c) v (x + c) = ext_gaussian_ve s2 m v x.
Proof. by apply: eq_bigr => i _; rewrite !mxE opprD addrACA subrr addr0. Qed.

Lemma shift_example (l s2 noise : R) n (y : nat -> 'cV[R]_1) (cR : 'M[R]_1) : 0 < l -> 0 < s2 -> lownz cR ->
  let k := matern32 1 0 l s2 0 in let z i : R := i%:R in
  (forall m v x c, @ext_gaussian_ve 1 noise (m + c) v (x + c) = ext_gaussian_ve noise m v x) /\
  gpr_loss (to_sde k) (fun t => sk_H k t) (@linear_mean Rr 1 2%:R) n z y cR <> None.
Proof.
move=> Hl Hs HR k z; split; first by exact: gaussian_ve_shift.
have [H1 H2 H3 _ _] := models_example n 0 0 Hl Hs.
have E := gpr_loss_ok (fun t => sk_H k t) (@linear_mean Rr 1 2%:R) H1 H2 y H3 HR.
by rewrite E.
Qed.
