(* Property theorems C113: a mean function is subtracted from the observations and added to the predictions.

   Each theorem compares a model that has the mean function [mean] with the same model with ZeroMeanFunction, whose
   observations have the mean function subtracted. *)
From Coq Require Import Reals.
From mathcomp Require Import all_ssreflect all_algebra.
From Verif Require Import RealStruct Spd M_Block M_SSM M_SSMLog M_Kernel S_Kernel M_Cond M_KernelR M_Comb M_Models M_Lik M_Density M_Mean
  P_Models3 P_MeanModel P_MeanModel2.
Set Implicit Arguments.
Unset Strict Implicit.
Unset Printing Implicit Defensive.
Import GRing.Theory Num.Theory Order.TTheory.
Local Open Scope ring_scope.

(* GaussianProcessRegression: the log likelihood and the loss *)
Theorem C113_log_likelihood o d (ker : sde_kernel Rr d) (emission : R -> 'M[R]_(o, d)) (mean : R -> 'cV[R]_o) n z y cR :
  gpr_log_likelihood ker emission mean n z y cR =
  gpr_log_likelihood ker emission (@zero_mean Rr o) n z (fun k => y k - mean (z k)) cR.
Proof. exact: lik_shift. Qed.
Print Assumptions C113_log_likelihood.

Theorem C113_loss o d (ker : sde_kernel Rr d) (emission : R -> 'M[R]_(o, d)) (mean : R -> 'cV[R]_o) n z y cR :
  gpr_loss ker emission mean n z y cR =
  gpr_loss ker emission (@zero_mean Rr o) n z (fun k => y k - mean (z k)) cR.
Proof. exact: loss_shift. Qed.
Print Assumptions C113_loss.

(* its predictions: the mean function at the new time is added to the mean, the covariance is the same *)
Theorem C113_predict o d (ker : sde_kernel Rr d) (emission : R -> 'M[R]_(o, d)) (mean : R -> 'cV[R]_o) n z y cR new i :
  omap (fun p => p i) (gpr_predict_f ker emission mean n z y cR new) =
  omap (fun p => ((p i).1 + mean (new i), (p i).2))
    (gpr_predict_f ker emission (@zero_mean Rr o) n z (fun k => y k - mean (z k)) cR new).
Proof. exact: predict_shift. Qed.
Print Assumptions C113_predict.

(* the variational models, whatever q: every likelihood that depends on the observation minus the function value *)
Theorem C113_variational o d (ker : sde_kernel Rr d) (emission : R -> 'M[R]_(o, d)) (mean : R -> 'cV[R]_o) ve :
  (forall m v x c, ve (m + c) v (x + c) = ve m v x) -> forall n z y q,
  vgp_elbo ker emission mean ve n z y q =
  vgp_elbo ker emission (@zero_mean Rr o) ve n z (fun k => y k - mean (z k)) q.
Proof. by move=> H n z y q; exact: vgp_shift. Qed.
Print Assumptions C113_variational.

Theorem C113_sparse_variational o d (ker : sde_kernel Rr d) (emission : R -> 'M[R]_(o, d)) (mean : R -> 'cV[R]_o) ve :
  (forall m v x c, ve (m + c) v (x + c) = ve m v x) -> forall n z num_data N X Y q,
  svgp_elbo ker emission mean ve n z num_data N X Y q =
  svgp_elbo ker emission (@zero_mean Rr o) ve n z num_data N X (fun k => Y k - mean (X k)) q.
Proof. by move=> H n z num_data N X Y q; exact: svgp_shift. Qed.
Print Assumptions C113_sparse_variational.

Theorem C113_variational_predict o d (ker : sde_kernel Rr d) (emission : R -> 'M[R]_(o, d)) (mean : R -> 'cV[R]_o) n z q new i :
  let f := model_predict_f_full ker emission (@zero_mean Rr o) n q z new i in
  model_predict_f_full ker emission mean n q z new i = (f.1 + mean (new i), f.2).
Proof. exact: model_shift. Qed.
Print Assumptions C113_variational_predict.

(* predict_y of the regression, and the log density of new observations *)
Theorem C113_predict_y o d (ker : sde_kernel Rr d) (emission : R -> 'M[R]_(o, d)) (mean : R -> 'cV[R]_o) n z y cR new :
  gpr_predict_y ker emission mean n z y cR new =
  omap (fun p i => ((p i).1 + mean (new i), (p i).2))
    (gpr_predict_y ker emission (@zero_mean Rr o) n z (fun k => y k - mean (z k)) cR new).
Proof. exact: predict_y_shift. Qed.
Print Assumptions C113_predict_y.

Theorem C113_predict_density o d (ker : sde_kernel Rr d) (emission : R -> 'M[R]_(o, d)) (mean : R -> 'cV[R]_o) n z y cR new w :
  gpr_predict_density ker emission mean n z y cR new w =
  gpr_predict_density ker emission (@zero_mean Rr o) n z (fun k => y k - mean (z k)) cR new (fun i => w i - mean (new i)).
Proof. exact: predict_density_shift. Qed.
Print Assumptions C113_predict_density.

(* predict_log_density of the variational models *)
Theorem C113_predict_log_density o d (ker : sde_kernel Rr d) (emission : R -> 'M[R]_(o, d)) (mean : R -> 'cV[R]_o) n z pld :
  (forall m v x c, pld (m + c) v (x + c) = pld m v x) -> forall q new w i,
  svgp_predict_log_density ker emission mean pld n q z new w i =
  svgp_predict_log_density ker emission (@zero_mean Rr o) pld n q z new (fun i => w i - mean (new i)) i.
Proof. exact: log_density_shift. Qed.
Print Assumptions C113_predict_log_density.

Example C113_density_example o (s2 : R) m v x c :
  @ext_gaussian_pld_outputs o s2 (m + c) v (x + c) = ext_gaussian_pld_outputs s2 m v x.
Proof. exact: gaussian_pld_shift. Qed.

(* the Gaussian likelihood is one; regression with a Matern 3/2 kernel on integer times returns a value *)
Example C113_example (l s2 noise : R) n (y : nat -> 'cV[R]_1) (cR : 'M[R]_1) : 0 < l -> 0 < s2 -> lownz cR ->
  let k := matern32 1 0 l s2 0 in let z i : R := i%:R in
  (forall m v x c, @ext_gaussian_ve 1 noise (m + c) v (x + c) = ext_gaussian_ve noise m v x) /\
  gpr_loss (to_sde k) (fun t => sk_H k t) (@linear_mean Rr 1 2%:R) n z y cR <> None.
Proof. exact: shift_example. Qed.
