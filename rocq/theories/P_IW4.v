(* The slices of the draws of the importance weighted posterior. *)
From Coq Require Import Reals.
From mathcomp Require Import all_ssreflect all_algebra.
From Verif Require Import RealStruct M_Block Lin M_SSM M_SSMLog M_Kernel M_Emission M_IW.
Set Implicit Arguments.
Unset Strict Implicit.
Unset Printing Implicit Defensive.
Import GRing.Theory Num.Theory.
Local Open Scope ring_scope.

Lemma iw_slices d (s s' : seq 'cV[R]_d) : (0 < size s')%N ->
  iw_samples_data (size s') (s ++ s') = s /\ iw_samples_new (size s') (s ++ s') = s'.
Proof.
move=> H; rewrite /iw_samples_data /iw_samples_new /py_but_last /py_last eqn0Ngt H /= size_cat addnK.
by rewrite take_size_cat // drop_size_cat.
Qed.

Lemma iw_weight_no_data o d (kernel : sde_kernel Rr d) (emission : R -> 'M[R]_(o, d)) (mean : R -> 'cV[R]_o)
    (log_prob : 'cV[R]_o -> 'cV[R]_o -> R) n z (q : ssm Rr d) X X' Y Y' (s s' : seq 'cV[R]_d) u :
  iw_log_weight kernel emission mean log_prob n z q 0 X Y s u = iw_log_weight kernel emission mean log_prob n z q 0 X' Y' s' u.
Proof.
have E X0 Y0 s0 : iw_log_weight kernel emission mean log_prob n z q 0 X0 Y0 s0 u =
    omap (fun p => 0 + (ssm_log_pdf n p u - ssm_log_pdf n q u)) (kernel_ssm n kernel z).
  rewrite /iw_log_weight /iw_samples_data /py_but_last eqxx /log_importance_weight.
  by case: (kernel_ssm _ _ _) => // p; rewrite /Option.map /Option.bind /Option.apply; cbv zeta; rewrite big_ord0.
by rewrite !E.
Qed.
