(* Model of markovflow/conditionals.py and of the state predictions of
   markovflow/posterior.py.  One batch element. *)
From mathcomp Require Import all_ssreflect all_algebra.
From Verif Require Import Alg Lin Ent Spd M_Block M_SSM M_Kernel.
Set Implicit Arguments.
Unset Strict Implicit.
Unset Printing Implicit Defensive.
Import GRing.Theory Num.Theory.
Local Open Scope ring_scope.

Section Cond.
Variable F : rcfType.

(* external, called at posterior.py:362, conditionals.py:236, mean_function.py:245:
   tf.searchsorted (side = "left"): the first index whose entry is not below the
   query, N if there is none *)
Definition ext_searchsorted (N : nat) (sorted : nat -> F) (t : F) : nat :=
  find (fun k => t <= sorted k) (iota 0 N).

(* base.py:46 *)
Definition APPROX_INF : F := (10 ^ 10)%N%:R.

(* conditionals.py:238-239: concat([-inf, training_time_points, inf]) *)
Definition augment_times (N : nat) (z : nat -> F) (k : nat) : F :=
  if k is k'.+1 then if (k' < N)%N then z k' else APPROX_INF else - APPROX_INF.

Variable d : nat.

(* conditionals.py:122-203 with return_precision=False: (D, E, T) *)
Definition cond_stats_from_transitions (A_mt Q_mt A_tp Q_tp : 'M[F]_d) : 'M[F]_d * 'M[F]_d * 'M[F]_d :=
  let A_tp_Q_mt := A_tp *m Q_mt in
  let Q_mp := Q_tp + A_tp *m A_tp_Q_mt^T in
  let chol_Q := ext_cholesky Q_mp in
  let L_inv_A_tp_Q_mt := ext_triangular_solve false chol_Q (A_tp *m Q_mt) in
  let E := (ext_triangular_solve true chol_Q L_inv_A_tp_Q_mt)^T in
  let D := A_mt - E *m A_tp *m A_mt in
  (D, E, Q_mt - L_inv_A_tp_Q_mt^T *m L_inv_A_tp_Q_mt).

(* conditionals.py:188-199 with return_precision=True: the third result *)
Definition cond_precision_from_transitions (Q_mt A_tp Q_tp : 'M[F]_d) : 'M[F]_d :=
  let Q_mt_inv := ext_cholesky_solve (ext_cholesky Q_mt) 1%:M in
  let L_tp_inv_A_tp := ext_triangular_solve false (ext_cholesky Q_tp) A_tp in
  Q_mt_inv + L_tp_inv_A_tp^T *m L_tp_inv_A_tp.

(* conditionals.py:207-254 for one new time point: (P, T, index) *)
Definition conditional_statistics (kernel : sde_kernel F d) (N : nat) (z : nat -> F) (t : F) :
    'M[F]_(d, d + d) * 'M[F]_d * nat :=
  let index := ext_searchsorted N z t in
  let plus := augment_times N z index.+1 in
  let minus := augment_times N z index in
  let dX_mt := t - minus in
  let dX_tp := plus - t in
  let stats := cond_stats_from_transitions (k_trans kernel minus dX_mt) (k_cov kernel minus dX_mt)
    (k_trans kernel t dX_tp) (k_cov kernel t dX_tp) in
  (row_mx stats.1.1 stats.1.2, stats.2, index).

(* conditionals.py:380-420 *)
Definition base_conditional_predict (P : 'M[F]_(d, d + d)) (T : 'M[F]_d) (adjacent : 'cV[F]_(d + d))
    (cov : option 'M[F]_(d + d)) : 'cV[F]_d * 'M[F]_d :=
  (P *m adjacent, if cov is Some Sc then T + P *m Sc *m P^T else T).

(* conditionals.py:424-485: pairs 0 .. n + 1 of a model with n transitions *)
Definition extend_pairs (T : Type) (n : nat) (x0 : T) (xs : nat -> T) (k : nat) : T :=
  if k is k'.+1 then if (k' < n.+1)%N then xs k' else x0 else x0.

(* conditionals.py:424-485 *)
Definition pairwise_marginals (n : nat) (dist : ssm F d) (initial_mean : 'cV[F]_d)
    (initial_covariance : 'M[F]_d) : (nat -> 'cV[F]_(d + d)) * (nat -> 'M[F]_(d + d)) :=
  let means := ssm_marginal_means n dist in
  let covariances := (ssm_covariance_blocks n dist).1 in
  let subsequent := (ssm_covariance_blocks n dist).2 in
  let extended_means := extend_pairs n initial_mean means in
  let extended_cov := extend_pairs n initial_covariance covariances in
  let extended_subsequent_cov k :=
    if k is k'.+1 then if (k' < n)%N then subsequent k' else 0 else 0 in
  (fun k => col_mx (extended_means k) (extended_means k.+1),
   fun k => block_mx (extended_cov k) (extended_subsequent_cov k)^T
                     (extended_subsequent_cov k) (extended_cov k.+1)).

(* conditionals.py:29-83 for one new time point *)
Definition conditional_predict (kernel : sde_kernel F d) (N : nat) (z : nat -> F) (t : F)
    (pair_means : nat -> 'cV[F]_(d + d)) (pair_covs : option (nat -> 'M[F]_(d + d))) :
    'cV[F]_d * 'M[F]_d :=
  let: (P, T, index) := conditional_statistics kernel N z t in
  base_conditional_predict P T (pair_means index) (omap (fun c => c index) pair_covs).

(* posterior.py:207-229 ConditionalProcess.predict_state for one new time point; n + 1
   conditioning time points.  [t0] is the first of the new time points. *)
Definition predict_state (kernel : sde_kernel F d) (n : nat) (dist : ssm F d) (z : nat -> F) (t0 t : F) :
    'cV[F]_d * 'M[F]_d :=
  let pw := pairwise_marginals n dist (k_mean0 kernel) (k_P0 kernel t0) in
  conditional_predict kernel n.+1 z t pw.1 (Some pw.2).

(* posterior.py:260-377 sample_state_trajectories, at one new time point: from a prior
   sample [prior_new] at the new point and [prior_z] at the conditioning points, and a
   posterior sample [post_z] at the conditioning points *)
Definition sample_state (kernel : sde_kernel F d) (n : nat) (z : nat -> F) (t : F)
    (prior_new : 'cV[F]_d) (prior_z post_z : nat -> 'cV[F]_d) : 'cV[F]_d :=
  let delta k := prior_z k - post_z k in
  let delta_augmented := extend_pairs n 0 delta in
  let index := ext_searchsorted n.+1 z t in
  let v := col_mx (delta_augmented index) (delta_augmented index.+1) in
  prior_new - (conditional_statistics kernel n.+1 z t).1.1 *m v.

(* conditionals.py:258-376: a rank three tensor: its shape and its entries. *)
Record tensor3 := Tensor3 { t3_shape : nat * nat * nat; t3_entry : nat -> nat -> nat -> F }.

(* conditionals.py:376: x[..., 1:] and x[..., :m] act on the last axis *)
Definition slice_from1 (x : tensor3) : tensor3 :=
  let: (a, b, c) := t3_shape x in Tensor3 (a, b, c.-1) (fun i j k => t3_entry x i j k.+1).
(* conditionals.py:376 *)
Definition slice_upto (m : nat) (x : tensor3) : tensor3 :=
  let: (a, b, c) := t3_shape x in Tensor3 (a, b, minn m c) (t3_entry x).
(* conditionals.py:344-374: the matrices of all points as one tensor *)
Definition stack3 (N : nat) (M : nat -> 'M[F]_d) : tensor3 :=
  Tensor3 (N, d, d) (fun i j k => ent (M i) j k).

(* conditionals.py:344-374: the statistics (F, G, L) of explained point k, before the
   slicing of the return statement *)
Definition cyclic_statistics (kernel : sde_kernel F d) (nc : nat) (te tc : nat -> F) (k : nat) :
    'M[F]_d * 'M[F]_d * 'M[F]_d :=
  let minus := augment_times nc tc k in
  let plus := augment_times nc tc k.+1 in
  let A_mt := k_trans kernel minus (te k - minus) in
  let Q_mt := k_cov kernel minus (te k - minus) in
  let A_tp := k_trans kernel (te k) (plus - te k) in
  let Q_tp := k_cov kernel (te k) (plus - te k) in
  let s := cond_stats_from_transitions A_mt Q_mt A_tp Q_tp in
  let L := ext_cholesky (cond_precision_from_transitions Q_mt A_tp Q_tp) in
  (- (s.1.2^T *m L), - (s.1.1^T *m L), L).

(* conditionals.py:258-376; None: an assertion on the sizes or on the order of the
   times fails.  ne explained and nc conditioning points. *)
Definition cyclic_reduction_conditional_statistics (kernel : sde_kernel F d) (ne nc : nat)
    (te tc : nat -> F) : option (tensor3 * tensor3 * tensor3) :=
  if to_delta_time ne te is None then None else
  if to_delta_time nc tc is None then None else
  if ~~ ((nc <= ne)%N && (ne - nc <= 1)%N) then None else
  let st := cyclic_statistics kernel nc te tc in
  Some (slice_from1 (stack3 ne (fun k => (st k).1.1)), slice_upto nc (stack3 ne (fun k => (st k).1.2)),
        stack3 ne (fun k => (st k).2)).

End Cond.
