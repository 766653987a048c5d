(* Model of the importance weighting in posterior.py:471-770 and models/iwvi.py.

   One batch element, over the reals of the standard library.  stop_gradient is the identity
   on values.  Draws of the proposal process are inputs: K draws, each with its states at the
   data points (and at the new points) and its states at the conditioning points. *)
From Coq Require Import Reals.
From mathcomp Require Import all_ssreflect all_algebra.
From Verif Require Import RealStruct M_SSM M_SSMLog M_Kernel M_Emission.
Set Implicit Arguments.
Unset Strict Implicit.
Unset Printing Implicit Defensive.
Import GRing.Theory.
Local Open Scope ring_scope.

(* external, called at iwvi.py:141, 172, posterior.py:744: tf.math.reduce_logsumexp and
   tf.nn.softmax *)
Definition ext_logsumexp K (lw : nat -> R) : R := ln (\sum_(k < K) exp (lw k)).
(* external, called at iwvi.py:172, posterior.py:744 *)
Definition ext_softmax K (lw : nat -> R) (k : nat) : R := exp (lw k) / \sum_(j < K) exp (lw j).

Section IW.
Variables (o d : nat) (kernel : sde_kernel Rr d) (emission : R -> 'M[R]_(o, d)) (mean : R -> 'cV[R]_o).
(* likelihood.log_prob at one data point: function values and observation *)
Variable log_prob : 'cV[R]_o -> 'cV[R]_o -> R.
(* n + 1 conditioning points and the proposal distribution there *)
Variables (n : nat) (z : nat -> R) (q : ssm Rr d).

(* posterior.py:522-580 log_importance_weights of one draw; N data points; None when
   state_space_model refuses the conditioning points *)
Definition log_importance_weight N (X : nat -> R) (Y : nat -> 'cV[R]_o) (samples_s samples_u : nat -> 'cV[R]_d) : option R :=
  omap (fun dist_p =>
    let log_pu := ssm_log_pdf n dist_p samples_u in
    let log_qu := ssm_log_pdf n q samples_u in
    let samples_f i := emission (X i) *m samples_s i + mean (X i) in
    let log_lik := \sum_(i < N) log_prob (samples_f i) (Y i) in
    log_lik + (log_pu - log_qu)) (kernel_ssm n kernel z).

(* iwvi.py:131-141 elbo, from the log weights of the K draws *)
Definition iw_elbo K (log_weights : nat -> R) : R := ext_logsumexp K log_weights - ln (K%:R : R).

(* iwvi.py:172-173 dregs_objective; the first argument is what goes through
   tf.stop_gradient: the log weights at the parameters where the gradient is taken.  The
   value of the objective is iw_dregs K log_weights log_weights *)
Definition iw_dregs K (stopped log_weights : nat -> R) : R :=
  \sum_(k < K) (ext_softmax K stopped k) ^+ 2 * log_weights k.

(* posterior.py:613-617: x[..., -m:, :] and x[..., :-m, :] of Python; -0 is 0 *)
Definition py_last (T : Type) (m : nat) (x : seq T) : seq T := if m == 0%N then x else drop (size x - m) x.
(* posterior.py:617 *)
Definition py_but_last (T : Type) (m : nat) (x : seq T) : seq T := if m == 0%N then [::] else take (size x - m) x.

(* posterior.py:582-621 _iwvi_samples_and_weights for one draw: samples holds the states at
   data points followed by new points; m is the number of new points.  The returned log
   weight is computed from the leading block of samples. *)
Definition iw_samples_new m (samples : seq 'cV[R]_d) : seq 'cV[R]_d := py_last m samples.
(* posterior.py:582-621 *)
Definition iw_samples_data m (samples : seq 'cV[R]_d) : seq 'cV[R]_d := py_but_last m samples.
(* posterior.py:582-621 *)
Definition iw_log_weight m (X : nat -> R) (Y : nat -> 'cV[R]_o) (samples : seq 'cV[R]_d) (samples_u : nat -> 'cV[R]_d) : option R :=
  let data := iw_samples_data m samples in
  log_importance_weight (size data) X Y (fun i => nth 0 data i) samples_u.

(* posterior.py:623-674 sample_state_trajectories for one trajectory: index is the draw of
   tf.random.categorical; the second component is returned as it is, for all K draws *)
Definition iw_resample m (samples : nat -> seq 'cV[R]_d) (samples_u : nat -> nat -> 'cV[R]_d) (index : nat) :
    seq 'cV[R]_d * (nat -> nat -> 'cV[R]_d) := (iw_samples_new m (samples index), samples_u).

(* posterior.py:708-758 expected_value: one entry g of func(Fs), a function of the
   function values at the m new points; log_weights are those of the K draws *)
Definition iw_new_f m (new : nat -> R) (samples : seq 'cV[R]_d) : seq 'cV[R]_o :=
  mkseq (fun i => emission (new i) *m nth 0 (iw_samples_new m samples) i + mean (new i)) m.
(* posterior.py:708-758 *)
Definition iw_expected_value K (log_weights : nat -> R) m (new : nat -> R) (samples : nat -> seq 'cV[R]_d) (g : seq 'cV[R]_o -> R) : R :=
  \sum_(k < K) ext_softmax K log_weights k * g (iw_new_f m new (samples k)).
End IW.

(* ---------- constructors: positional arguments of Python ---------- *)

(* iwvi.py:80-107: values that a positional argument can hold *)
Inductive py_arg d := PyNone | PyDist of ssm Rr d | PyInt of nat.
Arguments PyNone {d}.
Arguments PyInt {d}.

(* sparse_variational.py:96-148: what the constructor stores: the trainable copy of
   initial_distribution when it is given, else of the prior at the inducing points, and
   num_data *)
Record svgp_state d := SvgpState { svgp_dist_q : option (ssm Rr d); svgp_num_data : py_arg d }.
(* sparse_variational.py:96-148 *)
Definition svgp_init d (kernel : sde_kernel Rr d) n (inducing : nat -> R) (num_data initial_distribution : py_arg d) : svgp_state d :=
  SvgpState (match initial_distribution with
             | PyNone => kernel_ssm n kernel inducing
             | PyDist s => Some s
             | PyInt _ => None (* AttributeError: no create_trainable_copy *)
             end) num_data.

(* iwvi.py:80-107: super().__init__(kernel, likelihood, inducing_points, mean_function,
   initial_distribution): the fifth positional parameter is num_data *)
Definition iwvi_init d (kernel : sde_kernel Rr d) n (inducing : nat -> R) (initial_distribution : py_arg d) : svgp_state d :=
  svgp_init kernel n inducing initial_distribution PyNone.
