(* Model of the concrete stationary kernels: markovflow/kernels/matern.py, constant.py,
   periodic.py and latent_exp_generated.py, over the reals of the standard library
   because of the exponential, the trigonometric functions and the square root.  The
   hyperparameters are arguments; one batch element.  The assertions on the shapes of
   the time arguments are not modelled. *)
From Coq Require Import Reals.
From mathcomp Require Import all_ssreflect all_algebra.
From Verif Require Import RealStruct Log Alg Lin Ent Spd M_SSMLog M_Kernel M_Comb MCalc MExp.
Set Implicit Arguments.
Unset Strict Implicit.
Unset Printing Implicit Defensive.
Import GRing.Theory.
Local Open Scope ring_scope.

(* matern.py:354, periodic.py:171: tf.convert_to_tensor of a list of rows *)
Definition mx_rows (F : ringType) d (rows : seq (seq F)) : 'M[F]_d := \matrix_(i, j) nth 0 (nth [::] rows i) j.

Section Kernels.
Variables (o : nat) (jitter : R).

(* matern.py:27-126.  state_transitions 66-86, feedback_matrix 88-99,
   steady_state_covariance 101-110 *)
Definition matern12 (lengthscale variance : R) (state_mean : 'cV[R]_1) : skernel Rr o 1 :=
  base_kernel o (fun dt : Rr => (exp (- dt / lengthscale))%:M) (mx_rows (F := [ringType of R]) 1 [:: [:: -1 / lengthscale]])
    (mx_rows (F := [ringType of R]) 1 [:: [:: variance]]) state_mean jitter.

(* matern.py:130-233.  state_transitions 171-191, feedback_matrix 193-204,
   steady_state_covariance 206-217 *)
Definition ornstein_uhlenbeck (decay diffusion : R) (state_mean : 'cV[R]_1) : skernel Rr o 1 :=
  base_kernel o (fun dt : Rr => (exp (- dt * decay))%:M) (mx_rows (F := [ringType of R]) 1 [:: [:: - decay]])
    (mx_rows (F := [ringType of R]) 1 [:: [:: 2%:R^-1 * diffusion / decay]]) state_mean jitter.

(* matern.py:290-292 *)
Definition lambda32 (lengthscale : R) : R := sqrt 3%:R / lengthscale.
(* matern.py:326-341 *)
Definition feedback32 (F : ringType) (l : F) : 'M[F]_2 := mx_rows 2 [:: [:: 0; 1]; [:: - l ^+ 2; - 2%:R * l]].
(* matern.py:343-356 *)
Definition steady32 (F : ringType) (l variance : F) : 'M[F]_2 :=
  variance *: mx_rows 2 [:: [:: 1; 0]; [:: 0; l ^+ 2]].
(* matern.py:237-372.  state_transitions 299-324 *)
Definition matern32 (lengthscale variance : R) (state_mean : 'cV[R]_2) : skernel Rr o 2 :=
  let l := lambda32 lengthscale in
  base_kernel o
    (fun dt : Rr =>
       let F_lambda_I_t := dt *: (feedback32 (F := [ringType of R]) l + l *: 1%:M) in
       exp (- l * dt) *: (1%:M + F_lambda_I_t))
    (feedback32 (F := [ringType of R]) l)
    (steady32 (F := [ringType of R]) l variance) state_mean jitter.

(* matern.py:424-427 *)
Definition lambda52 (lengthscale : R) : R := sqrt 5%:R / lengthscale.
(* matern.py:462-483 *)
Definition feedback52 (F : ringType) (l : F) : 'M[F]_3 :=
  mx_rows 3 [:: [:: 0; 1; 0]; [:: 0; 0; 1]; [:: - l ^+ 3; - 3%:R * l ^+ 2; - 3%:R * l]].
(* matern.py:485-501 *)
Definition steady52 (F : unitRingType) (l variance : F) : 'M[F]_3 :=
  let lambda_23 := l ^+ 2 / 3%:R in
  variance *: mx_rows 3 [:: [:: 1; 0; - lambda_23]; [:: 0; lambda_23; 0]; [:: - lambda_23; 0; l ^+ 4]].
(* matern.py:376-517.  state_transitions 434-460 *)
Definition matern52 (lengthscale variance : R) (state_mean : 'cV[R]_3) : skernel Rr o 3 :=
  let l := lambda52 lengthscale in
  base_kernel o
    (fun dt : Rr =>
       let F_lambda_I_t := dt *: (feedback52 (F := [ringType of R]) l + l *: 1%:M) in
       exp (- l * dt) *: (1%:M + F_lambda_I_t + 2%:R^-1 *: (F_lambda_I_t *m F_lambda_I_t)))
    (feedback52 (F := [ringType of R]) l)
    (steady52 (F := [unitRingType of R]) l variance) state_mean jitter.

(* constant.py:28-153.  state_transitions 67-84, feedback_matrix 125-134,
   steady_state_covariance 136-146.  process_covariances and transition_statistics
   (86-123) return zeros plus the jitter; P - A P A^T is that zero exactly, so the
   definition inherited from StationaryKernel is used here. *)
Definition constant_kernel (variance : R) : skernel Rr o 1 :=
  base_kernel o (fun _ : Rr => 1%:M) (mx_rows (F := [ringType of R]) 1 [:: [:: 0]]) (mx_rows (F := [ringType of R]) 1 [:: [:: variance]]) 0 jitter.

(* periodic.py:91-93 *)
Definition lambda_ho (period : R) : R := 2%:R * PI / period.
(* periodic.py:27-202.  state_transitions 103-133, feedback_matrix 156-171,
   steady_state_covariance 173-187.  process_covariances (135-154) returns zeros plus
   the jitter and is not used by state_space_model; P - A P A^T is that zero exactly
   (in floating point only up to rounding). *)
Definition harmonic_oscillator (variance period : R) : skernel Rr o 2 :=
  let l := lambda_ho period in
  base_kernel o
    (fun dt : Rr => let delta := dt * l in mx_rows (F := [ringType of R]) 2 [:: [:: cos delta; - sin delta]; [:: sin delta; cos delta]])
    (mx_rows (F := [ringType of R]) 2 [:: [:: 0; - l]; [:: l; 0]])
    (variance *: 1%:M) 0 jitter.
End Kernels.

(* latent_exp_generated.py:29-142.  The output dimension is the state dimension (66).
   state_transitions 79-99 calls tf.linalg.expm: contract, the exponential series.
   feedback_matrix 101-115, steady_state_covariance 117-125. *)
Definition leg_feedback d (N Rot : 'M[R]_d) : 'M[R]_d := - 2%:R^-1 *: (N *m N^T + Rot - Rot^T).
(* latent_exp_generated.py:29-142 *)
Definition leg_kernel d (N Rot : 'M[R]_d) (jitter : R) : skernel Rr d d :=
  base_kernel d (fun dt : Rr => mexp (dt *: leg_feedback N Rot) 1) (leg_feedback N Rot) 1%:M 0 jitter.
