(* Model of sde/drift.py, sde/sde.py and sde/sde_utils.py.  One batch element. *)
From mathcomp Require Import all_ssreflect all_algebra.
From Verif Require Import Alg Lin Spd M_Block M_SSM.
Set Implicit Arguments.
Unset Strict Implicit.
Unset Printing Implicit Defensive.
Import GRing.Theory Num.Theory.
Local Open Scope ring_scope.

Section Sde.
Variable F : rcfType.
Variable d : nat.

(* sde.py:23-71 the two methods of an SDE: x, t *)
Record sde := Sde { drift : 'cV[F]_d -> F -> 'cV[F]_d; diffusion : 'cV[F]_d -> F -> 'M[F]_d }.

(* sde.py:150-174 OrnsteinUhlenbeckSDE; the (1, 1) tensor decay is a number *)
Definition ou_sde (decay : F) (q : 'M[F]_d) : sde :=
  Sde (fun x _ => - decay *: x) (fun _ _ => ext_cholesky q).

(* sde.py:195-219 DoubleWellSDE, entry by entry *)
Definition double_well_drift (x : F) : F := 4%:R * x * (1 - x ^+ 2).
(* sde.py:178-219 *)
Definition double_well_sde (q : 'M[F]_d) : sde :=
  Sde (fun x _ => \col_i double_well_drift (x i 0)) (fun _ _ => ext_cholesky q).

(* sde_utils.py:53-60 _step; w is the draw of tf.random.normal *)
Definition em_step (s : sde) (current : 'cV[F]_d * F) (next : 'cV[F]_d * F) : 'cV[F]_d * F :=
  let: (x, t) := current in
  let: (w, t_next) := next in
  let dt := t_next - t in
  (x + dt *: drift s x t + (Num.sqrt dt *: diffusion s x t) *m w, t_next).

(* sde_utils.py:29-84; noise holds the draws of the successive steps.  tf.scan returns the
   state after each element; the last one is dropped by [..., :-1, :] *)
Definition euler_maruyama (s : sde) (x0 : 'cV[F]_d) (time_grid : seq F) (noise : seq 'cV[F]_d) : seq 'cV[F]_d :=
  let t0 := 0 in
  let sde_values := unzip1 (scanl (em_step s) (x0, t0) (zip noise time_grid)) in
  x0 :: take (size sde_values).-1 sde_values.

(* drift.py:24-36 LinearDrift; one matrix and one vector per transition *)
Record linear_drift := LinearDrift { ld_A : nat -> 'M[F]_d; ld_b : nat -> 'cV[F]_d }.

(* drift.py:38-61 set_from_ssm *)
Definition set_from_ssm (S : ssm F d) (dt : F) : linear_drift :=
  LinearDrift (fun k => dt^-1 *: (s_A S k - 1%:M)) (fun k => dt^-1 *: s_b S k).

(* drift.py:63-108 to_ssm; a drift without A or b raises *)
Definition to_ssm (ld : option linear_drift) (q : nat -> 'M[F]_d) (transition_times : nat -> F)
    (initial_mean : 'cV[F]_d) (initial_chol_covariance : 'M[F]_d) : option (ssm F d) :=
  if ld is Some l then
    let transition_deltas k := transition_times k.+1 - transition_times k in
    Some (Ssm initial_mean initial_chol_covariance
      (fun k => transition_deltas k *: ld_A l k + 1%:M)
      (fun k => transition_deltas k *: ld_b l k)
      (fun k => Num.sqrt (transition_deltas k) *: q k))
  else None.
End Sde.

(* The functions below take state dimension one: sde_utils.py:131, 192 *)
Section One.
Variable F : rcfType.
(* external, called at sde.py:107, 126, sde_utils.py:224-225: gpflow.quadrature: H nodes and weights for the standard normal.  mvnquad and
   NDiagGHQuadrature evaluate at mean + sqrt(variance) * node *)
Definition ext_quad (H : nat) (node weight : nat -> F) (f : F -> F) (mean var : F) : F :=
  \sum_(h < H) weight h * f (mean + Num.sqrt var * node h).

(* an SDE of dimension one with its q: drift, gradient_drift (sde.py:73-88, the derivative
   returned by GradientTape) and the spectral density; diffusion is the square root of q *)
Record sde1 := Sde1 { drift1 : F -> F; gradient_drift1 : F -> F; q1 : F }.

(* sde.py:132-219 in dimension one, with the derivatives of the drifts *)
Definition ou1 (decay q : F) : sde1 := Sde1 (fun x => - decay * x) (fun _ => - decay) q.
(* sde.py:178-219 *)
Definition double_well1 (q : F) : sde1 := Sde1 (@double_well_drift F) (fun x => 4%:R - 12%:R * x ^+ 2) q.

(* sde.py:90-129 expected_drift and expected_gradient_drift; the number of points H is 10 in the
   code *)
Variable H : nat.
(* sde.py:90-110 *)
Definition expected_drift (s : sde1) node weight (q_mean q_covar : F) : F :=
  ext_quad H node weight (drift1 s) q_mean q_covar.
(* sde.py:112-129 *)
Definition expected_gradient_drift (s : sde1) node weight (q_mean q_covar : F) : F :=
  ext_quad H node weight (gradient_drift1 s) q_mean q_covar.

(* sde_utils.py:107-158 linearize_sde *)
Definition linearize_sde (s : sde1) node weight (transition_times : nat -> F) (mu cov : nat -> F)
    (initial_mean initial_cov : F) : option (ssm F 1) :=
  let E_f k := expected_drift s node weight (mu k) (cov k) in
  let A k := expected_gradient_drift s node weight (mu k) (cov k) in
  let b k := E_f k - A k * mu k in
  let q (_ : nat) := ext_cholesky (R := F) ((q1 s)%:M : 'M_1) in
  to_ssm (Some (LinearDrift (fun k => (A k)%:M : 'M_1) (fun k => (b k)%:M : 'cV_1))) q transition_times
    (initial_mean%:M) (ext_cholesky (R := F) (initial_cov%:M)).

(* sde_utils.py:161-228; H is the argument quadrature_pnts, n the number of transitions *)
Definition squared_drift_difference (n : nat) (s : sde1) (ld : linear_drift F 1) node weight (mu cov : nat -> F) (dt : F) : F :=
  let func k x := let tmp := (x * ld_A ld k 0 0 + ld_b ld k 0 0) - drift1 s x in tmp * tmp * (1 / q1 s) in
  2%:R^-1 * (\sum_(k < n) ext_quad H node weight (func k) (mu k) (cov k)) * dt.
End One.

(* Shapes.  sde_utils.py:87-104; None is the exception "Batch present!" *)
Definition handle_tensor_shape (shape : seq nat) (desired_dimensions : nat) : option (seq nat) :=
  if size shape == desired_dimensions then Some shape
  else if (size shape == desired_dimensions.+1) && (head 0%N shape == 1%N) then Some (behead shape)
  else if size shape == desired_dimensions.-1 then Some (1%N :: shape)
  else None.

(* drift.py:24-36: the shapes of the attributes A and b of a LinearDrift *)
Record drift_shapes := DriftShapes { sh_A : seq nat; sh_b : seq nat }.

(* drift.py:57-61: shapes after set_from_ssm *)
Definition set_from_ssm_shapes (ssm_A ssm_b : seq nat) : option drift_shapes :=
  if handle_tensor_shape ssm_A 3 is Some a then
    if handle_tensor_shape ssm_b 2 is Some b then Some (DriftShapes a b) else None
  else None.

(* drift.py:77-91: shapes after to_ssm, or None when it raises *)
Definition to_ssm_shapes (s : drift_shapes) (q times mean chol : seq nat) : option drift_shapes :=
  match handle_tensor_shape (sh_A s) 4, handle_tensor_shape (sh_b s) 3, handle_tensor_shape times 1,
        handle_tensor_shape q 4, handle_tensor_shape mean 2, handle_tensor_shape chol 3 with
  | Some A, Some b, Some times, Some q, Some mean, Some chol =>
    if b is [:: B; N; D] then
      if [&& A == [:: B; N; D; D], times == [:: N.+1], mean == [:: B; D], chol == [:: B; D; D] & q == [:: B; N; D; D]]
      then Some (DriftShapes A b) else None
    else None
  | _, _, _, _, _, _ => None
  end.

(* sde_utils.py:194-202: squared_drift_difference_along_Gaussian_path does not raise *)
Definition squared_drift_ok (s : drift_shapes) (mu cov : seq nat) : bool :=
  match handle_tensor_shape mu 2, handle_tensor_shape cov 3 with
  | Some m, Some c =>
    [&& head 0%N m == head 0%N c, head 0%N c == head 0%N (sh_A s), head 0%N (sh_A s) == head 0%N (sh_b s),
        size m == size (sh_b s), size (sh_b s) == 2%N, size (sh_A s) == size c & size c == 3%N]
  | _, _ => false
  end.
