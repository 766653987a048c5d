(* C59, C60, C94, C95, C96, C97: stochastic differential equations. *)
From Coq Require Import Reals.
From Coquelicot Require Import Coquelicot.
From mathcomp Require Import all_ssreflect all_algebra.
From Verif Require Import RealStruct Spd S_SSM S_Gauss M_Block M_SSM P_SSM M_SSMLog P_SSMLog P_SSMKl M_Sde S_Sde P_Sde P_Sde2 P_Sde3 P_Sde4 P_Sde5
  Stein P_GaussInt P_Hermite.
Set Implicit Arguments.
Unset Strict Implicit.
Unset Printing Implicit Defensive.
Import GRing.Theory Num.Theory.
Local Open Scope ring_scope.

(* ---------- C59: a linear drift and a state space model ---------- *)

(* set_from_ssm then to_ssm on a grid of constant step gives back the transitions and offsets *)
Theorem C59_from_ssm (F : rcfType) d n (S : ssm F d) dt q times m c : dt != 0 ->
  (forall k, (k < n)%N -> times k.+1 - times k = dt) ->
  exists2 S', to_ssm (Some (set_from_ssm S dt)) q times m c = Some S' &
    [/\ s_mu0 S' = m, s_cholP0 S' = c &
        forall k, (k < n)%N -> [/\ s_A S' k = s_A S k, s_b S' k = s_b S k & s_cholQ S' k = Num.sqrt dt *: q k]].
Proof. exact: drift_round_trip. Qed.
Print Assumptions C59_from_ssm.

(* to_ssm then set_from_ssm gives back the drift *)
Theorem C59_from_drift (F : rcfType) d n (ld : linear_drift F d) dt q times m c S : dt != 0 ->
  (forall k, (k < n)%N -> times k.+1 - times k = dt) -> to_ssm (Some ld) q times m c = Some S ->
  forall k, (k < n)%N -> ld_A (set_from_ssm S dt) k = ld_A ld k /\ ld_b (set_from_ssm S dt) k = ld_b ld k.
Proof. exact: drift_round_trip'. Qed.
Print Assumptions C59_from_drift.

(* hypotheses met: the grid 0, 2, 4, ... *)
Example C59_case (F : rcfType) : (2%:R : F) != 0 /\ forall k, (k.+1 * 2)%:R - (k * 2)%:R = 2%:R :> F.
Proof. by split=> [|k]; rewrite ?pnatr_eq0 // mulSn natrD addrK. Qed.

(* ---------- C60: Euler-Maruyama ---------- *)

(* The output is the Euler path on the grid with 0 put in front and its last time removed. *)
Theorem C60_values (F : rcfType) d (s : sde F d) x0 grid noise : (0 < size grid)%N -> size noise = size grid ->
  euler_path (drift s) (diffusion s) x0 (belast 0 grid) noise (euler_maruyama s x0 grid noise).
Proof. exact: euler_values. Qed.
Print Assumptions C60_values.

(* the output is not the Euler path on the given grid: on 0, 1, 2 with drift 1 and no diffusion the
   output is 0, 0, 1 *)
Theorem C60_grid_refuted (F : rcfType) : exists (s : sde F 1) x0 grid noise,
  [/\ grid = [:: 0; 1; 2%:R], size noise = size grid, (forall x t, drift s x t = 1%:M /\ diffusion s x t = 0),
      euler_maruyama s x0 grid noise = [:: 0; 0; 1%:M] &
      ~ euler_path (drift s) (diffusion s) x0 grid noise (euler_maruyama s x0 grid noise)].
Proof. exact: euler_grid_refuted. Qed.
Print Assumptions C60_grid_refuted.

(* nor does it have one value more than the grid, as documented *)
Theorem C60_size_refuted (F : rcfType) d (s : sde F d) x0 grid noise : (0 < size grid)%N -> size noise = size grid ->
  size (euler_maruyama s x0 grid noise) = size grid.
Proof. exact: euler_size. Qed.
Print Assumptions C60_size_refuted.

(* with a linear drift the output is the path of the state space model that to_ssm builds on that
   grid, for the same draws *)
Theorem C60_linear (F : rcfType) d (s : sde F d) x0 grid noise (A : nat -> 'M[F]_d) b q S :
  (0 < size grid)%N -> size noise = size grid ->
  (forall k x, (k < size grid)%N ->
     drift s x (nth 0 (belast 0 grid) k) = A k *m x + b k /\ diffusion s x (nth 0 (belast 0 grid) k) = q k) ->
  to_ssm (Some (LinearDrift A b)) q (nth 0 (belast 0 grid)) x0 0 = Some S ->
  forall k, (k < size grid)%N ->
    nth 0 (euler_maruyama s x0 grid noise) k = ssm_path S (fun l => if l is l'.+1 then nth 0 noise l' else 0) k.
Proof. exact: euler_linear. Qed.
Print Assumptions C60_linear.

(* hypotheses met: an Ornstein-Uhlenbeck process *)
Example C60_case (F : rcfType) d (q : 'M[F]_d) decay : forall k x, (k < 2)%N ->
  drift (ou_sde decay q) x (nth 0 (belast 0 [:: 1; 2%:R]) k) = (- decay)%:M *m x + 0 /\
  diffusion (ou_sde decay q) x (nth 0 (belast 0 [:: 1; 2%:R]) k) = ext_cholesky q.
Proof. by move=> k x _; rewrite addr0 mul_scalar_mx. Qed.

(* one step of the processes of the library from x: the drift times the step, and a noise of
   covariance q times the step when w is a standard normal draw *)
Theorem C60_library_steps (F : rcfType) d (q : 'M[F]_d) decay x t t' : t <= t' -> spd q ->
  exists2 M : 'M[F]_d, M *m M^T = (t' - t) *: q &
  forall w, em_step (ou_sde decay q) (x, t) (w, t') = (x + (t' - t) *: (- (decay *: x)) + M *m w, t') /\
    em_step (double_well_sde q) (x, t) (w, t') = (x + (t' - t) *: (\col_i (4%:R * x i 0 * (1 - x i 0 ^+ 2))) + M *m w, t').
Proof. exact: library_steps. Qed.
Print Assumptions C60_library_steps.

(* ---------- C94: chain rule of the KL divergence ---------- *)

(* KL between two state space models: the KL between the initial states, plus for each transition the
   expectation, over the first model's state, of the KL between the two conditional laws of the next
   state *)
Theorem C94_chain_rule (d n : nat) (S S' : ssm Rr d) m K : ssm_nonsing n S -> ssm_nonsing n S' ->
  has_law n.+1 n.+1 (ssm_path S) m K ->
  let P0 := s_cholP0 S *m (s_cholP0 S)^T in let P0' := s_cholP0 S' *m (s_cholP0 S')^T in
  let Q k := s_cholQ S k *m (s_cholQ S k)^T in let Q' k := s_cholQ S' k *m (s_cholQ S' k)^T in
  exists e : nat -> R,
    (forall k, (k < n)%N ->
       expects (m k) (K k k) (fun x => gauss_kl (s_A S k *m x + s_b S k) (Q k) (s_A S' k *m x + s_b S' k) (Q' k)) (e k)) /\
    ssm_kl_divergence n S S' = gauss_kl (s_mu0 S) P0 (s_mu0 S') P0' + \sum_(k < n) e k.
Proof. exact: kl_chain_rule. Qed.
Print Assumptions C94_chain_rule.

(* hypotheses met *)
Example C94_case : exists (S : ssm Rr 2) m K, ssm_nonsing 3 S /\ has_law 4 4 (ssm_path S) m K.
Proof. exact: chain_rule_case. Qed.

(* ---------- C95: linearisation of an SDE ---------- *)

(* For a drift that is a polynomial p of degree below 2 H, with H quadrature points, linearize_sde
   returns the Euler discretisation of the affine drift closest to p in mean square under the given
   Gaussian marginal, at every step. *)
Theorem C95_best_fit (H : nat) (node weight : nat -> R) (s : sde1 Rr) (p : {poly R}) n times mu cov m0 v0 :
  gauss_hermite (F := Rr) H node weight -> (forall x, drift1 s x = p.[x]) ->
  (forall x : R, is_derive (drift1 s : R -> R) x (gradient_drift1 s x)) -> (size p <= 2 * H)%N ->
  0 < q1 s -> 0 < v0 -> (forall k, (k < n)%N -> 0 <= cov k) -> (forall k, (k < n)%N -> times k <= times k.+1) ->
  exists S, linearize_sde H s node weight times mu cov m0 v0 = Some S /\
  [/\ s_mu0 S = m0%:M, s_cholP0 S *m (s_cholP0 S)^T = v0%:M &
      forall k, (k < n)%N -> let dt := times k.+1 - times k in
      exists A B,
      [/\ s_A S k = (1 + dt * A)%:M, s_b S k = (dt * B)%:M,
          s_cholQ S k *m (s_cholQ S k)^T = (dt * q1 s)%:M &
          forall a b, normal_expect (mu k) (cov k) ((p - (A *: 'X + B%:P)) ^+ 2) <=
                      normal_expect (mu k) (cov k) ((p - (a *: 'X + b%:P)) ^+ 2)]].
Proof. move=> HG Hf Hd Hs Hq Hv Hc Ht; exact: (@linearize_ok H node weight s p HG Hf Hd Hs n times mu cov m0 v0 Hq Hv Hc Ht). Qed.
Print Assumptions C95_best_fit.

(* the same with the mean square errors e a b written as integrals *)
Theorem C95_integral (H : nat) (node weight : nat -> R) (s : sde1 Rr) (p : {poly Rr}) n times mu cov m0 v0 :
  gauss_hermite (F := Rr) H node weight -> (forall x, drift1 s x = p.[x]) ->
  (forall x : R, is_derive (drift1 s : R -> R) x (gradient_drift1 s x)) -> (size p <= 2 * H)%N ->
  0 < q1 s -> 0 < v0 -> (forall k, (k < n)%N -> 0 < cov k) -> (forall k, (k < n)%N -> times k <= times k.+1) ->
  exists S, linearize_sde H s node weight times mu cov m0 v0 = Some S /\
  [/\ s_mu0 S = m0%:M, s_cholP0 S *m (s_cholP0 S)^T = v0%:M &
      forall k, (k < n)%N -> let dt := times k.+1 - times k in
      exists A B (e : R -> R -> R),
      [/\ s_A S k = (1 + dt * A)%:M, s_b S k = (dt * B)%:M,
          s_cholQ S k *m (s_cholQ S k)^T = (dt * q1 s)%:M,
          forall a b, integral (fun x => (drift1 s x - (a * x + b)) ^+ 2 * normal_density (mu k) (Num.sqrt (cov k)) x) (e a b) &
          forall a b, e A B <= e a b]].
Proof. exact: linearize_integral. Qed.
Print Assumptions C95_integral.

(* the drift of an Ornstein-Uhlenbeck process is already linear *)
Theorem C95_ou (F : rcfType) (H : nat) (node weight : nat -> F) decay q times mu cov m0 v0 S n :
  gauss_hermite H node weight -> (0 < H)%N -> (forall k, (k < n)%N -> 0 <= cov k) ->
  linearize_sde H (ou1 decay q) node weight times mu cov m0 v0 = Some S ->
  forall k, (k < n)%N -> let dt := times k.+1 - times k in s_A S k = (1 - dt * decay)%:M /\ s_b S k = 0.
Proof. move=> HG; exact: ou_linear. Qed.
Print Assumptions C95_ou.

(* the double well around N(m, v): slope 4 - 12 (m^2 + v), intercept 8 m^3 *)
Theorem C95_double_well (F : rcfType) (H : nat) (node weight : nat -> F) q times mu cov m0 v0 S n :
  gauss_hermite H node weight -> (1 < H)%N -> (forall k, (k < n)%N -> 0 <= cov k) ->
  linearize_sde H (double_well1 q) node weight times mu cov m0 v0 = Some S ->
  forall k, (k < n)%N -> let dt := times k.+1 - times k in
    s_A S k = (1 + dt * (4%:R - 12%:R * (mu k ^+ 2 + cov k)))%:M /\ s_b S k = (dt * (8%:R * mu k ^+ 3))%:M.
Proof. move=> HG; exact: double_well_linear. Qed.
Print Assumptions C95_double_well.

(* hypotheses met: the rule of two points integrates the double well drift *)
Example C95_rule (F : rcfType) :
  gauss_hermite (F := F) 2 (fun h => if h == 0%N then 1 else -1) (fun _ => 2%:R^-1).
Proof. exact: rule2. Qed.
(* rules exist for every number of points *)
Example C95_rules (F : rcfType) (H : nat) : (0 < H)%N -> exists node weight : nat -> F, gauss_hermite H node weight.
Proof. exact: gauss_hermite_exists. Qed.
Example C95_case (q x : R) : is_derive (drift1 (double_well1 (F := Rr) q) : R -> R) x (gradient_drift1 (double_well1 (F := Rr) q) x).
Proof. exact: double_well_derive. Qed.

(* ---------- C96: drift difference along a Gaussian path ---------- *)

(* for a polynomial drift p: half the sum over the steps of the expected squared difference of the
   drifts over q, times the step *)
Theorem C96_value (F : rcfType) (H : nat) (node weight : nat -> F) n (s : sde1 F) (p : {poly F}) (ld : linear_drift F 1) mu cov dt :
  gauss_hermite H node weight -> (1 < H)%N -> (size p <= H)%N -> (forall x, drift1 s x = p.[x]) ->
  squared_drift_difference H n s ld node weight mu cov dt =
  2%:R^-1 * (\sum_(k < n) normal_expect (mu k) (cov k) ((ld_A ld k 0 0 *: 'X + (ld_b ld k 0 0)%:P - p) ^+ 2) / q1 s) * dt.
Proof. move=> HG; exact: squared_value. Qed.
Print Assumptions C96_value.

(* the same with the expectations e k written as integrals *)
Theorem C96_integral (H : nat) (node weight : nat -> R) n (s : sde1 Rr) (p : {poly Rr}) (ld : linear_drift Rr 1) mu cov dt (e : nat -> R) :
  gauss_hermite (F := Rr) H node weight -> (1 < H)%N -> (size p <= H)%N -> (forall x, drift1 s x = p.[x]) ->
  (forall k, (k < n)%N -> 0 < cov k) ->
  (forall k, (k < n)%N -> integral (fun x => (ld_A ld k 0 0 * x + ld_b ld k 0 0 - drift1 s x) ^+ 2 * normal_density (mu k) (Num.sqrt (cov k)) x) (e k)) ->
  squared_drift_difference H n s ld node weight mu cov dt = 2%:R^-1 * (\sum_(k < n) e k / q1 s) * dt.
Proof. exact: squared_integral. Qed.
Print Assumptions C96_integral.

(* when the drift is affine, the value along the path of the linear drift's state space model is the
   KL divergence between the two discretised models *)
Theorem C96_kl (H n : nat) (node weight : nat -> R) (s : sde1 Rr) (ld : linear_drift Rr 1) (alpha beta : R)
    (times : nat -> R) (dt : R) (m0 : 'cV[R]_1) (c0 : 'M[R]_1) (S S' : ssm Rr 1) m K :
  gauss_hermite (F := Rr) H node weight -> (1 < H)%N -> (forall x, drift1 s x = alpha * x + beta) ->
  0 < q1 s -> 0 < dt -> (forall k, (k < n)%N -> times k.+1 - times k = dt) -> lownz (R := Rr) c0 ->
  let q (_ : nat) := ext_cholesky (R := Rr) ((q1 s)%:M : 'M_1) in
  to_ssm (Some ld) q times m0 c0 = Some S ->
  to_ssm (Some (LinearDrift (fun _ => alpha%:M) (fun _ => beta%:M))) q times m0 c0 = Some S' ->
  has_law n.+1 n.+1 (ssm_path S) m K ->
  squared_drift_difference H n s ld node weight (fun k => m k 0 0) (fun k => K k k 0 0) dt = ssm_kl_divergence n S S'.
Proof. move=> HG H1 Hf Hq Hdt Ht Hc q ES ES' HL; exact: (girsanov HG H1 Hf Hq Hdt Ht Hc ES ES' HL). Qed.
Print Assumptions C96_kl.

(* hypotheses met: an Ornstein-Uhlenbeck process, a linear drift that grows with time, step 1 *)
Example C96_case : exists (ld : linear_drift Rr 1) (S S' : ssm Rr 1) m K,
  let s := ou1 (F := Rr) 1 1 in let q (_ : nat) := ext_cholesky (R := Rr) ((q1 s)%:M : 'M_1) in
  [/\ forall x, drift1 s x = -1 * x + 0, forall k, k.+1%:R - k%:R = 1 :> R,
      to_ssm (Some ld) q (fun k => k%:R) 0 1%:M = Some S,
      to_ssm (Some (LinearDrift (fun _ => (-1)%:M) (fun _ => 0%:M))) q (fun k => k%:R) 0 1%:M = Some S' &
      has_law 4 4 (ssm_path S) m K].
Proof. exact: drift_kl_case. Qed.

(* ---------- C97: converting a drift changes it ---------- *)

(* a drift set from a state space model can be compared with an SDE *)
Theorem C97_before N : exists s, set_from_ssm_shapes [:: N; 1%N; 1%N] [:: N; 1%N] = Some s /\
  squared_drift_ok s [:: N; 1%N] [:: N; 1%N; 1%N].
Proof. exact: shapes_before. Qed.
Print Assumptions C97_before.

(* after to_ssm has returned, the comparison raises for every Gaussian path, although to_ssm itself
   can be repeated *)
Theorem C97_after_refuted s q times mean chol s' : to_ssm_shapes s q times mean chol = Some s' ->
  to_ssm_shapes s' q times mean chol = Some s' /\ forall mu cov, squared_drift_ok s' mu cov = false.
Proof. exact: shapes_after. Qed.
Print Assumptions C97_after_refuted.

(* hypotheses met *)
Example C97_case : exists s', to_ssm_shapes (DriftShapes [:: 3; 1; 1] [:: 3; 1])%N [:: 3; 1; 1]%N [:: 4]%N [:: 1]%N [:: 1; 1]%N = Some s'.
Proof. by eexists. Qed.
