(* Property theorems C45 and C75: the order of sampled times, and the posterior process
   built from any distribution of the states at the conditioning points.

   Vocabulary: [ext_argsort_ok leT x0 keys p] (M_Sort.v): p is a permutation of the indices
   that puts the keys in order; S_SSM.v ([has_law]); S_Kernel.v ([markov_kernel],
   [state_cov k s t] = Cov(x(s), x(t)), [increasing]).  For q(u) with mean m' and covariance
   K', the process with u = x(z) distributed as q has, with B = Kuz Kzz^-1,
     mean  mean0 + B (m' - mean0),   covariance  Kuu - B Kzz B^T + B K' B^T. *)
From mathcomp Require Import all_ssreflect all_algebra.
From Verif Require Import Nat Alg Lin Ent Spd M_Block M_SSM S_SSM P_SSM S_Kalman M_Kernel S_Kernel P_Kernel M_Cond
  P_Cond P_Cond2 P_Cond3 P_Cond4 P_SSMLog M_Emission M_Sort P_Sort.
Set Implicit Arguments.
Unset Strict Implicit.
Unset Printing Implicit Defensive.
Import GRing.Theory Num.Theory Order.TTheory.
Local Open Scope ring_scope.

(* sorting with the argsort of the times and then gathering with the argsort of that
   permutation gives every list back in the callers' order *)
Theorem C45_unsort (F : rcfType) (times : seq F) (p q : seq nat) (T : Type) (x0 : T) (x : seq T) :
  ext_argsort_ok <=%R 0 times p -> ext_argsort_ok leq 0%N p q -> size x = size times ->
  gather x0 (gather x0 x p) q = x.
Proof. exact: unsort_all. Qed.
Print Assumptions C45_unsort.

(* the joint samples are those of the process at the times z ++ new, in that order *)
Theorem C45_joint_samples (F : rcfType) d (ker : sde_kernel F d) (z new : seq F) p q joint :
  markov_kernel ker -> ext_argsort_ok <=%R 0 (z ++ new) p -> ext_argsort_ok leq 0%N p q -> (0 < size z)%N ->
  joint_model ker z new p = Some joint ->
  let N := (size z + size new)%N in
  has_law N N (fun eps => joint_samples z new p q joint eps) (fun _ => k_mean0 ker)
    (fun i j => state_cov ker (nth 0 (z ++ new) i) (nth 0 (z ++ new) j)).
Proof. exact: joint_law. Qed.
Print Assumptions C45_joint_samples.

(* the joint model exists for every list of times *)
Theorem C45_no_error (F : rcfType) d (ker : sde_kernel F d) (z new : seq F) p :
  ext_argsort_ok <=%R 0 (z ++ new) p -> exists joint, joint_model ker z new p = Some joint.
Proof. exact: joint_exists. Qed.
Print Assumptions C45_no_error.

Example C45_example (F : rcfType) :
  let z : seq F := [:: 0; 2%:R] in let new : seq F := [:: 1; 0; 1] in
  let p := [:: 3; 0; 4; 2; 1]%N in let q := [:: 1; 4; 3; 0; 2]%N in
  [/\ ext_argsort_ok <=%R 0 (z ++ new) p, ext_argsort_ok leq 0%N p q, sorted <%R z,
      forall t, t \in new -> nth 0 z 0 <= t /\ t <= nth 0 z 1 &
      - APPROX_INF F < nth 0 z 0 /\ exists joint, joint_model (clock_kernel F 1) z new p = Some joint].
Proof. exact: sort_example. Qed.

(* new states sampled at new, in any order and with repetitions, jointly with the posterior
   states at z *)
Theorem C75_samples (F : rcfType) d (ker : sde_kernel F d) (z new : seq F) p q n joint post m' K' :
  ext_argsort_ok <=%R 0 (z ++ new) p -> ext_argsort_ok leq 0%N p q -> size z = n.+1 ->
  markov_kernel ker -> sorted <%R z ->
  (forall t, t \in new -> nth 0 z 0 <= t /\ t <= nth 0 z n) ->
  ((exists2 t, t \in z & t \in new) -> - APPROX_INF F < nth 0 z 0) ->
  joint_model ker z new p = Some joint ->
  has_law n.+1 n.+1 (ssm_path post) m' K' ->
  let Kzz := dense n.+1 n.+1 (fun i j => state_cov ker (nth 0 z i) (nth 0 z j)) in
  let mz := flat n.+1 (fun _ => k_mean0 ker) in
  let r := size new in let N := (n.+1 + r)%N in
  let sample eps i :=
    let post_z := ssm_sample n post (fun l => eps (N + l)%N) in
    if (i < r)%N then new_samples ker z new p q joint eps post_z i else post_z (i - r)%N in
  let u i := if (i < r)%N then nth 0 new i else nth 0 z (i - r)%N in
  let Kuz := dense (r + n.+1) n.+1 (fun i j => state_cov ker (u i) (nth 0 z j)) in
  let Kuu := dense (r + n.+1) (r + n.+1) (fun i j => state_cov ker (u i) (u j)) in
  let B := Kuz *m invmx Kzz in
  has_law (r + n.+1) (N + n.+1) sample
    (unflat (flat (r + n.+1) (fun _ => k_mean0 ker) + B *m (flat n.+1 m' - mz)))
    (blk (Kuu - B *m Kzz *m B^T + B *m dense n.+1 n.+1 K' *m B^T)).
Proof. exact: (fun Hp Hq Hn => @sampled_law F d ker z new p q Hp Hq n Hn joint post m' K'). Qed.
Print Assumptions C75_samples.

(* ... and when the posterior at z is the prior given noisy linear observations, the samples
   have the law of the process at new and z given those observations *)
Theorem C75_samples_observed (F : rcfType) d (ker : sde_kernel F d) (z new : seq F) p q n e joint post m' K'
    (G : 'M[F]_(e, n.+1 * d)) Sg y :
  ext_argsort_ok <=%R 0 (z ++ new) p -> ext_argsort_ok leq 0%N p q -> size z = n.+1 ->
  markov_kernel ker -> sorted <%R z ->
  (forall t, t \in new -> nth 0 z 0 <= t /\ t <= nth 0 z n) ->
  ((exists2 t, t \in z & t \in new) -> - APPROX_INF F < nth 0 z 0) ->
  joint_model ker z new p = Some joint ->
  has_law n.+1 n.+1 (ssm_path post) m' K' ->
  let Kzz := dense n.+1 n.+1 (fun i j => state_cov ker (nth 0 z i) (nth 0 z j)) in
  let mz := flat n.+1 (fun _ => k_mean0 ker) in
  flat n.+1 m' = cond_mean mz Kzz G Sg y -> dense n.+1 n.+1 K' = cond_cov Kzz G Sg ->
  let r := size new in let N := (n.+1 + r)%N in
  let sample eps i :=
    let post_z := ssm_sample n post (fun l => eps (N + l)%N) in
    if (i < r)%N then new_samples ker z new p q joint eps post_z i else post_z (i - r)%N in
  let u i := if (i < r)%N then nth 0 new i else nth 0 z (i - r)%N in
  let Kuz := dense (r + n.+1) n.+1 (fun i j => state_cov ker (u i) (nth 0 z j)) in
  let Kuu := dense (r + n.+1) (r + n.+1) (fun i j => state_cov ker (u i) (u j)) in
  let W := invmx (G *m Kzz *m G^T + Sg) in
  has_law (r + n.+1) (N + n.+1) sample
    (unflat (flat (r + n.+1) (fun _ => k_mean0 ker) + Kuz *m G^T *m W *m (y - G *m mz)))
    (blk (Kuu - Kuz *m G^T *m W *m G *m Kuz^T)).
Proof. exact: (fun Hp Hq Hn => @sampled_law_obs F d ker z new p q Hp Hq n e Hn joint post m' K' G Sg y). Qed.
Print Assumptions C75_samples_observed.

(* sample_f of states with any law *)
Theorem C75_sample_f (F : rcfType) o d e N' N (H : nat -> 'M[F]_(o, d)) (mean : nat -> 'cV[F]_o)
    (X : (nat -> 'cV[F]_e) -> nat -> 'cV[F]_d) m K : has_law N' N X m K ->
  has_law N' N (fun eps => sample_f H mean (X eps))
    (fun i => mean i + H i *m m i) (fun i j => H i *m K i j *m (H j)^T).
Proof. exact: sample_f_law. Qed.
Print Assumptions C75_sample_f.

(* predict_f at time number i of new, between two conditioning points: the moments of
   H_i x(new_i) + mean_i under the same process *)
Theorem C75_predict_f (F : rcfType) d o (ker : sde_kernel F d) (H : nat -> 'M[F]_(o, d)) mean n z new i k post m' K' :
  markov_kernel ker -> k_mean0 ker = 0 -> increasing n.+1 z -> (k < n)%N -> z k < new i -> new i < z k.+1 ->
  ssm_nonsing n post -> has_law n.+1 n.+1 (ssm_path post) m' K' ->
  let Kzz := dense n.+1 n.+1 (fun i j => state_cov ker (z i) (z j)) in
  let Ktz := brow n.+1 (fun j => state_cov ker (new i) (z j)) in
  let B := Ktz *m invmx Kzz in
  let V := k_P0 ker (new i) - B *m Kzz *m B^T + B *m dense n.+1 n.+1 K' *m B^T in
  predict_f_full ker H mean n post z new i =
    (H i *m (B *m flat n.+1 m') + mean i, H i *m V *m (H i)^T) /\
  predict_f_diag ker H mean n post z new i =
    (H i *m (B *m flat n.+1 m') + mean i, \col_r (H i *m V *m (H i)^T) r r).
Proof. exact: predict_f_q. Qed.
Print Assumptions C75_predict_f.

(* the hypotheses of C75_predict_f: any state space model with a nonsingular covariance may
   serve as the posterior *)
Example C75_example (F : rcfType) d n k (mu b : 'cV[F]_d) : let z i : F := i%:R in let t : F := k%:R + 2%:R^-1 in
  [/\ markov_kernel (clock_kernel F d), increasing n.+1 z, z k < t, t < z k.+1 & ssm_nonsing n (ex_ssm mu b)].
Proof. exact: posterior_example. Qed.
