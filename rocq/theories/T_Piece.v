(* Property theorems C41, C72 and C73: the piecewise stationary kernel.

   Vocabulary: S_Piece.v ([active cps t]: the number of change points at or before t, so
   the kernel governing t is the one with that number; [in_range]: between -1e10 and 1e10;
   [pw_args]: at least one change point, sorted and in range, more kernels than change
   points; [pw_spec]: the dynamics of the governing kernel as a kernel of its own;
   [pw_good]: a positive definite steady state and noise in every step; [pw_process]: in
   addition transitions and offsets compose), S_SSM.v ([has_law], [chain_path],
   [chain_cov]).  [k0] is the default of [nth] and is never read. *)
From Coq Require Import Reals.
From mathcomp Require Import all_ssreflect all_algebra.
From Verif Require Import RealStruct Nat Alg Lin Ent Spd M_Block M_SSM S_SSM P_SSM M_SSMLog M_Kernel S_Kernel P_Kernel M_Cond
  M_Comb S_Comb M_KernelR M_Piece S_Piece P_Piece P_Piece2 P_PieceR P_Examples.
Set Implicit Arguments.
Unset Strict Implicit.
Unset Printing Implicit Defensive.
Import GRing.Theory Num.Theory Order.TTheory.
Local Open Scope ring_scope.

(* sorted times: every entry comes from the governing kernel, in the order of the times *)
Theorem C41_sorted_times (F : rcfType) o d (kernels : seq (skernel F o d)) cps k0 jitter times deltas :
  pw_args kernels cps -> size deltas = size times -> sorted <=%R times -> all (@in_range F) times ->
  let ker t := nth k0 kernels (active cps t) in
  [/\ pw_state_transitions kernels cps times deltas = Some [seq sk_A (ker x.1) x.2 | x <- zip times deltas],
      pw_state_offsets kernels cps times deltas = Some [seq sk_off (ker x.1) x.2 | x <- zip times deltas],
      pw_emission kernels cps times = Some [seq sk_H (ker t) t | t <- times] &
      pw_transition_statistics kernels cps jitter times deltas =
        Some ([seq sk_A (ker x.1) x.2 | x <- zip times deltas],
              [seq sk_P (ker x.1) - sk_A (ker x.1) x.2 *m sk_P (ker x.1) *m (sk_A (ker x.1) x.2)^T + jitter *: 1%:M
                 | x <- zip times deltas])].
Proof. exact: sorted_all. Qed.
Print Assumptions C41_sorted_times.

(* the quantities looked up per time point: any order of the times *)
Theorem C41_lookups (F : rcfType) o d (kernels : seq (skernel F o d)) cps k0 times :
  pw_args kernels cps -> all (@in_range F) times ->
  let ker t := nth k0 kernels (active cps t) in
  [/\ pw_steady_state_covariances kernels cps times = Some [seq sk_P (ker t) | t <- times],
      pw_feedback_matrices kernels cps times = Some [seq sk_F (ker t) | t <- times] &
      pw_state_means kernels cps times = Some [seq sk_mean0 (ker t) | t <- times]].
Proof. exact: (fun Ha Hr => And3 (tileE k0 Ha _ Hr) (tileE k0 Ha _ Hr) (tileE k0 Ha _ Hr)). Qed.
Print Assumptions C41_lookups.

(* the interval of a kernel is closed on the left and open on the right *)
Theorem C41_interval (F : rcfType) (cps : seq F) t i : sorted <=%R cps ->
  active cps t = i <->
  [/\ (i <= size cps)%N, forall j, (j < i)%N -> nth 0 cps j <= t & forall j, (i <= j)%N -> (j < size cps)%N -> t < nth 0 cps j].
Proof. exact: activeP. Qed.
Print Assumptions C41_interval.

(* exactly the times out of range are refused; without change points every time is *)
Theorem C41_raises (F : rcfType) o d (kernels : seq (skernel F o d)) cps times deltas :
  pw_args kernels cps -> size deltas = size times ->
  pw_state_transitions kernels cps times deltas = None <-> ~~ all (@in_range F) times.
Proof. exact: raises_iff. Qed.
Print Assumptions C41_raises.

Theorem C41_no_change_points (F : rcfType) o d (kernels : seq (skernel F o d)) t times deltas :
  pw_state_transitions kernels [::] (t :: times) deltas = None.
Proof. exact: no_change_points. Qed.
Print Assumptions C41_no_change_points.

(* the state space model: started in the steady state of the first governing kernel
   (without the jitter), the covariance relaxes to that of the governing kernel *)
Theorem C41_law (F : rcfType) o d (kernels : seq (skernel F o d)) cps k0 jitter n times :
  pw_args kernels cps -> (forall k, List.In k kernels -> pw_good k) -> 0 <= jitter ->
  size times = n.+1 -> sorted <%R times -> all (@in_range F) times ->
  let z := nth 0 times in let ker t := nth k0 kernels (active cps t) in
  exists S m K, [/\ pw_state_space_model kernels cps jitter times = Some S, ssm_nonsing n S,
    has_law n.+1 n.+1 (ssm_path S) m K &
  [/\ m 0%N = 0, K 0%N 0%N = sk_P (ker (z 0%N)),
    forall i, (i < n)%N -> m i.+1 = sk_A (ker (z i)) (z i.+1 - z i) *m m i + sk_off (ker (z i)) (z i.+1 - z i),
    forall i, (i < n)%N -> K i.+1 i.+1 = sk_P (ker (z i)) +
      sk_A (ker (z i)) (z i.+1 - z i) *m (K i i - sk_P (ker (z i))) *m (sk_A (ker (z i)) (z i.+1 - z i))^T
      + jitter *: 1%:M &
    forall i j, (j <= i)%N -> (i < n)%N -> K i.+1 j = sk_A (ker (z i)) (z i.+1 - z i) *m K i j]].
Proof. exact: pw_law_rec. Qed.
Print Assumptions C41_law.

Example C41_example : pw_args (pair_m12 1 2%:R) [:: (1 : Rr)] /\
  (forall k, List.In k (pair_m12 1 2%:R) -> pw_process k) /\
  sorted <%R [:: (0 : Rr); 1; 2%:R] /\ all (@in_range Rr) [:: (0 : Rr); 1; 2%:R] /\
  active [:: (1 : Rr)] 0 = 0%N /\ active [:: (1 : Rr)] 1 = 1%N.
Proof. exact: pair_example. Qed.

(* unsorted times: transitions are returned in another order than the steady states *)
Theorem C72_unsorted_refuted : exists (kernels : seq (skernel Rr 1 1)) (cps times deltas : seq Rr) As Ps,
  [/\ pw_args kernels cps, size deltas = size times /\ all (@in_range Rr) times,
      pw_state_transitions kernels cps times deltas = Some As,
      pw_steady_state_covariances kernels cps times = Some Ps &
      exists k, [/\ List.In k kernels, nth 0 times 0 = 2%:R /\ active cps 2%:R = 1%N, drop 1 kernels = [:: k],
        nth 0 Ps 0 = sk_P k & nth 0 As 0 <> sk_A k (nth 0 deltas 0)]].
Proof. exact: unsorted_witness. Qed.
Print Assumptions C72_unsorted_refuted.

(* what is returned: the entries of every segment in turn *)
Theorem C72_grouped (F : rcfType) o d (kernels : seq (skernel F o d)) cps k0 times deltas :
  pw_args kernels cps -> size deltas = size times -> all (@in_range F) times ->
  pw_state_transitions kernels cps times deltas =
  Some [seq sk_A (nth k0 kernels (active cps x.1)) x.2 |
    x <- flatten [seq [seq x <- zip times deltas | active cps x.1 == k] | k <- iota 0 (size cps).+1]].
Proof. exact: grouped_transitions. Qed.
Print Assumptions C72_grouped.

(* a time point inside a segment can be added without changing the law of the others *)
Theorem C73_refinement (F : rcfType) o d (kernels : seq (skernel F o d)) cps (k0 : skernel F o d) n times l t S S' m K m' K' :
  pw_args kernels cps -> (forall k, List.In k kernels -> pw_process k) ->
  size times = n.+1 -> sorted <%R times -> all (@in_range F) times ->
  (l < n)%N -> nth 0 times l < t -> t < nth 0 times l.+1 -> active cps t = active cps (nth 0 times l) ->
  pw_state_space_model kernels cps 0 times = Some S ->
  pw_state_space_model kernels cps 0 (take l.+1 times ++ t :: drop l.+1 times) = Some S' ->
  has_law n.+1 n.+1 (ssm_path S) m K -> has_law n.+2 n.+2 (ssm_path S') m' K' ->
  let skip i := if (i <= l)%N then i else i.+1 in
  (forall i, (i <= n)%N -> m' (skip i) = m i) /\
  (forall i j, (i <= n)%N -> (j <= n)%N -> K' (skip i) (skip j) = K i j).
Proof. exact: (fun Ha Hg => @pw_refine F o d kernels cps k0 Ha Hg n times l t S S' m K m' K'). Qed.
Print Assumptions C73_refinement.

(* adding the change point to a grid that jumps over it does change the law *)
Theorem C73_crossing (l1 l2 : R) S S' m K m' K' : 0 < l1 -> 0 < l2 -> l1 <> l2 ->
  let kernels := [:: matern12 1 0 l1 1 0; matern12 1 0 l2 1 0] : seq (skernel Rr 1 1) in
  pw_state_space_model kernels [:: (1 : Rr)] 0 [:: (0 : Rr); 2%:R] = Some S ->
  pw_state_space_model kernels [:: (1 : Rr)] 0 [:: (0 : Rr); 1; 2%:R] = Some S' ->
  has_law 2 2 (ssm_path S) m K -> has_law 3 3 (ssm_path S') m' K' -> K' 2%N 0%N <> K 1%N 0%N.
Proof. exact: (fun H1 H2 => @crossing l1 l2 H1 H2 S S' m K m' K'). Qed.
Print Assumptions C73_crossing.

(* two Matern 1/2 kernels that change at time 1: the grids 0, 2 and 0, 1, 2 *)
Example C73_example (l1 l2 : R) : 0 < l1 -> 0 < l2 ->
  let kernels := [:: matern12 1 0 l1 1 0; matern12 1 0 l2 1 0] : seq (skernel Rr 1 1) in
  (exists S m K, pw_state_space_model kernels [:: (1 : Rr)] 0 [:: (0 : Rr); 2%:R] = Some S /\ has_law 2 2 (ssm_path S) m K) /\
  (exists S m K, pw_state_space_model kernels [:: (1 : Rr)] 0 [:: (0 : Rr); 1; 2%:R] = Some S /\ has_law 3 3 (ssm_path S) m K).
Proof. exact: piece_example. Qed.
