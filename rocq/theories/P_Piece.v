(* Proofs about the piecewise kernel. *)
From mathcomp Require Import all_ssreflect all_algebra.
From Verif Require Import Nat Alg Lin Ent Spd M_Block M_SSM S_SSM P_SSM M_Kernel S_Kernel P_Kernel M_Cond M_Comb S_Comb M_Piece S_Piece.
Set Implicit Arguments.
Unset Strict Implicit.
Unset Printing Implicit Defensive.
Import GRing.Theory Num.Theory Order.TTheory.
Local Open Scope ring_scope.

Section Lists.

(* grouping by key puts a list with sorted keys in its own order *)
Lemma sorted_split (T : eqType) (key : T -> nat) K (s : seq T) :
  sorted leq (map key s) -> all (fun x => key x < K.+1)%N s ->
  exists s1 s2, [/\ s = s1 ++ s2, all (fun x => key x < K)%N s1 & all (fun x => key x == K)%N s2].
Proof.
elim: s => [|x s IH] /=; first by exists [::], [::].
move=> Hp /andP [Hx Ha]; have [s1 [s2 [E H1 H2]]] := IH (path_sorted Hp) Ha.
case: (ltngtP (key x) K) => HK.
- by exists (x :: s1), s2; rewrite E /= HK; split.
- by move: HK Hx; lia.
exists [::], (x :: s); split=> //=; rewrite HK eqxx /=.
have /allP Hle : all (leq (key x)) (map key s) by apply: order_path_min => //; exact: leq_trans.
apply/allP => y Hy; have := Hle _ (map_f key Hy); have := allP Ha _ Hy => /=; rewrite HK.
by move=> *; apply/eqP; lia.
Qed.

Lemma filter_none (T : eqType) (p q : pred T) s : all p s -> (forall x, p x -> ~~ q x) -> [seq x <- s | q x] = [::].
Proof.
move=> /allP Hp H; apply/eqP; rewrite -[_ == _]negbK -has_filter; apply/hasPn => x Hx.
exact: H (Hp _ Hx).
Qed.

Lemma group_sorted (T : eqType) (key : T -> nat) K (s : seq T) :
  sorted leq (map key s) -> all (fun x => key x < K)%N s ->
  flatten [seq [seq x <- s | key x == k] | k <- iota 0 K] = s.
Proof.
elim: K s => [|K IH] s Hs Ha; first by case: s Hs Ha.
rewrite -addn1 iotaD add0n map_cat flatten_cat /= cats0.
have [s1 [s2 [E H1 H2]]] := sorted_split Hs Ha.
have Hs1 : sorted leq (map key s1) by move: Hs; rewrite E map_cat => /cat_sorted2 [].
rewrite [in X in _ ++ X]E filter_cat (filter_none H1) /=; last by move=> x Hx; rewrite neq_ltn Hx.
rewrite (all_filterP H2) {}E; congr (_ ++ _); rewrite -[RHS]IH //; congr flatten.
apply/eq_in_map => k; rewrite mem_iota add0n => /andP [_ Hk].
rewrite filter_cat (filter_none H2) ?cats0 // => x /eqP ->.
by rewrite neq_ltn Hk orbT.
Qed.

Lemma ohead_drop (T : Type) (x0 : T) k s : ohead (drop k s) = if (k < size s)%N then Some (nth x0 s k) else None.
Proof.
elim: s k => [|x s IH] [|k] //=; exact: IH.
Qed.

Lemma gather_nat (T : Type) (x0 : T) params (idx : seq nat) : all (fun i => i < size params)%N idx ->
  ext_gather params (map Posz idx) = Some [seq nth x0 params i | i <- idx].
Proof.
elim: idx => //= i idx IH /andP [Hi /IH ->]; by rewrite (ohead_drop x0) Hi.
Qed.

Lemma gather_fail (T : Type) (params : seq T) (idx : seq int) :
  ext_gather params idx <> None <-> all (fun i => (0 <= i) && (i < (size params)%:Z)) idx.
Proof.
elim: idx => //= i idx IH; case: i => [k|k] //=.
case E: (ext_gather params idx) IH => [xs|] [H1 H2].
- rewrite {}H1 // andbT; case: params {E H2} => [|x0 p]; first by case: k.
  rewrite (ohead_drop x0) ltz_nat; by case: ifP.
by split=> // /andP [_ /H2].
Qed.

Lemma unique_mem (T : eqType) (x seen : seq T) a : (a \in ext_unique_values seen x) = (a \in x) && (a \notin seen).
Proof.
elim: x seen => //= b x IH seen; case: ifP => Hb.
- rewrite IH inE; case: eqP => //= ->; by rewrite Hb andbF.
by rewrite !inE IH inE negb_or; case: eqP => //= ->; rewrite Hb.
Qed.

(* gathering the unique values and then their positions is the identity *)
Lemma unique_gather (T : eqType) (x0 : T) (x : seq T) : [seq nth x0 (ext_unique x).1 i | i <- (ext_unique x).2] = x.
Proof.
rewrite -map_comp -[RHS]map_id; apply/eq_in_map => a Ha /=.
by rewrite nth_index // unique_mem Ha.
Qed.

Lemma unique_idx (T : eqType) (x : seq T) : all (fun i => i < size (ext_unique x).1)%N (ext_unique x).2.
Proof. by apply/allP => i /mapP [a Ha ->]; rewrite index_mem unique_mem Ha. Qed.

Lemma each_kernelE (K T U : Type) (k0 : K) (t0 : T) (f : K -> T -> U) kernels parts : 
  each_kernel f kernels parts =
  if (size parts <= size kernels)%N then Some [seq f (nth k0 kernels i) (nth t0 parts i) | i <- iota 0 (size parts)]
  else None.
Proof.
elim: parts kernels => [|p parts IH] [|k kernels] //=; rewrite IH ltnS; case: ifP => // _.
by rewrite -[1%N]addn0 iotaDl -map_comp.
Qed.

Lemma find_count (F : rcfType) (s : seq F) t : sorted <=%R s -> find (fun c => t < c) s = count (fun c => c <= t) s.
Proof.
elim: s => //= c s IH Hp; rewrite ltNge; case: leP => Hc /=; first by rewrite IH // (path_sorted Hp).
have /allP H : all (<=%R c) s by apply: order_path_min => //; exact: le_trans.
suff -> : count (fun c => c <= t) s = 0%N by [].
by apply/eqP; rewrite -leqn0 leqNgt -has_count; apply/hasPn => x /H Hx; rewrite -ltNge (lt_le_trans Hc).
Qed.

Lemma map_flat (T U : Type) (f : T -> U) ss : map f (flatten ss) = flatten (map (map f) ss).
Proof. by elim: ss => //= s ss IH; rewrite map_cat IH. Qed.

End Lists.

Section Piecewise.
Variable F : rcfType.
Variables o d : nat.
Variables (kernels : seq (skernel F o d)) (cps : seq F) (k0 : skernel F o d).
Hypothesis Hargs : pw_args kernels cps.
Implicit Types (times deltas : seq F) (t : F).

Let K := size cps.
Let ker t := nth k0 kernels (active cps t).

Lemma active_le t : (active cps t <= K)%N.
Proof. exact: count_size. Qed.

Lemma index_in t : in_range t ->
  (ext_searchsorted_right (- APPROX_INF F :: rcons cps (APPROX_INF F)) t)%:Z - 1 = Posz (active cps t).
Proof.
case: Hargs => _ _ Hs Ha /andP [H1 H2]; rewrite /ext_searchsorted_right /= ltNge H1 /=.
rewrite -cats1 find_cat -/K; case: ifP => Hh.
- by rewrite find_count // -addn1 PoszD addrK.
rewrite /= H2 addn0 -addn1 PoszD addrK; congr Posz.
apply/esym/eqP; rewrite -all_count; apply/allP => c Hc; rewrite leNgt.
by apply/negP => Hlt; move/negP: Hh; apply; apply/hasP; exists c.
Qed.

Lemma index_out t : ~~ in_range t ->
  let i := (ext_searchsorted_right (- APPROX_INF F :: rcons cps (APPROX_INF F)) t)%:Z - 1 in
  ~~ ((0 <= i) && (i < K.+1%:Z)).
Proof.
case: Hargs => _ _ Hs Ha; rewrite /in_range negb_and -ltNge -leNgt /ext_searchsorted_right /=.
case: ltP => [H _|H /= H2]; first by [].
rewrite -cats1 find_cat; case: ifP => [/hasP [c Hc Hlt]|_].
- have /andP [_ H3] := allP Ha _ Hc.
  by have := lt_trans Hlt (lt_le_trans H3 H2); rewrite ltxx.
have -> : find [eta > t] [:: APPROX_INF F] = 1%N by rewrite /= [t < _]ltNge H2.
by rewrite addn1 -(addn1 K.+1) PoszD addrK ltxx.
Qed.

Lemma splitE times : split_time_indices cps times =
  [seq (ext_searchsorted_right (- APPROX_INF F :: rcons cps (APPROX_INF F)) t)%:Z - 1 | t <- times].
Proof. by rewrite /split_time_indices; case: Hargs; case: cps. Qed.

Lemma split_in times : all (@in_range F) times -> split_time_indices cps times = map Posz (map (active cps) times).
Proof.
move=> /allP H; rewrite splitE -map_comp; apply/eq_in_map => t Ht; exact: index_in (H _ Ht).
Qed.

Lemma split_valid times : all (fun i => (0 <= i) && (i < K.+1%:Z)) (split_time_indices cps times) = all (@in_range F) times.
Proof.
rewrite splitE all_map; apply: eq_all => t /=.
case H: (in_range t); first by rewrite index_in // ltz_nat ltnS active_le.
by have := index_out (negbT H) => /= /negbTE.
Qed.

(* the values of the governing kernels, in the order of the times *)
Lemma tileE (T : Type) (f : skernel F o d -> T) times : all (@in_range F) times ->
  tile kernels cps f times = Some [seq f (ker t) | t <- times].
Proof.
move=> H; rewrite /tile (split_in H); set idx := map (active cps) times.
have Hl : all (fun i => i < size kernels)%N idx.
  by case: Hargs => _ Hk _ _; apply/allP => i /mapP [t Ht ->]; apply: leq_ltn_trans (active_le t) Hk.
have Hu : (ext_unique (map Posz idx)).1 = map Posz (ext_unique idx).1.
  rewrite /ext_unique /= -[[::] in LHS]/(map Posz [::]); elim: idx [::] {Hl} => //= a x IH seen.
  rewrite (mem_map (f := Posz)); last by move=> u v [].
  by case: ifP => _ //=; rewrite -IH.
have Hv : (ext_unique (map Posz idx)).2 = (ext_unique idx).2.
  rewrite /ext_unique /= -map_comp; move: Hu => /= ->; apply: eq_map => a /=.
  by rewrite (index_map (f := Posz)) // => u v [].
rewrite Hu Hv.
have Hs : all (fun i => i < size [seq f k | k <- kernels])%N (ext_unique idx).1.
  by apply/allP => i; rewrite unique_mem size_map => /andP [Hi _]; apply: (allP Hl).
rewrite (gather_nat (f k0) Hs) (gather_nat (f k0)); last by rewrite size_map unique_idx.
have -> : [seq f (ker t) | t <- times] = [seq nth (f k0) [seq f k | k <- kernels] i | i <- idx].
  rewrite -map_comp; apply: eq_map => t /=; rewrite (nth_map k0) //.
  by case: Hargs => _ Hk _ _; apply: leq_ltn_trans (active_le t) Hk.
congr Some; rewrite -[in RHS](unique_gather 0%N idx) -[RHS]map_comp; apply/eq_in_map => j Hj /=.
by rewrite (nth_map 0%N) //; apply: (allP (unique_idx idx)).
Qed.

(* the entries of a list, segment after segment *)
Definition grouped (T : Type) (time : T -> F) (s : seq T) : seq T :=
  flatten [seq [seq x <- s | active cps (time x) == k] | k <- iota 0 K.+1].

Lemma partitionE (T : eqType) times (s : seq T) : size s = size times -> all (@in_range F) times ->
  split_input cps s (split_time_indices cps times) =
  Some [seq [seq x.2 | x <- zip times s & active cps x.1 == k] | k <- iota 0 K.+1].
Proof.
move=> Es H; rewrite /split_input /ext_dynamic_partition -/K split_valid H andbT (split_in H) !size_map Es eqxx.
congr Some; apply: eq_map => k; rewrite -map_comp; elim: times s Es {H} => [|t times IH] [|x s] //= [/IH E].
by rewrite eqz_nat; case: ifP => _ /=; rewrite E.
Qed.

Lemma partition_t times : all (@in_range F) times ->
  split_input cps times (split_time_indices cps times) =
  Some [seq [seq t <- times | active cps t == k] | k <- iota 0 K.+1].
Proof.
move=> H; rewrite partitionE //; congr Some; apply: eq_map => k.
by elim: times {H} => //= t times IH; case: ifP => _ /=; rewrite IH.
Qed.

Lemma by_segmentE (T : Type) (f : skernel F o d -> F -> T) times deltas : size deltas = size times -> all (@in_range F) times ->
  by_segment kernels cps f times deltas =
  Some [seq f (ker x.1) x.2 | x <- grouped (@fst F F) (zip times deltas)].
Proof.
move=> Es H; rewrite /by_segment partition_t // partitionE //.
rewrite (each_kernelE k0 ([::], [::])) size_zip !size_map size_iota minnn.
case: Hargs => _ Hk _ _; rewrite Hk; congr Some; rewrite /grouped map_flat -map_comp; congr flatten.
apply/eq_in_map => k; rewrite mem_iota => /andP [_ Hlt].
rewrite nth_zip ?size_map // [in X in (_, X)](nth_map 0%N) ?size_iota // nth_iota // add0n -map_comp /=.
elim: (zip times deltas) => //= x s IH; case: ifP => //= /eqP E; rewrite IH; congr (_ :: _).
by rewrite /ker E.
Qed.

Lemma grouped_sorted (T : eqType) (time : T -> F) s : sorted <=%R (map time s) -> grouped time s = s.
Proof.
move=> Hs; apply: (group_sorted (key := fun x => active cps (time x))).
- rewrite (map_comp (active cps) time); move: Hs; apply: homo_sorted => x y Hxy.
  by apply: sub_count => c /= Hc; apply: le_trans Hxy.
- by apply/allP => x _; rewrite ltnS active_le.
Qed.

Lemma map_fst_zip (T U : Type) (s : seq T) (s' : seq U) : size s' = size s -> map fst (zip s s') = s.
Proof. by move=> E; apply: unzip1_zip; rewrite E. Qed.

Lemma by_segment_sorted (T : Type) (f : skernel F o d -> F -> T) times deltas : size deltas = size times ->
  sorted <=%R times -> all (@in_range F) times ->
  by_segment kernels cps f times deltas = Some [seq f (ker x.1) x.2 | x <- zip times deltas].
Proof. by move=> Es Hs H; rewrite by_segmentE // grouped_sorted ?map_fst_zip. Qed.

Lemma emissionE times : all (@in_range F) times ->
  pw_emission kernels cps times = Some [seq sk_H (ker t) t | t <- grouped id times].
Proof.
move=> H; rewrite /pw_emission partition_t // (each_kernelE k0 [::]) !size_map size_iota.
case: Hargs => _ Hk _ _; rewrite Hk; congr Some; rewrite /grouped map_flat -map_comp; congr flatten.
apply/eq_in_map => k; rewrite mem_iota => /andP [_ Hlt].
rewrite (nth_map 0%N) ?size_iota // nth_iota // add0n.
elim: times {H} => //= x s IH; case: ifP => //= /eqP E; rewrite IH; congr (_ :: _).
by rewrite /ker E.
Qed.

Lemma transition_statisticsE jitter times deltas : size deltas = size times ->
  sorted <=%R times -> all (@in_range F) times ->
  pw_transition_statistics kernels cps jitter times deltas =
  Some ([seq k_trans (pw_spec k0 kernels cps jitter) x.1 x.2 | x <- zip times deltas],
        [seq k_cov (pw_spec k0 kernels cps jitter) x.1 x.2 | x <- zip times deltas]).
Proof.
move=> Es Hs H; rewrite /pw_transition_statistics [pw_state_transitions _ _ _ _]by_segment_sorted //.
rewrite [pw_steady_state_covariances _ _ _]tileE //; congr (Some (_, _)).
by elim: times deltas Es {Hs H} => [|t times IH] [|dt deltas] //= [/IH ->].
Qed.

(* when the class raises: a time out of range, or too few kernels *)
Lemma by_segment_fail (T : Type) (f : skernel F o d -> F -> T) times deltas : size deltas = size times ->
  by_segment kernels cps f times deltas = None <-> ~~ all (@in_range F) times.
Proof.
move=> Es; case H: (all (@in_range F) times); first by rewrite by_segmentE.
split=> // _; rewrite /by_segment /split_input /ext_dynamic_partition -/K split_valid H andbF.
by [].
Qed.
End Piecewise.
