(* The sparse models depend on the data set and not on the order of the data points. *)
From Coq Require Import Reals FunctionalExtensionality.
From mathcomp Require Import all_ssreflect all_algebra all_fingroup.
From Verif Require Import RealStruct Nat Alg Lin Ent Spd Log M_Block S_Block M_SSM M_SSMLog M_Kalman M_Kernel M_Cond M_Emission
  M_Sort M_Trans M_Models M_Cvi M_Pep M_SPep M_Comb M_Space S_Order.
Set Implicit Arguments.
Unset Strict Implicit.
Unset Printing Implicit Defensive.
Import GRing.Theory Num.Theory Order.TTheory.
Local Open Scope ring_scope.

Lemma reorder_sum (V : zmodType) N (s : {perm 'I_N}) (P P' : pred nat) (f f' : nat -> V) :
  (forall k : 'I_N, P' k = P (s k)) -> (forall k : 'I_N, f' k = f (s k)) ->
  \sum_(k < N | P' k) f' k = \sum_(k < N | P k) f k.
Proof.
move=> HP Hf; rewrite [RHS](reindex_inj (@perm_inj _ s)).
by apply: eq_big => k; [exact: HP|move=> _; exact: Hf].
Qed.

Lemma reorder_sum1 (V : zmodType) N (s : {perm 'I_N}) (f f' : nat -> V) :
  (forall k : 'I_N, f' k = f (s k)) -> \sum_(k < N) f' k = \sum_(k < N) f k.
Proof. by move=> H; apply: (@reorder_sum V N s xpredT xpredT). Qed.


Lemma eq_omapf (A B : Type) (f g : A -> B) (x : option A) : (forall a, f a = g a) -> omap f x = omap g x.
Proof. by move=> H; case: x => [a|] //; exact: congr1 (H a). Qed.

Lemma eq_obindf (A B : Type) (f g : A -> option B) (x : option A) : (forall a, f a = g a) -> obind f x = obind g x.
Proof. by move=> H; case: x => [a|] //; exact: (H a). Qed.

Lemma eq_omap2 (A B C : Type) (g g' : A -> B) (f f' : B -> C) (x : option A) : (forall a, f (g a) = f' (g' a)) ->
  omap f (omap g x) = omap f' (omap g' x).
Proof. by move=> H; case: x => [a|] //; exact: congr1 (H a). Qed.

Lemma eq_obind2 (A B C : Type) (g g' : A -> B) (f f' : B -> option C) (x : option A) : (forall a, f (g a) = f' (g' a)) ->
  obind f (omap g x) = obind f' (omap g' x).
Proof. by move=> H; case: x => [a|] //; exact: (H a). Qed.

(* one group of data points of an update *)
Lemma sites_order N (s : {perm 'I_N}) d (G1 : nat -> 'cV[R]_(d + d) -> 'cV[R]_(d + d)) (G2 : nat -> 'M[R]_(d + d) -> 'M[R]_(d + d))
    (i i' : nat -> nat) (f f' : nat -> 'cV[R]_(d + d)) (g g' : nat -> 'M[R]_(d + d)) :
  (forall k : 'I_N, i' k = i (s k)) -> (forall k : 'I_N, f' k = f (s k)) -> (forall k : 'I_N, g' k = g (s k)) ->
  PairSites (fun m => G1 m (\sum_(k < N | i' k == m) f' k)) (fun m => G2 m (\sum_(k < N | i' k == m) g' k)) =
  PairSites (fun m => G1 m (\sum_(k < N | i k == m) f k)) (fun m => G2 m (\sum_(k < N | i k == m) g k)).
Proof.
move=> Hi Hf Hg; apply: f_equal2; apply: functional_extensionality => m.
  rewrite (@reorder_sum _ N s (fun k => i k == m) (fun k => i' k == m) f f') // => k.
  by rewrite Hi.
rewrite (@reorder_sum _ N s (fun k => i k == m) (fun k => i' k == m) g g') // => k.
by rewrite Hi.
Qed.

Section Temporal.
Variables (N : nat) (s : {perm 'I_N}) (d : nat) (ker : sde_kernel Rr d).
Hypothesis HP : forall t t', k_P0 ker t = k_P0 ker t'.

Lemma first_irrelevant n q z t0 t0' t : predict_state ker n q z t0 t = predict_state ker n q z t0' t.
Proof. by rewrite /predict_state (HP t0 t0'). Qed.

Lemma diag_order o (emission : R -> 'M[R]_(o, d)) mean n q z X X' (k : 'I_N) : reordered s X X' ->
  model_predict_f_diag ker emission mean n q z X' k = model_predict_f_diag ker emission mean n q z X (s k).
Proof.
move=> HX; rewrite /model_predict_f_diag /predict_f_diag /project_state_to_f /project_cov_diag.
by rewrite (first_irrelevant n q z (X' 0%N) (X 0%N)) HX.
Qed.

Lemma svgp_order o (emission : R -> 'M[R]_(o, d)) mean ve n z num_data X X' Y Y' q :
  reordered s X X' -> reordered s Y Y' ->
  svgp_elbo ker emission mean ve n z num_data N X' Y' q = svgp_elbo ker emission mean ve n z num_data N X Y q.
Proof.
move=> HX HY; rewrite /svgp_elbo; case: kernel_ssm => [p|] //; congr (Some (_ * _ - _)).
pose f X Y k := let f := model_predict_f_diag ker emission mean n q z X in ve (f k).1 (f k).2 (Y k).
by apply: (@reorder_sum1 _ N s (f X Y) (f X' Y')) => k; rewrite /f HY (diag_order emission mean n q z k HX).
Qed.

Section One.
Variables (emission : R -> 'M[R]_(1, d)) (n : nat) (z X X' Y Y' : nat -> R).
Hypothesis HX : reordered s X X'.
Hypothesis HY : reordered s Y Y'.

Lemma cvi_order q (k : 'I_N) : cvi_predict_f ker emission n q z X' k = cvi_predict_f ker emission n q z X (s k).
Proof.
rewrite /cvi_predict_f /predict_f_diag /project_state_to_f /project_cov_diag.
by rewrite (first_irrelevant n q z (X' 0%N) (X 0%N)) HX.
Qed.

Lemma index_order m (k : 'I_N) :
  (ext_searchsorted (F := Rr) n.+1 z (X' k) == m) = (ext_searchsorted (F := Rr) n.+1 z (X (s k)) == m).
Proof. by rewrite HX. Qed.

Lemma scvi_order grad_mu grad_var lr st :
  scvi_update_sites ker emission grad_mu grad_var n z lr N X' Y' st =
  scvi_update_sites ker emission grad_mu grad_var n z lr N X Y st.
Proof.
apply: eq_omapf => q.
pose bp X Y k := let g := cvi_gradients grad_mu grad_var (cvi_predict_f ker emission n q z X k) (Y k) in
  back_project_nats g.1 g.2 (emission (X k) *m (conditional_statistics ker n.+1 z (X k)).1.1).
have E (k : 'I_N) : bp X' Y' k = bp X Y (s k) by rewrite /bp cvi_order HX HY.
apply: (@sites_order N s d (fun m v => (1 - lr) *: ps_nat1 st m + lr *: v) (fun m v => (1 - lr) *: ps_nat2 st m + lr *: v)
  (fun k => ext_searchsorted n.+1 z (X k)) (fun k => ext_searchsorted n.+1 z (X' k))
  (fun k => (bp X Y k).1) (fun k => (bp X' Y' k).1) (fun k => (bp X Y k).2) (fun k => (bp X' Y' k).2)) => k; rewrite ?E //.
by rewrite HX.
Qed.

Lemma ve_order (ve : R -> R -> R -> R) q :
  let f X := cvi_predict_f ker emission n q z X in
  \sum_(k < N) ve (f X' k).1 (f X' k).2 (Y' k) = \sum_(k < N) ve (f X k).1 (f X k).2 (Y k).
Proof.
move=> f; apply: (@reorder_sum1 _ N s (fun k => ve (f X k).1 (f X k).2 (Y k)) (fun k => ve (f X' k).1 (f X' k).2 (Y' k))) => k.
by rewrite HY /f cvi_order.
Qed.

Lemma scvi_elbo_order ve st :
  scvi_classic_elbo ker emission n z ve N X' Y' st = scvi_classic_elbo ker emission n z ve N X Y st.
Proof.
apply: eq_obindf => q; apply: eq_omapf => p; exact: (congr1 (fun v => v - _) (ve_order ve q)).
Qed.

Lemma spep_elbo_order ve st :
  spep_classic_elbo ker emission n z N X' Y' ve st = spep_classic_elbo ker emission n z N X Y ve st.
Proof.
apply: eq_obindf => q; apply: eq_omapf => p; exact: (congr1 (fun v => v - _) (ve_order ve q)).
Qed.
End One.
End Temporal.

Section Pep.
Variables (N : nat) (s : {perm 'I_N}) (d : nat) (ker : sde_kernel Rr d) (emission : R -> 'M[R]_(1, d)).
Variables (led : R -> R -> R -> R -> R) (grads : R -> R -> R -> R -> R * R).
Variables (n : nat) (z : nat -> R) (alpha lr : R) (X X' Y Y' : nat -> R).
Hypothesis HX : reordered s X X'.
Hypothesis HY : reordered s Y Y'.

Lemma num_order m : spep_num_data n z N X' m = spep_num_data n z N X m.
Proof.
apply: (@reorder_sum _ N s (fun k => ext_searchsorted n.+1 z (X k) == m) (fun k => ext_searchsorted n.+1 z (X' k) == m)
  (fun _ => 1) (fun _ => 1)) => // k; exact: index_order.
Qed.

Lemma fraction_order : spep_fraction n z N X' = spep_fraction n z N X.
Proof. by apply: functional_extensionality => m; rewrite /spep_fraction num_order. Qed.

Lemma cavity_order marg st (k : 'I_N) :
  spep_cavity_f ker emission n z alpha N X' marg st k = spep_cavity_f ker emission n z alpha N X marg st (s k).
Proof.
have E : spep_cavity_state ker n z alpha N X' marg st k = spep_cavity_state ker n z alpha N X marg st (s k).
  by rewrite /spep_cavity_state /spep_cavity_nats fraction_order HX.
by rewrite /spep_cavity_f /project_marginals_diag /project_state_to_f /project_cov_diag; cbn [fst snd]; rewrite E HX.
Qed.

Lemma spep_sites_order st :
  spep_new_sites ker emission grads n z alpha lr N X' Y' st = spep_new_sites ker emission grads n z alpha lr N X Y st.
Proof.
apply: eq_omap2 => q.
pose bp X Y k := let g := spep_gradients grads Y 1 (spep_cavity_f ker emission n z alpha N X (spep_marginals ker n q) st k) k in
  let th := back_project_nats g.1 g.2 (emission (X k) *m (conditional_statistics ker n.+1 z (X k)).1.1) in
  let fr := spep_fraction n z N X (ext_searchsorted n.+1 z (X k)) in
  (th.1 + 0 *: const_mx fr, th.2 + 0 *: const_mx fr).
have E (k : 'I_N) : bp X' Y' k = bp X Y (s k) by rewrite /bp cavity_order fraction_order /spep_gradients HX HY.
apply: (@sites_order N s _ (fun m v => (1 - lr) *: ps_nat1 st m + lr *: ((1 - alpha) *: ps_nat1 st m + alpha *: v))
  (fun m v => (1 - lr) *: ps_nat2 st m + lr *: ((1 - alpha) *: ps_nat2 st m + alpha *: v))
  (fun k => ext_searchsorted n.+1 z (X k)) (fun k => ext_searchsorted n.+1 z (X' k))
  (fun k => (bp X Y k).1) (fun k => (bp X' Y' k).1) (fun k => (bp X Y k).2) (fun k => (bp X' Y' k).2)) => k; rewrite ?E //.
by rewrite HX.
Qed.

Lemma one_out_order (st : pair_sites d) j : spep_one_out n z alpha N X' st j = spep_one_out n z alpha N X st j.
Proof. by rewrite /spep_one_out; apply: f_equal2; apply: functional_extensionality => m; rewrite num_order. Qed.

Lemma spep_norm_order st :
  spep_compute_log_norm ker emission led n z alpha N X' Y' st = spep_compute_log_norm ker emission led n z alpha N X Y st.
Proof.
apply: eq_obind2 => q'; apply: eq_obindf => q.
pose c X m := omap (fun q' => ssm_normalizer n q') (spep_dist_q ker n z (spep_one_out n z alpha N X st m)).
have E : c X' = c X by apply: functional_extensionality => m; rewrite /c one_out_order.
apply: (etrans (congr1 (fun c => omap _ (collect n.+2 c 0)) E)).
apply: eq_omapf => l; apply: functional_extensionality => m; apply: (congr1 (fun v => v / alpha)).
pose f X Y k := spep_objective led Y alpha (spep_cavity_f ker emission n z alpha N X (spep_marginals ker n q') st k) k +
  (l (ext_searchsorted n.+1 z (X k)) - ssm_normalizer n q).
apply: (@reorder_sum _ N s (fun k => ext_searchsorted n.+1 z (X k) == m) (fun k => ext_searchsorted n.+1 z (X' k) == m) (f X Y) (f X' Y')) => k.
  exact: index_order.
by rewrite /f cavity_order /spep_objective HX HY.
Qed.

Lemma spep_update_order st :
  spep_update_sites ker emission led grads n z alpha lr N X' Y' st =
  spep_update_sites ker emission led grads n z alpha lr N X Y st.
Proof.
by rewrite /spep_update_sites spep_sites_order; apply: eq_obindf => s'; rewrite spep_norm_order.
Qed.

Lemma spep_energy_order st :
  spep_energy ker emission led n z alpha N X' Y' st = spep_energy ker emission led n z alpha N X Y st.
Proof. by rewrite /spep_energy spep_norm_order. Qed.
End Pep.

Section Space.
Variables (N : nat) (s : {perm 'I_N}) (S : Type) (space : S -> S -> R) (d : nat) (kernel_time : skernel Rr 1 d) (Ms : nat) (Z : nat -> S).
Variables (mean_function : option (S -> R -> R)) (n : nat) (z : nat -> R) (x x' : nat -> S) (t t' Y Y' : nat -> R).
Hypothesis Hx : reordered s x x'.
Hypothesis Ht : reordered s t t'.
Hypothesis HY : reordered s Y Y'.

Lemma st_predict_order q (k : 'I_N) :
  st_predict_f (F := Rr) space (kernel_time := kernel_time) (Ms := Ms) Z mean_function n q z x' t' k =
  st_predict_f (F := Rr) space (kernel_time := kernel_time) (Ms := Ms) Z mean_function n q z x t (s k).
Proof.
rewrite /st_predict_f /predict_f_full /project_state_to_f /project_cov_full.
have E := @first_irrelevant _ (to_sde (st_kernel (F := Rr) space kernel_time Ms Z)) (fun _ _ => erefl) n q z (t' 0%N) (t 0%N) (t' k).
by rewrite E Ht Hx.
Qed.

Lemma st_elbo_order ve num_data (q : ssm Rr (concat_dim (st_children kernel_time Ms))) :
  st_elbo space Z mean_function n z ve num_data N x' t' Y' q = st_elbo space Z mean_function n z ve num_data N x t Y q.
Proof.
apply: eq_omapf => p; apply: (congr1 (fun v => v * _ - _)).
pose f x t (Y : nat -> R) k := let f := st_predict_f (F := Rr) space (kernel_time := kernel_time) (Ms := Ms) Z mean_function n q z x t k in
  ve f.1 f.2 (Y k).
by apply: (@reorder_sum1 _ N s (f x t Y) (f x' t' Y')) => k; rewrite /f st_predict_order HY.
Qed.

Lemma st_update_order grad_mu grad_var lr (st : pair_sites (concat_dim (st_children kernel_time Ms))) :
  st_update_sites space Z mean_function n z grad_mu grad_var lr N x' t' Y' st =
  st_update_sites space Z mean_function n z grad_mu grad_var lr N x t Y st.
Proof.
apply: eq_omapf => q.
pose bp x t Y k := let g := st_gradients mean_function grad_mu grad_var
    (st_predict_f (F := Rr) space (kernel_time := kernel_time) (Ms := Ms) Z mean_function n q z x t k) (x k) (t k) (Y k) in
  back_project_nats g.1 g.2 (st_projection space kernel_time Ms Z n z (x k) (t k)).
have E (k : 'I_N) : bp x' t' Y' k = bp x t Y (s k) by rewrite /bp st_predict_order Hx Ht HY.
apply: (@sites_order N s _ (fun m v => (1 - lr) *: ps_nat1 st m + lr *: v) (fun m v => (1 - lr) *: ps_nat2 st m + lr *: v)
  (fun k => ext_searchsorted n.+1 z (t k)) (fun k => ext_searchsorted n.+1 z (t' k))
  (fun k => (bp x t Y k).1) (fun k => (bp x' t' Y' k).1) (fun k => (bp x t Y k).2) (fun k => (bp x' t' Y' k).2)) => k; rewrite ?E //.
by rewrite Ht.
Qed.
End Space.

(* a run whose every step sees the data in an order of its own *)
Lemma run_order (T D : Type) (upd : D -> T -> option T) (d0 : D) (ds : seq D) s0 :
  (forall x s, List.In x ds -> upd x s = upd d0 s) ->
  foldl (fun s x => obind (upd x) s) s0 ds = iter (size ds) (obind (upd d0)) s0.
Proof.
elim: ds s0 => [|x ds IH] s0 H //=.
rewrite IH; last by move=> y s Hy; apply: H; right.
rewrite -iterS iterSr; congr (iter _ _ _).
by case: s0 => [s|] //=; apply: H; left.
Qed.

Lemma scvi_run_order N d (ker : sde_kernel Rr d) emission grad_mu grad_var n z lr X Y (ds : seq ((nat -> R) * (nat -> R))) s0 :
  (forall t t', k_P0 ker t = k_P0 ker t') ->
  (forall D, List.In D ds -> exists s : {perm 'I_N}, reordered s X D.1 /\ reordered s Y D.2) ->
  foldl (fun st D => obind (scvi_update_sites ker emission grad_mu grad_var n z lr N D.1 D.2) st) s0 ds =
  iter (size ds) (obind (scvi_update_sites ker emission grad_mu grad_var n z lr N X Y)) s0.
Proof.
move=> HP Hd.
apply: (@run_order _ _ (fun D => scvi_update_sites ker emission grad_mu grad_var n z lr N D.1 D.2) (X, Y)) => D st HD.
by have [s [H1 H2]] := Hd D HD; apply: (scvi_order HP emission n z H1 H2).
Qed.

Lemma spep_run_order N d (ker : sde_kernel Rr d) emission led grads n z alpha lr X Y (ds : seq ((nat -> R) * (nat -> R))) s0 :
  (forall D, List.In D ds -> exists s : {perm 'I_N}, reordered s X D.1 /\ reordered s Y D.2) ->
  foldl (fun st D => obind (spep_update_sites ker emission led grads n z alpha lr N D.1 D.2) st) s0 ds =
  iter (size ds) (obind (spep_update_sites ker emission led grads n z alpha lr N X Y)) s0.
Proof.
move=> Hd.
apply: (@run_order _ _ (fun D => spep_update_sites ker emission led grads n z alpha lr N D.1 D.2) (X, Y)) => D st HD.
by have [s [H1 H2]] := Hd D HD; apply: (spep_update_order ker emission led grads n z alpha lr H1 H2).
Qed.
