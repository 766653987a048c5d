(* Proofs: the bounds of the variational models as expectations, for any likelihood. *)
From Coq Require Import Reals.
From mathcomp Require Import all_ssreflect all_algebra.
From Verif Require Import RealStruct Nat Alg Lin Ent Spd Log M_Block M_SSM S_SSM P_SSM M_SSMLog P_SSMLog S_Gauss P_Gauss
  S_Kalman M_Kalman P_Kalman P_KalmanLog M_Kernel S_Kernel P_Kernel M_Cond P_Cond P_Cond2 P_Cond3 P_Cond4
  M_Emission P_Emission M_Sort P_Sort M_Models S_GP P_Elbo P_Models P_Models2 M_Comb S_Comb M_KernelR S_KernelR P_Models3 M_IW S_IW P_IW S_Expect.
Set Implicit Arguments.
Unset Strict Implicit.
Unset Printing Implicit Defensive.
Import GRing.Theory Num.Theory Order.POrderTheory.
Local Open Scope ring_scope.

Section Moments.
Variables (T : Type) (M : nat) (fin : ((nat -> T) -> R) -> Prop) (E : ((nat -> T) -> R) -> R).
Hypothesis HE : expectation M fin E.

(* finiteness and value together *)
Definition ev (f : (nat -> T) -> R) (e : R) : Prop := fin f /\ E f = e.

Lemma ev_ext f g e : (forall x, f x = g x) -> ev f e -> ev g e.
Proof. by move=> H [h1 h2]; split; [exact: (ex_ext HE H)|rewrite -h2; symmetry; exact: (ex_eq HE H)]. Qed.
Lemma ev_const c : ev (fun _ => c) c.
Proof. exact: (ex_const HE c). Qed.
Lemma ev_add f g e e' : ev f e -> ev g e' -> ev (fun x => f x + g x) (e + e').
Proof. by move=> [h1 <-] [h2 <-]; exact: (ex_add HE h1 h2). Qed.
Lemma ev_scale a f e : ev f e -> ev (fun x => a * f x) (a * e).
Proof. by move=> [h1 <-]; exact: (ex_scale HE a h1). Qed.
Lemma ev_sum p (f : 'I_p -> (nat -> T) -> R) (e : 'I_p -> R) : (forall i, ev (f i) (e i)) ->
  ev (fun x => \sum_i f i x) (\sum_i e i).
Proof.
elim: p f e => [|p IH] f e H.
  by rewrite big_ord0; apply: ev_ext (ev_const 0) => x; rewrite big_ord0.
rewrite big_ord_recl; apply: ev_ext (ev_add (H ord0) (IH _ _ (fun i => H (lift ord0 i)))) => x.
by rewrite big_ord_recl.
Qed.

Lemma moments_ext p (v w : (nat -> T) -> 'cV[R]_p) m K : (forall x, v x = w x) -> moments fin E v m K -> moments fin E w m K.
Proof.
move=> H [h1 h2]; split=> [i|i j].
  by apply: ev_ext (h1 i) => x; rewrite H.
by apply: ev_ext (h2 i j) => x; rewrite H.
Qed.

Lemma moments_affine p r (v : (nat -> T) -> 'cV[R]_p) m K (A : 'M[R]_(r, p)) (b : 'cV[R]_r) :
  moments fin E v m K -> moments fin E (fun x => A *m v x + b) (A *m m + b) (A *m K *m A^T).
Proof.
move=> [h1 h2].
have H1 i : ev (fun x => \sum_k A i k * v x k 0) (\sum_k A i k * m k 0).
  by apply: ev_sum => k; apply: ev_scale; exact: h1.
have H2 i j : ev (fun x => \sum_k \sum_l A i k * A j l * (v x k 0 * v x l 0))
    (\sum_k \sum_l A i k * A j l * (K k l + m k 0 * m l 0)).
  by apply: ev_sum => k; apply: ev_sum => l; apply: ev_scale; exact: h2.
have D (x y : 'cV[R]_p) i j : (\sum_k A i k * x k 0) * (\sum_l A j l * y l 0) = \sum_k \sum_l A i k * A j l * (x k 0 * y l 0).
  rewrite mulr_suml; apply: eq_bigr => k _; rewrite mulr_sumr; apply: eq_bigr => l _.
  by rewrite mulrACA.
have EK i j : (A *m K *m A^T) i j = \sum_k \sum_l A i k * A j l * K k l.
  rewrite mxE exchange_big /=; apply: eq_bigr => l _; rewrite !mxE mulr_suml; apply: eq_bigr => k _.
  by rewrite mulrAC.
have Em i : (A *m m + b) i 0 = \sum_k A i k * m k 0 + b i 0 by rewrite !mxE.
have Ev x i : (A *m v x + b) i 0 = \sum_k A i k * v x k 0 + b i 0 by rewrite !mxE.
split=> [i|i j].
  rewrite Em; apply: ev_ext (ev_add (H1 i) (ev_const (b i 0))) => x; by rewrite Ev.
rewrite !Em EK.
have := ev_add (ev_add (H2 i j) (ev_scale (b j 0) (H1 i))) (ev_add (ev_scale (b i 0) (H1 j)) (ev_const (b i 0 * b j 0))).
set e := (X in ev _ X) => H.
have <- : e = \sum_k \sum_l A i k * A j l * K k l + (\sum_k A i k * m k 0 + b i 0) * (\sum_k A j k * m k 0 + b j 0).
  have -> : e = \sum_k \sum_l A i k * A j l * K k l + (\sum_k A i k * m k 0) * (\sum_k A j k * m k 0)
      + b j 0 * (\sum_k A i k * m k 0) + (b i 0 * (\sum_k A j k * m k 0) + b i 0 * b j 0).
    rewrite /e D; congr (_ + _ + _); rewrite -big_split; apply: eq_bigr => k _ /=; rewrite -big_split; apply: eq_bigr => l _ /=.
    by rewrite mulrDr.
  by crng.
apply: ev_ext H => x; rewrite !Ev -D; crng.
Qed.

Lemma moments_quad p (v : (nat -> T) -> 'cV[R]_p) m K f e : moments fin E v m K -> expects m K f e ->
  ev (fun x => f (v x)) e.
Proof.
move=> [h1 h2] [c [b [Q [Hf ->]]]].
have H1 : ev (fun x => \sum_i b i 0 * v x i 0) (\sum_i b i 0 * m i 0).
  by apply: ev_sum => i; apply: ev_scale; exact: h1.
have H2 : ev (fun x => \sum_i \sum_j Q i j * (v x j 0 * v x i 0)) (\sum_i \sum_j Q i j * (K j i + m j 0 * m i 0)).
  by apply: ev_sum => i; apply: ev_sum => j; apply: ev_scale; exact: h2.
have Eb (x : 'cV[R]_p) : (b^T *m x) 0 0 = \sum_i b i 0 * x i 0.
  by rewrite mxE; apply: eq_bigr => i _; rewrite mxE.
have Eq (x : 'cV[R]_p) : qf Q x = \sum_i \sum_j Q i j * (x j 0 * x i 0).
  rewrite /qf mxE exchange_big /=; apply: eq_bigr => j _; rewrite !mxE mulr_suml; apply: eq_bigr => i _.
  by rewrite mxE; crng.
have := ev_add (ev_add (ev_const c) H1) H2.
set e' := (X in ev _ X) => H.
suff -> : quad_expect m K c b Q = e'.
  by apply: ev_ext H => x; rewrite Hf /quad_fun Eb Eq.
rewrite /quad_expect Eb /e'; congr (_ + _).
rewrite /mxtrace; apply: eq_bigr => i _; rewrite mxE.
apply: eq_bigr => j _; congr (_ * _); rewrite !mxE big_ord1 mxE.
by [].
Qed.
End Moments.

Section Gen.
Variables (F : rcfType) (o d N : nat) (H : 'M[F]_(o, d)) (B : 'M[F]_(d, N)).
Lemma row_mean (m : 'cV[F]_N) (r : 'cV[F]_d) : row_mx (H *m B) H *m col_mx m r = H *m (B *m m) + H *m r.
Proof. by rewrite mul_row_col mulmxA. Qed.
Lemma row_draw (m : 'cV[F]_N) (r : 'cV[F]_d) : row_mx (H *m B) H *m col_mx m (r - B *m m) = H *m r.
Proof. by rewrite row_mean mulmxBr addrC subrK. Qed.
Lemma row_cov (K : 'M[F]_N) (V : 'M[F]_d) :
  row_mx (H *m B) H *m block_mx K 0 0 V *m (row_mx (H *m B) H)^T = H *m (V + B *m K *m B^T) *m H^T.
Proof.
rewrite mul_row_block !mulmx0 addr0 add0r tr_row_mx mul_row_col.
by rewrite trmx_mul addrC mulmxDr mulmxDl !mulmxA.
Qed.
Lemma gain_cov (K : 'M[F]_N) (C : 'M[F]_(d, N)) : spd K -> B = C *m invmx K -> B *m C^T = B *m K *m B^T.
Proof.
move=> HK EB; have uK : K \in unitmx by apply: spd_unit.
have sK : K^T = K by apply: spd_sym.
by rewrite {3}EB trmx_mul trmx_inv sK !mulmxA mulmxK.
Qed.
End Gen.

Section Elbo.
Variables (o d : nat) (ker : sde_kernel Rr d) (emission : R -> 'M[R]_(o, d)) (mean : R -> 'cV[R]_o).
Hypothesis Hker : markov_kernel ker.
Hypothesis Hm0 : k_mean0 ker = 0.
Variables (n : nat) (z : nat -> R).
Hypothesis Hz : increasing (F := Rr) n.+1 z.
Variables (q : ssm Rr d) (m' : nat -> 'cV[R]_d) (K' : nat -> nat -> 'M[R]_d).
Hypothesis Nq : ssm_nonsing n q.
Hypothesis Lq : has_law n.+1 n.+1 (ssm_path q) m' K'.
Variables (T : Type) (M : nat) (fin : ((nat -> T) -> R) -> Prop) (E : ((nat -> T) -> R) -> R).
Hypothesis HE : expectation M fin E.

Let Kzz := x_gram ker n.+1 z.

(* the moments of the function values at a data point are those of predict_f *)
Lemma draw_moments (X : nat -> R) i (s : (nat -> T) -> 'cV[R]_d) (u : (nat -> T) -> nat -> 'cV[R]_d) :
  covered n z (X i) -> drawn_given fin E ker n z m' K' (X i) s u ->
  let f := model_predict_f_full ker emission mean n q z X i in
  moments fin E (fun x => emission (X i) *m s x + mean (X i)) f.1 f.2 /\
  model_predict_f_diag ker emission mean n q z X i = (f.1, \col_c f.2 c c).
Proof.
move=> Hc; rewrite /drawn_given; cbv zeta => Hd.
have [Ef Ed] := predict_f_covered (fun i => emission (X i)) (fun i => mean (X i)) Hker Hm0 Hz Hc Nq Lq.
rewrite /model_predict_f_full /model_predict_f_diag Ef Ed; split=> //; cbn [fst snd].
move: Hd; rewrite -/Kzz.
set Ktz := brow n.+1 _; set B := Ktz *m invmx Kzz => Hd.
have := moments_affine HE (row_mx (emission (X i) *m B) (emission (X i))) (mean (X i)) Hd.
rewrite (@row_cov Rr) (@row_mean Rr) mulmx0 addr0 (@gain_cov Rr _ _ B Kzz Ktz (Kzz_spd Hker Hz) erefl) state_cov_diag //.
by apply: (moments_ext HE) => x; rewrite (@row_draw Rr).
Qed.

Variables (log_prob : 'cV[R]_o -> 'cV[R]_o -> R) (ve : 'cV[R]_o -> 'cV[R]_o -> 'cV[R]_o -> R).

Lemma elbo_expect (N : nat) (X : nat -> R) (Y : nat -> 'cV[R]_o) (u s : T -> nat -> 'cV[R]_d) :
  (forall i, (i < N)%N -> covered n z (X i)) ->
  moments fin E (fun x => flat n.+1 (u (x 0%N))) (flat n.+1 m') (dense n.+1 n.+1 K') ->
  (forall i, (i < N)%N -> drawn_given fin E ker n z m' K' (X i) (fun x => s (x 0%N) i) (fun x => u (x 0%N))) ->
  (forall i, (i < N)%N -> ve_contract fin E (fun x => emission (X i) *m s (x 0%N) i + mean (X i)) (Y i) log_prob ve) ->
  exists e lw,
  [/\ svgp_elbo ker emission mean ve n z None N X Y q = Some e,
      forall t, log_importance_weight ker emission mean log_prob n z q N X Y (s t) (u t) = Some (lw t) &
      ev fin E (fun x => lw (x 0%N)) e].
Proof.
move=> HX Hu Hs Hl; have [p [Ep Np Lp]] := kernel_law Hker Hz.
rewrite /svgp_elbo Ep /Option.map /Option.bind /Option.apply /log_importance_weight; cbv zeta beta.
eexists; exists (fun t => \sum_(i < N) log_prob (emission (X i) *m s t i + mean (X i)) (Y i) + (ssm_log_pdf n p (u t) - ssm_log_pdf n q (u t))).
split; first reflexivity.
  by move=> t; rewrite Ep.
have [_ Hkl _ _] := kl_law Nq Np Lq Lp.
rewrite mulr1; apply: (ev_add HE).
  apply: (ev_sum HE) => i.
  have [Hf ->] := draw_moments (HX _ (ltn_ord i)) (Hs _ (ltn_ord i)).
  exact: Hl (ltn_ord i) _ _ Hf.
have := ev_scale HE (-1) (moments_quad HE Hu Hkl); rewrite mulN1r.
apply: (ev_ext HE) => x.
rewrite !(log_pdf_law _ Np Lp) !(log_pdf_law _ Nq Lq) !flat_unflat mulN1r opprB.
by [].
Qed.
End Elbo.

Section Sampling.
Variables (F : rcfType) (d : nat).

Lemma law_mx e N' N (X : (nat -> 'cV[F]_d) -> nat -> 'cV[F]_e) m K : has_law N' N X m K ->
  exists A : 'M[F]_(N' * e, N * d), (forall eps, flat N' (X eps) = A *m flat N eps + flat N' m) /\ dense N' N' K = A *m A^T.
Proof.
move=> [G [H1 H2]]; exists (dense N' N G); split=> [eps|].
  rewrite mul_dense_flat flatD; apply: eq_flat => k Hk; rewrite H1 // addrC.
  by [].
rewrite tr_dense mul_dense; apply: eq_dense => i j Hi Hj; rewrite H2 //.
Qed.

(* the blocks of a long vector *)
Definition pick N' N (a : nat -> nat) : 'M[F]_(N' * d, N * d) := dense N' N (fun i j => if j == a i then 1%:M else 0).

Lemma pick_flat N' N a (x : nat -> 'cV[F]_d) : (forall i, (i < N')%N -> (a i < N)%N) ->
  pick N' N a *m flat N x = flat N' (fun i => x (a i)).
Proof.
move=> Ha; rewrite mul_dense_flat; apply: eq_flat => i Hi.
by rewrite sum_pick ?Ha // mul1mx.
Qed.

Lemma pick_dense N' N M' a b (K : nat -> nat -> 'M[F]_d) : (forall i, (i < N')%N -> (a i < N)%N) -> (forall i, (i < M')%N -> (b i < N)%N) ->
  pick N' N a *m dense N N K *m (pick M' N b)^T = dense N' M' (fun i j => K (a i) (b j)).
Proof.
move=> Ha Hb.
have H1 e (L : nat -> nat -> 'M[F]_(d, e)) P : pick N' N a *m dense N P L = dense N' P (fun i j => L (a i) j).
  rewrite mul_dense; apply: eq_dense => i j Hi Hj; by rewrite (sum_pick 1%:M (fun l => L l j)) ?Ha // mul1mx.
rewrite H1; apply: trmx_inj; rewrite trmx_mul trmxK !tr_dense mul_dense; apply: eq_dense => i j Hi Hj.
by rewrite (sum_pick 1%:M (fun l => (K (a j) l)^T)) ?Hb // mul1mx.
Qed.

Lemma pick_id N N' M' a b (c : bool) : (forall i, (i < N')%N -> (a i < N)%N) -> (forall i, (i < M')%N -> (b i < N)%N) ->
  (forall i j, (i < N')%N -> (j < M')%N -> (a i == b j) = c && (i == j)) ->
  pick N' N a *m (pick M' N b)^T = dense N' M' (fun i j => if c && (i == j) then 1%:M else 0).
Proof.
move=> Ha Hb Hc; rewrite -[pick N' N a]mulmx1 -(@dense1 F d N) pick_dense //; apply: eq_dense => i j Hi Hj.
by rewrite /bdiag Hc.
Qed.

(* u, the states at z drawn from q, and r, what the sample at t adds to the conditional
   mean, as one affine function of the noise *)
Lemma sample_parts (ker : sde_kernel F d) n nt (z tau : nat -> F) (pos_z : nat -> nat) pt joint (q : ssm F d) m' K' :
  markov_kernel ker -> k_mean0 ker = 0 -> increasing n.+1 z -> increasing nt.+1 tau ->
  (forall j, (j < n.+1)%N -> (pos_z j < nt.+1)%N /\ tau (pos_z j) = z j) ->
  (pt < nt.+1)%N -> (exists k, [/\ (k < n)%N, z k < tau pt & tau pt < z k.+1]) ->
  kernel_ssm nt ker tau = Some joint -> has_law n.+1 n.+1 (ssm_path q) m' K' ->
  let u (eps : nat -> 'cV[F]_d) := ssm_sample n q (fun l => eps (nt.+1 + l)%N) in
  let s (eps : nat -> 'cV[F]_d) := sample_state ker n z (tau pt) (ssm_sample nt joint eps pt) (fun j => ssm_sample nt joint eps (pos_z j)) (u eps) in
  let Ktz := brow n.+1 (fun j => state_cov ker (tau pt) (z j)) in
  let B := Ktz *m invmx (x_gram ker n.+1 z) in
  let N := (nt.+1 + n.+1)%N in
  exists A : 'M[F]_(n.+1 * d + d, N * d),
  (forall eps, col_mx (flat n.+1 (u eps)) (s eps - B *m flat n.+1 (u eps)) = A *m flat N eps + col_mx (flat n.+1 m') 0) /\
  A *m A^T = block_mx (dense n.+1 n.+1 K') 0 0 (state_cov ker (tau pt) (tau pt) - B *m Ktz^T).
Proof.
move=> Hker H0 Hz Htau Hpz Hpt Hin Ejoint Lq u s Ktz B N.
have Ltau : has_law nt.+1 nt.+1 (ssm_sample nt joint) (fun _ => k_mean0 ker) (fun i j => state_cov ker (tau i) (tau j)).
  by apply: sample_law; move: Ejoint; rewrite (kernel_ssmE ker Htau) => -[<-]; apply: kssm_law.
have [Ap [HAp KAp]] := law_mx Ltau.
have [Aq [HAq KAq]] := law_mx (sample_law Lq).
have flat0 : flat nt.+1 (fun _ => k_mean0 ker) = 0 by rewrite H0 /flat bcol0.
have h1 i : (i < nt.+1)%N -> (i < N)%N by rewrite /N; lia.
have h2 i : (i < n.+1)%N -> (nt.+1 + i < N)%N by rewrite /N; lia.
have hb j : (j < n.+1)%N -> (pos_z j < nt.+1)%N by case/Hpz.
have ht i : (i < 1)%N -> (pt < nt.+1)%N by [].
pose S1 := pick nt.+1 N id; pose S2 := pick n.+1 N (fun i => (nt.+1 + i)%N).
pose Pz := pick n.+1 nt.+1 pos_z; pose Pt := brow nt.+1 (fun l => if l == pt then 1%:M else 0 : 'M[F]_d).
have PtE e (c : nat -> 'M[F]_(d, e)) : Pt *m bcol nt.+1 c = c pt by rewrite mul_brow_bcol (sum_pick 1%:M c) // mul1mx.
have S11 : S1 *m S1^T = 1%:M.
  rewrite /S1 (pick_id (c := true)) // -(@dense1 F d nt.+1); apply: eq_dense => i j Hi Hj; by [].
have S22 : S2 *m S2^T = 1%:M.
  rewrite /S2 (pick_id (c := true)) // => [|i j Hi Hj]; last by rewrite eqn_add2l.
  rewrite -(@dense1 F d n.+1); apply: eq_dense => i j Hi Hj; by [].
have S21 : S2 *m S1^T = 0.
  rewrite /S2 /S1 (pick_id (c := false)) //; first exact: dense0.
  by move=> i j Hi Hj /=; apply/negbTE/eqP => E; move: E Hj => /= <-; lia.
have S12 : S1 *m S2^T = 0 by apply: trmx_inj; rewrite trmx_mul trmxK S21 trmx0.
have [k [Hk Hl Hr]] := Hin.
have uK : x_gram ker n.+1 z \in unitmx by apply: Kzz_unit.
pose J := brow n.+1 (cs_J ker n z (tau pt)).
have EJ : B = J.
  have E : Ktz = J *m x_gram ker n.+1 z.
    rewrite /x_gram dense_cols mul_mx_brow; apply: eq_brow => j Hj.
    rewrite /J mul_brow_bcol; exact: (J_cov Hker Hz Hk Hl Hr Hj).
  by rewrite /B E mulmxK.
exists (col_mx (Aq *m S2) ((Pt - B *m Pz) *m (Ap *m S1))); split=> [eps|].
  have Eu : flat n.+1 (u eps) = Aq *m S2 *m flat N eps + flat n.+1 m'.
    by rewrite /u HAq -mulmxA /S2 pick_flat.
  have Es : s eps - B *m flat n.+1 (u eps) = (Pt - B *m Pz) *m (Ap *m S1) *m flat N eps.
    move: B EJ => B0 EJ; rewrite -[RHS]mulmxA -[Ap *m S1 *m _]mulmxA /S1 pick_flat // -[Ap *m _]addr0 -flat0 -HAp mulmxBl PtE -[B0 *m Pz *m _]mulmxA.
    rewrite /Pz pick_flat // /s (sample_stateE ker Hz _ _ _ Hk Hl Hr).
    rewrite EJ /J /flat !mul_brow_bcol -addrA -opprD -big_split /=; congr (_ - _).
    by apply: eq_bigr => l _; rewrite -mulmxDr subrK.
  by rewrite mul_col_mx add_col_mx Es addr0 Eu.
rewrite tr_col_mx mul_col_row; congr block_mx.
- by rewrite trmx_mul mulmxA -[Aq *m S2 *m _]mulmxA S22 mulmx1 KAq.
- by rewrite !trmx_mul !mulmxA -[Aq *m S2 *m _]mulmxA S21 mulmx0 !mul0mx.
- by rewrite !trmx_mul !mulmxA -[_ *m S1 *m _]mulmxA S12 mulmx0 !mul0mx.
rewrite !trmx_mul !mulmxA -[_ *m S1 *m _]mulmxA S11 mulmx1 -[_ *m Ap *m _]mulmxA -KAp.
have K1 : Pt *m dense nt.+1 nt.+1 (fun i j => state_cov ker (tau i) (tau j)) = brow nt.+1 (fun j => state_cov ker (tau pt) (tau j)).
  by rewrite /dense PtE.
have K2 : Pt *m dense nt.+1 nt.+1 (fun i j => state_cov ker (tau i) (tau j)) *m Pz^T = Ktz.
  rewrite K1; apply: trmx_inj; rewrite trmx_mul trmxK !tr_brow /Pz /pick mul_dense_bcol; apply: eq_bcol => j Hj.
  rewrite (sum_pick 1%:M (fun l => (state_cov ker (tau pt) (tau l))^T)) ?hb // mul1mx.
  by case: (Hpz j Hj) => _ ->.
have K3 : Pt *m dense nt.+1 nt.+1 (fun i j => state_cov ker (tau i) (tau j)) *m Pt^T = state_cov ker (tau pt) (tau pt).
  by rewrite K1; apply: trmx_inj; rewrite trmx_mul trmxK tr_brow PtE.
have K4 : Pz *m dense nt.+1 nt.+1 (fun i j => state_cov ker (tau i) (tau j)) *m Pz^T = x_gram ker n.+1 z.
  rewrite /Pz pick_dense //; apply: eq_dense => i j Hi Hj; by case: (Hpz j Hj) => _ ->; case: (Hpz i Hi) => _ ->.
have K5 : Pz *m dense nt.+1 nt.+1 (fun i j => state_cov ker (tau i) (tau j)) *m Pt^T = Ktz^T.
  rewrite -K2 !trmx_mul trmxK mulmxA; congr (_ *m _ *m _).
  by rewrite tr_dense; apply: eq_dense => i j Hi Hj; rewrite state_cov_tr.
set C := dense _ _ _ in K1 K2 K3 K4 K5 *.
rewrite linearB /= trmx_mul mulmxBl mulmxBl mulmxBr K3 mulmxBr !mulmxA K2 -[B *m Pz *m C]mulmxA -[B *m (Pz *m C) *m Pt^T]mulmxA K5.
rewrite -[B *m (Pz *m C) *m Pz^T]mulmxA K4.
have -> : B *m x_gram ker n.+1 z = Ktz by rewrite /B mulmxKV.
by rewrite opprB addrA subrK.
Qed.

Lemma gain_at (ker : sde_kernel F d) n z k : markov_kernel ker -> increasing n.+1 z -> (k < n.+1)%N ->
  let Ktz := brow n.+1 (fun j => state_cov ker (z k) (z j)) in
  let B := Ktz *m invmx (x_gram ker n.+1 z) in
  (forall v, B *m flat n.+1 v = v k) /\ state_cov ker (z k) (z k) - B *m Ktz^T = 0.
Proof.
move=> Hker Hz Hk Ktz B.
have uK : x_gram ker n.+1 z \in unitmx by apply: Kzz_unit.
pose J := brow n.+1 (fun l => if l == k then 1%:M else 0 : 'M[F]_d).
have Emul e (c : nat -> 'M[F]_(d, e)) : J *m bcol n.+1 c = c k.
  by rewrite /J mul_brow_bcol (sum_pick 1%:M c) // mul1mx.
have EB : B = J by rewrite /B -[RHS](mulmxK uK) /x_gram /dense Emul.
split=> [v|]; first by rewrite EB /flat Emul.
by rewrite EB tr_brow Emul state_cov_tr // subrr.
Qed.

Lemma col_one p r (K : 'M[F]_p) : col_mx 1%:M (0 : 'M[F]_(r, p)) *m K *m (col_mx 1%:M (0 : 'M[F]_(r, p)))^T = block_mx K 0 0 0.
Proof. by rewrite mul_col_mx mul1mx mul0mx tr_col_mx mul_col_row trmx1 trmx0 !mulmx1 !mulmx0. Qed.
Lemma col_one_v p r (v : 'cV[F]_p) : col_mx 1%:M (0 : 'M[F]_(r, p)) *m v + 0 = col_mx v 0.
Proof. by rewrite mul_col_mx mul1mx mul0mx addr0. Qed.
End Sampling.

Section Final.
Variables (o d : nat) (ker : sde_kernel Rr d) (emission : R -> 'M[R]_(o, d)) (mean : R -> 'cV[R]_o).
Hypothesis Hker : markov_kernel ker.
Hypothesis Hm0 : k_mean0 ker = 0.
Variables (n : nat) (z : nat -> R).
Hypothesis Hz : increasing (F := Rr) n.+1 z.
Variables (q : ssm Rr d) (m' : nat -> 'cV[R]_d) (K' : nat -> nat -> 'M[R]_d).
Hypothesis Nq : ssm_nonsing n q.
Hypothesis Lq : has_law n.+1 n.+1 (ssm_path q) m' K'.

(* ---------- consequences of the expected log weight being e ---------- *)
Lemma draws_bound (T : Type) (M : nat) (fin : ((nat -> T) -> R) -> Prop) (E : ((nat -> T) -> R) -> R) (lw : T -> R) e :
  expectation M fin E -> ev fin E (fun x => lw (x 0%N)) e ->
  let L K (x : nat -> T) := iw_elbo K (fun k => lw (x k)) in
  let w (x : nat -> T) := exp (lw (x 0%N)) in
  fin w -> (forall K, (0 < K <= M)%N -> fin (L K)) ->
  forall K, (0 < K <= M)%N -> e <= E (L K) /\ E (L K) <= ln (E w).
Proof.
move=> HE [h1 h2] L w Hw HL K /andP[HK HKM].
have HM : (0 < M)%N by apply: leq_trans HKM.
have [b1 b2 b3] := iw_bound HE HM Hw HL; split; last exact: b3.
elim: K HK HKM => [//|K IH] _ HKM.
case: (posnP K) => [->|HK]; first by rewrite b1 h2.
by apply: le_trans (IH HK (ltnW HKM)) _; exact: b2.
Qed.

Lemma white_affine (T : Type) (M : nat) (fin : ((nat -> T) -> R) -> Prop) (E : ((nat -> T) -> R) -> R) P r (w : (nat -> T) -> 'cV[R]_P)
    (A : 'M[R]_(r, P)) b (v : (nat -> T) -> 'cV[R]_r) K :
  expectation M fin E -> moments fin E w 0 1%:M -> (forall x, v x = A *m w x + b) -> A *m A^T = K ->
  moments fin E v b K.
Proof.
move=> HE Hw Hv HK.
have := moments_affine HE A b Hw; rewrite mulmx0 add0r mulmx1 HK.
by apply: (moments_ext HE) => x; rewrite Hv.
Qed.

Variables (M : nat) (fin : ((nat -> (nat -> 'cV[R]_d)) -> R) -> Prop) (E : ((nat -> (nat -> 'cV[R]_d)) -> R) -> R).
Hypothesis HE : expectation M fin E.
Variables (log_prob : 'cV[R]_o -> 'cV[R]_o -> R) (ve : 'cV[R]_o -> 'cV[R]_o -> 'cV[R]_o -> R).

Theorem sparse_any nt (tau : nat -> R) (pos_z pos_t : nat -> nat) joint N (Y : nat -> 'cV[R]_o) :
  increasing (F := Rr) nt.+1 tau ->
  (forall j, (j < n.+1)%N -> (pos_z j < nt.+1)%N /\ tau (pos_z j) = z j) ->
  (forall i, (i < N)%N -> (pos_t i < nt.+1)%N /\ exists k, [/\ (k < n)%N, z k < tau (pos_t i) & tau (pos_t i) < z k.+1]) ->
  kernel_ssm nt ker tau = Some joint ->
  moments fin E (fun x => flat (nt.+1 + n.+1) (x 0%N)) 0 1%:M ->
  let X i := tau (pos_t i) in
  let u (eps : nat -> 'cV[R]_d) := ssm_sample n q (fun l => eps (nt.+1 + l)%N) in
  let s eps i := sample_state ker n z (X i) (ssm_sample nt joint eps (pos_t i)) (fun j => ssm_sample nt joint eps (pos_z j)) (u eps) in
  (forall i, (i < N)%N -> ve_contract fin E (fun x => emission (X i) *m s (x 0%N) i + mean (X i)) (Y i) log_prob ve) ->
  exists e lw,
  [/\ svgp_elbo ker emission mean ve n z None N X Y q = Some e,
      forall eps, log_importance_weight ker emission mean log_prob n z q N X Y (s eps) (u eps) = Some (lw eps),
      fin (fun x => lw (x 0%N)) /\ E (fun x => lw (x 0%N)) = e &
      let L K (x : nat -> nat -> 'cV[R]_d) := iw_elbo K (fun k => lw (x k)) in
      let w (x : nat -> nat -> 'cV[R]_d) := exp (lw (x 0%N)) in
      fin w -> (forall K, (0 < K <= M)%N -> fin (L K)) ->
      forall K, (0 < K <= M)%N -> e <= E (L K) /\ E (L K) <= ln (E w)].
Proof.
move=> Htau Hpz Hpt Ej Hw X u s Hl.
have HX i : (i < N)%N -> covered n z (X i) by move=> Hi; left; case: (Hpt i Hi).
have Hu : moments fin E (fun x => flat n.+1 (u (x 0%N))) (flat n.+1 m') (dense n.+1 n.+1 K').
  have [A [HA KA]] := law_mx (sample_law Lq).
  pose S2 := @pick Rr d n.+1 (nt.+1 + n.+1) (fun i => (nt.+1 + i)%N).
  apply: (@white_affine _ M fin E _ _ _ (A *m S2) _ _ _ HE Hw) => [x|].
    by rewrite /u HA -mulmxA /S2 (@pick_flat Rr) // => i Hi; rewrite ltn_add2l.
  rewrite KA trmx_mul !mulmxA -[A *m S2 *m _]mulmxA.
  have -> : S2 *m S2^T = 1%:M; last by rewrite mulmx1.
  rewrite /S2 (@pick_id Rr _ _ _ _ _ _ true) // => [|i Hi|i Hi|i j Hi Hj]; rewrite ?ltn_add2l ?eqn_add2l //.
  rewrite -(@dense1 Rr d n.+1); apply: eq_dense => i j Hi Hj; by [].
have Hs i : (i < N)%N -> drawn_given fin E ker n z m' K' (X i) (fun x => s (x 0%N) i) (fun x => u (x 0%N)).
  move=> Hi; have [Hp Hin] := Hpt i Hi.
  have [A [HA KA]] := @sample_parts Rr d ker n nt z tau pos_z (pos_t i) joint q m' K' Hker Hm0 Hz Htau Hpz Hp Hin Ej Lq.
  by apply: (@white_affine _ M fin E _ _ _ A _ _ _ HE Hw) => [x|//]; exact: HA.
have [e [lw [H1 H2 H3]]] := @elbo_expect o d ker emission mean Hker Hm0 n z Hz q m' K' Nq Lq _ M fin E HE log_prob ve N X Y u s HX Hu Hs Hl.
exists e, lw; split=> //; exact: draws_bound.
Qed.

(* the state at one of the conditioning points *)
Lemma drawn_at (u : (nat -> (nat -> 'cV[R]_d)) -> nat -> 'cV[R]_d) k : (k < n.+1)%N ->
  moments fin E (fun x => flat n.+1 (u x)) (flat n.+1 m') (dense n.+1 n.+1 K') ->
  drawn_given fin E ker n z m' K' (z k) (fun x => u x k) u.
Proof.
move=> Hk Hu; rewrite /drawn_given; cbv zeta.
have [H1 H2] := @gain_at Rr d ker n z k Hker Hz Hk; rewrite H2.
have := moments_affine HE (col_mx 1%:M (0 : 'M[R]_(d, n.+1 * d))) 0 Hu.
rewrite (@col_one Rr) (@col_one_v Rr).
by apply: (moments_ext HE) => x; rewrite H1 subrr (@col_one_v Rr).
Qed.

Theorem dense_any (Y : nat -> 'cV[R]_o) :
  - APPROX_INF Rr < z 0%N ->
  moments fin E (fun x => flat n.+1 (x 0%N)) 0 1%:M ->
  let u := ssm_sample n q in
  (forall i, (i < n.+1)%N -> ve_contract fin E (fun x => emission (z i) *m u (x 0%N) i + mean (z i)) (Y i) log_prob ve) ->
  exists e lw,
  [/\ vgp_elbo ker emission mean ve n z Y q = Some e,
      forall eps, log_importance_weight ker emission mean log_prob n z q n.+1 z Y (u eps) (u eps) = Some (lw eps),
      fin (fun x => lw (x 0%N)) /\ E (fun x => lw (x 0%N)) = e &
      let L K (x : nat -> nat -> 'cV[R]_d) := iw_elbo K (fun k => lw (x k)) in
      let w (x : nat -> nat -> 'cV[R]_d) := exp (lw (x 0%N)) in
      fin w -> (forall K, (0 < K <= M)%N -> fin (L K)) ->
      forall K, (0 < K <= M)%N -> e <= E (L K) /\ E (L K) <= ln (E w)].
Proof.
move=> Hinf Hw u Hl.
have HX i : (i < n.+1)%N -> covered n z (z i) by move=> Hi; right; exists i.
have Hu : moments fin E (fun x => flat n.+1 (u (x 0%N))) (flat n.+1 m') (dense n.+1 n.+1 K').
  have [A [HA KA]] := law_mx (sample_law Lq).
  by apply: (@white_affine _ M fin E _ _ _ A _ _ _ HE Hw) => [x|]; rewrite ?HA.
have Hs i : (i < n.+1)%N -> drawn_given fin E ker n z m' K' (z i) (fun x => u (x 0%N) i) (fun x => u (x 0%N)).
  by move=> Hi; exact: drawn_at.
have [e [lw [H1 H2 H3]]] := @elbo_expect o d ker emission mean Hker Hm0 n z Hz q m' K' Nq Lq _ M fin E HE log_prob ve n.+1 z Y u u HX Hu Hs Hl.
exists e, lw; split=> //; last exact: draws_bound.
by move: H1; rewrite /svgp_elbo /vgp_elbo; case: (kernel_ssm n ker z) => [p0|] //; rewrite /Option.map /Option.bind /Option.apply; cbv zeta beta; rewrite mulr1.
Qed.
End Final.

(* ---------- the Gaussian likelihood meets the contract of the variational expectations ---------- *)
Lemma gaussian_contract (T : Type) (M : nat) (fin : ((nat -> T) -> R) -> Prop) (E : ((nat -> T) -> R) -> R) o (f : (nat -> T) -> 'cV[R]_o) y (s2 : R) :
  expectation M fin E ->
  ve_contract fin E f y
    (fun f y => \sum_(c < o) (- 2%:R^-1 * ln (2%:R * PI) - 2%:R^-1 * ln s2 - 2%:R^-1 * (y c 0 - f c 0) ^+ 2 / s2)) (ext_gaussian_ve s2).
Proof.
move=> HE a V [h1 h2]; apply: (ev_sum HE) => c.
have H : ev fin E (fun x => (y c 0 - f x c 0) ^+ 2) ((y c 0 - a c 0) ^+ 2 + (\col_c V c c) c 0).
  have := ev_add HE (ev_add HE (ev_const HE (y c 0 ^+ 2)) (ev_scale HE (- (2%:R * y c 0)) (h1 c))) (h2 c c).
  have -> : y c 0 ^+ 2 + - (2%:R * y c 0) * a c 0 + (V c c + a c 0 * a c 0) = (y c 0 - a c 0) ^+ 2 + (\col_c V c c) c 0.
    by rewrite [(\col__ _) _ _]mxE; crng.
  by apply: (ev_ext HE) => x; crng.
have := ev_add HE (ev_const HE (- 2%:R^-1 * ln (2%:R * PI) - 2%:R^-1 * ln s2)) (ev_scale HE (- (2%:R^-1 / s2)) H).
have G (b t : R) : b + - (2%:R^-1 / s2) * t = b - 2%:R^-1 * t / s2 by rewrite mulNr mulrAC.
rewrite G; apply: (ev_ext HE) => x; exact: G.
Qed.

(* ---------- an expectation with white noise: uniform signs, the same draw repeated ---------- *)
Section Signs.
Variables (d P : nat).
Definition sign_vec (t : {ffun 'I_(P * d) -> bool}) : 'cV[R]_(P * d) := \col_i (if t i then 1 else -1).
Definition sign_expect (f : (nat -> (nat -> 'cV[R]_d)) -> R) : R :=
  (\sum_(t : {ffun 'I_(P * d) -> bool}) f (fun _ => unflat (sign_vec t))) / (#|{ffun 'I_(P * d) -> bool}|)%:R.

Let card_gt0 : 0 < (#|{ffun 'I_(P * d) -> bool}|)%:R :> R.
Proof. by rewrite ltr0n; apply/card_gt0P; exists [ffun _ => true]. Qed.

Let sum_c (c : R) : \sum_(t : {ffun 'I_(P * d) -> bool}) c = c * (#|{ffun 'I_(P * d) -> bool}|)%:R.
Proof. by rewrite sumr_const mulr_natr. Qed.

Lemma sign_expectation M : expectation M (fun _ => True) sign_expect.
Proof.
split=> //.
- by move=> c; split=> //; rewrite /sign_expect sum_c mulfK ?gt_eqF.
- by move=> f g _ _; split=> //; rewrite /sign_expect big_split mulrDl.
- by move=> a f _; split=> //; rewrite /sign_expect -mulr_sumr mulrA.
- by move=> f g _ _ H; rewrite /sign_expect ler_pmul2r ?invr_gt0 //; apply: ler_sum.
- move=> i j f _ _ _; split=> //; rewrite /sign_expect; congr (_ / _); apply: eq_bigr => t _; congr (f _).
  by apply: FunctionalExtensionality.functional_extensionality => k; rewrite /swap_draws; case: ifP => // _; case: ifP.
Qed.

Let flip (i : 'I_(P * d)) (t : {ffun 'I_(P * d) -> bool}) : {ffun 'I_(P * d) -> bool} := [ffun j => if j == i then ~~ t j else t j].
Let flipK i : involutive (flip i).
Proof. by move=> t; apply/ffunP => j; rewrite !ffunE; case: eqP => // _; rewrite negbK. Qed.

Lemma sign_moments : moments (fun _ => True) sign_expect (fun x => flat P (x 0%N)) 0 1%:M.
Proof.
have sv t i : sign_vec t i 0 = if t i then 1 else -1 by rewrite mxE.
have anti (g : {ffun 'I_(P * d) -> bool} -> R) i : (forall t, g (flip i t) = - g t) -> \sum_t g t = 0.
  move=> H; have E : \sum_t g t = - \sum_t g t.
    by rewrite {1}(reindex_inj (inv_inj (flipK i))) -sumrN; apply: eq_bigr => t _; rewrite H.
  apply/eqP; have := congr1 (fun x => x + \sum_t g t) E; rewrite addNr -mulr2n => /eqP.
  by rewrite mulrn_eq0.
split=> [i|i j]; split=> //; rewrite /sign_expect.
  rewrite (anti (fun t => flat P (unflat (sign_vec t)) i 0) i) ?mul0r ?mxE // => t.
  by rewrite !flat_unflat !sv ffunE eqxx; case: (t i) => /=; rewrite ?opprK.
rewrite [X in _ = X + _]mxE [(0 : 'cV_ _) i 0]mxE mul0r addr0.
case: (eqVneq i j) => [<-|Hij].
  rewrite (eq_bigr (fun _ => 1)) => [|t _]; last by rewrite !flat_unflat !sv; case: (t i); rewrite ?mulrNN mulr1.
  by rewrite sum_c mul1r mulfV // gt_eqF.
rewrite (anti (fun t => flat P (unflat (sign_vec t)) i 0 * flat P (unflat (sign_vec t)) j 0) i) ?mul0r // => t.
rewrite !flat_unflat !sv !ffunE eqxx [j == i]eq_sym (negbTE Hij) -mulNr.
by case: (t i) => /=; rewrite ?opprK.
Qed.
End Signs.

Lemma any_example (l v s2 : R) n (mu b : 'cV[R]_2) M : 0 < l -> 0 < v ->
  let ker := to_sde (matern32 1 0 l v 0) in
  let z i : R := i%:R in let tau i : R := i%:R / 2%:R in
  let pos_z j := (2 * j)%N in let pos_t i := (2 * i + 1)%N in
  let P := ((2 * n).+1 + n.+1)%N in
  [/\ markov_kernel ker, k_mean0 ker = 0, exists joint, kernel_ssm (2 * n) ker tau = Some joint,
      ssm_nonsing n (ex_ssm (F := Rr) mu b) &
      [/\ expectation M (fun _ => True) (sign_expect (d := 2) P),
          moments (fun _ => True) (sign_expect (d := 2) P) (fun x => flat P (x 0%N)) 0 1%:M &
          forall (f : (nat -> nat -> 'cV[R]_2) -> 'cV[R]_1) y, ve_contract (fun _ => True) (sign_expect (d := 2) P) f y
            (fun f y => \sum_(c < 1) (- 2%:R^-1 * ln (2%:R * PI) - 2%:R^-1 * ln s2 - 2%:R^-1 * (y c 0 - f c 0) ^+ 2 / s2)) (ext_gaussian_ve s2)]].
Proof.
move=> Hl Hv ker z tau pos_z pos_t P.
have [H1 H2 _ _ H3] := models_example n mu b Hl Hv.
have [_ Ht _ _] := @half_grid Rr n.
split=> //.
  by have [S [ES _ _]] := kernel_law H1 Ht; exists S.
split; [exact: sign_expectation|exact: sign_moments|].
by move=> f y; apply: gaussian_contract; exact: (sign_expectation 2 P 1).
Qed.
