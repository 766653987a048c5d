(* Further witnesses and boundary cases for kernels and their combinations. *)
From Coq Require Import Reals Lra.
From mathcomp Require Import all_ssreflect all_algebra.
From Verif Require Import RealStruct Log Nat Alg Lin Ent Spd M_SSM S_SSM P_SSM M_SSMLog P_SSMLog M_Kernel S_Kernel P_Kernel M_Cond P_Cond P_Cond3 P_Cond4
  M_Comb S_Comb P_Kron P_Comb P_Comb2 P_Comb3 MCalc MExp MLyap M_KernelR P_Matern S_KernelR P_KernelR P_KernelR2.
Set Implicit Arguments.
Unset Strict Implicit.
Unset Printing Implicit Defensive.
Import Order.Theory GRing.Theory Num.Theory.
Local Open Scope ring_scope.

(* ---------- C62: extrapolation is not exact ---------- *)
Lemma extrapolate_gen (F : rcfType) (A : F -> 'M[F]_1) Fb P (a : F -> F) n z t t0 post m' K'
    (K := to_sde (base_kernel 1 A Fb P 0 0)) :
  markov_kernel K -> (forall t, A t = (a t)%:M) -> (forall t, 0 < a t) ->
  increasing n.+1 z -> z n < t -> t < APPROX_INF F ->
  ssm_nonsing n post -> has_law n.+1 n.+1 (ssm_path post) m' K' -> m' n != 0 ->
  (predict_state K n post z t0 t).1 <> A (t - z n) *m m' n.
Proof.
move=> HK EA Ha Hz H1 H2 Hp HL Hm.
rewrite (predict_right HK Hz t0 H1 H2 Hp HL); cbv zeta.
have HQ := mk_cov_spd HK (z n) (a := t - z n).
have HQ' := mk_cov_spd HK t (a := APPROX_INF F - t).
rewrite !subr_gt0 in HQ HQ'; move: (HQ H1) (HQ' H2).
move: (k_cov K _ _) (k_cov K _ _) => Q Q' {HQ} {}HQ {HQ'} {}HQ'.
rewrite /K /= !EA sub0r.
have pos M : spd (M : 'M[F]_1) -> exists2 q, 0 < q & M = q%:M.
  move=> HM; exists (M 0 0); last by apply/matrixP => i j; rewrite !ord1 mxE eqxx mulr1n.
  have := HM.2 1%:M; rewrite /qf trmx1 mul1mx mulmx1; apply.
  by apply/eqP => /matrixP /(_ 0 0); rewrite !mxE /=; apply/eqP; rewrite oner_eq0.
have [q Hq ->] := pos _ HQ; have [q' Hq' ->] := pos _ HQ'.
have He := Ha (APPROX_INF F - t); have He' := Ha (t - z n).
move: (a _) (a _) He He' => e' e He He'.
rewrite tr_scalar_mx -!scalar_mxM -raddfD /= invmx_scalar -!scalar_mxM.
have [x Ex Hx] : exists2 x, m' n = x%:M & x != 0.
  have Ex : m' n = (m' n 0 0)%:M by apply/matrixP => i j; rewrite !ord1 mxE eqxx mulr1n.
  by exists (m' n 0 0) => //; apply: contra Hm => /eqP H; rewrite Ex H raddf0.
rewrite Ex -!scalar_mxM -raddfN /= -scalar_mxM -raddfD /=.
move=> /matrixP /(_ 0 0); rewrite !mxE eqxx !mulr1n => /eqP.
rewrite -[X in _ == X]addr0 (inj_eq (addrI _)) mulrN oppr_eq0 !mulf_eq0 invr_eq0.
rewrite (negbTE Hx) !(gt_eqF He) !(gt_eqF He') !(gt_eqF Hq) /= !orbF.
by rewrite gt_eqF // addr_gt0 // !mulr_gt0.
Qed.

Lemma m12_extrapolate (l s2 : R) n z (t t0 : R) post m' K' : 0 < l -> 0 < s2 ->
  increasing (F := Rr) n.+1 z -> z n < t -> t < APPROX_INF Rr ->
  ssm_nonsing n post -> has_law n.+1 n.+1 (ssm_path post) m' K' -> m' n != 0 ->
  let k := matern12 1 0 l s2 0 in
  (predict_state (to_sde k) n post z t0 t).1 <> sk_A k (t - z n) *m m' n.
Proof.
move=> Hl Hs Hz H1 H2 Hp HL Hm k.
apply: (@extrapolate_gen Rr _ _ _ (fun t => exp (- l^-1 * t)) n z t t0 post m' K') => //.
- exact: m12_markov.
- by move=> s; have := m12_A 1 0 l s2 0 s.
- by move=> s; apply/RltP; apply: exp_pos.
Qed.

(* ---------- C68: the jitter accumulates along the grid ---------- *)
Lemma const_jitter_law o (jitter s2 : R) n z : 0 < s2 -> 0 <= jitter -> increasing (F := Rr) n.+1 z ->
  prior_f_law (constant_kernel o jitter s2) n z (fun _ => 0)
    (fun i j => const_mx (s2 + (minn i j).+1%:R * jitter)).
Proof.
move=> Hs Hj Hz.
have HA0 : sk_A (constant_kernel o jitter s2) 0 = 1%:M by [].
have Hc : covered (constant_kernel o jitter s2).
  move: Hj; rewrite le_eqVlt => /orP [/eqP <-|H]; [left|by right].
  by split=> //; right; apply: const_noiseless.
apply: (prior_f_law_ext (law_gen (const_good _ _ Hs) Hz Hc HA0 (mu := fun _ => 0) _ _)) => //.
- by move=> i _; rewrite /= mulmx0 /own_offsets mulmx0 addr0.
- by move=> i _; rewrite mulmx0.
move=> i j _ _; rewrite /fcov_jitter const_cov /=.
rewrite (eq_bigr (fun _ => 1%:M)); last by move=> l _; rewrite trmx1 mulmx1.
rewrite sumr_const card_ord -scaler_nat -scalemxAr -scalemxAl first_emissionE.
by apply/matrixP => a b; rewrite !mxE eqxx mulr1 mulrC.
Qed.

(* ---------- C69: the emission of a product of kernels with several outputs ---------- *)
Lemma product_shape (F : rcfType) o (ks : seq (child F o.+1)) : (0 < size ks)%N ->
  product_emission_shape ks <> None <-> (o = 0%N \/ size ks = 1%N).
Proof.
move=> Hk; rewrite /product_emission_shape /prod_rows big_const_seq count_predT.
have -> : iter (size ks) (muln o.+1) 1%N = (o.+1 ^ size ks)%N.
  by elim: (size ks) => [|m IH]; rewrite ?expn0 // iterS IH expnS.
rewrite xpair_eqE eqxx andbT -[X in _ == X]expn1; move: (prod_cols ks) (size ks) Hk => c m Hk {ks}.
have [->|Ho] := eqVneq o 0%N; first by rewrite !exp1n eqxx; split=> // _; left.
rewrite eqn_exp2l; last by rewrite ltnS lt0n.
have [->|H] := eqVneq m 1%N; first by split=> // _; right.
by split=> // -[E|E]; [rewrite E in Ho|rewrite E in H].
Qed.

(* ---------- C70: noisy and noiseless children together ---------- *)
Lemma concat_step_degenerate (F : rcfType) o o' (ks : seq (child F o)) (E : F -> 'M[F]_(o', concat_dim ks)) jitter (a : F) :
  0 < a -> some (fun d k => noisy k /\ (0 < d)%N) ks -> some (fun d k => noiseless k /\ (0 < d)%N) ks ->
  step_cov (concat_kernel E jitter) a <> 0 /\ ~ spd (step_cov (concat_kernel E jitter) a).
Proof.
move=> Ha H1 H2; rewrite concat_step.
have spd0 d : spd (0 : 'M[F]_d.+1) -> False.
  move=> [_ /(_ (const_mx 1))]; rewrite /qf mulmx0 mul0mx mxE ltxx.
  by move=> H; apply: not_false_is_true (H _); apply/eqP => /matrixP /(_ 0 0); rewrite !mxE; apply/eqP; rewrite oner_eq0.
split.
- case: H1 => k0 Hin [Hn Hd] H; have Hs := Hn a Ha.
  suff E0 : step_cov (projT2 k0) a = 0.
    by rewrite E0 in Hs; move: (projT2 k0) Hs Hd {Hn E0}; case: (projT1 k0) => // d _ /spd0.
  elim: ks k0 Hin H {E H2 Hn Hd Hs} => // k ks IH k0 /= [->|Hin] H.
    by have := congr1 ulsubmx H; rewrite block_mxKul => ->; apply/matrixP => i j; rewrite !mxE.
  by apply: IH => //; have := congr1 drsubmx H; rewrite block_mxKdr => ->; apply/matrixP => i j; rewrite !mxE.
- case: H2 => k0 Hin [Hn Hd] H; have Hs := Hn a Ha.
  suff E0 : spd (step_cov (projT2 k0) a).
    by rewrite Hs in E0; move: (projT2 k0) E0 Hd {Hn Hs}; case: (projT1 k0) => // d _ /spd0.
  elim: ks k0 Hin H {E H1 Hn Hd Hs} => // k ks IH k0 /= [->|Hin] H.
    by have := spd_ul H; rewrite block_mxKul.
  by apply: IH => //; have := spd_dr H; rewrite block_mxKdr.
Qed.

Lemma not_spd_no_factor (F : rcfType) d (Q : 'M[F]_d) : ~ spd Q -> forall L, lownz L -> L *m L^T <> Q.
Proof. by move=> H L HL E; apply: H; rewrite -E; apply/spd_mul_tr/lownz_unit. Qed.

Lemma stack_step_degenerate (F : rcfType) d e (k : skernel F 1 d.+1) (m : 'cV[F]_(d.+1 + e.+1)) jitter (a : F) :
  0 < a -> noiseless k ->
  step_cov (stack_kernel k m jitter) a <> 0 /\ ~ spd (step_cov (stack_kernel k m jitter) a).
Proof.
move=> Ha Hn; rewrite stack_step (Hn a Ha); split=> [H|H].
  have := congr1 drsubmx H; rewrite block_mxKdr => /matrixP /(_ 0 0); rewrite !mxE /=.
  by apply/eqP; rewrite oner_eq0.
have := spd_ul H; rewrite block_mxKul => -[_ /(_ (const_mx 1))]; rewrite /qf mulmx0 mul0mx mxE ltxx.
by move=> H'; apply: not_false_is_true (H' _); apply/eqP => /matrixP /(_ 0 0); rewrite !mxE; apply/eqP; rewrite oner_eq0.
Qed.

(* ---------- C39: the mean of a Sum decays, that of a stack rises ---------- *)
Lemma exp_lt1 (l a : R) : 0 < l -> 0 < a -> exp (- l^-1 * a) != 1.
Proof.
move=> Hl Ha; rewrite lt_eqF // -[X in _ < X]exp_0; apply/RltP; apply: exp_increasing; apply/RltP.
by rewrite -[X in _ < X]/(0 : Rr) mulNr oppr_lt0 mulr_gt0 // invr_gt0.
Qed.

Lemma first_emission11 (F : rcfType) : first_emission F 1 1 = 1%:M.
Proof. by apply/matrixP => i j; rewrite !ord1 !mxE. Qed.

Lemma scal1_neq (F : rcfType) (e : F) (m : 'cV[F]_1) : e != 1 -> m != 0 -> e%:M *m m <> m.
Proof.
move=> He Hm /eqP; rewrite mul_scalar_mx -subr_eq0 -[X in _ - X]scale1r -scalerBl scaler_eq0 subr_eq0.
by rewrite (negbTE He) (negbTE Hm).
Qed.

Lemma sum_mean_decays (l s2 : R) (m : 'cV[R]_1) n z mf K : 0 < l -> 0 < s2 -> m != 0 ->
  increasing (F := Rr) n.+2 z ->
  prior_f_law (sum_kernel [:: mkchild (matern12 1 0 l s2 m)] 0) n.+1 z mf K ->
  mf 0%N = m /\ forall i, (i <= n)%N -> mf i.+1 <> m.
Proof.
move=> Hl Hs Hm Hz HL.
have Hlaw := @sum_law Rr 1 [:: mkchild (matern12 1 0 l s2 m)] 0 n.+1 z.
have one (p : forall d, skernel Rr 1 d -> Prop) : p _ (matern12 1 0 l s2 m) -> every p [:: mkchild (matern12 1 0 l s2 m)].
  by move=> Hp k /= [<-|].
have {}Hlaw := Hlaw (one _ (m12_good m Hl Hs)) (one _ (m12_A0 l s2 m)).
have {}Hlaw := Hlaw (or_introl (conj (or_introl (one _ (m12_noisy m Hl Hs))) erefl)) Hz.
have [E _] := prior_f_law_unique HL Hlaw.
split=> [|i Hi].
  rewrite E // big_cons big_nil addr0 /= subrr -[X in X *m m]/(sk_A (matern12 1 0 l s2 m) 0) m12_A0.
  by rewrite mul1mx first_emission11 mul1mx.
rewrite E // big_cons big_nil addr0 /= first_emission11 mul1mx.
rewrite -[X in X *m m]/(sk_A (matern12 1 0 l s2 m) (z i.+1 - z 0%N)) m12_A.
apply: (@scal1_neq Rr) => //; apply: exp_lt1 => //; rewrite subr_gt0.
by apply: (increasing_lt Hz).
Qed.

Lemma stack_mean_rises (l s2 : R) (m : 'cV[R]_1) e n z mf K : 0 < l -> 0 < s2 -> m != 0 ->
  increasing (F := Rr) n.+2 z ->
  prior_f_law (stack_kernel (e := e) (matern12 1 0 l s2 m) 0 0) n.+1 z mf K ->
  mf 0%N = 0 /\ forall i, (i <= n)%N -> mf i.+1 <> 0.
Proof.
move=> Hl Hs Hm Hz HL.
have Hst : steady_mean (matern12 1 0 l s2 m) by exact: base_steady.
have Hlaw := stack_law e (m12_good m Hl Hs) (m12_noisy m Hl Hs) Hst (m12_A0 l s2 m) erefl Hz.
have [E _] := prior_f_law_unique HL Hlaw.
split=> [|i Hi].
  by rewrite E // subrr m12_A0 mul1mx /= subrr mulmx0.
rewrite E // m12_A /= first_emission11 mul1mx => /eqP; rewrite subr_eq0 eq_sym => /eqP.
apply: (@scal1_neq Rr) => //; apply: exp_lt1 => //; rewrite subr_gt0.
by apply: (increasing_lt Hz).
Qed.

(* ---------- every kernel of the library ---------- *)
Lemma exp_semigroup o d (k : skernel Rr o d) : (forall t, sk_A k t = mexp (sk_F k) t) -> semigroup k.
Proof. by move=> H; split=> [|s t _ _]; rewrite !H ?mexp0 ?mexpD. Qed.

Lemma lib_exp o d (k : skernel Rr o d) : library_kernel false k -> forall t, sk_A k t = mexp (sk_F k) t.
Proof.
elim=> {o d k}.
- by move=> o j l s2 m _ _ t; apply: (k1_exp (m12_A _ _ _ _ _) (m12_F _ _ _ _ _)).
- by move=> o j l s2 m _ _ t; apply: (k1_exp (ou_A _ _ _ _ _) (ou_F _ _ _ _ _)).
- by move=> o j l s2 m _ _ t; apply: m32_exp.
- by move=> o j l s2 m _ _ t; apply: m52_exp.
- by move=> o j s2 _ t; apply: const_exp.
- by move=> o j s2 p _ _ t; apply: ho_exp.
- by move=> d N Rt j t; apply: leg_exp.
- move=> o o' ks E j _ IH; apply: generates_exp; apply: concat_generates => k Hk.
  by apply: exp_generates; apply: IH.
- by [].
Qed.

Lemma lib_semigroup o d (k : skernel Rr o d) : library_kernel true k -> semigroup k.
Proof.
elim=> {o d k}.
- by move=> o j l s2 m Hl Hs; apply: exp_semigroup; apply: lib_exp; constructor.
- by move=> o j l s2 m Hl Hs; apply: exp_semigroup; apply: lib_exp; constructor.
- by move=> o j l s2 m Hl Hs; apply: exp_semigroup; apply: lib_exp; constructor.
- by move=> o j l s2 m Hl Hs; apply: exp_semigroup; apply: lib_exp; constructor.
- by move=> o j s2 Hs; apply: exp_semigroup; apply: lib_exp; constructor.
- by move=> o j s2 p Hs Hp; apply: exp_semigroup; apply: lib_exp; constructor.
- by move=> d N Rt j; apply: exp_semigroup; apply: lib_exp; constructor.
- by move=> o o' ks E j _ IH; apply: (@concat_semigroup Rr).
- by move=> ks j _ _ IH; apply: (@product_semigroup Rr).
Qed.

Lemma ou_var_gt0 (q l : R) : 0 < l -> 0 < q -> 0 < 2%:R^-1 * q / l.
Proof. by move=> Hl Hq; apply: mulr_gt0; [apply: mulr_gt0|]; rewrite ?invr_gt0 ?ltr0Sn. Qed.

Lemma ou_noisy o jitter (l q : R) m : 0 < l -> 0 < q -> noisy (ornstein_uhlenbeck o jitter l q m).
Proof.
move=> Hl Hq; apply: (k1_noisy (ou_A _ _ _ _ _) (ou_F _ _ _ _ _) (ou_P _ _ _ _ _)) => //.
exact: ou_var_gt0.
Qed.

Lemma lib_good o d (k : skernel Rr o d) : library_kernel true k -> good_kernel k.
Proof.
elim=> {o d k}.
- move=> o j l s2 m Hl Hs; apply: (k1_good (m12_A _ _ _ _ _) (m12_F _ _ _ _ _) (m12_P _ _ _ _ _)) => //; first by rewrite invr_gt0.
- move=> o j l q m Hl Hs; apply: (k1_good (ou_A _ _ _ _ _) (ou_F _ _ _ _ _) (ou_P _ _ _ _ _)) => //.
  exact: ou_var_gt0.
- by move=> o j l s2 m Hl Hs; apply: m32_good.
- by move=> o j l s2 m Hl Hs; apply: m52_good.
- by move=> o j s2 Hs; apply: const_good.
- by move=> o j s2 p Hs Hp; apply: ho_good.
- by move=> d N Rt j; apply: leg_good.
- by move=> o o' ks E j _ IH; apply: (@concat_good Rr).
- by move=> ks j _ _ IH; apply: (@product_good Rr).
Qed.

Lemma lib_mono o d (k : skernel Rr o d) : library_kernel false k -> library_kernel true k.
Proof. by elim=> {o d k}; try by [constructor]; move=> *; constructor. Qed.

Lemma lib_lyapunov o d (k : skernel Rr o d) : library_kernel false k -> lyapunov k.
Proof.
elim=> {o d k}.
- move=> o j l s2 m Hl Hs; eexists; eexists.
  apply: (k1_lyap' (m12_F _ _ _ _ _) (m12_P _ _ _ _ _)) => //; first by rewrite invr_gt0.
- move=> o j l q m Hl Hs; eexists; eexists.
  by apply: (k1_lyap' (ou_F _ _ _ _ _) (ou_P _ _ _ _ _)) => //; apply: ou_var_gt0.
- by move=> o j l s2 m Hl Hs; eexists; eexists; apply: (@m32_lyap Rr _ _ (lambda32_gt0 Hl) Hs).
- by move=> o j l s2 m Hl Hs; eexists; eexists; apply: (@m52_lyap Rr _ _ (lambda52_gt0 Hl) Hs).
- move=> o j s2 Hs; apply: lyapunov0.
  by apply/matrixP => a b; rewrite !ord1 !mxE !big_ord1 !mxE /= mul0r mulr0 addr0.
- move=> o j s2 p Hs Hp; apply: lyapunov0.
  rewrite /= -scalemxAr -scalemxAl mulmx1 mul1mx -scalerDr; apply/matrixP => a b; rewrite !mxE.
  case: a => [[|[|//]] ?]; case: b => [[|[|//]] ?]; rewrite /= ?addr0 ?mulr0 ?addNr ?subrr ?mulr0 //.
- by move=> d N Rt j; exists d, N; apply: leg_lyap.
- by move=> o o' ks E j _ IH; apply: (@concat_lyapunov Rr).
- by [].
Qed.

Lemma lib_plain o d (k : skernel Rr o d) : library_kernel true k -> sk_jitter k = 0 -> sk_mean0 k = 0 ->
  plain_kernel k.
Proof.
move=> H Hj Hm; split=> //; [exact: lib_good|by case: (lib_semigroup H)|].
by elim: H Hm {Hj} => {o d k}; move=> *; rewrite /= /own_offsets ?mulmx0 //;
  match goal with H : sk_mean0 _ = 0 |- _ => rewrite /= in H; rewrite H mulmx0 end.
Qed.
