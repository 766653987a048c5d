(* Proofs for M_Models.v: regression, the dense bound, minibatches. *)
From Coq Require Import Reals Lra.
From mathcomp Require Import all_ssreflect all_algebra.
From Verif Require Import RealStruct Nat Alg Lin Ent Spd Log M_Block M_SSM S_SSM P_SSM M_SSMLog P_SSMLog S_Gauss P_Gauss
  S_Kalman M_Kalman P_Kalman P_KalmanLog M_Kernel S_Kernel P_Kernel M_Cond P_Cond P_Cond2 P_Cond3 P_Cond4
  M_Emission P_Emission M_Sort P_Sort M_Models S_GP P_Elbo P_Models.
Set Implicit Arguments.
Unset Strict Implicit.
Unset Printing Implicit Defensive.
Import GRing.Theory Num.Theory Order.TTheory.
Local Open Scope ring_scope.

Section Gpr.
Variables (o d : nat) (ker : sde_kernel Rr d) (emission : R -> 'M[R]_(o, d)) (mean : R -> 'cV[R]_o).
Hypothesis Hker : markov_kernel ker.
Hypothesis Hm0 : k_mean0 ker = 0.
Variables (n : nat) (z : nat -> R) (y : nat -> 'cV[R]_o) (cR : 'M[R]_o).
Hypothesis Hz : increasing n.+1 z.
Hypothesis HR : lownz cR.

Let Hd := dense n.+1 n.+1 (rdiag (fun k => emission (z k))).
Let Sg := dense n.+1 n.+1 (rdiag (fun _ => cR *m cR^T)).
Let mu := flat n.+1 (fun k => mean (z k)).

Lemma flat_mean0 : flat n.+1 (fun _ => k_mean0 ker) = 0.
Proof.
by rewrite Hm0 -[RHS](subrr (flat n.+1 (fun _ => 0))) flatB; apply: eq_flat => k Hk; rewrite subrr.
Qed.

Lemma f_gram_Hd : f_gram ker emission n.+1 n.+1 z z = Hd *m x_gram ker n.+1 z *m Hd^T.
Proof. by rewrite (@rdiag_sandwich Rr). Qed.

Lemma gpr_evidence :
  gpr_log_likelihood ker emission mean n z y cR =
  Some (gauss_logpdf mu (f_gram ker emission n.+1 n.+1 z z + Sg) (flat n.+1 y)).
Proof.
have [p [Ep Np Lp]] := kernel_law Hker Hz.
rewrite /gpr_log_likelihood Ep /Option.map /Option.bind /Option.apply; congr Some.
rewrite (plain_log_likelihood _ _ HR Np Lp) flat_mean0 mulmx0 f_gram_Hd /gauss_logpdf subr0.
by rewrite /mu flatB.
Qed.

Lemma gpr_post : (0 < n)%N -> exists post,
  [/\ gpr_posterior ker emission mean n z y cR = Some post, ssm_nonsing n post &
      forall m' K', has_law n.+1 n.+1 (ssm_path post) m' K' ->
      flat n.+1 m' = cond_mean 0 (x_gram ker n.+1 z) Hd Sg (flat n.+1 y - mu) /\
      dense n.+1 n.+1 K' = cond_cov (x_gram ker n.+1 z) Hd Sg].
Proof.
move=> Hn; have [p [Ep Np Lp]] := kernel_law Hker Hz.
have [post [E1 E2 E3]] := plain_posterior (fun k => emission (z k)) (fun k => y k - mean (z k)) HR Hn Np Lp.
exists post; split=> //.
  by rewrite /gpr_posterior Ep /Option.bind /Option.apply -E1.
by move=> m' K' /E3; rewrite flat_mean0 /mu flatB.
Qed.

Lemma gpr_predict new i : (0 < n)%N -> - APPROX_INF Rr < z 0%N -> z 0%N <= new i -> new i <= z n ->
  let Kt := brow n.+1 (fun j => f_cov ker emission (new i) (z j)) in
  let W := invmx (f_gram ker emission n.+1 n.+1 z z + Sg) in
  omap (fun p => p i) (gpr_predict_f ker emission mean n z y cR new) =
  Some (mean (new i) + Kt *m W *m (flat n.+1 y - mu), f_cov ker emission (new i) (new i) - Kt *m W *m Kt^T).
Proof.
move=> Hn Hinf H0 Hn' Kt W.
have [post [E1 E2 E3]] := gpr_post Hn.
have LP := ssm_has_law n post; have {E3} [Em EK] := E3 _ _ LP.
have Hc : covered n z (new i) by apply: (@covered_range Rr).
rewrite /gpr_predict_f E1 /Option.map /Option.bind /Option.apply /model_predict_f_full.
have [-> _] := predict_f_covered (fun i => emission (new i)) (fun i => mean (new i)) Hker Hm0 Hz Hc E2 LP.
set Kzz := x_gram _ _ _ in Em EK.
have HK : spd Kzz by exact: Kzz_spd.
set Ktz := brow n.+1 (fun j => state_cov ker (new i) (z j)).
have EKt : Kt = emission (new i) *m Ktz *m Hd^T.
  rewrite mul_mx_brow /Hd rdiag_tr dense_cols mul_mx_brow; apply: eq_brow => j Hj.
  rewrite mul_brow_bcol (bigD1 (Ordinal Hj)) //= big1 ?addr0; last first.
    by move=> l Hl; rewrite /rdiag (negbTE (Hl : (l : nat) != j)) mulmx0.
  by rewrite /rdiag eqxx.
rewrite -[dense n.+1 n.+1 (fun i j => state_cov ker (z i) (z j))]/Kzz Em EK.
rewrite EKt /W f_gram_Hd -/Kzz /cond_mean /cond_cov mulmx0 subr0 add0r.
set W' := invmx (_ + _); clearbody W'; set h := emission (new i); set r := _ - mu.
have sK := spd_sym HK; have uK := spd_unit HK.
congr (Some (_, _)).
  by rewrite addrC; congr (_ + _); rewrite !mulmxA -(mulmxA _ (invmx Kzz)) mulVmx // mulmx1.
rewrite /f_cov state_cov_diag //.
have EB : Ktz *m invmx Kzz *m Kzz = Ktz by rewrite mulmxKV.
set B := Ktz *m invmx Kzz in EB *.
have -> : k_P0 ker (new i) - B *m Kzz *m B^T + B *m (Kzz - Kzz *m Hd^T *m W' *m Hd *m Kzz) *m B^T =
          k_P0 ker (new i) - Ktz *m Hd^T *m W' *m Hd *m Ktz^T.
  have -> : Ktz^T = Kzz *m B^T by rewrite -EB trmx_mul sK.
  by rewrite mulmxBr mulmxBl !mulmxA !EB; zmod.
rewrite mulmxBr mulmxBl !trmx_mul trmxK !mulmxA.
by [].
Qed.
End Gpr.

Section Vgp.
Variables (o d : nat) (ker : sde_kernel Rr d) (emission : R -> 'M[R]_(o, d)) (mean : R -> 'cV[R]_o).
Hypothesis Hker : markov_kernel ker.
Hypothesis Hm0 : k_mean0 ker = 0.
Variables (n : nat) (z : nat -> R) (y : nat -> 'cV[R]_o) (s2 : R).
Hypothesis Hz : increasing n.+1 z.
Hypothesis Hs : 0 < s2.

Let cR : 'M[R]_o := (Num.sqrt s2)%:M.

Lemma cR_low : lownz cR.
Proof.
split; first by apply/is_trig_mxP => i j; rewrite /cR mxE; case: eqP => [->|]; rewrite ?ltnn.
by move=> i; rewrite mxE eqxx mulr1n; apply: lt0r_neq0; rewrite sqrtr_gt0.
Qed.
Lemma cR_mul : cR *m cR^T = s2%:M.
Proof. by rewrite /cR tr_scalar_mx -scalar_mxM -expr2 sqr_sqrtr // ltW. Qed.

Lemma vgp_evidence (q : ssm Rr d) : (0 < n)%N -> - APPROX_INF Rr < z 0%N -> ssm_nonsing n q ->
  exists e l post,
  [/\ vgp_elbo ker emission mean (ext_gaussian_ve s2) n z y q = Some e,
      gpr_log_likelihood ker emission mean n z y cR = Some l,
      gpr_posterior ker emission mean n z y cR = Some post &
      e + ssm_kl_divergence n q post = l].
Proof.
move=> Hn Hinf Nq.
have Lq := ssm_has_law n q.
have HX i : (i < n.+1)%N -> covered n z (z i) by move=> Hi; right; exists i.
have [post [E1 E2 E3]] := gpr_post emission mean Hker Hm0 y Hz cR_low Hn.
have Lp := ssm_has_law n post; have {E3} [Em EK] := E3 _ _ Lp.
eexists; eexists; exists post; split; [|exact: (gpr_evidence emission mean Hker Hm0 y Hz cR_low)|exact: E1|].
  have := svgp_value emission mean Hker Hm0 Hz HX Nq Lq y Hs.
  rewrite /svgp_elbo /vgp_elbo; case: (kernel_ssm n ker z) => // p.
  rewrite /Option.map /Option.bind /Option.apply; cbv zeta beta; rewrite mulr1; exact.
have [-> _ _ _] := kl_law Nq E2 Lq Lp.
rewrite Em EK.
pose Hd := dense n.+1 n.+1 (rdiag (fun k => emission (z k))).
have HK : spd (x_gram ker n.+1 z) by exact: Kzz_spd.
have EG : fx_gram ker emission n.+1 n.+1 z z *m invmx (x_gram ker n.+1 z) = Hd.
  by rewrite /fx_gram -(@rdiag_l Rr) mulmxK // spd_unit.
rewrite EG -f_gram_Hd subrr mulmx0 raddf0 mulr0 subr0.
have ES : dense n.+1 n.+1 (rdiag (fun _ => cR *m cR^T)) = s2%:M.
  by rewrite -[RHS](@dense_scalar Rr); apply: eq_dense => i j _ _; rewrite /rdiag cR_mul.
rewrite ES subrK /gauss_logpdf subr0.
by [].
Qed.
End Vgp.

Section Bound.
Variables (o d : nat) (ker : sde_kernel Rr d) (emission : R -> 'M[R]_(o, d)) (mean : R -> 'cV[R]_o).

Lemma vgp_bound n z y (s2 : R) (q : ssm Rr d) m K : markov_kernel ker -> k_mean0 ker = 0 -> increasing n.+1 z ->
  0 < s2 -> (0 < n)%N -> - APPROX_INF Rr < z 0%N -> ssm_nonsing n q -> has_law n.+1 n.+1 (ssm_path q) m K ->
  exists e l,
  [/\ vgp_elbo ker emission mean (ext_gaussian_ve s2) n z y q = Some e,
      l = gauss_logpdf (flat n.+1 (fun k => mean (z k))) (f_gram ker emission n.+1 n.+1 z z + s2%:M) (flat n.+1 y),
      e <= l &
      e = l <->
      (let Hd := dense n.+1 n.+1 (rdiag (fun k => emission (z k))) in
       let r := flat n.+1 (fun k => y k - mean (z k)) in
       flat n.+1 m = cond_mean 0 (x_gram ker n.+1 z) Hd s2%:M r /\
       dense n.+1 n.+1 K = cond_cov (x_gram ker n.+1 z) Hd s2%:M)].
Proof.
move=> Hker Hm0 Hz Hs Hn Hinf Nq Lq.
have ES : dense n.+1 n.+1 (rdiag (fun _ => (Num.sqrt s2)%:M *m (Num.sqrt s2)%:M^T : 'M[R]_o)) = s2%:M.
  by rewrite -[RHS](@dense_scalar Rr); apply: eq_dense => i j _ _; rewrite /rdiag cR_mul.
have [e [l [post [E1 E2 E3 E4]]]] := vgp_evidence emission mean Hker Hm0 y Hz Hs Hn Hinf Nq.
exists e, l; have El := E2; rewrite (gpr_evidence emission mean Hker Hm0 y Hz (cR_low _ Hs)) ES in El.
have [post' [E5 E6 E7]] := gpr_post emission mean Hker Hm0 y Hz (cR_low _ Hs) Hn.
move: E5; rewrite E3 => -[E5]; subst post'.
have Lp := ssm_has_law n post; have {E7} [Em EK] := E7 _ _ Lp; rewrite ES in Em EK.
have [Ekl _ H0 H1] := kl_law Nq E6 Lq Lp.
have HK : spd (dense n.+1 n.+1 K) by have [_ ->] := ssm_lawE Lq; apply: cov_spd.
have HK2 : spd (dense n.+1 n.+1 (ssm_cov post)) by apply: cov_spd.
have [_ Hiff] := gauss_kl_ge0 (flat n.+1 m) (flat n.+1 (ssm_marginal_means n post)) HK HK2.
rewrite -Ekl Em EK in Hiff.
split=> //; first by case: El.
  by rewrite -E4 ler_addl.
rewrite -E4 /= -flatB; split.
  by move=> H; apply/Hiff; apply: (@addrI _ e); rewrite addr0.
by move=> /Hiff ->; rewrite addr0.
Qed.

(* the sparse bound, all inducing points and data in the range of the inducing points *)
Lemma svgp_collapsed n z N X Y (s2 : R) (q : ssm Rr d) m K : markov_kernel ker -> k_mean0 ker = 0 -> increasing n.+1 z ->
  0 < s2 -> - APPROX_INF Rr < z 0%N -> (forall i, (i < N)%N -> z 0%N <= X i <= z n) ->
  ssm_nonsing n q -> has_law n.+1 n.+1 (ssm_path q) m K ->
  let Kzz := x_gram ker n.+1 z in let Kfz := fx_gram ker emission N n.+1 X z in
  let Kff := f_gram ker emission N N X X in let Qff := Kfz *m invmx Kzz *m Kfz^T in
  let G := Kfz *m invmx Kzz in
  let r := flat N (fun k => Y k - mean (X k)) in
  exists e,
  [/\ svgp_elbo ker emission mean (ext_gaussian_ve s2) n z None N X Y q = Some e,
      e = gauss_logpdf 0 (Qff + s2%:M) r - (2%:R * s2)^-1 * \tr (Kff - Qff)
          - gauss_kl (flat n.+1 m) (dense n.+1 n.+1 K) (cond_mean 0 Kzz G s2%:M r) (cond_cov Kzz G s2%:M) &
      e <= gauss_logpdf (flat N (fun k => mean (X k))) (Kff + s2%:M) (flat N Y)].
Proof.
move=> Hker Hm0 Hz Hs Hinf HX Nq Lq Kzz Kfz Kff Qff G r.
have HX' i : (i < N)%N -> covered n z (X i).
  by move=> Hi; have /andP [H1 H2] := HX i Hi; apply: (@covered_range Rr).
have HK : spd Kzz by exact: Kzz_spd.
have EQ : G *m Kzz *m G^T = Qff.
  by rewrite /Qff /G mulmxKV ?spd_unit // trmx_mul tr_invmx (spd_sym HK) mulmxA.
eexists; split; first exact: (svgp_value emission mean Hker Hm0 Hz HX' Nq Lq Y Hs).
  rewrite -/Kzz -/Kfz -/G EQ invmx_scalar mul_scalar_mx mxtraceZ /r -flatB mulrA invfM.
  by [].
apply: (svgp_bound Hker Hm0 Hz HX' Nq Lq Hs).
exact: (svgp_value emission mean Hker Hm0 Hz HX' Nq Lq Y Hs).
Qed.
End Bound.

Section Batch.
Lemma balanced_sum N b k (bt : nat -> nat -> nat) c (v : nat -> R) :
  (forall B i, (B < k)%N -> (i < b)%N -> (bt B i < N)%N) ->
  (forall j, (j < N)%N -> (\sum_(B < k) \sum_(i < b) (bt B i == j))%N = c) ->
  \sum_(B < k) \sum_(i < b) v (bt B i) = c%:R * \sum_(j < N) v j.
Proof.
move=> Hb Hc.
have E B i : (B < k)%N -> (i < b)%N -> v (bt B i) = \sum_(j < N) (bt B i == j)%:R * v j.
  move=> HB Hi; rewrite (bigD1 (Ordinal (Hb _ _ HB Hi))) //= eqxx mul1r big1 ?addr0 // => j Hj.
  have -> : (bt B i == j) = false by apply/negbTE; apply: contra Hj => /eqP E; apply/eqP/val_inj.
  by rewrite mul0r.
rewrite (eq_bigr (fun B : 'I_k => \sum_(j < N) \sum_(i < b) (bt B i == j)%:R * v j)); last first.
  by move=> B _; rewrite exchange_big /=; apply: eq_bigr => i _; rewrite E.
rewrite exchange_big /= big_distrr /=; apply: eq_bigr => j _.
rewrite -(Hc j) // natr_sum big_distrl /=; apply: eq_bigr => B _.
by rewrite natr_sum big_distrl.
Qed.

Lemma balanced_count N b k (bt : nat -> nat -> nat) c :
  (forall B i, (B < k)%N -> (i < b)%N -> (bt B i < N)%N) ->
  (forall j, (j < N)%N -> (\sum_(B < k) \sum_(i < b) (bt B i == j))%N = c) -> (k * b)%:R = (c%:R * N%:R : R).
Proof.
move=> Hb Hc; have := balanced_sum (fun _ => 1) Hb Hc.
by rewrite !sumr_const !card_ord -mulr_natr -mulrnA => <-; congr (_%:R); lia.
Qed.

Variables (o d : nat) (ker : sde_kernel Rr d) (emission : R -> 'M[R]_(o, d)) (mean : R -> 'cV[R]_o).
Variable ve : 'cV[R]_o -> 'cV[R]_o -> 'cV[R]_o -> R.

Lemma minibatch n z N b k (bt : nat -> nat -> nat) c X Y (q : ssm Rr d) :
  (forall i, (i < n)%N -> z i <= z i.+1) ->
  (forall s t, k_P0 ker s = k_P0 ker t) \/
  [/\ markov_kernel ker, k_mean0 ker = 0, increasing n.+1 z, - APPROX_INF Rr < z 0%N & ssm_nonsing n q] /\
  (forall i, (i < N)%N -> z 0%N <= X i <= z n) ->
  (0 < b)%N -> (0 < k)%N ->
  (forall B i, (B < k)%N -> (i < b)%N -> (bt B i < N)%N) ->
  (forall j, (j < N)%N -> (\sum_(B < k) \sum_(i < b) (bt B i == j))%N = c) ->
  exists e (eb : nat -> R),
  [/\ svgp_elbo ker emission mean ve n z (Some N%:R) N X Y q = Some e,
      forall B, (B < k)%N ->
        svgp_elbo ker emission mean ve n z (Some N%:R) b (fun i => X (bt B i)) (fun i => Y (bt B i)) q = Some (eb B) &
      (\sum_(B < k) eb B) / k%:R = e].
Proof.
move=> Hz HP Hb0 Hk0 Hb Hc.
pose f := model_predict_f_diag ker emission mean n q z X.
have Hpt (s : nat -> nat) i : (s i < N)%N -> model_predict_f_diag ker emission mean n q z (fun i => X (s i)) i = f (s i).
  move=> Hi; rewrite /f /model_predict_f_diag.
  case: HP => [HP|[[Hker Hm0 Hz' Hinf Nq] HX]].
    have E t0 t1 t : predict_state ker n q z t0 t = predict_state ker n q z t1 t by rewrite /predict_state (HP t0 t1).
    by rewrite /predict_f_diag /project_state_to_f /project_cov_diag (E (X (s 0%N)) (X 0%N)).
  have Hc' : covered n z (X (s i)) by have /andP [H1 H2] := HX _ Hi; apply: (@covered_range Rr).
  have Lq := ssm_has_law n q.
  have [_ ->] := predict_f_covered (fun i => emission (X (s i))) (fun i => mean (X (s i))) (new := fun i => X (s i)) Hker Hm0 Hz' Hc' Nq Lq.
  by have [_ ->] := predict_f_covered (fun i => emission (X i)) (fun i => mean (X i)) Hker Hm0 Hz' Hc' Nq Lq.
have [p Ep] : exists p, kernel_ssm n ker z = Some p.
  have : to_delta_time n.+1 z <> None by apply/to_deltaE => i Hi; apply: Hz; lia.
  by rewrite /kernel_ssm; case: to_delta_time => // dt _; eexists.
pose v j := ve (f j).1 (f j).2 (Y j).
pose kl := ssm_kl_divergence n q p.
have EN N' X' Y' : svgp_elbo ker emission mean ve n z (Some N%:R) N' X' Y' q =
    let g := model_predict_f_diag ker emission mean n q z X' in
    Some ((\sum_(j < N') ve (g j).1 (g j).2 (Y' j)) * (N%:R / N'%:R) - kl).
  by rewrite /svgp_elbo Ep.
exists (\sum_(j < N) v j - kl), (fun B => (\sum_(i < b) v (bt B i)) * (N%:R / b%:R) - kl); split.
- rewrite EN; cbv zeta; rewrite -/f; case: (posnP N) => [->|HN]; first by rewrite !big_ord0 mul0r.
  by rewrite divff ?mulr1 // pnatr_eq0 -lt0n.
- move=> B HB.
  have := EN b (fun i => X (bt B i)) (fun i => Y (bt B i)); cbv zeta => ->.
  have Hs (s s' : R) : s = s' -> Some (s * (N%:R / b%:R) - kl) = Some (s' * (N%:R / b%:R) - kl) by move=> ->.
  apply: Hs; apply: eq_bigr => i _.
  by have -> := Hpt (bt B) i (Hb _ _ HB (ltn_ord i)).
rewrite sumrB sumr_const card_ord -big_distrl /= (balanced_sum v Hb Hc).
have := balanced_count Hb Hc; rewrite natrM => E.
have Hb1 : b%:R != 0 :> R by rewrite pnatr_eq0 -lt0n.
have Hk1 : k%:R != 0 :> R by rewrite pnatr_eq0 -lt0n.
rewrite mulrBl -[kl *+ k]mulr_natr (mulfK Hk1 kl); congr (_ - _).
clearbody kl v; set t := \sum_(j < N) v j; clearbody t.
have -> : c%:R * t * (N%:R / b%:R) / k%:R = t * ((c%:R * N%:R) * (k%:R * b%:R)^-1).
  by rewrite invfM; move: (c%:R : R) (N%:R : R) (b%:R^-1 : R) (k%:R^-1 : R) => a1 a2 a3 a4; crng.
by rewrite -E divff ?mulr1 // mulf_neq0.
Qed.
End Batch.
