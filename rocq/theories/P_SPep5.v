(* Proofs for M_SPep.v: the value of the energy, Gaussian likelihood, power one. *)
From Coq Require Import Reals Lra FunctionalExtensionality.
From mathcomp Require Import all_ssreflect all_algebra.
From Verif Require Import MCalc RealStruct Nat Alg Lin Ent Spd Log M_Block S_Block P_Block M_SSM S_SSM P_SSM M_SSMLog P_SSMLog S_Gauss P_Gauss
  M_Trans S_Trans P_Trans S_Kalman M_Kalman P_Kalman P_KalmanLog M_Kernel S_Kernel P_Kernel M_Cond P_Cond P_Cond2 P_Cond3 P_Cond4
  M_Emission P_Emission M_Sort P_Sort M_Models S_GP P_Elbo P_Models P_Models2 M_Cvi S_Cvi P_Cvi P_Cvi3 P_Cvi4 M_Pep S_Pep P_Block2 P_Pep P_Pep2 P_Pep3 P_Pep4
  M_SPep S_SPep P_SPep P_SPep2 P_SPep3 P_SPep4.
Set Implicit Arguments.
Unset Strict Implicit.
Unset Printing Implicit Defensive.
Import GRing.Theory Num.Theory Order.TTheory.
Local Open Scope ring_scope.

Section SPep.
Variables (d : nat) (ker : sde_kernel Rr d) (emission : R -> 'M[R]_(1, d)).
Hypothesis Hker : markov_kernel ker.
Hypothesis Hm0 : k_mean0 ker = 0.
Variables (n : nat) (z : nat -> R).
Hypothesis Hz : increasing n.+1 z.
Hypothesis Hn : (0 < n)%N.
Hypothesis Hinf : - APPROX_INF Rr < z 0%N.
Variables (N : nat) (X Y : nat -> R) (s2 : R).
Hypothesis HX : forall k, (k < N)%N -> z 0%N <= X k <= z n.
Hypothesis s2_gt0 : 0 < s2.
Variable s : pair_sites d.
Hypothesis Hs : valid_pairs n s.
Hypothesis Hf : first_site ker s.
Hypothesis Hsite : forall u m, (m <= n.+1)%N -> site_exponent n s u m = \sum_(k < N | below n z (X k) == m)
  (let p := projected ker emission n z (X k) u in Y k / s2 * p + - (2%:R * s2)^-1 * p ^+ 2).
Let Kzz := x_gram ker n.+1 z.
Let Kfz := fx_gram ker emission N n.+1 X z.
Let G := Kfz *m invmx Kzz.
Let Qff := G *m Kfz^T.
Let Yv := flat N (fun k => const_mx (Y k) : 'cV[R]_1).
Let target u := \sum_(k < N) (let p := projected ker emission n z (X k) u in Y k / s2 * p + - (2%:R * s2)^-1 * p ^+ 2).

Lemma idx_le k : (k < N)%N -> (below n z (X k) <= n.+1)%N.
Proof. by move=> Hk; rewrite /below -[X in (_ <= X)%N](size_iota 0) count_size. Qed.

Lemma sum_intervals (v : nat -> R) : \sum_(m < n.+2) \sum_(k < N | below n z (X k) == m) v k = \sum_(k < N) v k.
Proof.
rewrite (exchange_big_dep xpredT) //; apply: eq_bigr => k _.
have Hk : (below n z (X k) < n.+2)%N by rewrite ltnS; exact: idx_le.
by rewrite (big_pred1 (Ordinal Hk)) // => m; rewrite /= eq_sym -val_eqE.
Qed.

Lemma exact_target u : pairs_exponent n s u = target u.
Proof.
rewrite /target -(sum_intervals (fun k => let p := projected ker emission n z (X k) u in Y k / s2 * p + - (2%:R * s2)^-1 * p ^+ 2)).
rewrite /pairs_exponent; apply: eq_bigr => m _; have Hm : (m <= n.+1)%N by exact: ltn_ord m.
exact: (Hsite u Hm).
Qed.

Lemma Qff_eq : G *m Kzz *m G^T = Qff.
Proof.
have HK : spd Kzz by exact: Kzz_spd.
by rewrite /Qff /G mulmxKV ?spd_unit // trmx_mul tr_invmx (spd_sym HK) mulmxA.
Qed.

Lemma sparse_normalizers q : scvi_dist_q ker n z s = Some q ->
  ssm_normalizer n q - ssm_normalizer n (kssm ker z) + \sum_(k < N) ext_logdensity_gaussian (Y k) 0 s2 =
  gauss_logpdf 0 (Qff + s2%:M) Yv.
Proof.
move=> Eq; have [q' [Eq' Nq Lq]] := scvi_exact Hker Hm0 Hz Hn s2_gt0 Hs exact_target.
move: Eq'; rewrite Eq => /Some_inj Q; move: Nq Lq; rewrite -Q => Nq Lq {q' Q}.
have L := ssm_has_law n q; have [M1 M2] := Lq _ _ L.
have Np : ssm_nonsing n (kssm ker z) by exact: kssm_nonsing.
have PK : spd Kzz by exact: Kzz_spd.
have PS : spd (s2%:M : 'M[R]_(N * 1)) by apply: spd_scalar.
have Eq0 : ssm_normalizer n q = - gauss_logpdf (cond_mean 0 Kzz G s2%:M Yv) (cond_cov Kzz G s2%:M) 0.
  by rewrite (normalizerE Nq) -M1 -M2.
have Ep0 : ssm_normalizer n (kssm ker z) = - gauss_logpdf 0 Kzz 0.
  rewrite (normalizerE Np); have [<- <-] := ssm_lawE (prior_law Hker Hz).
  by rewrite (flat_mean0 Hm0).
have EY : gauss_logpdf (G *m 0) s2%:M Yv = \sum_(k < N) ext_logdensity_gaussian (Y k) 0 s2.
  rewrite mulmx0 -(flat_unflat (0 : 'cV[R]_(N * 1))) -(@dense_scalar Rr N 1 s2) gauss_logpdf_rdiag; last by move=> k _; apply: spd_scalar.
  apply: eq_bigr => k _; rewrite (@unflat0 Rr) -logpdf1 //.
have := @gauss_bayes _ _ 0 Kzz s2%:M G 0 Yv PK PS.
rewrite EY Qff_eq mulmx0 Eq0 Ep0.
move: (gauss_logpdf _ _ 0) (gauss_logpdf _ _ 0) (gauss_logpdf _ _ Yv) (\sum_(k < N) _) => a b c e; toR_ops => U; lra.
Qed.

Hypothesis Hsame : forall j k, (j < N)%N -> (k < N)%N -> below n z (X j) = below n z (X k) -> X j = X k.

Lemma drop_average k u : (k < N)%N ->
  pairs_exponent n s u = pairs_exponent n (scale_pair s (below n z (X k)) (1 - 1 * (share n z N X (below n z (X k)))%:R^-1)) u +
  (let p := projected ker emission n z (X k) u in interval_mean n z N X Y (X k) / s2 * p + - (2%:R * s2)^-1 * p ^+ 2).
Proof.
move=> Hk; have Hi := idx_le Hk; set i := below n z (X k) in Hi *; set c : R := (share n z N X i)%:R.
rewrite (@exponent_scale d n s i (1 - 1 * c^-1) u Hi); congr (_ + _).
have -> : 1 - (1 - 1 * c^-1) = c^-1 by rewrite mul1r opprB addrC subrK.
have c0 : c != 0.
  rewrite /c pnatr_eq0 -lt0n /share -has_count; apply/hasP; exists k; first by rewrite mem_iota.
  by rewrite eqxx.
rewrite trmxZ -scalemxAl (@qfZ Rr) [(_ *: _ : 'M_(_, _)) 0 0]mxE -mulrDr -/(site_exponent n s u i) Hsite //.
cbv zeta; set p := projected ker emission n z (X k) u.
rewrite (eq_bigr (fun j : 'I_N => Y j * (p / s2) + - (2%:R * s2)^-1 * p ^+ 2)); last first.
  move=> j /eqP Ej; rewrite (Hsame (ltn_ord j) Hk Ej) -/p; congr (_ + _); by rewrite mulrAC mulrA.
rewrite big_split /= -mulr_suml sumr_const mulrDr mulrA.
congr (_ + _).
  rewrite /interval_mean -/i -/c; move: (\sum_(_ < _ | _) _) => S; by rewrite [S / c]mulrC; crng.
have -> : #|[pred j : 'I_N | below n z (X j) == i]| = share n z N X i.
  rewrite /share -sum1_card -sum1_count -(big_mkord (fun j => below n z (X j) == i) (fun _ => 1%N)) /index_iota subn0; reflexivity.
rewrite -[X in c^-1 * X]mulr_natl -/c mulKf //.
Qed.

Lemma spep_energy_law : exists f, [/\ spep_cavity ker emission n z 1 N X s = Some f,
  forall k, (k < N)%N -> 0 <= (f k).2 - unexplained ker emission n z (X k) /\
    (emission (X k) *m brow n.+1 (fun j => state_cov ker (X k) (z j)) *m invmx Kzz != 0 -> 0 < (f k).2 - unexplained ker emission n z (X k)) &
  spep_energy ker emission (pep_gaussian_led s2) n z 1 N X Y s = Some (gauss_logpdf 0 (Qff + s2%:M) Yv +
    \sum_(k < N) (let: (mu, v) := f k in let b := interval_mean n z N X Y (X k) in
      ext_logdensity_gaussian (Y k) mu (s2 + v) - ext_logdensity_gaussian b mu (s2 + v - unexplained ker emission n z (X k)) +
      (Y k ^+ 2 - b ^+ 2) / (2%:R * s2)))].
Proof.
have H1 : 0 <= (1 : R) <= 1 by rewrite ler01 lexx.
have [q Eq Nq] := spep_q_exists Hker Hm0 Hz Hn Hs.
have [f Ef] := cavity_total emission Hker Hm0 Hz Hn N X 1 Hs.
have [l El Hl] := log_norm_total Hker Hm0 Hz Hn (pep_gaussian_led s2) Y H1 Hs Ef Eq.
have Hcav k : (k < N)%N -> exists q' m K, [/\ scvi_dist_q ker n z (scale_pair s (below n z (X k)) (1 - 1 * (share n z N X (below n z (X k)))%:R^-1)) = Some q',
    ssm_nonsing n q', has_law n.+1 n.+1 (ssm_path q') m K &
    f k = cvi_predict_f ker emission n q' z X k].
  move=> Hk.
  have [q' [E1 N1 _ E2]] := spep_cavity_of emission Hker Hm0 Hz Hn Hk H1 Hs Hf Hinf (HX Hk) Eq Nq.
  exists q', (ssm_marginal_means n q'), (ssm_cov q'); split; [|exact: N1|exact: ssm_has_law|].
    by rewrite (below_searchsorted _ Hz) -(num_data_share Hz).
  by rewrite -E2; move: Ef; rewrite /spep_cavity spep_dist_qE Eq => -[<-].
exists f; split; [exact: Ef| |].
  move=> k Hk; have [q' [m [K [E1 N1 L1 ->]]]] := Hcav k Hk.
  rewrite (predict_split emission Hker Hm0 Hz (HXc Hz Hinf HX Hk) N1 L1) addrAC subrr add0r.
  have PK' := law_spd N1 L1; rewrite -/Kzz.
  set g := (_ *m _ *m invmx _ : 'M[R]_(1, _)).
  have [_ Q] := PK'; split.
    have [_ Q'] := @psd_congr' Rr _ _ _ g (@spd_psd Rr _ _ PK'); have := Q' 1%:M; rewrite /qf trmx1 mul1mx mulmx1; exact.
  move=> Hg; have := Q g^T; rewrite /qf trmxK; apply; apply: contra Hg => /eqP H; by rewrite -(trmxK g) H trmx0.
rewrite /spep_energy El /Option.bind /Option.apply spep_dist_qE Eq (kernel_ssmE ker Hz) /Option.map /Option.bind; congr Some.
have -> : \sum_(m < n.+2) l m = \sum_(k < N) ((let: (mu, v) := f k in let b := interval_mean n z N X Y (X k) in
      ext_logdensity_gaussian (Y k) mu (s2 + v) - ext_logdensity_gaussian b mu (s2 + v - unexplained ker emission n z (X k)) +
      (Y k ^+ 2 - b ^+ 2) / (2%:R * s2)) + ext_logdensity_gaussian (Y k) 0 s2).
  rewrite -(sum_intervals (fun k => (let: (mu, v) := f k in let b := interval_mean n z N X Y (X k) in
      ext_logdensity_gaussian (Y k) mu (s2 + v) - ext_logdensity_gaussian b mu (s2 + v - unexplained ker emission n z (X k)) +
      (Y k ^+ 2 - b ^+ 2) / (2%:R * s2)) + ext_logdensity_gaussian (Y k) 0 s2)).
  apply: eq_bigr => m _; have Hm : (m <= n.+1)%N by exact: ltn_ord m.
  have [qc Ec El'] := Hl m; rewrite (El' Hm) {El'}.
  rewrite divr1; apply: eq_big => k; first by rewrite (below_searchsorted _ Hz).
  rewrite -(below_searchsorted _ Hz) => /eqP Em.
  have Hk := ltn_ord k; have [q' [mm [K [E1 N1 L1 E2]]]] := Hcav k Hk.
  move: E1; rewrite Em Ec => /Some_inj Q; rewrite -Q in N1 L1 E2.
  have Hv : valid_pairs n (scale_pair s (below n z (X k)) (1 - 1 * (share n z N X (below n z (X k)))%:R^-1)).
    by apply: scale_valid => //; exact: power_any.
  have Ec' : scvi_dist_q ker n z (scale_pair s (below n z (X k)) (1 - 1 * (share n z N X (below n z (X k)))%:R^-1)) = Some qc.
    by rewrite Em.
  rewrite (remove Hker Hm0 Hz Hn s2_gt0 Hs Hv (fun u => drop_average u Hk) Eq Ec' Nq N1 L1).
  rewrite E2 (predict_split emission Hker Hm0 Hz (HXc Hz Hinf HX Hk) N1 L1).
  set mu := (_ *m flat _ _) 0 0; set v := (_ *m dense _ _ _ *m _) 0 0; set r := unexplained _ _ _ _ _; set b := interval_mean _ _ _ _ _ _.
  cbv beta iota zeta; rewrite /fst /snd.
  have -> : s2 + (r + v) - r = s2 + v by rewrite addrCA addrAC subrr add0r.
  rewrite /pep_gaussian_led mul1r.
  have -> : ext_logdensity_gaussian b 0 s2 = (Y k ^+ 2 - b ^+ 2) / (2%:R * s2) + ext_logdensity_gaussian (Y k) 0 s2.
    rewrite /ext_logdensity_gaussian invfM.
    move: (s2^-1) (ln _) (ln _) (Y k) b => w l1 l2 x y; toR_ops; rewrite !exprR halfR; field.
  move: (ext_logdensity_gaussian _ _ _) (ext_logdensity_gaussian _ _ _) (ext_logdensity_gaussian _ _ _) ((_ - _) / _) => a1 a2 a3 a4.
  by eqR; toR_ops; ring.
rewrite big_split /= -(sparse_normalizers Eq).
move: (\sum_(k < N) _) (\sum_(k < N) _) (ssm_normalizer _ _) (ssm_normalizer _ _) => a1 a2 a3 a4; toR_ops; ring.
Qed.
End SPep.
