(* Proofs for the power expectation propagation model of M_Pep.v. *)
From Coq Require Import Reals Lra FunctionalExtensionality.
From mathcomp Require Import all_ssreflect all_algebra.
From Verif Require Import MCalc RealStruct Nat Alg Lin Ent Spd Log M_Block S_Block P_Block M_SSM S_SSM P_SSM M_SSMLog P_SSMLog S_Gauss P_Gauss
  M_Trans S_Trans P_Trans S_Kalman M_Kalman P_Kalman M_Kernel S_Kernel P_Kernel M_Cond P_Cond P_Cond4
  M_Emission P_Emission M_Sort P_Sort M_Models S_GP P_Models P_Models2 M_Cvi S_Cvi P_Cvi P_Cvi3 M_Pep S_Pep P_Block2.
Set Implicit Arguments.
Unset Strict Implicit.
Unset Printing Implicit Defensive.
Import GRing.Theory Num.Theory Order.TTheory.
Local Open Scope ring_scope.

Lemma lin3 N (u v w : 'cV[R]_N) (x : 'cV[R]_N) :
  ((u - (v + w))^T *m x) 0 0 = (u^T *m x) 0 0 - ((v^T *m x) 0 0 + (w^T *m x) 0 0).
Proof. by rewrite linearB /= linearD /= mulmxBl mulmxDl sub00 add00. Qed.

(* multiplying a Gaussian density by exp (a^T E x + (E x)^T B (E x)) *)
Lemma tilt_nat N e (E : 'M[R]_(e, N)) (m m' : 'cV[R]_N) (K K' : 'M[R]_N) (a : 'cV[R]_e) (B : 'M[R]_e) c :
  spd K -> spd K' -> B^T = B ->
  (forall x, gauss_logpdf m K x = gauss_logpdf m' K' x + ((a^T *m (E *m x)) 0 0 + qf B (E *m x)) + c) ->
  invmx K = invmx K' - 2%:R *: (E^T *m B *m E) /\ invmx K *m m = invmx K' *m m' + E^T *m a.
Proof.
move=> PK PK' sB H.
have S A : spd A -> (- 2%:R^-1 *: invmx A)^T = - 2%:R^-1 *: invmx A :> 'M[R]_N.
  by move=> /(@spd_sym Rr) EA; rewrite trmxZ trmx_inv EA.
have SB : (E^T *m B *m E)^T = E^T *m B *m E by rewrite !trmx_mul trmxK sB mulmxA.
pose c1 := - 2%:R^-1 * (N%:R * ln (2%:R * PI) + ln (\det K) + qf (invmx K) m).
pose c2 := - 2%:R^-1 * (N%:R * ln (2%:R * PI) + ln (\det K') + qf (invmx K') m').
have [||_ /subr0_eq Eb /subr0_eq EM] := @quad_zero N (c1 - c2 - c) (invmx K *m m - (invmx K' *m m' + E^T *m a))
    (- 2%:R^-1 *: invmx K - (- 2%:R^-1 *: invmx K' + E^T *m B *m E)).
- by rewrite linearB /= trmxD (S _ PK) (S _ PK') SB.
- move=> x; have := H x; rewrite !quad_logpdf // -/c1 -/c2 /quad_fun lin3 (@qfB Rr) (@qfD Rr).
  have -> : (a^T *m (E *m x)) 0 0 = ((E^T *m a)^T *m x) 0 0 by rewrite trmx_mul trmxK mulmxA.
  have -> : qf B (E *m x) = qf (E^T *m B *m E) x by rewrite /qf trmx_mul !mulmxA.
  move: (qf _ _) (qf _ _) (qf _ _) (fun_of_matrix _ _ _) (fun_of_matrix _ _ _) (fun_of_matrix _ _ _) => u v w s t r; toR_ops => Q; lra.
split=> //.
have := congr1 (fun M : 'M[R]_N => - 2%:R *: M) EM.
rewrite scalerDr !scalerA (_ : - 2%:R * - 2%:R^-1 = 1); last by rewrite mulrNN mulfV // two_neq0.
by rewrite !scale1r scaleNr.
Qed.

(* what it does to the part E x *)
Lemma tilt_block N e (E : 'M[R]_(e, N)) (m m' : 'cV[R]_N) (K K' : 'M[R]_N) (a : 'cV[R]_e) (B : 'M[R]_e) :
  K \in unitmx -> K' \in unitmx -> E *m K *m E^T \in unitmx -> E *m K' *m E^T \in unitmx ->
  invmx K = invmx K' - 2%:R *: (E^T *m B *m E) -> invmx K *m m = invmx K' *m m' + E^T *m a ->
  invmx (E *m K *m E^T) = invmx (E *m K' *m E^T) - 2%:R *: B /\
  invmx (E *m K *m E^T) *m (E *m m) = invmx (E *m K' *m E^T) *m (E *m m') + a.
Proof.
move=> uK uK'; set C := E *m K *m E^T; set C' := E *m K' *m E^T => uC uC' EI Em.
have E1 : K' *m invmx K = 1%:M - 2%:R *: (K' *m E^T *m B *m E).
  by rewrite EI mulmxBr mulmxV // -scalemxAr !mulmxA.
have E2 : C' = C - 2%:R *: (C' *m B *m C).
  have := congr1 (fun M => E *m (M *m K) *m E^T) E1.
  rewrite mulmxKV // => E0; apply: (etrans E0); rewrite mulmxBl mul1mx mulmxBr mulmxBl -/C; congr (_ - _).
  by rewrite -!scalemxAl -scalemxAr -scalemxAl /C /C' !mulmxA.
have EC' : C' = E *m K' *m E^T by [].
clearbody C C'.
have E3 : invmx C = invmx C' - 2%:R *: B.
  have := congr1 (fun M => invmx C' *m M *m invmx C) E2.
  rewrite mulVmx // mul1mx mulmxBr mulmxBl mulmxK // => E0; apply: (etrans E0); congr (_ - _).
  by rewrite -scalemxAr -scalemxAl !mulmxA mulVmx // mul1mx mulmxK.
split=> //.
have E4 : E *m m' = E *m m - 2%:R *: (C' *m B *m (E *m m)) - C' *m a.
  have -> : m' = K' *m (invmx K *m m - E^T *m a) by rewrite Em addrK mulKVmx.
  rewrite (mulmxBr K') (mulmxA K' (invmx K)) E1 mulmxBl mul1mx !mulmxBr EC' !mulmxA; congr (_ - _ - _).
  by rewrite -scalemxAr -scalemxAl !mulmxA.
rewrite E4 !mulmxBr mulKmx // subrK E3 mulmxBl; congr (_ - _).
by rewrite -scalemxAr -scalemxAl -!mulmxA mulKmx.
Qed.

Section Select.
Variables (d n : nat) (k : nat).
Hypothesis Hk : (k <= n)%N.
Definition sel : 'M[R]_(d, n.+1 * d) := brow n.+1 (fun j => if j == k then 1%:M else 0).
Lemma sel_bcol p (c : nat -> 'M[R]_(d, p)) : sel *m bcol n.+1 c = c k.
Proof.
rewrite /sel mul_brow_bcol (bigD1 (Ordinal (Hk : (k < n.+1)%N))) //= eqxx mul1mx big1 ?addr0 // => j Hj.
by rewrite ifN ?mul0mx //; apply: contra Hj => /eqP E; apply/eqP/val_inj.
Qed.
Lemma sel_dense (K : nat -> nat -> 'M[R]_d) : sel *m dense n.+1 n.+1 K *m sel^T = K k k.
Proof.
rewrite /dense sel_bcol /sel tr_brow mul_brow_bcol (bigD1 (Ordinal (Hk : (k < n.+1)%N))) //= eqxx trmx1 mulmx1 big1 ?addr0 // => j Hj.
by rewrite ifN ?trmx0 ?mulmx0 //; apply: contra Hj => /eqP E; apply/eqP/val_inj.
Qed.
End Select.

Lemma spd_blk d n (K : nat -> nat -> 'M[R]_d) k : (k <= n)%N -> spd (dense n.+1 n.+1 K) -> spd (K k k).
Proof.
move=> Hk [sK pK]; rewrite -(sel_dense Hk K); split.
  by rewrite !trmx_mul trmxK sK mulmxA.
move=> x Hx; have -> : qf (sel d n k *m dense n.+1 n.+1 K *m (sel d n k)^T) x = qf (dense n.+1 n.+1 K) ((sel d n k)^T *m x).
  by rewrite /qf trmx_mul trmxK !mulmxA.
apply: pK; apply: contra Hx => /eqP E; apply/eqP.
have := congr1 (mulmx (sel d n k)) E; rewrite mulmx0 mulmxA.
have -> : sel d n k *m (sel d n k)^T = 1%:M.
  by rewrite {2}/sel tr_brow sel_bcol // eqxx trmx1.
by rewrite mul1mx.
Qed.

Section Pep.
Variables (d : nat) (ker : sde_kernel Rr d) (emission : R -> 'M[R]_(1, d)).
Hypothesis Hker : markov_kernel ker.
Hypothesis Hm0 : k_mean0 ker = 0.
Variables (n : nat) (z : nat -> R).
Hypothesis Hz : increasing n.+1 z.
Hypothesis Hn : (0 < n)%N.
Let H (k : nat) := emission (z k).

Section Tilt.
Variables (s s' : sites Rr) (k : nat).
Hypothesis Hk : (k <= n)%N.
Hypothesis Hs : forall j, (j <= n)%N -> st_nat2 s j <= 0.
Hypothesis Hs' : forall j, (j <= n)%N -> st_nat2 s' j <= 0.
Hypothesis same : forall j, (j <= n)%N -> j != k -> st_nat1 s j = st_nat1 s' j /\ st_nat2 s j = st_nat2 s' j.

Lemma exponent_tilt x : sites_exponent n H s x = sites_exponent n H s' x +
  ((st_nat1 s k - st_nat1 s' k) * (H k *m x k) 0 0 + (st_nat2 s k - st_nat2 s' k) * (H k *m x k) 0 0 ^+ 2).
Proof.
rewrite /sites_exponent (bigD1 (Ordinal (Hk : (k < n.+1)%N))) //= [in RHS](bigD1 (Ordinal (Hk : (k < n.+1)%N))) //=.
set A := \sum_(i | _) _; set B := \sum_(i | _) _.
have -> : A = B.
  apply: eq_bigr => j Hj; have [|-> -> //] := same (ltn_ord j).
  by apply: contra Hj => /eqP E; apply/eqP/val_inj.
crng.
Qed.

Lemma sites_tilt q q' m K m' K' :
  cvi_dist_q ker emission n z s = Some q -> cvi_dist_q ker emission n z s' = Some q' ->
  has_law n.+1 n.+1 (ssm_path q) m K -> has_law n.+1 n.+1 (ssm_path q') m' K' ->
  [/\ spd (K k k), spd (K' k k),
   invmx (K k k) = invmx (K' k k) - 2%:R *: ((st_nat2 s k - st_nat2 s' k) *: ((H k)^T *m H k)) &
   invmx (K k k) *m m k = invmx (K' k k) *m m' k + (st_nat1 s k - st_nat1 s' k) *: (H k)^T].
Proof.
move=> Eq Eq' L L'.
have [q1 [c [F1 F2 F3]]] := cvi_posterior_density emission Hker Hz Hn Hs Hm0.
have [q2 [c' [G1 G2 G3]]] := cvi_posterior_density emission Hker Hz Hn Hs' Hm0.
move: F1 G1; rewrite Eq Eq' => /Some_inj Q1 /Some_inj Q2; move: F2 F3 G2 G3; rewrite -Q1 -Q2 => F2 F3 G2 G3.
have PK : spd (dense n.+1 n.+1 K) by have [_ ->] := ssm_lawE L; apply: cov_spd; exact: ssm_chol_nonsing.
have PK' : spd (dense n.+1 n.+1 K') by have [_ ->] := ssm_lawE L'; apply: cov_spd; exact: ssm_chol_nonsing.
have P1 := spd_blk Hk PK; have P2 := spd_blk Hk PK'.
pose a : 'cV[R]_d := (st_nat1 s k - st_nat1 s' k) *: (H k)^T.
pose B : 'M[R]_d := (st_nat2 s k - st_nat2 s' k) *: ((H k)^T *m H k).
have T := @tilt_nat _ _ (sel d n k) (flat n.+1 m) (flat n.+1 m') _ _ a B (c - c') PK PK'.
have [|x|E1 E2] := T.
- by rewrite /B trmxZ trmx_mul trmxK.
- have := F3 m K (unflat x) L; have := G3 m' K' (unflat x) L'; rewrite exponent_tilt flat_unflat => -> ->.
  have Es : sel d n k *m x = unflat x k by rewrite -{1}(flat_unflat x) sel_bcol.
  rewrite Es /a /B trmxZ trmxK -scalemxAl scale00 (@qfZ Rr).
  have -> : qf ((H k)^T *m H k) (unflat x k) = (H k *m unflat x k) 0 0 ^+ 2.
    rewrite /qf mulmxA -trmx_mul -mulmxA mxE big_ord1 [_^T _ _]mxE expr2; reflexivity.
  move: (gauss_logpdf _ _ _) (sites_exponent _ _ _ _) (fun_of_matrix _ _ _) => u v w; crng.
- have [||||E3 E4] := @tilt_block _ _ (sel d n k) (flat n.+1 m) (flat n.+1 m') _ _ a B _ _ _ _ E1 E2;
    rewrite ?(sel_dense Hk) ?(@spd_unit Rr) //.
  by move: E3 E4; rewrite !(sel_dense Hk) !sel_bcol.
Qed.
End Tilt.

Lemma bp1 a b e (C : 'M[R]_(1, e)) : (back_project_nats a b C).1 = a *: C^T.
Proof. by apply/colP => j; rewrite !mxE big_ord1 mulrC. Qed.

Lemma scale_same s k c j : j != k ->
  st_nat1 s j = st_nat1 (scale_site s k c) j /\ st_nat2 s j = st_nat2 (scale_site s k c) j.
Proof. by rewrite /= => /negbTE ->. Qed.

Lemma scale_le0 s k c : 0 <= c -> (forall j, (j <= n)%N -> st_nat2 s j <= 0) ->
  forall j, (j <= n)%N -> st_nat2 (scale_site s k c) j <= 0.
Proof. by move=> Hc Hs j Hj /=; case: eqP => _; [apply: mulr_ge0_le0 => //|]; apply: Hs. Qed.

End Pep.
