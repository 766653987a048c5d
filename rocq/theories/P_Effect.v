(* Proofs: what the data can do to the predictions of a regression. *)
From Coq Require Import Reals Lra.
From mathcomp Require Import all_ssreflect all_algebra.
From Verif Require Import RealStruct Nat Alg Lin Ent Spd Log M_Block M_SSM S_SSM P_SSM M_SSMLog P_SSMLog S_Gauss P_Gauss
  S_Kalman M_Kalman P_Kalman M_Kernel S_Kernel P_Kernel M_Comb S_Comb M_KernelR
  M_Cond P_Cond P_Cond2 P_Cond4 M_Emission M_Models S_GP P_Models P_Models2 P_Density P_Expect P_Elbo P_Grow.
Set Implicit Arguments.
Unset Strict Implicit.
Unset Printing Implicit Defensive.
Import GRing.Theory Num.Theory Order.POrderTheory.
Local Open Scope ring_scope.

Section Gen.
Variable F : rcfType.
(* the covariance that is left after observing L x with noise *)
Lemma post_psd p m q (a : 'M[F]_(p, q)) (L : 'M[F]_(m, q)) (S : 'M[F]_m) : spd S ->
  psd (a *m a^T - (a *m L^T) *m invmx (L *m L^T + S) *m (a *m L^T)^T).
Proof.
move=> HS; have HK : spd (L *m L^T + S).
  by rewrite addrC; apply: spdD => //; exact: psd_mul_tr.
have uK := spd_unit HK; have sK := spd_sym HK.
set W := invmx _; pose G := L^T *m W; have sW : W^T = W by rewrite /W tr_invmx sK.
have EG : G *m (L *m L^T + S) = L^T by rewrite /G mulmxKV.
have -> : a *m a^T - a *m L^T *m W *m (a *m L^T)^T = a *m ((1%:M - G *m L) *m (1%:M - G *m L)^T + G *m S *m G^T) *m a^T.
  have -> : (1%:M - G *m L) *m (1%:M - G *m L)^T + G *m S *m G^T = 1%:M - G *m L.
    have E2 : G *m S *m G^T = L^T *m G^T - G *m L *m (L^T *m G^T).
      have E3 : L^T *m G^T = G *m L *m (L^T *m G^T) + G *m S *m G^T by rewrite -[in LHS]EG mulmxDr mulmxDl !mulmxA.
      by apply/eqP; rewrite eq_sym subr_eq addrC -E3.
    by rewrite E2 linearB /= trmx1 trmx_mul mulmxBl mul1mx mulmxBr mulmx1; zmod.
  by rewrite mulmxBr mulmx1 mulmxBl trmx_mul trmxK /G !mulmxA.
apply: psd_congr'; apply: psdD; first exact: psd_mul_tr.
by apply: psd_congr'; apply: spd_psd.
Qed.

Lemma brow_pick' p o N M (a : nat -> nat) (f : nat -> 'M[F]_(p, o)) : (forall j, (j < M)%N -> (a j < N)%N) ->
  brow N f *m (@pick F o M N a)^T = brow M (fun j => f (a j)).
Proof.
move=> Ha; apply: trmx_inj; rewrite trmx_mul trmxK !tr_brow /pick mul_dense_bcol; apply: eq_bcol => j Hj.
by rewrite (sum_pick 1%:M (fun l => (f l)^T)) ?Ha // mul1mx.
Qed.

Lemma mul_brow_dense p o d N M (r : nat -> 'M[F]_(p, o)) (K : nat -> nat -> 'M[F]_(o, d)) :
  brow N r *m dense N M K = brow M (fun j => \sum_(l < N) r l *m K l j).
Proof.
apply: trmx_inj; rewrite trmx_mul tr_dense !tr_brow mul_dense_bcol; apply: eq_bcol => j Hj.
by rewrite linear_sum; apply: eq_bigr => l _ /=; rewrite trmx_mul.
Qed.
End Gen.

Section Effect.
Variables (o d : nat) (ker : sde_kernel Rr d) (emission : R -> 'M[R]_(o, d)).
Hypothesis Hker : markov_kernel ker.
Hypothesis Hm0 : k_mean0 ker = 0.
Variable cR : 'M[R]_o.
Hypothesis HR : lownz cR.

Definition obs_gram n (z : nat -> R) := f_gram ker emission n.+1 n.+1 z z + dense n.+1 n.+1 (rdiag (fun _ => cR *m cR^T)).
Definition cross n (z : nat -> R) t := brow n.+1 (fun j => f_cov ker emission t (z j)).

Lemma left_psd n z t : increasing (F := Rr) n.+1 z ->
  psd (f_cov ker emission t t - cross n z t *m invmx (obs_gram n z) *m (cross n z t)^T).
Proof.
move=> Hz; pose u i := if i is j.+1 then z j else t.
have [G HG] := @state_gram Rr d ker n.+2 u Hker.
pose a := emission t *m brow n.+2 (G 0%N).
pose L := dense n.+1 n.+2 (fun i l => emission (z i) *m G i.+1 l).
have Ea i : (i < n.+2)%N -> brow n.+2 (G 0%N) *m (brow n.+2 (G i))^T = state_cov ker t (u i).
  move=> Hi; have -> : state_cov ker t (u i) = state_cov ker (u 0%N) (u i) by [].
  by rewrite (HG 0%N i) // tr_brow (@mul_brow_bcol Rr).
have E1 : f_cov ker emission t t = a *m a^T.
  rewrite /f_cov /a trmx_mul !mulmxA; congr (_ *m _).
  by rewrite -[in RHS]mulmxA Ea.
have E2 : cross n z t = a *m L^T.
  rewrite /cross /a /L tr_dense -mulmxA (@mul_brow_dense Rr) (@mul_mx_brow Rr); apply: eq_brow => j Hj.
  rewrite /f_cov -mulmxA; congr (_ *m _).
  have -> : state_cov ker t (z j) = state_cov ker (u 0%N) (u j.+1) by [].
  rewrite (HG 0%N j.+1) // /wn_cov mulmx_suml; apply: eq_bigr => l _.
  by rewrite trmx_mul mulmxA.
have E3 : f_gram ker emission n.+1 n.+1 z z = L *m L^T.
  rewrite /L tr_dense (@mul_dense Rr); apply: eq_dense => i j Hi Hj.
  have -> : f_cov ker emission (z i) (z j) = emission (z i) *m state_cov ker (u i.+1) (u j.+1) *m (emission (z j))^T by [].
  rewrite (HG i.+1 j.+1) // /wn_cov mulmx_sumr mulmx_suml; apply: eq_bigr => l _.
  by rewrite trmx_mul !mulmxA.
rewrite E1 E2 /obs_gram E3; apply: (@post_psd Rr); exact: Sg_spd.
Qed.

Lemma cut_psd n z t : increasing (F := Rr) n.+1 z -> psd (cross n z t *m invmx (obs_gram n z) *m (cross n z t)^T).
Proof. by move=> Hz; apply: (@psd_congr' Rr); apply: spd_psd; apply: spd_inv; apply: obs_spd. Qed.

Lemma cut_grow n z n' z' pos t : increasing (F := Rr) n.+1 z -> increasing (F := Rr) n'.+1 z' ->
  (forall j, (j < n.+1)%N -> (pos j < n'.+1)%N /\ z' (pos j) = z j) ->
  psd (cross n' z' t *m invmx (obs_gram n' z') *m (cross n' z' t)^T - cross n z t *m invmx (obs_gram n z) *m (cross n z t)^T).
Proof.
move=> Hz Hz' Hp.
have Hb j : (j < n.+1)%N -> (pos j < n'.+1)%N by case/Hp.
have Ip i j : (i < n.+1)%N -> (j < n.+1)%N -> (pos i == pos j) = (i == j).
  move=> Hi Hj; apply/eqP/eqP => [E|-> //]; have [_ Ei] := Hp i Hi; have [_ Ej] := Hp j Hj.
  have Ez : z i = z j by rewrite -Ei -Ej E.
  have [H|H|//] := ltngtP i j.
    by have := @increasing_lt Rr _ _ _ _ Hz H Hj; rewrite Ez ltxx.
  by have := @increasing_lt Rr _ _ _ _ Hz H Hi; rewrite Ez ltxx.
pose P := @pick Rr o n.+1 n'.+1 pos.
have E1 : obs_gram n z = P *m obs_gram n' z' *m P^T.
  rewrite /obs_gram /f_gram !(@denseD Rr) (@pick_dense Rr _ _ _ _ _ _ _ Hb Hb); apply: eq_dense => i j Hi Hj.
  have [_ E] := Hp i Hi; have [_ E'] := Hp j Hj; by rewrite E E' /rdiag Ip.
have E2 : cross n z t = cross n' z' t *m P^T.
  rewrite /cross (@brow_pick' Rr _ _ _ _ _ _ Hb); apply: eq_brow => j Hj.
  by have [_ ->] := Hp j Hj.
have S' : spd (obs_gram n' z') by exact: obs_spd.
have S1 : spd (obs_gram n z) by exact: obs_spd.
by rewrite E2 E1; apply: (@nystrom_mono Rr) => //; rewrite -E1.
Qed.

Lemma more_data mean n z y n' z' y' new i : increasing (F := Rr) n.+1 z -> increasing (F := Rr) n'.+1 z' ->
  (0 < n)%N -> - APPROX_INF Rr < z' 0%N -> z 0%N <= new i <= z n ->
  (forall j, (j < n.+1)%N -> exists2 l, (l < n'.+1)%N & z' l = z j) ->
  exists m C m' C', [/\ omap (fun p => p i) (gpr_predict_f ker emission mean n z y cR new) = Some (m, C),
    omap (fun p => p i) (gpr_predict_f ker emission mean n' z' y' cR new) = Some (m', C'),
    psd C', psd (C - C') & psd (f_cov ker emission (new i) (new i) - C)].
Proof.
move=> Hz Hz' n0 Hinf Hnew /position [pos Hp].
have [N1 N2] := andP Hnew.
have [P0 Q0] := Hp 0%N isT; have [Pn Qn] := Hp n (ltnSn n).
have n0' : (0 < n')%N.
  case: n' Hz' Hp P0 Q0 Pn Qn => // Hz' Hp P0 Q0 Pn Qn.
  have : z 0%N < z n by apply: (@increasing_lt Rr _ _ _ _ Hz).
  have E1 : pos 0%N = 0%N by move: P0; case: (pos 0%N).
  have E2 : pos n = 0%N by move: Pn; case: (pos n).
  by rewrite -Q0 -Qn E1 E2 ltxx.
have mono a b : (a <= b)%N -> (b < n'.+1)%N -> z' a <= z' b.
  by rewrite leq_eqVlt => /orP [/eqP -> //|Hab] Hb; apply: ltW; apply: (@increasing_lt Rr _ _ _ _ Hz').
have L0 : z' 0%N <= z 0%N by rewrite -Q0; apply: mono.
have Ln : z n <= z' n' by rewrite -Qn; apply: mono.
have Hinf1 : - APPROX_INF Rr < z 0%N by exact: lt_le_trans Hinf L0.
have E := gpr_predict emission mean Hker Hm0 y Hz HR n0 Hinf1 N1 N2.
have E' := gpr_predict emission mean Hker Hm0 y' Hz' HR n0' Hinf (le_trans L0 N1) (le_trans N2 Ln).
do 4 eexists; split; [exact: E|exact: E'| | |].
- exact: (left_psd (new i) Hz').
- have -> : forall X A B : 'M[R]_o, X - A - (X - B) = B - A by move=> X A B; rewrite opprB addrC addrA subrK addrC.
  exact: (cut_grow (new i) Hz Hz' Hp).
- have -> : forall X A : 'M[R]_o, X - (X - A) = A by move=> X A; rewrite opprB addrC subrK.
  exact: (cut_psd (new i) Hz).
Qed.

Lemma linear_data mean mean' n z y y' (a b : R) new i : increasing (F := Rr) n.+1 z -> (0 < n)%N ->
  - APPROX_INF Rr < z 0%N -> z 0%N <= new i <= z n ->
  exists m m' C, [/\ omap (fun p => p i) (gpr_predict_f ker emission mean n z y cR new) = Some (m, C),
    omap (fun p => p i) (gpr_predict_f ker emission mean' n z y' cR new) = Some (m', C) &
    omap (fun p => p i) (gpr_predict_f ker emission (fun t => a *: mean t + b *: mean' t) n z (fun j => a *: y j + b *: y' j) cR new) =
      Some (a *: m + b *: m', C)].
Proof.
move=> Hz n0 Hinf /andP [N1 N2].
have E := gpr_predict emission mean Hker Hm0 y Hz HR n0 Hinf N1 N2.
have E' := gpr_predict emission mean' Hker Hm0 y' Hz HR n0 Hinf N1 N2.
have E'' := gpr_predict emission (fun t => a *: mean t + b *: mean' t) Hker Hm0 (fun j => a *: y j + b *: y' j) Hz HR n0 Hinf N1 N2.
do 3 eexists; split; [exact: E|exact: E'|]; rewrite E''; congr (Some (_, _)).
have -> : flat n.+1 (fun j => a *: y j + b *: y' j) - flat n.+1 (fun k => a *: mean (z k) + b *: mean' (z k)) =
  a *: (flat n.+1 y - flat n.+1 (fun k => mean (z k))) + b *: (flat n.+1 y' - flat n.+1 (fun k => mean' (z k))).
  rewrite !(@flatB Rr) /flat !(@bcolZ Rr) (@bcolD Rr); apply: eq_bcol => j _.
  by rewrite !scalerBr opprD addrACA.
by rewrite mulmxDr -!scalemxAr !scalerDr addrACA.
Qed.
End Effect.

Lemma more_noise o d (ker : sde_kernel Rr d) (emission : R -> 'M[R]_(o, d)) (cR cR' : 'M[R]_o) mean mean' n z y y' new i :
  markov_kernel ker -> k_mean0 ker = 0 -> lownz cR -> lownz cR' -> psd (cR' *m cR'^T - cR *m cR^T) ->
  increasing (F := Rr) n.+1 z -> (0 < n)%N -> - APPROX_INF Rr < z 0%N -> z 0%N <= new i <= z n ->
  exists m C m' C', [/\ omap (fun p => p i) (gpr_predict_f ker emission mean n z y cR new) = Some (m, C),
    omap (fun p => p i) (gpr_predict_f ker emission mean' n z y' cR' new) = Some (m', C') & psd (C' - C)].
Proof.
move=> Hker Hm0 HR HR' HD Hz n0 Hinf /andP [N1 N2].
have E := gpr_predict emission mean Hker Hm0 y Hz HR n0 Hinf N1 N2.
have E' := gpr_predict emission mean' Hker Hm0 y' Hz HR' n0 Hinf N1 N2.
do 4 eexists; split; [exact: E|exact: E'|].
set Kt := brow _ _; set Sg := dense _ _ (rdiag (fun _ => cR *m cR^T)); set Sg' := dense _ _ (rdiag (fun _ => cR' *m cR'^T)).
have -> : forall X A B : 'M[R]_o, X - A - (X - B) = B - A by move=> X A B; rewrite opprB addrC addrA subrK addrC.
rewrite -mulmxBl -mulmxBr; apply: (@psd_congr' Rr).
have -> : f_gram ker emission n.+1 n.+1 z z + Sg' = f_gram ker emission n.+1 n.+1 z z + Sg + (Sg' - Sg) by rewrite -addrA (addrC Sg) subrK.
apply: (@inv_antitone Rr); first by rewrite /Sg; apply: obs_spd.
have -> : Sg' - Sg = dense n.+1 n.+1 (rdiag (fun _ => cR' *m cR'^T - cR *m cR^T)).
  by rewrite /Sg /Sg' (@denseB Rr); apply: eq_dense => a b _ _; rewrite /rdiag; case: eqP => // _; rewrite subr0.
by apply: (@psd_rdiag Rr).
Qed.

Lemma effect_example (l v s2 : R) n : 0 < l -> 0 < v -> 0 < s2 -> (0 < n)%N ->
  let ke := to_sde (matern32 1 0 l v 0) in let z i : R := (2 * i)%:R in let z' i : R := i%:R in
  [/\ markov_kernel ke, k_mean0 ke = 0, lownz ((Num.sqrt s2)%:M : 'M[R]_1), increasing (F := Rr) n.+1 z &
      increasing (F := Rr) (2 * n).+1 z' ] /\
  [/\ - APPROX_INF Rr < z' 0%N, z 0%N <= 1 <= z n & forall j, (j < n.+1)%N -> exists2 l, (l < (2 * n).+1)%N & z' l = z j].
Proof.
move=> Hl Hv Hs Hn ke z z'.
have [E1 E2 E3 E4 [E5 _]] := @density_example l v s2 n 0%N Hl Hv Hs Hn.
split.
  split; [exact: E1|exact: E2|exact: E5| |]; move=> j Hj; rewrite ltr_nat; lia.
split; first exact: E4.
  by apply/andP; split; rewrite /z ?muln0 ?ler01 // ler1n; lia.
by move=> j Hj; exists (2 * j)%N; rewrite //; lia.
Qed.
