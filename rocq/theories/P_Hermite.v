(* Gauss-Hermite rules exist: the nodes are the roots of a Hermite polynomial. *)
From mathcomp Require Import all_ssreflect all_algebra.
From Verif Require Import Nat Alg S_Sde P_Sde.
Set Implicit Arguments.
Unset Strict Implicit.
Unset Printing Implicit Defensive.
Import GRing.Theory Num.Theory Order.TTheory.
Local Open Scope ring_scope.

Section Hermite.
Variable F : rcfType.
Implicit Types (p q : {poly F}).

Lemma deriv1 : (1 : {poly F})^`() = 0. Proof. by rewrite -polyC1 derivC. Qed.

Fixpoint he (n : nat) : {poly F} := if n is n'.+1 then 'X * he n' - (he n')^`() else 1.

Lemma he_size n : size (he n) = n.+1 /\ lead_coef (he n) = 1.
Proof.
elim: n => [|n [IH IL]]; first by rewrite /= size_poly1 lead_coef1.
have N0 : he n != 0 by rewrite -size_poly_gt0 IH.
have S1 : size ('X * he n) = n.+2 by rewrite mulrC size_mulX // IH.
have S2 : (size (- (he n)^`()) < size ('X * he n)%R)%N.
  by rewrite size_opp S1; apply: leq_trans (lt_size_deriv N0) _; rewrite IH.
by rewrite /= size_addl // lead_coefDl // S1 mulrC lead_coefMX.
Qed.

Lemma he_monic n : he n \is monic. Proof. by rewrite monicE (he_size n).2. Qed.

Lemma he_deriv n : (he n.+1)^`() = n.+1%:R *: he n.
Proof.
elim: n => [|n IH]; first by rewrite /= deriv1 subr0 mulr1 derivX scale1r.
rewrite [he n.+2]/= derivB derivM derivX mul1r -/(he n.+1) IH derivZ -scalerAr -addrA -scalerBr.
by rewrite -[in LHS]/(he n.+1) -[X in X + _]scale1r -scalerDl -(natrD _ 1 n.+1) add1n.
Qed.

Lemma he_rec n : he n.+2 = 'X * he n.+1 - n.+1%:R *: he n.
Proof. by rewrite -he_deriv. Qed.

Lemma he_rec_at n x : (he n.+2).[x] = x * (he n.+1).[x] - n.+1%:R * (he n).[x].
Proof. by rewrite he_rec hornerD hornerN hornerM hornerX hornerZ. Qed.

Lemma he_parity n x : (he n).[- x] = (-1) ^+ n * (he n).[x].
Proof.
suff H k : (he k).[- x] = (-1) ^+ k * (he k).[x] /\ (he k.+1).[- x] = (-1) ^+ k.+1 * (he k.+1).[x] by case: (H n).
elim: k => [|k [I1 I2]].
  by rewrite expr0 mul1r expr1 /= deriv1 subr0 mulr1 !hornerX -polyC1 !hornerC mulN1r.
split=> //; rewrite !he_rec_at I1 I2 !exprS; move: ((-1) ^+ k) => s; crng.
Qed.

(* orthogonality *)
Lemma he_orth n q : std_expect (he n * q) = std_expect q^`(n).
Proof.
elim: n q => [|n IH] q; first by rewrite mul1r derivn0.
have -> : he n.+1 * q = 'X * (he n * q) + (-1) *: ((he n)^`() * q) by rewrite /= scaleN1r mulrBl mulrA.
rewrite std_add std_stein std_scale derivM std_add mulN1r addrC addKr IH -derivSn //.
Qed.

Lemma he_orth0 n q : (size q <= n)%N -> std_expect (he n * q) = 0.
Proof.
move=> Hq; rewrite he_orth derivn_poly0 // /std_expect size_poly0 big_ord0 //.
Qed.

(* a polynomial with a positive leading coefficient is positive far away *)
Lemma poly_far p : 0 < lead_coef p -> exists M e, 0 < e /\ forall x, M <= x -> e <= p.[x].
Proof.
elim/poly_ind: p => [|q c IH]; first by rewrite lead_coef0 ltxx.
have [->|N0] := eqVneq q 0.
  by rewrite mul0r add0r lead_coefC => Hc; exists 0, c; split=> // x _; rewrite hornerC.
rewrite lead_coefDl ?size_mulX //; last by rewrite ltnS (leq_trans (size_polyC_leq1 _)) // size_poly_gt0.
rewrite lead_coefMX => /IH [M [e [e0 He]]].
exists (Num.max M (1 + `|c| / e)), e; split=> // x; rewrite le_maxl => /andP [H1 H2].
rewrite hornerD hornerM hornerX hornerC.
have x0 : 0 <= x by apply: le_trans H2; rewrite addr_ge0 // divr_ge0 // ltW.
apply: le_trans (_ : e * x + c <= _); last by rewrite ler_add2r ler_wpmul2r // He.
have H3 : e + `|c| <= e * x by rewrite -(ler_pmul2l e0) mulrDr mulr1 mulrCA divff ?mulr1 ?gt_eqF // in H2.
have H4 : - `|c| <= c by rewrite ler_oppl -normrN ler_norm.
by rewrite -ler_subl_addr; apply: le_trans H3; rewrite ler_add2l ler_oppl.
Qed.

(* a product of differences has the sign of the number of negative factors *)
Lemma sign_prod N (r : nat -> F) (s : F) i :
  (forall j, (j < i)%N -> (j < N)%N -> r j < s) -> (forall j, (i <= j)%N -> (j < N)%N -> s < r j) ->
  0 < (-1) ^+ (N - i) * \prod_(j < N) (s - r j).
Proof.
move=> H1 H2; have -> : (-1) ^+ (N - i) = \prod_(j < N) (if (j < i)%N then 1 else -1) :> F.
  elim: N {H1 H2} => [|N IH]; first by rewrite big_ord0 sub0n.
  rewrite big_ord_recr /= -IH; case: (ltnP N i) => Hi.
    have E1 : (N.+1 - i = 0)%N by apply/eqP; rewrite subn_eq0.
    have E2 : (N - i = 0)%N by apply/eqP; rewrite subn_eq0 ltnW.
    by rewrite mulr1 E1 E2.
  by rewrite subSn // exprSr.
rewrite -big_split /=; apply: prodr_gt0 => j _; case: (ltnP j i) => Hj.
  by rewrite mul1r subr_gt0; apply: H1.
by rewrite mulN1r opprB subr_gt0; apply: H2.
Qed.

Definition inc (n : nat) (r : nat -> F) := forall i j, (i < j)%N -> (j < n)%N -> r i < r j.

Lemma inc_step n (r : nat -> F) : (forall i, (i.+1 < n)%N -> r i < r i.+1) -> inc n r.
Proof.
move=> H i j; elim: j => // j IH; rewrite ltnS leq_eqVlt => /orP [/eqP -> |Hi] Hj; first exact: H.
by apply: lt_trans (H _ Hj); apply: IH => //; exact: ltnW.
Qed.

Lemma prod_of_roots n (r : nat -> F) p : inc n r -> p \is monic -> size p = n.+1 -> (forall i, (i < n)%N -> root p (r i)) ->
  p = \prod_(i < n) ('X - (r i)%:P).
Proof.
move=> Hi Hm Hs Hr; pose rs := [seq r i | i <- iota 0 n].
have U : uniq rs.
  rewrite map_inj_in_uniq ?iota_uniq // => i j; rewrite !mem_iota /= !add0n => Li Lj E.
  by case: (ltngtP i j) => // L; [have := Hi _ _ L Lj | have := Hi _ _ L Li]; rewrite E ltxx.
have A : all (root p) rs by apply/allP => x /mapP [i]; rewrite mem_iota /= add0n => Li ->; exact: Hr.
have Sz : size p = (size rs).+1 by rewrite size_map size_iota.
have := all_roots_prod_XsubC Sz A; rewrite uniq_rootsE => /(_ U) ->.
by rewrite (monicP Hm) scale1r /rs big_map -(big_mkord xpredT (fun i => 'X - (r i)%:P)) /index_iota subn0.
Qed.

Lemma he_prod n (r : nat -> F) : inc n r -> (forall i, (i < n)%N -> root (he n) (r i)) -> he n = \prod_(i < n) ('X - (r i)%:P).
Proof. by move=> Hi Hr; apply: prod_of_roots => //; [exact: he_monic | exact: (he_size n).1]. Qed.

(* the roots of he n separate those of he n.+1 *)
Lemma he_roots n : exists r, [/\ inc n.+1 r, forall i, (i <= n)%N -> root (he n.+1) (r i) &
  forall i, (i <= n)%N -> 0 < (-1) ^+ (n - i) * (he n).[r i]].
Proof.
elim: n => [|m [r [Hi Hr Hs]]].
  exists (fun _ => 0); split=> [i [|j] //|i _|[|i] // _]; last by rewrite expr0 mul1r /= -polyC1 hornerC ltr01.
  by rewrite /= deriv1 subr0 mulr1 /root hornerX.
pose p := he m.+2.
have Sg i : (i <= m)%N -> 0 < (-1) ^+ (m.+1 - i) * p.[r i].
  move=> Li; rewrite /p he_rec_at (eqP (Hr i Li)) mulr0 sub0r mulrN subSn // exprS mulN1r mulNr opprK mulrCA.
  by rewrite pmulr_rgt0 ?ltr0n // Hs.
have [M0 [e [e0 Hf]]] : exists M e, 0 < e /\ forall x, M <= x -> e <= p.[x] by apply: poly_far; rewrite (he_size m.+2).2 ltr01.
pose M := Num.max M0 (1 + `|r 0%N| + `|r m|).
have pM : 0 < p.[M] by apply: lt_le_trans e0 (Hf _ _); rewrite le_maxr lexx.
have M1 : 1 + `|r 0%N| + `|r m| <= M by rewrite le_maxr lexx orbT.
have L0 : - M < r 0%N.
  rewrite ltr_oppl; apply: lt_le_trans M1; apply: le_lt_trans (ler_norm _) _; rewrite normrN.
  by rewrite -addrA addrCA ltr_addl ltr_paddr.
have Lm : r m < M.
  by apply: lt_le_trans M1; apply: le_lt_trans (ler_norm _) _; rewrite ltr_addr ltr_paddr.
pose t i := if i is i'.+1 then (if (i' <= m)%N then r i' else M) else - M.
have Ht i : (i <= m.+1)%N -> t i < t i.+1.
  case: i => [_ //|i Li]; rewrite /t; have -> : (i <= m)%N by [].
  case: (ltnP i m) => Lim; first by rewrite Hi.
  by have -> : i = m by apply/eqP; rewrite eqn_leq Lim andbT.
have St i : (i <= m.+2)%N -> 0 < (-1) ^+ (m.+2 - i) * p.[t i].
  case: i => [_|i Li]; first by rewrite subn0 /t he_parity mulrA -exprMn mulrNN mulr1 expr1n mul1r.
  rewrite subSS /t; case: (leqP i m) => Lim; first exact: Sg.
  by have -> : i = m.+1 by [apply/eqP; rewrite eqn_leq Lim andbT]; rewrite subnn expr0 mul1r.
have Ex i : exists x, (i <= m.+1)%N ==> [&& t i < x, x < t i.+1 & root p x].
  case: (leqP i m.+1) => Li; last by exists 0.
  have S1 := St i (leqW Li); have S2 := St i.+1 Li; rewrite subSS in S2; rewrite subSn // exprS in S1.
  have [x /andP [H1 H2] Hx] : exists2 x, t i <= x <= t i.+1 & root ((-1) ^+ (m.+1 - i) *: p) x.
    apply: poly_ivt; first exact: ltW (Ht i Li).
    by rewrite !hornerZ (ltW S2) andbT; move: S1; rewrite -mulrA mulN1r oppr_gt0 => /ltW.
  have Hx' : root p x by move: Hx; rewrite rootZ // signr_eq0.
  exists x; rewrite implyTb Hx' andbT !lt_neqAle H1 H2 !andbT; apply/andP; split; apply/eqP => E.
    by move: S1; rewrite E (eqP Hx') mulr0 ltxx.
  by move: S2; rewrite -E (eqP Hx') mulr0 ltxx.
pose s i := xchoose (Ex i).
have Hxs i : (i <= m.+1)%N -> [/\ t i < s i, s i < t i.+1 & root p (s i)].
  by move=> Li; have := implyP (xchooseP (Ex i)) Li => /and3P.
exists s; split=> [|i Li|i Li]; last 2 first.
- by have [_ _] := Hxs i Li.
- have [H1 H2 _] := Hxs i Li.
  rewrite (he_prod Hi) // horner_prod.
  rewrite (eq_bigr (fun j : 'I_m.+1 => s i - r j)); last by move=> j _; rewrite hornerXsubC.
  apply: sign_prod => j Lj Ljm.
    case: i Li H1 H2 Lj => // i Li H1 H2 Lj; apply: le_lt_trans H1; rewrite /t; have -> : (i <= m)%N by [].
    by move: Lj; rewrite ltnS leq_eqVlt => /orP [/eqP -> //|Lj]; apply: ltW; apply: Hi.
  apply: lt_le_trans H2 _; rewrite /t; have -> : (i <= m)%N by apply: leq_trans Lj _.
  by move: Lj; rewrite leq_eqVlt => /orP [/eqP -> //|Lj]; apply: ltW; apply: Hi.
- apply: inc_step => i Li; have [_ H2 _] := Hxs i (ltnW Li); have [H1 _ _] := Hxs i.+1 Li.
  exact: lt_trans H2 H1.
Qed.

(* nodes and weights *)
Lemma gauss_hermite_exists H : (0 < H)%N -> exists node weight : nat -> F, gauss_hermite H node weight.
Proof.
case: H => // n _; have [r [Hi Hr _]] := he_roots n; set N := n.+1.
pose l (h : nat) : {poly F} := \prod_(j < N | val j != h) ((r h - r j)^-1 *: ('X - (r j)%:P)).
have Dr i j : (i < N)%N -> (j < N)%N -> i != j -> r i - r j != 0.
  move=> Li Lj; rewrite subr_eq0 => Ne; apply/eqP => E; case: (ltngtP i j) => L; last by rewrite L eqxx in Ne.
    by have := Hi _ _ L Lj; rewrite E ltxx.
  by have := Hi _ _ L Li; rewrite E ltxx.
have Ll h k : (h < N)%N -> (k < N)%N -> (l h).[r k] = (h == k)%:R.
  move=> Lh Lk; rewrite /l horner_prod; case: (eqVneq h k) => [<-|Ne].
    by apply: big1 => j Nj; rewrite hornerZ hornerXsubC mulVf // Dr // eq_sym.
  rewrite (bigD1 (Ordinal Lk)) /=; last by rewrite eq_sym.
  by rewrite hornerZ hornerXsubC subrr mulr0 mul0r.
have Sl h : (h < N)%N -> (size (l h) <= N)%N.
  move=> Lh; apply: leq_trans (size_prod_leq _ _) _.
  have C : #|[pred j : 'I_N | val j != h]| = n.
    have := cardC (pred1 (Ordinal Lh)); rewrite card1 card_ord add1n => /eqP; rewrite eqSS => /eqP <-.
    by apply: eq_card => j; rewrite !inE.
  rewrite C; apply: leq_trans (_ : ((\sum_(j < N | val j != h) 2).+1 - n <= _)%N).
    apply: leq_sub2r; rewrite ltnS; apply: leq_sum => j _; apply: leq_trans (size_scale_leq _ _) _.
    by rewrite size_XsubC.
  by rewrite sum_nat_const C; rewrite /N; lia.
exists r, (fun h => std_expect (l h)) => k Lk.
pose p : {poly F} := 'X^k; pose d := he N.
have Sd : size d = N.+1 by exact: (he_size N).1.
have d0 : d != 0 by rewrite -size_poly_gt0 Sd.
have E : p = d * (p %/ d) + p %% d by rewrite mulrC -divp_eq.
have Sr : (size (p %% d)%R <= N)%N by rewrite -ltnS -Sd ltn_modp.
have Sq : (size (p %/ d)%R <= N)%N by rewrite size_divp // Sd /p size_polyXn; lia.
have Er : p %% d = \sum_(h < N) (p %% d).[r h] *: l h.
  apply/eqP; rewrite -subr_eq0; apply/eqP; set q := _ - _.
  pose rs := [seq r i | i <- iota 0 N].
  apply: (@roots_geq_poly_eq0 _ _ rs); last first.
  - rewrite size_map size_iota; apply: leq_trans (size_add _ _) _; rewrite geq_max Sr size_opp.
    apply: leq_trans (size_sum _ _ _) _; apply/bigmax_leqP => h _.
    by apply: leq_trans (size_scale_leq _ _) (Sl _ _).
  - rewrite map_inj_in_uniq ?iota_uniq // => i j; rewrite !mem_iota /= !add0n => Li Lj E1.
    by apply/eqP; apply: contraT => Ne; have := Dr _ _ Li Lj Ne; rewrite E1 subrr eqxx.
  - apply/allP => x /mapP [i]; rewrite mem_iota /= add0n => Li ->; rewrite /root /q hornerD hornerN horner_sum.
    rewrite (bigD1 (Ordinal Li)) //= hornerZ Ll // eqxx mulr1 big1 ?addr0 ?subrr // => j Nj.
    by rewrite hornerZ Ll // -val_eqE /= in Nj *; rewrite (negbTE Nj) mulr0.
have Ep h : (h < N)%N -> (p %% d).[r h] = r h ^+ k.
  move=> Lh; have : p.[r h] = (d * (p %/ d) + p %% d).[r h] by rewrite -E.
  rewrite hornerD hornerM (eqP (Hr h Lh)) mul0r add0r => <-; exact: hornerXn.
rewrite -std_Xn -/p E std_add he_orth0 // add0r Er std_sum; apply: eq_bigr => h _.
by rewrite std_scale Ep // mulrC.
Qed.
End Hermite.
