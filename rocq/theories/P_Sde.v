(* Proofs about the stochastic differential equations. *)
From mathcomp Require Import all_ssreflect all_algebra.
From Verif Require Import Nat Alg Lin Spd M_Block M_SSM S_SSM P_SSM M_Sde S_Sde.
Set Implicit Arguments.
Unset Strict Implicit.
Unset Printing Implicit Defensive.
Import GRing.Theory Num.Theory Order.TTheory.
Local Open Scope ring_scope.

Section Drift.
Variables (F : rcfType) (d : nat).

Lemma scaled_chol (c : F) (L : 'M[F]_d) : 0 <= c -> (Num.sqrt c *: L) *m (Num.sqrt c *: L)^T = c *: (L *m L^T).
Proof. by move=> Hc; rewrite -scalemxAl linearZ /= -scalemxAr scalerA -expr2 sqr_sqrtr. Qed.

Lemma drift_round_trip n (S : ssm F d) dt q times m c : dt != 0 ->
  (forall k, (k < n)%N -> times k.+1 - times k = dt) ->
  exists2 S', to_ssm (Some (set_from_ssm S dt)) q times m c = Some S' &
    [/\ s_mu0 S' = m, s_cholP0 S' = c &
        forall k, (k < n)%N -> [/\ s_A S' k = s_A S k, s_b S' k = s_b S k & s_cholQ S' k = Num.sqrt dt *: q k]].
Proof.
move=> Hdt Ht; eexists; first by [].
split=> // k Hk /=; rewrite Ht // !scalerA divff // !scale1r; split=> //.
by rewrite subrK.
Qed.

Lemma drift_round_trip' n (ld : linear_drift F d) dt q times m c S : dt != 0 ->
  (forall k, (k < n)%N -> times k.+1 - times k = dt) ->
  to_ssm (Some ld) q times m c = Some S ->
  forall k, (k < n)%N -> ld_A (set_from_ssm S dt) k = ld_A ld k /\ ld_b (set_from_ssm S dt) k = ld_b ld k.
Proof.
move=> Hdt Ht [<-] k Hk /=; rewrite Ht //.
by rewrite addrK !scalerA mulVf // !scale1r.
Qed.

Variables (s : sde F d).

Lemma scan_values (x : 'cV[F]_d) t grid noise : size noise = size grid ->
  let vs := unzip1 (scanl (em_step s) (x, t) (zip noise grid)) in
  size vs = size grid /\
  forall k, (k < size grid)%N ->
    nth 0 vs k = euler_update (drift s) (diffusion s) (nth 0 (t :: grid) k) (nth 0 grid k) (nth 0 noise k) (nth 0 (x :: vs) k).
Proof.
elim: grid noise x t => [|g grid IH] [|w noise] x t //= [Hs].
have [h1 h2] := IH noise (x + (g - t) *: drift s x t + Num.sqrt (g - t) *: diffusion s x t *m w) g Hs.
split; first by rewrite /= h1.
case=> [_|k]; first by rewrite /euler_update /= scalemxAl.
by rewrite ltnS => Hk; rewrite /= h2.
Qed.

Lemma euler_values x0 grid noise : (0 < size grid)%N -> size noise = size grid ->
  euler_path (drift s) (diffusion s) x0 (belast 0 grid) noise (euler_maruyama s x0 grid noise).
Proof.
move=> H0 Hs; have [h1 h2] := scan_values x0 0 Hs.
rewrite /euler_maruyama; set vs := unzip1 _ in h1 h2 *.
have Hsz : size (x0 :: take (size vs).-1 vs) = size grid by rewrite /= size_take h1; case: (size grid) H0 => // m _; rewrite ltnSn.
have Hn k : (k < size grid)%N -> nth 0 (x0 :: take (size vs).-1 vs) k = nth 0 (x0 :: vs) k.
  by case: k => // k Hk; rewrite /= nth_take // h1; case: (size grid) Hk.
have Hb k : (k < size grid)%N -> nth 0 (belast 0 grid) k = nth 0 (0 :: grid) k.
  by move=> Hk; rewrite lastI nth_rcons size_belast Hk.
split=> //; first by rewrite Hsz size_belast.
move=> k; rewrite size_belast => Hk; rewrite !Hn ?Hb //; try by apply: ltnW.
by rewrite /= h2 //; apply: ltnW.
Qed.

(* a linear drift with a fixed diffusion is simulated as its state space model *)
Lemma euler_linear x0 grid noise (A : nat -> 'M[F]_d) b q S : (0 < size grid)%N -> size noise = size grid ->
  (forall k x, (k < size grid)%N ->
     drift s x (nth 0 (belast 0 grid) k) = A k *m x + b k /\ diffusion s x (nth 0 (belast 0 grid) k) = q k) ->
  to_ssm (Some (LinearDrift A b)) q (nth 0 (belast 0 grid)) x0 0 = Some S ->
  forall k, (k < size grid)%N ->
    nth 0 (euler_maruyama s x0 grid noise) k = ssm_path S (fun l => if l is l'.+1 then nth 0 noise l' else 0) k.
Proof.
move=> H0 Hs Hd [<-]; have [h1 _ h2 h3] := euler_values x0 H0 Hs.
elim=> [_|k IH Hk]; first by rewrite h2 /ssm_path /= mul0mx addr0.
rewrite h3 ?size_belast // IH; last exact: ltnW.
rewrite /ssm_path /= /euler_update; set y := gen_path _ _ _ _ _ _ k.
have [-> ->] := Hd k y (ltnW Hk).
set dt := nth 0 _ _ - nth 0 _ _.
by rewrite mulmxDl mul1mx -!scalemxAl scalerDr; zmod.
Qed.
End Drift.

Section Moments.
Variable F : rcfType.
Implicit Types p r : {poly F}.

Lemma nmom2E k : nmom2 F k.+1 = ((nmom2 F k).2, (k.+1)%:R * (nmom2 F k).1).
Proof. by rewrite /=; case: (nmom2 F k). Qed.
Lemma nmom0 : nmom F 0 = 1. Proof. by []. Qed.
Lemma nmom1 : nmom F 1 = 0. Proof. by []. Qed.
Lemma nmomSS k : nmom F k.+2 = (k.+1)%:R * nmom F k.
Proof. by rewrite /nmom nmom2E nmom2E. Qed.

Lemma std_wide n p : (size p <= n)%N -> std_expect p = \sum_(k < n) p`_k * nmom F k.
Proof.
move=> H; rewrite /std_expect (big_ord_widen n (fun k => p`_k * nmom F k) H) big_mkcond /=.
apply: eq_bigr => k _; case: ltnP => // Hk; by rewrite nth_default ?mul0r.
Qed.
Lemma std_add p r : std_expect (p + r) = std_expect p + std_expect r.
Proof.
pose n := maxn (size p) (size r).
rewrite !(@std_wide n) ?leq_maxl ?leq_maxr ?size_add // -big_split /=.
by apply: eq_bigr => k _; rewrite coefD mulrDl.
Qed.
Lemma std_scale c p : std_expect (c *: p) = c * std_expect p.
Proof.
rewrite !(@std_wide (size p)) ?size_scale_leq // big_distrr /=.
by apply: eq_bigr => k _; rewrite coefZ mulrA.
Qed.
Lemma std_Xn n : std_expect 'X^n = nmom F n.
Proof.
rewrite (@std_wide n.+1) ?size_polyXn // big_ord_recr /= coefXn eqxx mul1r big1 ?add0r // => k _.
by rewrite coefXn ltn_eqF ?mul0r.
Qed.
Lemma std_sum (I : Type) (t : seq I) (f : I -> {poly F}) : std_expect (\sum_(i <- t) f i) = \sum_(i <- t) std_expect (f i).
Proof.
elim: t => [|a t IH]; first by rewrite !big_nil /std_expect size_poly0 big_ord0.
by rewrite !big_cons std_add IH.
Qed.

Lemma std_stein p : std_expect ('X * p) = std_expect p^`().
Proof.
rewrite -[p]coefK poly_def (raddf_sum (deriv_linear F)) big_distrr /= !std_sum; apply: eq_bigr => k _.
rewrite -scalerAr derivZ !std_scale; congr (_ * _); rewrite -exprS std_Xn derivXn.
case: (nat_of_ord k) => [|j]; first by rewrite mulr0n nmom1 /std_expect size_poly0 big_ord0.
by rewrite nmomSS -scaler_nat std_scale std_Xn.
Qed.

Variables (m v : F).
Hypothesis Hv : 0 <= v.
Let s := Num.sqrt v.
Let u : {poly F} := m%:P + s *: 'X.
Local Notation E := (normal_expect m v).

Lemma expect_add p r : E (p + r) = E p + E r. Proof. by rewrite /normal_expect comp_polyD std_add. Qed.
Lemma expect_scale c p : E (c *: p) = c * E p. Proof. by rewrite /normal_expect comp_polyZ std_scale. Qed.
Lemma expect_const c : E c%:P = c.
Proof. by rewrite /normal_expect comp_polyC -alg_polyC std_scale -(expr0 'X) std_Xn mulr1. Qed.

Lemma expect_stein p : E (('X - m%:P) * p) = v * E p^`().
Proof.
rewrite /normal_expect comp_polyM comp_polyB comp_polyX comp_polyC -/s -/u.
have -> : u - m%:P = s *: 'X by rewrite /u addrC addKr.
rewrite -scalerAl std_scale std_stein deriv_comp.
have -> : u^`() = s%:P by rewrite /u derivD derivC add0r derivZ derivX alg_polyC.
by rewrite [_ * s%:P]mulrC mul_polyC std_scale mulrA -expr2 sqr_sqrtr.
Qed.
Lemma expect_X : E 'X = m.
Proof.
have := expect_stein 1; rewrite mulr1 -polyC1 derivC expect_add -polyCN expect_const.
have -> : E 0 = 0 by rewrite -[0]/(0%:P) expect_const.
by rewrite mulr0 => /eqP; rewrite subr_eq0 => /eqP.
Qed.

Lemma expect_lin a b : E (a *: 'X + b%:P) = a * m + b.
Proof. by rewrite expect_add expect_scale expect_X expect_const. Qed.

(* products with a linear function *)
Lemma expect_mul_lin a b p : E ((a *: 'X + b%:P) * p) = a * (v * E p^`()) + (a * m + b) * E p.
Proof.
have -> : a *: 'X + b%:P = a *: ('X - m%:P) + (a * m + b)%:P by rewrite scalerBr -[a *: m%:P]mul_polyC polyCD polyCM addrA subrK.
by rewrite [(_ + _) * p]mulrDl expect_add -scalerAl expect_scale expect_stein mul_polyC expect_scale.
Qed.

Lemma deriv_lin a b : (a *: 'X + b%:P : {poly F})^`() = a%:P.
Proof. by rewrite derivD derivC addr0 derivZ derivX alg_polyC. Qed.

Lemma expect_sq_lin a b : E ((a *: 'X + b%:P) ^+ 2) = (a * m + b) ^+ 2 + a ^+ 2 * v.
Proof.
rewrite expr2 expect_mul_lin deriv_lin expect_const expect_lin.
by rewrite addrC -expr2 expr2 mulrCA [v * _]mulrC.
Qed.

(* the best linear fit *)
Lemma best_linear p A B a b : A = E p^`() -> B = E p - A * m ->
  E ((p - (A *: 'X + B%:P)) ^+ 2) <= E ((p - (a *: 'X + b%:P)) ^+ 2).
Proof.
move=> HA HB; set g := p - _; set l := (A - a) *: 'X + (B - b)%:P : {poly F}.
have -> : p - (a *: 'X + b%:P) = g + l by rewrite /g /l scalerBl polyCB; zmod.
have Eg : E g = 0.
  by rewrite /g -scaleN1r expect_add expect_scale expect_lin HB mulN1r addrCA subrr addr0 subrr.
have Eg' : E g^`() = 0.
  by rewrite /g derivB deriv_lin -scaleN1r expect_add expect_scale expect_const mulN1r HA subrr.
have -> : (g + l) ^+ 2 = (g ^+ 2 + 2%:R *: (l * g)) + l ^+ 2 by rewrite [(g + l) ^+ 2]sqrrD -scaler_nat [g * l]mulrC.
rewrite [E (_ + l ^+ 2)]expect_add [E (g ^+ 2 + _)]expect_add expect_scale expect_mul_lin Eg Eg' !mulr0 addr0 mulr0.
rewrite addr0 ler_addl expect_sq_lin addr_ge0 ?sqr_ge0 // mulr_ge0 ?sqr_ge0 //.
Qed.
End Moments.
