(* Library file (models no code): the normal density, its derivatives and integrals over the
   whole line. *)
From Coq Require Import Reals Lra Psatz.
From Coquelicot Require Import Coquelicot.
Local Open Scope R_scope.

(* density of the normal distribution with mean m and standard deviation s *)
Definition normal_density (m s u : R) : R := exp (- ((u - m) * (u - m) / (2 * (s * s)))) / (s * sqrt (2 * PI)).

(* the integral of f over the whole line is I *)
Definition integral (f : R -> R) (I : R) : Prop := is_RInt_gen f (Rbar_locally m_infty) (Rbar_locally p_infty) I.

Lemma c_pos : 0 < sqrt (2 * PI).
Proof. apply sqrt_lt_R0; generalize PI_RGT_0; lra. Qed.

Lemma normal_pos m s u : 0 < s -> 0 < normal_density m s u.
Proof.
intros Hs; unfold normal_density; apply Rdiv_lt_0_compat; [apply exp_pos|].
apply Rmult_lt_0_compat; [exact Hs | apply c_pos].
Qed.

Lemma ln_normal m s u : 0 < s -> ln (normal_density m s u) = - ((u - m) * (u - m) / (2 * (s * s))) - ln s - ln (sqrt (2 * PI)).
Proof.
intros Hs; generalize c_pos; intros Hc; unfold normal_density, Rdiv at 1.
assert (Hi : 0 < s * sqrt (2 * PI)) by (apply Rmult_lt_0_compat; assumption).
rewrite ln_mult; [|apply exp_pos | apply Rinv_0_lt_compat; exact Hi].
rewrite ln_exp, ln_Rinv; [|exact Hi]; rewrite ln_mult; [|exact Hs | exact Hc]; lra.
Qed.

(* the score: derivative of the log density when the parameters move *)
Lemma score (m s : R -> R) (m1 s1 u : R) : (forall h, 0 < s h) -> is_derive m 0 m1 -> is_derive s 0 s1 ->
  is_derive (fun h => ln (normal_density (m h) (s h) u)) 0
    ((m1 + s1 * ((u - m 0) / s 0)) * (u - m 0) / (s 0 * s 0) - s1 / s 0).
Proof.
intros Hs Dm Ds.
apply is_derive_ext with (fun h => - ((u - m h) * (u - m h) / (2 * (s h * s h))) - ln (s h) - ln (sqrt (2 * PI))).
  intro h; symmetry; apply ln_normal; apply Hs.
generalize (Hs 0); intro H0.
auto_derive.
- repeat split; try (exists m1; exact Dm); try (exists s1; exact Ds); try exact H0; nra.
- change (fun x : R => m x) with m; change (fun x : R => s x) with s; rewrite (is_derive_unique _ _ _ Dm), (is_derive_unique _ _ _ Ds); field; lra.
Qed.

(* the derivative of the log density along the path of a draw cancels the derivative of the
   normalising scale *)
Lemma path_density (m s : R -> R) (m1 s1 u : R) : (forall h, 0 < s h) -> is_derive m 0 m1 -> is_derive s 0 s1 ->
  is_derive (fun h => ln (normal_density (m h) (s h) (m h + s h * ((u - m 0) / s 0)))) 0 (- (s1 / s 0)).
Proof.
intros Hs Dm Ds; generalize (Hs 0); intro H0.
apply is_derive_ext with (fun h => - ((u - m 0) / s 0 * ((u - m 0) / s 0) / 2) - ln (s h) - ln (sqrt (2 * PI))).
  intro h; rewrite ln_normal by apply Hs; generalize (Hs h); intro Hh; match goal with |- @eq _ ?a ?b => change (@eq R a b) end; field; split; lra.
auto_derive.
- split; [exists s1; exact Ds | split; [exact H0 | exact I]].
- change (fun x : R => s x) with s; rewrite (is_derive_unique _ _ _ Ds); field; lra.
Qed.

Lemma density_derive m s u : 0 < s -> is_derive (normal_density m s) u (- ((u - m) / (s * s)) * normal_density m s u).
Proof.
intros Hs; generalize c_pos; intros Hc; unfold normal_density; auto_derive; [exact I|].
set (E := exp _); field; split; lra.
Qed.

Lemma exp_bound z : exp (- (z * z / 2)) <= / (1 + z * z / 2).
Proof.
assert (H : 0 <= z * z) by nra.
rewrite exp_Ropp; apply Rinv_le_contravar; [lra|].
destruct (Req_dec z 0) as [->|Hz]; [replace (0 * 0 / 2) with 0 by field; rewrite exp_0; lra|].
left; apply exp_ineq1; intro E; apply Hz; nra.
Qed.

(* tails *)
Lemma tail_bound a b z : 0 <= a -> 0 <= b -> 1 <= Rabs z -> (a + b * Rabs z) * exp (- (z * z / 2)) <= 2 * (a + b) / Rabs z.
Proof.
intros Ha Hb Hz; set (y := Rabs z) in *.
assert (E : z * z = y * y) by (unfold y; rewrite <- Rabs_mult, Rabs_pos_eq; [reflexivity | nra]).
assert (B := exp_bound z); rewrite E in *.
apply Rle_trans with ((a + b * y) * / (1 + y * y / 2)); [apply Rmult_le_compat_l; [nra | exact B]|].
apply Rle_trans with (((a + b) * y) * / (y * y / 2)).
  apply Rmult_le_compat; [nra | left; apply Rinv_0_lt_compat; nra | nra | apply Rinv_le_contravar; nra].
right; field; lra.
Qed.

Lemma cont_derive (f : R -> R) (u d : R) : is_derive f u d -> continuous f u.
Proof. intro H; apply (@ex_derive_continuous R_AbsRing R_NormedModule f u); exists d; exact H. Qed.

Lemma cont_mult (f g : R -> R) (u : R) : continuous f u -> continuous g u -> continuous (fun t => f t * g t) u.
Proof. intros Hf Hg; exact (@continuous_mult R_UniformSpace R_AbsRing f g u Hf Hg). Qed.

Lemma cont_minus (f g : R -> R) (u : R) : continuous f u -> continuous g u -> continuous (fun t => f t - g t) u.
Proof. intros Hf Hg; exact (@continuous_minus R_UniformSpace R_AbsRing R_NormedModule f g u Hf Hg). Qed.

Section Zero.
Variables (m s m1 s1 : R) (w dw : R -> R).
Hypothesis Hs : 0 < s.
Hypothesis Hw : forall u, 0 <= w u <= 1.
Hypothesis Dw : forall u, is_derive w u (dw u).
Hypothesis Cw : forall u, continuous dw u.

Let v u := m1 + s1 * ((u - m) / s).
Let G u := w u * (v u * normal_density m s u).
Let dG u := (dw u * v u - w u * (v u * (u - m) / (s * s) - s1 / s)) * normal_density m s u.

Lemma G_derive u : is_derive G u (dG u).
Proof.
unfold G, dG.
apply (is_derive_ext (fun u => mult (w u) (mult (v u) (normal_density m s u)))); [reflexivity|].
assert (Dv : is_derive v u (s1 / s)) by (unfold v; auto_derive; [exact I | field; lra]).
evar_last.
apply (is_derive_mult w (fun u => mult (v u) (normal_density m s u)) u (dw u)); [apply Dw| |intros; apply Rmult_comm].
apply (is_derive_mult v (normal_density m s) u (s1 / s)); [exact Dv|apply density_derive; exact Hs|intros; apply Rmult_comm].
unfold plus, mult; simpl; unfold plus, mult; simpl.
set (N := normal_density m s u); field; lra.
Qed.

Lemma dG_continuous u : continuous dG u.
Proof.
unfold dG; apply cont_mult; [apply cont_minus; apply cont_mult; [apply Cw| |eapply cont_derive; apply Dw|]|].
- eapply cont_derive; unfold v; auto_derive; [exact I | reflexivity].
- eapply cont_derive; unfold v; auto_derive; [exact I | reflexivity].
- eapply cont_derive; apply density_derive; exact Hs.
Qed.

Lemma G_bound u : 1 <= Rabs ((u - m) / s) ->
  Rabs (G u) <= 2 * (Rabs m1 + Rabs s1) / (s * sqrt (2 * PI)) / Rabs ((u - m) / s).
Proof.
set (z := (u - m) / s); intro Hz; generalize c_pos; intro Hc.
assert (Hi : 0 < s * sqrt (2 * PI)) by (apply Rmult_lt_0_compat; assumption).
unfold G, v; fold z; rewrite Rabs_mult, (Rabs_pos_eq (w u)) by apply Hw.
rewrite Rabs_mult, (Rabs_pos_eq (normal_density m s u)) by (left; apply normal_pos; exact Hs).
assert (EN : normal_density m s u = exp (- (z * z / 2)) / (s * sqrt (2 * PI))).
  unfold normal_density; do 2 f_equal; unfold z; field; lra.
rewrite EN.
assert (Hv : Rabs (m1 + s1 * z) <= Rabs m1 + Rabs s1 * Rabs z).
  eapply Rle_trans; [apply Rabs_triang|]; rewrite Rabs_mult; lra.
assert (T := tail_bound (Rabs m1) (Rabs s1) z (Rabs_pos _) (Rabs_pos _) Hz).
assert (E0 := exp_pos (- (z * z / 2))).
set (E := exp _) in *; set (V := Rabs (m1 + s1 * z)) in *.
assert (V0 : 0 <= V) by apply Rabs_pos.
apply Rle_trans with (V * (E / (s * sqrt (2 * PI)))).
  rewrite <- (Rmult_1_l (V * _)) at 2; apply Rmult_le_compat_r; [|apply Hw].
  apply Rmult_le_pos; [exact V0 | apply Rmult_le_pos; [lra | left; apply Rinv_0_lt_compat; exact Hi]].
apply Rle_trans with ((2 * (Rabs m1 + Rabs s1) / Rabs z) * / (s * sqrt (2 * PI))); [|right; field; repeat split; lra].
replace (V * (E / (s * sqrt (2 * PI)))) with (V * E * / (s * sqrt (2 * PI))) by (unfold Rdiv; ring).
apply Rmult_le_compat_r; [left; apply Rinv_0_lt_compat; exact Hi|].
eapply Rle_trans; [|exact T]; apply Rmult_le_compat_r; [lra | exact Hv].
Qed.

Lemma G_small (eps : posreal) : exists M, forall u, M < Rabs (u - m) -> Rabs (G u) < eps.
Proof.
generalize c_pos; intro Hc; assert (He := cond_pos eps).
assert (Hi : 0 < s * sqrt (2 * PI)) by (apply Rmult_lt_0_compat; assumption).
set (C := 2 * (Rabs m1 + Rabs s1) / (s * sqrt (2 * PI))).
assert (C0 : 0 <= C).
  unfold C; apply Rmult_le_pos; [|left; apply Rinv_0_lt_compat; exact Hi].
  assert (A1 := Rabs_pos m1); assert (A2 := Rabs_pos s1); lra.
exists (s * (1 + C / eps)); intros u Hu.
assert (Q : 0 <= C / eps) by (apply Rmult_le_pos; [exact C0 | left; apply Rinv_0_lt_compat; exact He]).
assert (Z : 1 + C / eps < Rabs ((u - m) / s)).
  unfold Rdiv at 2; rewrite Rabs_mult, (Rabs_pos_eq (/ s)) by (left; apply Rinv_0_lt_compat; exact Hs).
  apply Rmult_lt_reg_l with s; [exact Hs|].
  replace (s * (Rabs (u - m) * / s)) with (Rabs (u - m)) by (field; lra); exact Hu.
eapply Rle_lt_trans; [apply G_bound; lra|]; fold C.
set (y := Rabs ((u - m) / s)) in *.
apply Rmult_lt_reg_r with y; [lra|].
replace (C / y * y) with C by (field; lra).
apply Rlt_le_trans with (eps * (1 + C / eps)); [|apply Rmult_le_compat_l; lra].
replace (eps * (1 + C / eps)) with (eps + C) by (field; lra); lra.
Qed.

Lemma G_limit_p : filterlim G (Rbar_locally p_infty) (locally 0).
Proof.
apply filterlim_locally; intro eps; destruct (G_small eps) as [M HM].
exists (m + Rabs M); intros u Hu; change (Rabs (G u - 0) < eps); rewrite Rminus_0_r; apply HM.
assert (A := Rle_abs M); assert (A' := Rabs_pos M); rewrite Rabs_pos_eq; lra.
Qed.

Lemma G_limit_m : filterlim G (Rbar_locally m_infty) (locally 0).
Proof.
apply filterlim_locally; intro eps; destruct (G_small eps) as [M HM].
exists (m - Rabs M); intros u Hu; change (Rabs (G u - 0) < eps); rewrite Rminus_0_r; apply HM.
assert (A := Rle_abs M); assert (A' := Rabs_pos M); rewrite Rabs_left1; lra.
Qed.

Lemma stein_zero : integral dG 0.
Proof.
unfold integral; replace 0 with (0 - 0) by ring.
refine (@is_RInt_gen_ext R_NormedModule _ _ _ _ (Derive G) dG (0 - 0) _ _).
  apply filter_forall; intros ab u _; apply is_derive_unique; apply G_derive.
refine (@is_RInt_gen_Derive _ _ _ _ G 0 0 _ _ G_limit_m G_limit_p).
  apply filter_forall; intros ab u _; exists (dG u); apply G_derive.
apply filter_forall; intros ab u _.
apply (continuous_ext dG (Derive G)); [intro t; symmetry; apply is_derive_unique, G_derive | apply dG_continuous].
Qed.
End Zero.

Lemma integral_ext (f g : R -> R) (I : R) : (forall u, f u = g u) -> integral f I -> integral g I.
Proof.
intros E H; refine (@is_RInt_gen_ext R_NormedModule _ _ _ _ f g I _ H).
apply filter_forall; intros ab u _; apply E.
Qed.

(* the standard normal case *)
Lemma stein_standard (m1 s1 : R) (w dw : R -> R) : (forall u, 0 <= w u <= 1) -> (forall u, is_derive w u (dw u)) ->
  (forall u, continuous dw u) ->
  integral (fun u => (dw u * (m1 + s1 * u) - w u * (u * (m1 + s1 * u) - s1)) * normal_density 0 1 u) 0.
Proof.
intros Hw Dw Cw; generalize (stein_zero 0 1 m1 s1 w dw Rlt_0_1 Hw Dw Cw); apply integral_ext.
intro u; f_equal; match goal with |- @eq _ ?a ?b => change (@eq R a b) end; field.
Qed.
