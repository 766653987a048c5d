(* Library file (models no code): the normal density integrates to one; integrals of
   polynomials under it. *)
From Coq Require Import Reals Lra Psatz.
From Coquelicot Require Import Coquelicot.
From Verif Require Import Stein.
Local Open Scope R_scope.

(* the square of the integral of exp (- x^2) over [0, t] *)
Definition gi (x : R) : R := exp (- (x * x)).
Definition gI (t : R) : R := RInt gi 0 t.
Definition gk (t x : R) : R := exp (- (t * t * (1 + x * x))) / (1 + x * x).
Definition gK (t : R) : R := RInt (gk t) 0 1.

Lemma gi_cont x : continuous gi x.
Proof. apply (cont_derive gi x (- (2 * x) * gi x)); unfold gi; auto_derive; [exact I | ring]. Qed.

Lemma gi_int a b : ex_RInt gi a b.
Proof. apply (@ex_RInt_continuous R_CompleteNormedModule); intros; apply gi_cont. Qed.

Lemma gI_derive (t : R) : is_derive gI t (gi t).
Proof.
apply (is_derive_RInt gi gI 0 t); [|apply gi_cont].
exists (mkposreal 1 Rlt_0_1); intros y _; apply (@RInt_correct R_CompleteNormedModule); apply gi_int.
Qed.

Lemma one_x x : 0 < 1 + x * x.
Proof. nra. Qed.

Lemma gk_derive (t x : R) : is_derive (fun u => gk u x) t (- (2 * t) * exp (- (t * t * (1 + x * x)))).
Proof. unfold gk; generalize (one_x x); intro; auto_derive; [lra | field; lra]. Qed.

Lemma gk_cont t x : continuous (gk t) x.
Proof.
generalize (one_x x); intro H.
eapply cont_derive; unfold gk; auto_derive; [lra | reflexivity].
Qed.

Lemma gk_int t a b : ex_RInt (gk t) a b.
Proof. apply (@ex_RInt_continuous R_CompleteNormedModule); intros; apply gk_cont. Qed.

Lemma gK_derive (t : R) : is_derive gK t (RInt (fun x => - (2 * t) * exp (- (t * t * (1 + x * x)))) 0 1).
Proof.
evar_last.
apply (is_derive_RInt_param gk 0 1 t).
- exists (mkposreal 1 Rlt_0_1); intros y _ x _; eexists; apply gk_derive.
- intros x _.
  apply (continuity_2d_pt_ext (fun u v => - (2 * u) * exp (- (u * u * (1 + v * v))))).
    intros u v; symmetry; apply is_derive_unique; apply gk_derive.
  apply continuity_2d_pt_mult.
    apply (continuity_1d_2d_pt_comp (fun u => - (2 * u)) (fun u v => u)); [|apply continuity_2d_pt_id1].
    apply continuity_pt_filterlim; apply (cont_derive (fun u => - (2 * u)) t (- 2)); auto_derive; [exact I | ring].
  apply (continuity_1d_2d_pt_comp (fun u => exp (- u)) (fun u v => u * u * (1 + v * v))).
    apply continuity_pt_filterlim; set (z := t * t * (1 + x * x)).
    apply (cont_derive (fun u => exp (- u)) z (- exp (- z))); auto_derive; [exact I | ring].
  apply continuity_2d_pt_mult; [apply continuity_2d_pt_mult; apply continuity_2d_pt_id1|].
  apply continuity_2d_pt_plus; [apply continuity_2d_pt_const|apply continuity_2d_pt_mult; apply continuity_2d_pt_id2].
- exists (mkposreal 1 Rlt_0_1); intros y _; apply gk_int.
- apply RInt_ext; intros x _; apply is_derive_unique; apply gk_derive.
Qed.

Lemma gK_derive' (t : R) : is_derive gK t (- (2 * gi t * gI t)).
Proof.
evar_last; [apply gK_derive|].
apply is_RInt_unique.
apply (@is_RInt_ext R_NormedModule (fun x => - (2 * gi t) * (t * gi (t * x + 0)))).
  intros x _; unfold gi.
  replace (- (t * t * (1 + x * x))) with (- (t * t) + - ((t * x + 0) * (t * x + 0))) by ring; rewrite exp_plus.
  match goal with |- @eq _ ?a ?b => change (@eq R a b) end; ring.
replace (- (2 * gi t * gI t)) with (- (2 * gi t) * gI t) by ring.
apply (@is_RInt_scal R_NormedModule (fun x => t * gi (t * x + 0)) 0 1 (- (2 * gi t)) (gI t)).
apply (@is_RInt_comp_lin R_NormedModule gi t 0 0 1 (gI t)).
replace (t * 0 + 0) with 0 by ring; replace (t * 1 + 0) with t by ring.
apply (@RInt_correct R_CompleteNormedModule); apply gi_int.
Qed.

Lemma square_const t : gI t * gI t + gK t = PI / 4.
Proof.
assert (D : forall x, is_derive (fun u => gI u * gI u + gK u) x 0).
  intro x; evar_last.
  apply (is_derive_plus (fun u => gI u * gI u) gK); [|apply gK_derive'].
  apply (is_derive_mult gI gI); [apply gI_derive | apply gI_derive | intros; apply Rmult_comm].
  unfold plus, mult; simpl; unfold plus, mult; simpl; ring.
assert (E0 : gI 0 * gI 0 + gK 0 = PI / 4).
  unfold gI; rewrite RInt_point; change (0 * 0 + gK 0 = PI / 4); rewrite Rmult_0_l, Rplus_0_l; unfold gK.
  rewrite (RInt_ext _ (fun x => / (1 + x * x))).
    2:{ intros x _; unfold gk; rewrite !Rmult_0_l, Ropp_0, exp_0; unfold Rdiv; rewrite Rmult_1_l; reflexivity. }
  rewrite (is_RInt_unique _ _ _ (atan 1 - atan 0)); [rewrite atan_1, atan_0; field|].
  apply (is_RInt_derive atan).
    intros x _; apply is_derive_Reals; evar_last; [apply derivable_pt_lim_atan|].
    f_equal; change (1 + x ^ 2 = 1 + x * x); ring.
  intros x _; generalize (one_x x); intro; eapply cont_derive; auto_derive; [lra | reflexivity].
rewrite <- E0.
destruct (Rle_lt_dec 0 t) as [H|H].
- destruct H as [H|<-]; [|reflexivity].
  symmetry; apply (eq_is_derive (fun u => gI u * gI u + gK u) 0 t); [intros; apply D | exact H].
- apply (eq_is_derive (fun u => gI u * gI u + gK u) t 0); [intros; apply D | exact H].
Qed.

Lemma gK_bound t : 0 <= gK t <= gi t.
Proof.
split.
- apply RInt_ge_0; [lra|apply gk_int|].
  intros x _; generalize (one_x x); intro; unfold gk; apply Rlt_le, Rdiv_lt_0_compat; [apply exp_pos | lra].
- apply Rle_trans with (RInt (fun _ => gi t) 0 1).
    apply RInt_le; [lra|apply gk_int|apply ex_RInt_const|].
    intros x _; generalize (one_x x); intro; unfold gk, gi.
    apply Rle_trans with (exp (- (t * t * (1 + x * x)))).
      apply Rle_div_l; [lra|]. 
      rewrite <- (Rmult_1_r (exp _)) at 1; apply Rmult_le_compat_l; [left; apply exp_pos | nra].
    destruct (Req_dec (t * t * (1 + x * x)) (t * t)) as [->|Hn]; [lra|].
    left; apply exp_increasing; nra.
  rewrite RInt_const; unfold scal; simpl; unfold mult; simpl; lra.
Qed.

Lemma gi_bound t : gi t <= / (1 + t * t).
Proof.
unfold gi; rewrite exp_Ropp; apply Rinv_le_contravar; [apply one_x|].
destruct (Req_dec t 0) as [->|Ht]; [rewrite Rmult_0_l, exp_0; lra|].
left; apply exp_ineq1; intro; apply Ht; nra.
Qed.

Definition gc : R := sqrt PI / 2.

Lemma gc_pos : 0 < gc.
Proof. unfold gc; assert (H := sqrt_lt_R0 PI PI_RGT_0); lra. Qed.

Lemma gc_sq : gc * gc = PI / 4.
Proof. unfold gc; generalize (sqrt_sqrt PI (Rlt_le _ _ PI_RGT_0)); intro; nra. Qed.

Lemma gI_sign t : (0 <= t -> 0 <= gI t) /\ (t <= 0 -> gI t <= 0).
Proof.
split; intro H.
- apply RInt_ge_0; [exact H|apply gi_int|intros; left; apply exp_pos].
- unfold gI; rewrite <- (opp_RInt_swap gi t 0) by apply gi_int; change (- RInt gi t 0 <= 0).
  assert (0 <= RInt gi t 0); [|lra].
  apply RInt_ge_0; [exact H|apply gi_int|intros; left; apply exp_pos].
Qed.

Lemma small_inv (eps : R) t : 0 < eps -> / eps < Rabs t -> / (1 + t * t) < eps.
Proof.
intros He Ht; assert (P := Rinv_0_lt_compat _ He).
assert (E : t * t = Rabs t * Rabs t) by (rewrite <- Rabs_mult, Rabs_pos_eq; [reflexivity | nra]).
rewrite <- (Rinv_involutive eps) by lra; apply Rinv_lt_contravar; [apply Rmult_lt_0_compat; [exact P|nra]|rewrite E; nra].
Qed.

Lemma gI_near (eps : R) t : 0 < eps -> / (eps * gc) < Rabs t ->
  (0 <= t -> Rabs (gI t - gc) < eps) /\ (t <= 0 -> Rabs (gI t + gc) < eps).
Proof.
intros He Ht; assert (C := gc_pos); assert (S := square_const t); rewrite <- gc_sq in S.
assert (B := gK_bound t); assert (Bi := gi_bound t).
assert (L : / (1 + t * t) < eps * gc) by (apply small_inv; [apply Rmult_lt_0_compat; assumption | exact Ht]).
destruct (gI_sign t) as [Sp Sn]; split; intro H.
- specialize (Sp H); rewrite Rabs_left1; nra.
- specialize (Sn H); rewrite Rabs_pos_eq; nra.
Qed.

Lemma gI_lim_p : filterlim gI (Rbar_locally p_infty) (locally gc).
Proof.
apply filterlim_locally; intro eps; exists (/ (eps * gc)); intros t Ht; change (Rabs (gI t - gc) < eps).
assert (C := gc_pos); assert (P : 0 < / (eps * gc)) by (apply Rinv_0_lt_compat, Rmult_lt_0_compat; [apply cond_pos|exact C]).
apply (gI_near eps t); [apply cond_pos|rewrite Rabs_pos_eq; lra|lra].
Qed.

Lemma gI_lim_m : filterlim gI (Rbar_locally m_infty) (locally (- gc)).
Proof.
apply filterlim_locally; intro eps; exists (- / (eps * gc)); intros t Ht; change (Rabs (gI t - - gc) < eps).
assert (C := gc_pos); assert (P : 0 < / (eps * gc)) by (apply Rinv_0_lt_compat, Rmult_lt_0_compat; [apply cond_pos|exact C]).
replace (gI t - - gc) with (gI t + gc) by ring.
apply (gI_near eps t); [apply cond_pos|rewrite Rabs_left1; lra|lra].
Qed.

(* integrals over the line from a primitive *)
Lemma integral_primitive (G g : R -> R) (a b : R) : (forall u, is_derive G u (g u)) -> (forall u, continuous g u) ->
  filterlim G (Rbar_locally m_infty) (locally a) -> filterlim G (Rbar_locally p_infty) (locally b) -> integral g (b - a).
Proof.
intros D C La Lb; unfold integral.
refine (@is_RInt_gen_ext R_NormedModule _ _ _ _ (Derive G) g (b - a) _ _).
  apply filter_forall; intros ab u _; apply is_derive_unique, D.
refine (@is_RInt_gen_Derive _ _ _ _ G a b _ _ La Lb).
  apply filter_forall; intros ab u _; exists (g u); apply D.
apply filter_forall; intros ab u _.
apply (continuous_ext g (Derive G)); [intro t; symmetry; apply is_derive_unique, D | apply C].
Qed.

Lemma lim_lin_p m s : 0 < s -> filterlim (fun u => (u - m) / s) (Rbar_locally p_infty) (Rbar_locally p_infty).
Proof.
intros Hs P [M HM]; exists (m + s * M); intros u Hu; apply HM.
apply Rmult_lt_reg_r with s; [exact Hs|]; unfold Rdiv; rewrite Rmult_assoc, Rinv_l, Rmult_1_r by lra; lra.
Qed.

Lemma lim_lin_m m s : 0 < s -> filterlim (fun u => (u - m) / s) (Rbar_locally m_infty) (Rbar_locally m_infty).
Proof.
intros Hs P [M HM]; exists (m + s * M); intros u Hu; apply HM.
apply Rmult_lt_reg_r with s; [exact Hs|]; unfold Rdiv; rewrite Rmult_assoc, Rinv_l, Rmult_1_r by lra; lra.
Qed.

(* the normal density integrates to one *)
Lemma normal_integral (m s : R) : 0 < s -> integral (normal_density m s) 1.
Proof.
intro Hs; assert (C := gc_pos); assert (H2 : 0 < sqrt 2) by (apply sqrt_lt_R0; lra).
assert (Hr : 0 < s * sqrt 2) by (apply Rmult_lt_0_compat; assumption).
assert (Hp : 0 < sqrt PI) by (apply sqrt_lt_R0, PI_RGT_0).
assert (E2 := sqrt_sqrt 2 (Rlt_le _ _ Rlt_0_2)).
replace 1 with (gc / sqrt PI - - gc / sqrt PI) by (unfold gc; field; lra).
apply (integral_primitive (fun u => gI ((u - m) / (s * sqrt 2)) / sqrt PI)).
- intro u.
  evar_last.
    apply (is_derive_ext (fun u => / sqrt PI * gI ((u - m) / (s * sqrt 2)))).
      intro x; apply Rmult_comm.
    apply is_derive_scal.
    apply (is_derive_comp gI (fun u => (u - m) / (s * sqrt 2)) u (gi ((u - m) / (s * sqrt 2))) (/ (s * sqrt 2))); [apply gI_derive|].
    auto_derive; [exact I | field; lra].
  unfold scal; simpl; unfold mult; simpl; unfold gi, normal_density.
  rewrite sqrt_mult by (generalize PI_RGT_0; lra).
  replace ((u - m) / (s * sqrt 2) * ((u - m) / (s * sqrt 2))) with ((u - m) * (u - m) / (2 * (s * s))).
    set (e := exp _); field; lra.
  rewrite <- E2 at 1; field; lra.
- intro u; eapply cont_derive, density_derive; exact Hs.
- change (filterlim (fun u => (fun x => x / sqrt PI) (gI ((u - m) / (s * sqrt 2)))) (Rbar_locally m_infty) (locally (- gc / sqrt PI))).
  apply (filterlim_comp _ _ _ (fun u => gI ((u - m) / (s * sqrt 2))) (fun x => x / sqrt PI) _ (locally (- gc))).
    apply (filterlim_comp _ _ _ (fun u => (u - m) / (s * sqrt 2)) gI _ (Rbar_locally m_infty)); [apply lim_lin_m; exact Hr | exact gI_lim_m].
  apply (cont_derive (fun x => x / sqrt PI) (- gc) (/ sqrt PI)); auto_derive; [lra | field; lra].
- apply (filterlim_comp _ _ _ (fun u => gI ((u - m) / (s * sqrt 2))) (fun x => x / sqrt PI) _ (locally gc)).
    apply (filterlim_comp _ _ _ (fun u => (u - m) / (s * sqrt 2)) gI _ (Rbar_locally p_infty)); [apply lim_lin_p; exact Hr | exact gI_lim_p].
  apply (cont_derive (fun x => x / sqrt PI) gc (/ sqrt PI)); auto_derive; [lra | field; lra].
Qed.

(* powers *)
Lemma exp_pow_n x n : exp (INR n * x) = exp x ^ n.
Proof.
induction n as [|n IH]; [simpl; rewrite Rmult_0_l; apply exp_0|].
rewrite S_INR, Rmult_plus_distr_r, Rmult_1_l, exp_plus, IH; simpl; ring.
Qed.

Lemma exp_ge_pow n u : 0 < u -> (u / INR (S n)) ^ S n <= exp u.
Proof.
intro Hu; assert (Hn : 0 < INR (S n)) by apply lt_0_INR, PeanoNat.Nat.lt_0_succ.
replace u with (INR (S n) * (u / INR (S n))) at 2 by (field; lra); rewrite exp_pow_n.
assert (P : 0 < u / INR (S n)) by (apply Rdiv_lt_0_compat; assumption).
apply pow_incr; split; [lra|]; left; apply Rlt_trans with (1 + u / INR (S n)); [lra|apply exp_ineq1; lra].
Qed.

Lemma pow_tail k z : 1 <= Rabs z -> Rabs (z ^ k * exp (- (z * z / 2))) <= (2 * INR (S k)) ^ S k / Rabs z.
Proof.
intro Hz; set (y := Rabs z) in *.
assert (E : z * z = y * y) by (unfold y; rewrite <- Rabs_mult, Rabs_pos_eq; [reflexivity | nra]).
rewrite Rabs_mult, <- RPow_abs, (Rabs_pos_eq (exp _)) by (left; apply exp_pos); fold y; rewrite E, exp_Ropp.
assert (Hn : 0 < INR (S k)) by apply lt_0_INR, PeanoNat.Nat.lt_0_succ.
assert (B := exp_ge_pow k (y * y / 2) ltac:(nra)).
assert (Hy : 0 < y) by lra.
replace (y * y / 2 / INR (S k)) with (y * y / (2 * INR (S k))) in B by (field; lra).
set (c := 2 * INR (S k)) in *; assert (Hc : 0 < c) by (unfold c; lra).
apply Rle_trans with (y ^ k * / (y * y / c) ^ S k).
  apply Rmult_le_compat_l; [apply pow_le; lra|].
  apply Rinv_le_contravar; [apply pow_lt, Rdiv_lt_0_compat; nra|exact B].
assert (Hk : 1 <= y ^ k) by (apply pow_R1_Rle; lra).
assert (Ck : 0 < c ^ S k) by (apply pow_lt; exact Hc).
assert (E' : y ^ k * / (y * y / c) ^ S k = c ^ S k / y * / (y ^ S k)).
  unfold Rdiv at 1; rewrite Rpow_mult_distr, Rpow_mult_distr, pow_inv by lra; simpl; field.
  repeat split; try lra; apply pow_nonzero; lra.
rewrite E'; rewrite <- (Rmult_1_r (c ^ S k / y)) at 2.
apply Rmult_le_compat_l; [left; apply Rdiv_lt_0_compat; assumption|].
rewrite <- Rinv_1; apply Rinv_le_contravar; [lra|]; simpl; nra.
Qed.

Lemma pow_small k (eps : posreal) : exists M, 0 < M /\ forall z, M < Rabs z -> Rabs (z ^ k * exp (- (z * z / 2))) < eps.
Proof.
set (C := (2 * INR (S k)) ^ S k).
assert (HC : 0 < C) by (apply pow_lt; assert (0 < INR (S k)) by apply lt_0_INR, PeanoNat.Nat.lt_0_succ; lra).
assert (He := cond_pos eps).
assert (HCe : 0 < C / eps) by (apply Rdiv_lt_0_compat; assumption).
exists (1 + C / eps); split; [lra|]; intros z Hz.
apply Rle_lt_trans with (C / Rabs z); [apply pow_tail; lra|].
apply Rmult_lt_reg_r with (Rabs z); [lra|].
replace (C / Rabs z * Rabs z) with C by (field; lra).
apply Rlt_le_trans with (eps * (1 + C / eps)); [|apply Rmult_le_compat_l; lra].
replace (eps * (1 + C / eps)) with (eps + C) by (field; lra); lra.
Qed.

Lemma phi_std z : normal_density 0 1 z = exp (- (z * z / 2)) / sqrt (2 * PI).
Proof. unfold normal_density; f_equal; [f_equal; field|ring]. Qed.

Lemma pow_phi_lim k (F : (R -> Prop) -> Prop) : (forall M, 0 < M -> F (fun z => M < Rabs z)) -> Filter F ->
  filterlim (fun z => - (z ^ k * normal_density 0 1 z)) F (locally 0).
Proof.
intros H HF; apply filterlim_locally; intro eps; assert (C := c_pos).
assert (He : 0 < eps * sqrt (2 * PI)) by (apply Rmult_lt_0_compat; [apply cond_pos|exact C]).
destruct (pow_small k (mkposreal _ He)) as [M [HM B]].
apply (filter_imp (fun z => M < Rabs z)); [|apply H; exact HM].
intros z Hz; change (Rabs (- (z ^ k * normal_density 0 1 z) - 0) < eps); rewrite Rminus_0_r, Rabs_Ropp, phi_std.
replace (z ^ k * (exp (- (z * z / 2)) / sqrt (2 * PI))) with (z ^ k * exp (- (z * z / 2)) * / sqrt (2 * PI)) by (field; lra).
rewrite Rabs_mult, (Rabs_pos_eq (/ _)) by (left; apply Rinv_0_lt_compat; exact C).
apply Rmult_lt_reg_r with (sqrt (2 * PI)); [exact C|].
rewrite Rmult_assoc, Rinv_l, Rmult_1_r by lra; apply B; exact Hz.
Qed.

Lemma pow_phi_p k : filterlim (fun z => - (z ^ k * normal_density 0 1 z)) (Rbar_locally p_infty) (locally 0).
Proof.
apply pow_phi_lim; [|typeclasses eauto].
intros M HM; exists M; intros z Hz; rewrite Rabs_pos_eq; lra.
Qed.

Lemma pow_phi_m k : filterlim (fun z => - (z ^ k * normal_density 0 1 z)) (Rbar_locally m_infty) (locally 0).
Proof.
apply pow_phi_lim; [|typeclasses eauto].
intros M HM; exists (- M); intros z Hz; rewrite Rabs_left1; lra.
Qed.

(* linearity *)
Lemma integral_plus f g a b : integral f a -> integral g b -> integral (fun u => f u + g u) (a + b).
Proof. intros Hf Hg; exact (@is_RInt_gen_plus R_NormedModule _ _ _ _ f g a b Hf Hg). Qed.

Lemma integral_scal c f a : integral f a -> integral (fun u => c * f u) (c * a).
Proof. intro Hf; exact (@is_RInt_gen_scal R_NormedModule _ _ _ _ f c a Hf). Qed.

Lemma integral_unique f a b : integral f a -> integral f b -> a = b.
Proof.
intros Ha Hb; transitivity (RInt_gen f (Rbar_locally m_infty) (Rbar_locally p_infty)).
  symmetry; exact (is_RInt_gen_unique f a Ha).
exact (is_RInt_gen_unique f b Hb).
Qed.

(* E z = 0, E z^(k+2) = (k+1) E z^k *)
Lemma moment1 : integral (fun z => z ^ 1 * normal_density 0 1 z) 0.
Proof.
assert (E : 0 - 0 = 0) by ring; apply (eq_ind _ (fun I => integral (fun z => z ^ 1 * normal_density 0 1 z) I)) with (2 := E).
apply (integral_primitive (fun z => - (z ^ 0 * normal_density 0 1 z))); [| |apply pow_phi_m|apply pow_phi_p].
- intro u; evar_last; [apply @is_derive_opp, (is_derive_ext (normal_density 0 1)), density_derive, Rlt_0_1; intro; symmetry; apply Rmult_1_l|].
  unfold opp; simpl; field.
- intro u; apply (cont_mult (fun z => z ^ 1)); [|eapply cont_derive, density_derive, Rlt_0_1].
  eapply cont_derive; auto_derive; [exact I | reflexivity].
Qed.

Lemma moment_step k a : integral (fun z => z ^ k * normal_density 0 1 z) a ->
  integral (fun z => z ^ S (S k) * normal_density 0 1 z) (INR (S k) * a).
Proof.
intro H.
assert (P : integral (fun z => z ^ S (S k) * normal_density 0 1 z - INR (S k) * (z ^ k * normal_density 0 1 z)) (0 - 0)).
  apply (integral_primitive (fun z => - (z ^ S k * normal_density 0 1 z))); [| |apply pow_phi_m|apply pow_phi_p].
  - intro u; evar_last.
      apply @is_derive_opp.
      apply (is_derive_mult (fun z => z ^ S k) (normal_density 0 1) u (INR (S k) * u ^ k)); [|apply density_derive, Rlt_0_1|intros; apply Rmult_comm].
      apply is_derive_Reals, (derivable_pt_lim_pow u (S k)).
    unfold opp, plus, mult; simpl; unfold plus, mult; simpl; set (N := normal_density 0 1 u).
    field.
  - intro u; assert (C : forall j, continuous (fun z => z ^ j * normal_density 0 1 z) u).
      intro j; apply (cont_mult (fun z => z ^ j)); [|eapply cont_derive, density_derive, Rlt_0_1].
      eapply cont_derive, is_derive_Reals, derivable_pt_lim_pow.
    apply (cont_minus (fun z => z ^ S (S k) * normal_density 0 1 z)); [apply C|].
    apply (cont_mult (fun _ => INR (S k))); [apply continuous_const|apply C].
generalize (integral_plus _ _ _ _ P (integral_scal (INR (S k)) _ _ H)).
replace (0 - 0 + INR (S k) * a) with (INR (S k) * a) by ring.
apply integral_ext; intro u; match goal with |- @eq _ ?a ?b => change (@eq R a b) end; ring.
Qed.

(* change of variable *)
Lemma integral_lin m s f a : 0 < s -> integral f a -> integral (fun u => f ((u - m) / s) / s) a.
Proof.
intros Hs H P HP; destruct (H P HP) as [Q S HQ HS HPr].
apply (Filter_prod _ _ _ (fun u => Q ((u - m) / s)) (fun u => S ((u - m) / s))).
- apply (lim_lin_m m s Hs); exact HQ.
- apply (lim_lin_p m s Hs); exact HS.
intros u v Hu Hv; destruct (HPr _ _ Hu Hv) as [y [Iy Py]]; exists y; split; [|exact Py].
apply (@is_RInt_ext R_NormedModule (fun x => scal (/ s) (f (/ s * x + - (m / s))))).
  intros x _; unfold scal; simpl; unfold mult; simpl.
  replace (/ s * x + - (m / s)) with ((x - m) / s) by (field; lra); unfold Rdiv; apply Rmult_comm.
apply (@is_RInt_comp_lin R_NormedModule f (/ s) (- (m / s)) u v y).
simpl in Iy |- *.
replace (/ s * u + - (m / s)) with ((u - m) / s) by (field; lra).
replace (/ s * v + - (m / s)) with ((v - m) / s) by (field; lra); exact Iy.
Qed.

Lemma normal_std m s u : 0 < s -> normal_density m s u = normal_density 0 1 ((u - m) / s) / s.
Proof.
intro Hs; assert (C := c_pos); rewrite phi_std; unfold normal_density.
replace ((u - m) * (u - m) / (2 * (s * s))) with ((u - m) / s * ((u - m) / s) / 2) by (field; lra).
set (e := exp _); field; lra.
Qed.

(* E f(x) for x with mean m and standard deviation s is E f(m + s z) for a standard normal z *)
Lemma integral_normal m s f a : 0 < s -> integral (fun z => f (m + s * z) * normal_density 0 1 z) a ->
  integral (fun u => f u * normal_density m s u) a.
Proof.
intros Hs H; generalize (integral_lin m s _ a Hs H); apply integral_ext; intro u.
rewrite (normal_std m s u Hs); replace (m + s * ((u - m) / s)) with u by (field; lra).
unfold Rdiv; rewrite Rmult_assoc; reflexivity.
Qed.
