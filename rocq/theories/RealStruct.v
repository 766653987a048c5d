(** * RealStruct: the Coq reals as a mathcomp real closed field.

    Library file (models no code).  markovflow computes in float64; the model
    computes in exact real arithmetic.  Algebraic facts are proved over an
    arbitrary real field; statements that mention [ln], [exp], [cos] or [sin]
    are about the type [R] of Coq's standard library.  This file gives [R] the
    mathcomp structures (choice, ring, field, order, real closed field) so that
    the same matrices can be used for both.

    Axioms used: those of Coq.Reals ([sig_forall_dec], [sig_not_dec],
    [functional_extensionality_dep]) and [epsilon_statement] of
    Coq.Logic.Epsilon (only to equip [R] with a [choiceType]). *)
From Coq Require Import Reals Lra Epsilon FunctionalExtensionality.
From mathcomp Require Import all_ssreflect all_algebra.
Import GRing.Theory Num.Theory Order.TTheory.

Set Implicit Arguments.
Unset Strict Implicit.
Unset Printing Implicit Defensive.

Delimit Scope R_scope with Re.
Local Open Scope R_scope.

Definition eqr (x y : R) : bool := if Req_EM_T x y is left _ then true else false.
Lemma eqrP : Equality.axiom eqr.
Proof. by move=> x y; rewrite /eqr; case: Req_EM_T => h; constructor. Qed.
Canonical R_eqMixin := EqMixin eqrP.
Canonical R_eqType := Eval hnf in EqType R R_eqMixin.

Fact inhR : inhabited R. Proof. exact: (inhabits 0). Qed.
Definition pickR (P : pred R) (n : nat) : option R :=
  let x := epsilon inhR P in if P x then Some x else None.
Fact pickR_some P n x : pickR P n = Some x -> P x.
Proof. by rewrite /pickR; case: (boolP (P _)) => // Px [<-]. Qed.
Fact pickR_ex (P : pred R) : (exists x : R, P x) -> exists n, pickR P n.
Proof. by rewrite /pickR; move=> /(epsilon_spec inhR) ->; exists 0%N. Qed.
Fact pickR_ext (P Q : pred R) : P =1 Q -> pickR P =1 pickR Q.
Proof.
move=> PEQ n; rewrite /pickR.
have -> : P = Q by apply: functional_extensionality.
by [].
Qed.
Definition R_choiceMixin : choiceMixin R :=
  Choice.Mixin pickR_some pickR_ex pickR_ext.
Canonical R_choiceType := Eval hnf in ChoiceType R R_choiceMixin.

Fact RplusA : associative Rplus. Proof. by move=> *; rewrite Rplus_assoc. Qed.
Definition R_zmodMixin := ZmodMixin RplusA Rplus_comm Rplus_0_l Rplus_opp_l.
Canonical R_zmodType := Eval hnf in ZmodType R R_zmodMixin.

Fact RmultA : associative Rmult. Proof. by move=> *; rewrite Rmult_assoc. Qed.
Fact R1_neq_0 : R1 != R0. Proof. by apply/eqP/R1_neq_R0. Qed.
Definition R_ringMixin :=
  RingMixin RmultA Rmult_1_l Rmult_1_r Rmult_plus_distr_r Rmult_plus_distr_l R1_neq_0.
Canonical R_ringType := Eval hnf in RingType R R_ringMixin.
Canonical R_comRingType := Eval hnf in ComRingType R Rmult_comm.

Definition Rinvx (r : R) := if (r != 0) then / r else r.
Definition unit_R (r : R) := r != 0.

Fact RmultRinvx : {in unit_R, left_inverse 1 Rinvx Rmult}.
Proof.
move=> r; rewrite -topredE /unit_R /Rinvx => /= rNZ.
by rewrite rNZ Rinv_l //; apply/eqP.
Qed.
Fact RinvxRmult : {in unit_R, right_inverse 1 Rinvx Rmult}.
Proof.
move=> r; rewrite -topredE /unit_R /Rinvx => /= rNZ.
by rewrite rNZ Rinv_r //; apply/eqP.
Qed.
Fact intro_unit_R x y : y * x = 1 /\ x * y = 1 -> unit_R x.
Proof.
move=> [yx _]; apply/eqP => x0; move: yx; rewrite x0 Rmult_0_r => h.
by apply: R1_neq_R0; rewrite h.
Qed.
Fact Rinvx_out : {in predC unit_R, Rinvx =1 id}.
Proof.
move=> x; rewrite inE /= /Rinvx -if_neg => ->; first by [].
Qed.
Definition R_unitRingMixin :=
  UnitRingMixin RmultRinvx RinvxRmult intro_unit_R Rinvx_out.
Canonical R_unitRingType := Eval hnf in UnitRingType R R_unitRingMixin.
Canonical R_comUnitRingType := Eval hnf in [comUnitRingType of R].

Fact R_idomainMixin x y : x * y = 0 -> (x == 0) || (y == 0).
Proof.
by move=> /Rmult_integral [->|->]; rewrite eqxx ?orbT.
Qed.
Canonical R_idomainType := Eval hnf in IdomainType R R_idomainMixin.
Fact R_fieldMixin : GRing.Field.mixin_of R_unitRingType.
Proof. by done. Qed.
Definition R_fieldIdomainMixin := FieldIdomainMixin R_fieldMixin.
Canonical R_fieldType := FieldType R R_fieldMixin.

Definition Rleb (x y : R) : bool := if Rle_dec x y is left _ then true else false.
Definition Rltb (x y : R) : bool := if Rlt_dec x y is left _ then true else false.
Lemma RlebP x y : reflect (x <= y) (Rleb x y).
Proof. by rewrite /Rleb; case: Rle_dec => h; constructor. Qed.
Lemma RltbP x y : reflect (x < y) (Rltb x y).
Proof. by rewrite /Rltb; case: Rlt_dec => h; constructor. Qed.

Section Order.
Fact R_le0_add x y : Rleb 0 x -> Rleb 0 y -> Rleb 0 (x + y).
Proof. by move=> /RlebP hx /RlebP hy; apply/RlebP; lra. Qed.
Fact R_le0_mul x y : Rleb 0 x -> Rleb 0 y -> Rleb 0 (x * y).
Proof. by move=> /RlebP hx /RlebP hy; apply/RlebP; apply: Rmult_le_pos. Qed.
Fact R_le0_anti x : Rleb 0 x -> Rleb x 0 -> x = 0.
Proof. by move=> /RlebP hx /RlebP hy; lra. Qed.
Fact R_sub_ge0 x y : Rleb 0 (y - x)%R = Rleb x y.
Proof. by rewrite -[(y - x)%R]/(y + - x)%Re; apply/RlebP/RlebP => h; lra. Qed.
Fact R_le0_total x : Rleb 0 x || Rleb x 0.
Proof.
by case: (Rle_dec 0 x) => h; apply/orP; [left|right]; apply/RlebP; lra.
Qed.
Fact R_normN x : Rabs (- x) = Rabs x. Proof. exact: Rabs_Ropp. Qed.
Fact R_ge0_norm x : Rleb 0 x -> Rabs x = x.
Proof. by move=> /RlebP h; apply: Rabs_pos_eq. Qed.
Fact R_lt_def x y : Rltb x y = (y != x) && Rleb x y.
Proof.
apply/RltbP/andP => [h|[/eqP h1 /RlebP h2]]; last by lra.
by split; [apply/eqP; lra | apply/RlebP; lra].
Qed.
End Order.

Definition R_leMixin : realLeMixin R_idomainType :=
  RealLeMixin R_le0_add R_le0_mul R_le0_anti R_sub_ge0 R_le0_total R_normN
              R_ge0_norm R_lt_def.
Canonical R_porderType := POrderType ring_display R R_leMixin.
Canonical R_latticeType := LatticeType R R_leMixin.
Canonical R_distrLatticeType := DistrLatticeType R R_leMixin.
Canonical R_orderType := OrderType R R_leMixin.
Canonical R_numDomainType := NumDomainType R R_leMixin.
Canonical R_normedZmodType := NormedZmodType R R R_leMixin.
Canonical R_numFieldType := [numFieldType of R].
Canonical R_realDomainType := [realDomainType of R].
Canonical R_realFieldType := [realFieldType of R].

Lemma RleP x y : reflect (x <= y) (x <= y)%O.
Proof. exact: RlebP. Qed.
Lemma RltP x y : reflect (x < y) (x < y)%O.
Proof. exact: RltbP. Qed.

(** Real closedness: polynomials are continuous, then the intermediate value
    theorem of the standard library. *)
Lemma continuity_horner (p : {poly R}) : continuity (fun x => p.[x])%R.
Proof.
elim/poly_ind: p => [|p c IHp].
  have -> : (fun x : R => (0%:P).[x])%R = (fun _ => 0).
    by apply: functional_extensionality => x; rewrite horner0.
  exact: continuity_const.
have -> : (fun x : R => (p * 'X + c%:P).[x])%R = (fun x => (p.[x])%R * x + c).
  by apply: functional_extensionality => x; rewrite hornerMXaddC.
move=> x; apply: (continuity_pt_plus (fun x => (p.[x])%R * x) (fun _ => c)).
  apply: (continuity_pt_mult (fun x => (p.[x])%R) (fun x => x)); first exact: IHp.
  exact: (derivable_continuous_pt _ _ (derivable_pt_id x)).
exact: continuity_pt_const.
Qed.

Lemma R_real_closed_axiom : Num.real_closed_axiom R_numDomainType.
Proof.
move=> p a b /RlebP ab /andP[/RlebP pa /RlebP pb].
have hab : ((p.[a])%R * (p.[b])%R <= 0)%Re.
  have {}pa : ((p.[a])%R <= 0)%Re := pa; have {}pb : (0 <= (p.[b])%R)%Re := pb.
  by move: ((p.[a])%R) ((p.[b])%R) pa pb => u v hu hv; nra.
have [x [[ax xb] px]] := IVT_cor (fun x => (p.[x])%R) a b (continuity_horner p) ab hab.
exists x; last by rewrite /root px eqxx.
by apply/andP; split; apply/RlebP.
Qed.
Canonical R_rcfType := RcfType R R_real_closed_axiom.

(** Correspondence with the standard-library operations: [toR] turns every
    mathcomp operation on [R] in the goal into the standard one, so that [lra],
    [nra], [field] and the analysis library apply. *)
Lemma invrR (x : R) : x <> 0%Re -> (x^-1)%R = (/ x)%Re.
Proof. by move=> /eqP h; rewrite /GRing.inv /= /Rinvx h. Qed.

Ltac toR_ops :=
  repeat match goal with
  | |- context [@GRing.add ?V ?x ?y] => change (@GRing.add V x y) with (Rplus x y)
  | |- context [@GRing.opp ?V ?x] => change (@GRing.opp V x) with (Ropp x)
  | |- context [@GRing.mul ?V ?x ?y] => change (@GRing.mul V x y) with (Rmult x y)
  | |- context [@GRing.zero ?V] => change (@GRing.zero V) with R0
  | |- context [@GRing.one ?V] => change (@GRing.one V) with R1
  end.

Lemma natrR (n : nat) : (n%:R)%R = INR n.
Proof.
elim: n => [|n IHn]; first by [].
by rewrite mulrSr IHn S_INR.
Qed.

Lemma exprR (x : R) (n : nat) : (x ^+ n)%R = pow x n.
Proof. by elim: n => [|n IHn] //; rewrite exprS IHn. Qed.

Lemma sqrtrR (x : R) : (0 <= x)%Re -> Num.sqrt x = R_sqrt.sqrt x.
Proof.
move=> hx.
have h1 : (R_sqrt.sqrt x ^+ 2)%R = x by rewrite exprR /= Rmult_1_r sqrt_sqrt.
rewrite -[in LHS]h1 sqrtr_sqr; apply: ger0_norm.
by apply/RleP; apply: sqrt_pos.
Qed.

(** Terms of type [R] are read in [ring_scope] from here on. *)
Bind Scope ring_scope with R.
(** Arguments of the transcendental functions are read in [ring_scope]. *)
Global Arguments ln x%R.
Global Arguments exp x%R.
Global Arguments cos x%R.
Global Arguments sin x%R.
