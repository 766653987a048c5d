From Coq Require Import Reals.
From mathcomp Require Import all_ssreflect all_algebra.
From Verif Require Import RealStruct Log Nat Alg Lin Ent Spd M_Block S_Block P_Block P_Block2 M_BlockLog.
Set Implicit Arguments.
Unset Strict Implicit.
Unset Printing Implicit Defensive.
Import GRing.Theory Num.Theory.
Local Open Scope ring_scope.

Lemma to_dense_lownz (F : rcfType) N d (B : btd F d) :
  (forall k, (k < N)%N -> forall r, bt_diag B k r r != 0) ->
  lownz (btd_to_dense N false B).
Proof.
move=> H; split.
  apply/is_trig_mxP => i j Hij.
  by rewrite -(ent_ord (btd_to_dense N false B)) (band_round_trip N B).1 // leqNgt Hij.
move=> i; rewrite -(ent_ord (btd_to_dense N false B)) to_dense_lower.
have d0 : (0 < d)%N by case: (d) i {H B} => // -[m] /=; rewrite muln0.
have Hk : (i %/ d < N)%N by rewrite ltn_divLR.
have Hr : (i %% d < d)%N by rewrite ltn_mod.
rewrite (divn_eq i d) ent_dense // /lower_blocks eqxx ent_tril leqnn.
by rewrite (ent_lt _ Hr Hr); apply: H.
Qed.

Lemma abs_log_detE N d (B : btd [rcfType of R] d) :
  (forall k, (k < N)%N -> forall r, bt_diag B k r r != 0) ->
  btd_abs_log_det N B = ln `|\det (btd_to_dense N false B)|.
Proof.
move=> H; have HL := to_dense_lownz H.
rewrite ln_abs_det_low // /btd_abs_log_det big_distrr /=; apply: eq_bigr => i _.
have -> : btd_as_band N B 0 i = btd_to_dense N false B i i.
  rewrite -(ent_ord (btd_to_dense N false B)) (band_round_trip N B).1 //.
  by rewrite leqnn subnn.
by rewrite ln_sqr; [rewrite mulrA mulVf ?mul1r // pnatr_eq0|case: HL].
Qed.

(* a positive definite example of every size *)
Definition ex_sym (F : rcfType) d : btd F d :=
  Btd (fun k => if k is 0%N then 1%:M else 1%:M + 1%:M) (Some (fun _ => 1%:M)).
Definition ex_low (F : rcfType) d : btd F d := Btd (fun k => 1%:M) (Some (fun _ => 1%:M)).

Lemma ex_low_diag (F : rcfType) d N : forall k, (k < N)%N -> forall r, bt_diag (ex_low F d) k r r != 0.
Proof. by move=> k _ r; rewrite mxE eqxx oner_neq0. Qed.

Lemma ex_sym_sym (F : rcfType) d k : (bt_diag (ex_sym F d) k)^T = bt_diag (ex_sym F d) k.
Proof. by case: k => [|k] /=; rewrite ?linearD /= trmx1. Qed.

Lemma ex_sym_dense (F : rcfType) d N :
  btd_to_dense N true (ex_sym F d) =
  btd_to_dense N false (ex_low F d) *m (btd_to_dense N false (ex_low F d))^T.
Proof.
rewrite to_dense_sym to_dense_lower lower_mul_tr; apply: eq_dense => i j _ _.
rewrite /sym_blocks symm_id ?ex_sym_sym //=.
have -> : tril (1%:M : 'M[F]_d) = 1%:M by rewrite tril_id // scalar_mx_is_trig.
by rewrite trmx1 !mulmx1; case: i => [|i] /=; rewrite ?addr0 ?trmx1 ?mulmx1.
Qed.

Lemma ex_sym_spd (F : rcfType) d N : spd (btd_to_dense N true (ex_sym F d)).
Proof.
by rewrite ex_sym_dense; apply: spd_mul_tr; apply: to_dense_lower_unit; apply: ex_low_diag.
Qed.
