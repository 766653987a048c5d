(* Proofs for batch_base_conditional and the spatio-temporal kernel of M_Space.v. *)
From Coq Require Import Reals.
From mathcomp Require Import all_ssreflect all_algebra.
From Verif Require Import RealStruct Nat Alg Lin Ent Spd M_Block S_Block P_Block P_Block2 M_SSM S_SSM P_SSM M_Trans S_Trans P_Trans
  M_Kernel S_Kernel P_Kernel M_Comb S_Comb P_Comb P_Comb2 P_Comb3 M_Cond P_Cond M_Emission P_Emission M_Sort P_Sort S_GP P_Models S_Kalman P_Models3 M_Space S_Space.
Set Implicit Arguments.
Unset Strict Implicit.
Unset Printing Implicit Defensive.
Import GRing.Theory Num.Theory Order.TTheory.
Local Open Scope ring_scope.

Section Conditional.
Variables (F : rcfType) (m : nat).
Implicit Types (Kmm : 'M[F]_m) (k f : 'cV[F]_m).

Lemma sum_dot (a b : 'cV[F]_m) : \sum_(i < m) a i 0 * b i 0 = (a^T *m b) 0 0.
Proof. by rewrite mxE; apply: eq_bigr => i _; rewrite mxE. Qed.
Lemma sum_sq (a : 'cV[F]_m) : \sum_(i < m) a i 0 ^+ 2 = (a^T *m a) 0 0.
Proof. by rewrite -sum_dot. Qed.

Section K.
Variables (Kmm : 'M[F]_m) (k : 'cV[F]_m) (knn : F) (f : 'cV[F]_m).
Hypothesis HK : spd Kmm.
Let Lm := chol Kmm.

Lemma Lm_nz : lownz Lm.
Proof. by apply: lowpos_nz; apply: chol_lowpos. Qed.
Lemma Lm_unit : Lm \in unitmx.
Proof. exact: lownz_unit Lm_nz. Qed.
Lemma Lm_mul : Lm *m Lm^T = Kmm.
Proof. exact: chol_mul. Qed.
Lemma Lm_inv : invmx Lm^T *m invmx Lm = invmx Kmm.
Proof. by rewrite -Lm_mul invmx_mul // ?unitmx_tr Lm_unit. Qed.
Lemma Kmm_sym : (invmx Kmm)^T = invmx Kmm.
Proof. by rewrite tr_invmx; case: HK => ->. Qed.

Definition solved (white : bool) : 'cV[F]_m := if white then invmx Lm *m k else invmx Kmm *m k.
Arguments solved : simpl never.

Lemma first_solve : ext_triangular_solve false (ext_cholesky Kmm) k = invmx Lm *m k.
Proof. by rewrite tri_solveE //; exact: Lm_nz. Qed.
Lemma second_solve : ext_triangular_solve true (ext_cholesky Kmm) (invmx Lm *m k) = invmx Kmm *m k.
Proof. by rewrite tri_solveE ?mulmxA ?Lm_inv //; exact: Lm_nz. Qed.

Lemma bbcE q white : batch_base_conditional k Kmm knn f q white =
  (((solved white)^T *m f) 0 0, knn - (k^T *m invmx Kmm *m k) 0 0 +
    match q with
    | QNone => 0
    | QDiag c => \sum_(i < m) (c i 0 * solved white i 0) ^+ 2
    | QTri L => ((tril L *m solved white)^T *m (tril L *m solved white)) 0 0
    end).
Proof.
have E : (invmx Lm *m k)^T *m (invmx Lm *m k) = k^T *m invmx Kmm *m k.
  by rewrite trmx_mul tr_invmx -Lm_inv !mulmxA.
rewrite /batch_base_conditional; cbv zeta; rewrite first_solve second_solve sum_sq E -/(solved white) sum_dot.
case: q => [|c|L]; rewrite ?addr0 //; congr (_, _ + _).
  by apply: eq_bigr => i _; rewrite mxE.
rewrite sum_sq; congr ((_^T *m _) 0 0); apply/matrixP => i j; rewrite (ord1 j) mxE [RHS]mxE; reflexivity.
Qed.

Lemma solved_mean : ((solved false)^T *m f) 0 0 = mixed_mean Kmm k f.
Proof. by rewrite /solved trmx_mul Kmm_sym. Qed.

Lemma diag_square (c a : 'cV[F]_m) : \sum_(i < m) (c i 0 * a i 0) ^+ 2 = (a^T *m diag_mx (\row_i c i 0 ^+ 2) *m a) 0 0.
Proof.
rewrite -mulmxA mxE; apply: eq_bigr => i _; rewrite mul_diag_mx !mxE; crng.
Qed.

Lemma mixed_varE C : mixed_var Kmm k knn C =
  knn - (k^T *m invmx Kmm *m k) 0 0 + ((solved false)^T *m C *m solved false) 0 0.
Proof. by rewrite /mixed_var /solved trmx_mul Kmm_sym !mulmxA. Qed.

Lemma bbc_mean q : (batch_base_conditional k Kmm knn f q false).1 = mixed_mean Kmm k f.
Proof. by rewrite bbcE solved_mean. Qed.
Lemma bbc_none : (batch_base_conditional k Kmm knn f (QNone F m) false).2 = mixed_var Kmm k knn 0.
Proof. by rewrite bbcE mixed_varE mulmx0 mul0mx [(0 : 'M_1) 0 0]mxE. Qed.
Lemma bbc_diag c : (batch_base_conditional k Kmm knn f (QDiag c) false).2 =
  mixed_var Kmm k knn (diag_mx (\row_i c i 0 ^+ 2)).
Proof. by rewrite bbcE mixed_varE /= diag_square. Qed.
Lemma bbc_tri L : (batch_base_conditional k Kmm knn f (QTri L) false).2 =
  mixed_var Kmm k knn ((tril L)^T *m tril L).
Proof. by rewrite bbcE mixed_varE /= trmx_mul !mulmxA. Qed.

(* whitened: g2 = Lm v, q is about v *)
Lemma solved_white : solved true = Lm^T *m solved false.
Proof. by rewrite /solved -Lm_inv !mulmxA mulmxV ?mul1mx // unitmx_tr Lm_unit. Qed.
Lemma bbc_white_mean q : (batch_base_conditional k Kmm knn f q true).1 = mixed_mean Kmm k (chol Kmm *m f).
Proof. by rewrite bbcE /= solved_white trmx_mul trmxK -mulmxA /mixed_mean /solved trmx_mul Kmm_sym. Qed.
Lemma bbc_white_none : (batch_base_conditional k Kmm knn f (QNone F m) true).2 = mixed_var Kmm k knn 0.
Proof. by rewrite -bbc_none !bbcE. Qed.
Lemma white_congr C : ((solved true)^T *m C *m solved true) 0 0 =
  ((solved false)^T *m (Lm *m C *m Lm^T) *m solved false) 0 0.
Proof. by rewrite solved_white trmx_mul trmxK !mulmxA. Qed.
Lemma bbc_white_diag c : (batch_base_conditional k Kmm knn f (QDiag c) true).2 =
  mixed_var Kmm k knn (chol Kmm *m diag_mx (\row_i c i 0 ^+ 2) *m (chol Kmm)^T).
Proof. by rewrite bbcE mixed_varE /= diag_square white_congr. Qed.
Lemma bbc_white_tri L : (batch_base_conditional k Kmm knn f (QTri L) true).2 =
  mixed_var Kmm k knn (chol Kmm *m ((tril L)^T *m tril L) *m (chol Kmm)^T).
Proof. by rewrite bbcE mixed_varE /= -white_congr trmx_mul !mulmxA. Qed.
End K.
End Conditional.

(* a witness: two inducing values with identity covariance, L = [[1, 0], [1, 1]] *)
Lemma bbc_refuted (F : rcfType) : exists (k : 'cV[F]_2) (L : 'M[F]_2),
  spd (1%:M : 'M[F]_2) /\ lowpos L /\
  (batch_base_conditional k 1%:M 1 0 (QTri L) false).2 = 2%:R /\ mixed_var 1%:M k 1 (L *m L^T) = 1.
Proof.
pose k : 'cV[F]_2 := \col_i (i == 0)%:R.
pose L : 'M[F]_2 := \matrix_(i, j) (j <= i)%N%:R.
have H1 : spd (1%:M : 'M[F]_2) by exact: spd1.
have HL : tril L = L by apply/matrixP => i j; rewrite !mxE; case: (j <= i)%N.
exists k, L; split=> //; split.
  split; last by move=> i; rewrite mxE leqnn ltr01.
  by apply/is_trig_mxP => i j Hij; rewrite mxE leqNgt Hij.
rewrite bbc_tri // HL /mixed_var invmx1 !mulmx1.
have E (M : 'M[F]_2) : (k^T *m M *m k) 0 0 = M 0 0.
  by rewrite !mxE !big_ord_recl !big_ord0 !mxE !big_ord_recl !big_ord0 !mxE /= !(mulr0, mulr1, mul0r, mul1r, addr0, add0r).
have -> : (k^T *m k) 0 0 = 1 by rewrite -[k^T]mulmx1 E mxE.
rewrite !E subrr !add0r !mxE !big_ord_recl !big_ord0 !mxE /=.
by rewrite !(mulr0, mulr1, mul0r, mul1r, addr0, add0r); split=> //; rewrite -[2%N]/(1 + 1)%N natrD.
Qed.

(* when the two agree *)
Lemma bbc_tri_normal (F : rcfType) m (Kmm : 'M[F]_m) k knn f (L : 'M[F]_m) : spd Kmm ->
  (tril L)^T *m tril L = tril L *m (tril L)^T ->
  (batch_base_conditional k Kmm knn f (QTri L) false).2 = mixed_var Kmm k knn (tril L *m (tril L)^T).
Proof. by move=> HK E; rewrite bbc_tri // E. Qed.

Section Kernel.
Variables (F : rcfType) (S : Type) (space : S -> S -> F) (d : nat) (kt : skernel F 1 d) (Ms : nat) (Z : nat -> S).
Notation children := (st_children kt Ms).
Notation M := (size children * 1)%N.
Notation D := (concat_dim children).
Notation Kmm := (st_Kmm space kt Ms Z).
Notation K := (st_kernel space kt Ms Z).

Lemma in_children (p : forall d, skernel F 1 d -> Prop) : p _ kt -> every p children.
Proof. by move=> H; rewrite /st_children; elim: Ms => [|m IH] c //= [<- //|Hc]; exact: IH. Qed.

Lemma diag_same (f : forall d, skernel F 1 d -> 'M[F]_1) : diag_children children f = (f _ kt 0 0)%:M.
Proof.
have E : diag_children children f = dense (size children) (size children) (rdiag (fun _ => (f _ kt 0 0)%:M)).
  apply: eq_dense => i j Hi Hj; rewrite /rdiag; case: eqP => // _.
  rewrite /st_children drop_nseq; rewrite /st_children size_nseq in Hi.
  have -> : (Ms - i = (Ms - i).-1.+1)%N by lia.
  by apply/matrixP => a b; rewrite /= !mxE (ord1 a) (ord1 b) mulr1n.
by rewrite E dense_scalar.
Qed.

Lemma st_fcov s t : spd Kmm -> fcov K s t = fcov kt s t 0 0 *: Kmm.
Proof.
move=> HK.
have E : indep_emission children s *m scov K s t *m (indep_emission children t)^T = (fcov kt s t 0 0)%:M.
  by rewrite -(diag_same (fun d k => fcov k s t)) -(indep_fcov children 0) fcovE.
rewrite fcovE -[sk_H K s]/(chol Kmm *m indep_emission children s) -[sk_H K t]/(chol Kmm *m indep_emission children t).
rewrite trmx_mul mulmxA -[_ *m _ *m scov K s t]mulmxA -[chol Kmm *m _ *m _]mulmxA E.
by rewrite mul_mx_scalar -scalemxAl (chol_mul HK).
Qed.

Lemma st_plain : plain_kernel kt -> plain_kernel K.
Proof. by move=> H; apply: concat_plain; apply: (@in_children (fun d k => plain_kernel k)). Qed.
Lemma st_noisy : noisy kt -> noisy K.
Proof. by move=> H; apply: concat_noisy; apply: (@in_children (fun d k => noisy k)). Qed.
Lemma st_noiseless : noiseless kt -> noiseless K.
Proof. by move=> H; apply: concat_noiseless; apply: (@in_children (fun d k => noiseless k)). Qed.

Lemma st_law n z : increasing n.+1 z -> plain_kernel kt -> noisy kt \/ noiseless kt -> spd Kmm ->
  prior_f_law K n z (fun _ => 0) (fun i j => \matrix_(a, b) st_cov space kt (Z a) (z i) (Z b) (z j)).
Proof.
move=> Hz Hp Hn HK.
have HN : noisy K \/ noiseless K by case: Hn => H; [left; exact: st_noisy | right; exact: st_noiseless].
have L := plain_law Hz (st_plain Hp) HN.
apply: (prior_f_law_ext L) => // i j _ _.
rewrite st_fcov //; apply/matrixP => a b; rewrite mxE [RHS]mxE /st_cov mulrC; congr (_ * _).
by rewrite mxE.
Qed.

Lemma state_to_spaceE x t : spd Kmm ->
  st_state_to_space space kt Ms Z x t = st_Knm space kt Ms Z x *m invmx Kmm *m st_emission space kt Ms Z t.
Proof.
move=> HK; have E : st_state_to_space space kt Ms Z x t =
    st_Knm space kt Ms Z x *m ext_triangular_solve true (ext_cholesky Kmm) (indep_emission children t).
  by apply/matrixP => a b; rewrite (ord1 a) mxE [RHS]mxE.
rewrite E tri_solveE; last exact: (Lm_nz HK).
rewrite /st_emission -(Lm_inv HK) !mulmxA; congr (_ *m _).
by rewrite mulmxKV //; exact: (Lm_unit HK).
Qed.

Hypothesis Hsym : forall x y, space x y = space y x.
Lemma Kmn_tr x : st_Kmn space kt Ms Z x = (st_Knm space kt Ms Z x)^T.
Proof. by apply/matrixP => a b; rewrite !mxE. Qed.

Section Predict.
Variables (n : nat) (z : nat -> F) (q : ssm F D) (m' : nat -> 'cV[F]_D) (K' : nat -> nat -> 'M[F]_D).
Hypothesis Hp : plain_kernel kt.
Hypothesis Hn : noisy kt.
Hypothesis HK : spd Kmm.
Hypothesis Hz : increasing n.+1 z.
Hypothesis Nq : ssm_nonsing n q.
Hypothesis Lq : has_law n.+1 n.+1 (ssm_path q) m' K'.
Variables (mf : option (S -> F -> F)) (x : nat -> S) (t : nat -> F) (i : nat).
Hypothesis Ht : covered n z (t i).
Let ker := to_sde K.
Let H s := st_emission space kt Ms Z s.
Let B := brow n.+1 (fun j => state_cov ker (t i) (z j)) *m invmx (x_gram ker n.+1 z).
Let V := k_P0 ker (t i) - B *m x_gram ker n.+1 z *m B^T + B *m dense n.+1 n.+1 K' *m B^T.
Let pf := st_predict_f space Z mf n q z x t i.

Let f := batch_base_conditional (st_Kmn space kt Ms Z (x i)) Kmm (space (x i) (x i)) (H (t i) *m (B *m flat n.+1 m'))
     (QTri (chol (H (t i) *m V *m (H (t i))^T))) false.

Lemma st_predictE : pf.1 = (if mf is Some m then f.1 + m (x i) (t i) else f.1) /\ pf.2 = f.2.
Proof.
have [Hker H0 _] := plain_markov (st_plain Hp) (st_noisy Hn).
have [E _] := predict_f_covered (fun j => H (t j)) (fun _ => 0) Hker H0 Hz Ht Nq Lq.
by rewrite /pf /st_predict_f E addr0; split.
Qed.

Lemma st_predict_mean : pf.1 =
  (weights_on_states ker H n z (st_Knm space kt Ms Z (x i) *m invmx Kmm) (t i) *m flat n.+1 m') 0 0 +
  (if mf is Some m then m (x i) (t i) else 0).
Proof.
have [-> _] := st_predictE; rewrite /f (bbc_mean _ _ _ HK) /mixed_mean Kmn_tr trmxK.
rewrite /weights_on_states /B !mulmxA.
by case: mf => [m|]; rewrite ?addr0.
Qed.

Lemma st_predict_var : pf.2 = mixed_var Kmm (st_Kmn space kt Ms Z (x i)) (space (x i) (x i))
  (let L := tril (chol (H (t i) *m V *m (H (t i))^T)) in L^T *m L).
Proof. by have [_ ->] := st_predictE; rewrite /f (bbc_tri _ _ _ HK). Qed.
End Predict.

(* the posterior is the prior *)
Lemma spd_scale m (v : F) (A : 'M[F]_m) : 0 < v -> spd A -> spd (v *: A).
Proof.
move=> Hv [Hs H]; split=> [|y /H Hy]; first by rewrite linearZ /= Hs.
by rewrite /qf -scalemxAr -scalemxAl mxE mulr_gt0.
Qed.
Lemma chol_scale m (v : F) (A : 'M[F]_m) : 0 < v -> spd A -> chol (v *: A) = Num.sqrt v *: chol A.
Proof.
move=> Hv HA.
have HvA : spd (v *: A) by exact: spd_scale.
have Hs : 0 < Num.sqrt v by rewrite sqrtr_gt0.
have [T P] := chol_lowpos HA.
apply: chol_unique; [exact: chol_lowpos| |].
  split; last by move=> i; rewrite mxE mulr_gt0.
  by apply/is_trig_mxP => i j Hij; rewrite mxE (is_trig_mxP T) ?mulr0.
by rewrite linearZ -scalemxAr -scalemxAl scalerA -expr2 sqr_sqrtr ?ltW // !chol_mul.
Qed.

Lemma st_prior_var n z q mf x t i : plain_kernel kt -> noisy kt -> spd Kmm -> increasing n.+1 z -> covered n z (t i) ->
  0 < fcov kt (t i) (t i) 0 0 -> kernel_ssm n (to_sde K) z = Some q ->
  (st_predict_f space Z mf n q z x t i).2 =
  mixed_var Kmm (st_Kmn space kt Ms Z (x i)) (space (x i) (x i)) (fcov kt (t i) (t i) 0 0 *: ((chol Kmm)^T *m chol Kmm)).
Proof.
move=> Hp Hn HK Hz Ht Hv Eq.
have [Hker H0 Ef] := plain_markov (st_plain Hp) (st_noisy Hn).
have E : q = kssm (to_sde K) z by move: Eq; rewrite (kernel_ssmE _ Hz) => -[].
have Nq : ssm_nonsing n q by rewrite E; exact: kssm_nonsing.
have Lq : has_law n.+1 n.+1 (ssm_path q) (fun _ => k_mean0 (to_sde K)) (fun i j => state_cov (to_sde K) (z i) (z j)).
  by rewrite E; exact: kssm_law.
rewrite (st_predict_var Hp Hn HK Hz Nq Lq mf x Ht); congr mixed_var.
rewrite subrK.
have -> : st_emission space kt Ms Z (t i) *m k_P0 (to_sde K) (t i) *m (st_emission space kt Ms Z (t i))^T =
    fcov kt (t i) (t i) 0 0 *: Kmm.
  rewrite -(st_fcov _ _ HK) -Ef /f_cov /state_cov lexx subrr.
  by rewrite (mk_trans0 Hker) mul1mx.
rewrite chol_scale //; cbv zeta.
rewrite tril_id; last first.
  have [T _] := chol_lowpos HK.
  by apply/is_trig_mxP => a b Hab; rewrite mxE (is_trig_mxP T) ?mulr0.
move: (chol Kmm) => L; rewrite (_ : (_ *: L)^T = Num.sqrt (fcov kt (t i) (t i) 0 0) *: L^T); last by rewrite linearZ.
by rewrite -scalemxAr -scalemxAl scalerA -expr2 sqr_sqrtr ?ltW.
Qed.
End Kernel.

Section Prior.
Variable F : rcfType.

Lemma mixed_scaled m (Kmm : 'M[F]_m) k knn (v : F) : spd Kmm ->
  mixed_var Kmm k knn (v *: Kmm) = knn + (v - 1) * (k^T *m invmx Kmm *m k) 0 0.
Proof.
move=> HK; have u := spd_unit HK; rewrite /mixed_var -scalemxAr mulmxKV // -!scalemxAl.
move: (k^T *m invmx Kmm *m k) => A; rewrite [(v *: A) 0 0]mxE; move: (A 0 0) => a; crng.
Qed.

Lemma chol_one (A : 'M[F]_1) : spd A -> (chol A)^T *m chol A = A.
Proof.
move=> HA; rewrite -{3}(chol_mul HA); move: (chol A) => L.
by apply/matrixP => i j; rewrite (ord1 i) (ord1 j) !mxE !big_ord1 !mxE.
Qed.

Lemma st_prior_value (S : Type) (space : S -> S -> F) d (kt : skernel F 1 d) Ms Z n z q mf x t i (v := fcov kt (t i) (t i) 0 0)
  (Kmm := st_Kmm space kt Ms Z) (Kxm := st_Knm space kt Ms Z (x i)) :
  (forall x y, space x y = space y x) -> plain_kernel kt -> noisy kt -> spd Kmm -> increasing n.+1 z -> covered n z (t i) ->
  0 < v -> kernel_ssm n (to_sde (st_kernel space kt Ms Z)) z = Some q -> (chol Kmm)^T *m chol Kmm = Kmm ->
  let Q := (Kxm *m invmx Kmm *m Kxm^T) 0 0 in
  (st_predict_f space Z mf n q z x t i).2 = space (x i) (x i) + (v - 1) * Q /\
  ((st_predict_f space Z mf n q z x t i).2 = st_cov space kt (x i) (t i) (x i) (t i) <-> v = 1 \/ space (x i) (x i) = Q).
Proof.
move=> Hs Hp Hn HK Hz Ht Hv Eq Ec Q.
have -> : (st_predict_f space Z mf n q z x t i).2 = space (x i) (x i) + (v - 1) * Q.
  rewrite (st_prior_var (Ms := Ms) mf x Hp Hn HK Hz Ht Hv Eq) Ec mixed_scaled // (Kmn_tr _ _ _ Hs) trmxK; reflexivity.
split=> //; rewrite /st_cov -/v; move: (space _ _) => a; split.
  move=> H; have : (v - 1) * (a - Q) == 0.
    have key (b w r : F) : (w - 1) * (b - r) = b * w - (b + (w - 1) * r) by crng.
    by rewrite key H subrr.
  by rewrite mulf_eq0 !subr_eq0 => /orP [/eqP|/eqP]; [left|right].
have key (w r : F) : r + (w - 1) * r = r * w by crng.
by case=> ->; [rewrite subrr mul0r mulr1 addr0 | exact: key].
Qed.
End Prior.

(* two points: the first column of the factor *)
Lemma chol_two (F : rcfType) (A : 'M[F]_2) : spd A -> ((chol A)^T *m chol A) 0 0 = A 0 0 + A (lift 0 0) 0 ^+ 2 / A 0 0.
Proof.
move=> HA; have [T P] := chol_lowpos HA; have E := chol_mul HA; move: (chol A) T P E => L T P <-.
have P0 := P 0; have E01 : L 0 (lift 0 0) = 0 by apply: (is_trig_mxP T).
rewrite !mxE !big_ord_recl !big_ord0 !mxE E01 !addr0 !mul0r !addr0 !mulr0 !addr0.
have n0 : L 0 0 != 0 by rewrite gt_eqF.
by rewrite exprMn -expr2 mulfK ?expf_neq0.
Qed.
