(* GaussianProcessRegression with an IndependentMultiOutput kernel is one regression per output. *)
From Coq Require Import Reals.
From mathcomp Require Import all_ssreflect all_algebra.
From Verif Require Import RealStruct Nat Alg Lin Ent Spd Log M_Block S_Block P_Block M_SSM S_SSM P_SSM M_SSMLog P_SSMLog S_Gauss
  P_Gauss S_Kalman M_Kalman P_Kalman P_KalmanLog M_Kernel S_Kernel M_Cond M_Emission M_Sort M_Models S_GP P_Models P_Models2
  P_Models3 M_Comb S_Comb P_Kron P_Comb P_Comb2 P_Comb3 M_KernelR S_KernelR P_KernelR P_KernelR2 P_KernelR3 P_Indep.
Set Implicit Arguments.
Unset Strict Implicit.
Unset Printing Implicit Defensive.
Import GRing.Theory Num.Theory Order.TTheory.
Local Open Scope ring_scope.

Section Gen.
Variable F : rcfType.

Lemma joint_spd c o N (K : nat -> nat -> nat -> 'M[F]_o) : (forall a, (a < c)%N -> spd (dense N N (K a))) ->
  invmx (joint c N K) = \sum_(a < c) (U F c o N a)^T *m invmx (dense N N (K a)) *m U F c o N a.
Proof. by move=> H; apply: joint_inv => a Ha; apply/spd_unit/H. Qed.

(* block covariances with observation noise *)
Lemma joint_noise c o N (K : nat -> nat -> nat -> 'M[F]_o) (L : nat -> 'M[F]_o) :
  dense N N (fun i j => dense c c (rdiag (fun a => K a i j))) +
  dense N N (rdiag (fun _ => dense c c (rdiag L) *m (dense c c (rdiag L))^T)) =
  joint c N (fun a i j => K a i j + rdiag (fun _ => L a *m (L a)^T) i j).
Proof.
rewrite denseD; apply: eq_dense => i j _ _; rewrite rdiag_tr rdiag_mul.
have -> : rdiag (fun _ : nat => dense c c (rdiag (fun k => L k *m (L k)^T))) i j =
   dense c c (rdiag (fun a => rdiag (fun _ => L a *m (L a)^T) i j)).
  rewrite {1}/rdiag; case: eqP => [->|/eqP/negbTE E].
    by apply: eq_dense => a b _ _; rewrite /rdiag eqxx.
  by rewrite -(@dense0 F o o c c); apply: eq_dense => a b _ _; rewrite /rdiag E; case: ifP.
rewrite denseD; apply: eq_dense => a b _ _.
by rewrite /rdiag; case: (a == b); rewrite ?addr0.
Qed.

Lemma nth_error_drop (T : Type) (s : seq T) a x : List.nth_error s a = Some x -> ohead (drop a s) = Some x /\ (a < size s)%N.
Proof. by elim: s a => [|y s IH] [|a] //= /IH. Qed.

Lemma nth_error_In (T : Type) (s : seq T) a x : List.nth_error s a = Some x -> List.In x s.
Proof. exact: List.nth_error_In. Qed.

Lemma nth_error_ex (T : Type) (s : seq T) a : (a < size s)%N -> exists x, List.nth_error s a = Some x.
Proof. by elim: s a => [|y s IH] [|a] //=; [exists y|apply: IH]. Qed.

Definition Kout o (ks : seq (child F o)) (s t : F) a : 'M[F]_o :=
  if ohead (drop a ks) is Some k then fcov (projT2 k) s t else 0.

Lemma KoutE o (ks : seq (child F o)) s t a k : List.nth_error ks a = Some k -> Kout ks s t a = fcov (projT2 k) s t.
Proof. by move=> Hk; have [E _] := nth_error_drop Hk; rewrite /Kout E. Qed.

Lemma indep_Kout o (ks : seq (child F o)) s t : fcov (indep_kernel ks 0) s t = dense (size ks) (size ks) (rdiag (Kout ks s t)).
Proof. exact: indep_fcov. Qed.
End Gen.

Lemma joint_logpdf c o N (K : nat -> nat -> nat -> 'M[R]_o) (m y : 'cV[R]_(N * (c * o))) :
  (forall a, (a < c)%N -> spd (dense N N (K a))) ->
  gauss_logpdf m (joint (F := Rr) c N K) y =
  \sum_(a < c) gauss_logpdf (U Rr c o N a *m m) (dense N N (K a)) (U Rr c o N a *m y).
Proof.
move=> H; rewrite /gauss_logpdf (@joint_spd Rr c o N K H) (@joint_qf Rr c o N (fun a => invmx (dense N N (K a)))).
rewrite (@joint_det Rr c o N K) (@ln_det_rdiag (N * o) c (fun a => dense N N (K a)) H).
rewrite -big_distrr /= 2!big_split /= sumr_const card_ord.
congr (_ * (_ + _ + _)).
  by move: (ln (2%:R * PI)) => l; rewrite -[RHS]mulr_natl mulrA -natrM !mulnA (mulnC c).
by apply: eq_bigr => a _; rewrite mulmxBr.
Qed.

Section Reg.
Variables (o : nat) (ks : seq (child Rr o)) (n : nat) (z : nat -> R) (cR : nat -> 'M[R]_o).
Variables (mean : R -> 'cV[R]_(size ks * o)) (y : nat -> 'cV[R]_(size ks * o)).
Hypothesis Hg : every (fun d k => plain_kernel k) ks.
Hypothesis Hn : every (fun d k => noisy k) ks.
Hypothesis Hz : increasing n.+1 z.
Hypothesis HR : forall a, (a < size ks)%N -> lownz (cR a).
Let c := size ks.
Let ker := indep_kernel ks 0.
Let L := dense c c (rdiag cR).
Let Ka a i j := Kout ks (z i) (z j) a + rdiag (fun _ => cR a *m (cR a)^T) i j.

Lemma indep_markov : [/\ markov_kernel (to_sde ker), k_mean0 (to_sde ker) = 0 &
      forall s t, f_cov (to_sde ker) (sk_H ker) s t = fcov ker s t].
Proof. apply: plain_markov; [exact: concat_plain|exact: concat_noisy]. Qed.

Lemma L_low : lownz L. Proof. exact: lownz_rdiag. Qed.

Lemma gram_joint : f_gram (to_sde ker) (sk_H ker) n.+1 n.+1 z z + dense n.+1 n.+1 (rdiag (fun _ => L *m L^T)) =
  joint (F := Rr) c n.+1 Ka.
Proof.
have [_ _ E] := indep_markov.
rewrite -(@joint_noise Rr c o n.+1 (fun a i j => Kout ks (z i) (z j) a) cR); congr (_ + _).
by apply: eq_dense => i j _ _; rewrite E indep_Kout.
Qed.

Lemma child_markov a k : List.nth_error ks a = Some k -> 
  [/\ markov_kernel (to_sde (projT2 k)), k_mean0 (to_sde (projT2 k)) = 0 &
      forall s t, f_cov (to_sde (projT2 k)) (sk_H (projT2 k)) s t = fcov (projT2 k) s t].
Proof. by move=> H; have Hk := nth_error_In H; apply: plain_markov; [exact: Hg|exact: Hn]. Qed.

Lemma gram_child a k : List.nth_error ks a = Some k ->
  f_gram (to_sde (projT2 k)) (sk_H (projT2 k)) n.+1 n.+1 z z + dense n.+1 n.+1 (rdiag (fun _ => cR a *m (cR a)^T)) =
  dense n.+1 n.+1 (Ka a).
Proof.
move=> Hk; have [_ _ E] := child_markov Hk.
by rewrite denseD; apply: eq_dense => i j _ _; rewrite /Ka E (KoutE _ _ Hk).
Qed.

Lemma child_spd a : (a < c)%N -> spd (dense n.+1 n.+1 (Ka a)).
Proof.
move=> Ha; have [k Hk] := nth_error_ex Ha; rewrite -(gram_child Hk).
have [Hm _ _] := child_markov Hk.
rewrite addrC f_gram_Hd; apply: (@spdD Rr).
  by apply: (@spd_rdiag Rr) => i _; apply: (@lownz_spd Rr); apply: HR.
by apply: (@psd_congr' Rr); apply: (@spd_psd Rr); exact: Kzz_spd.
Qed.

Definition out_mean (a : nat) (t : R) : 'cV[R]_o := unflat (mean t) a.
Definition out_obs (a : nat) (i : nat) : 'cV[R]_o := unflat (y i) a.

Lemma child_lik a k : List.nth_error ks a = Some k ->
  gpr_log_likelihood (to_sde (projT2 k)) (sk_H (projT2 k)) (out_mean a) n z (out_obs a) (cR a) =
  Some (gauss_logpdf (U Rr c o n.+1 a *m flat n.+1 (fun i => mean (z i))) (dense n.+1 n.+1 (Ka a)) (U Rr c o n.+1 a *m flat n.+1 y)).
Proof.
move=> Hk; have [Hm H0 _] := child_markov Hk; have [_ Ha] := nth_error_drop Hk.
rewrite (gpr_evidence (sk_H (projT2 k)) (out_mean a) Hm H0 (out_obs a) Hz (HR Ha)) (gram_child Hk).
by rewrite (@U_flat Rr c o n.+1 a y Ha) (@U_flat Rr c o n.+1 a (fun i => mean (z i)) Ha).
Qed.

Lemma indep_log_likelihood : exists l : nat -> R,
  gpr_log_likelihood (to_sde ker) (sk_H ker) mean n z y L = Some (\sum_(a < size ks) l a) /\
  forall a k, List.nth_error ks a = Some k ->
  gpr_log_likelihood (to_sde (projT2 k)) (sk_H (projT2 k)) (out_mean a) n z (out_obs a) (cR a) = Some (l a).
Proof.
exists (fun a => gauss_logpdf (U Rr c o n.+1 a *m flat n.+1 (fun i => mean (z i))) (dense n.+1 n.+1 (Ka a)) (U Rr c o n.+1 a *m flat n.+1 y)).
split; last exact: child_lik.
have [Hm H0 _] := indep_markov.
rewrite (gpr_evidence (sk_H ker) mean Hm H0 y Hz L_low) gram_joint; congr Some.
exact: (@joint_logpdf c o n.+1 Ka _ _ child_spd).
Qed.

Lemma indep_predict new i : (0 < n)%N -> - APPROX_INF Rr < z 0%N -> z 0%N <= new i -> new i <= z n ->
  exists m V, omap (fun p => p i) (gpr_predict_f (to_sde ker) (sk_H ker) mean n z y L new) =
    Some (m, dense c c (rdiag V)) /\
  forall a k, List.nth_error ks a = Some k ->
    omap (fun p => p i) (gpr_predict_f (to_sde (projT2 k)) (sk_H (projT2 k)) (out_mean a) n z (out_obs a) (cR a) new) =
    Some (unflat m a, V a).
Proof.
move=> Hn0 Hinf H1 H2; have [Hm H0 E] := indep_markov.
have := gpr_predict (sk_H ker) mean Hm H0 y Hz L_low Hn0 Hinf H1 H2; cbv zeta => ->.
rewrite gram_joint (@joint_spd Rr c o n.+1 Ka child_spd).
have EK : brow n.+1 (fun j => f_cov (to_sde ker) (sk_H ker) (new i) (z j)) =
   \sum_(a < c) (pick Rr c o a)^T *m brow n.+1 (fun j => Kout ks (new i) (z j) a) *m U Rr c o n.+1 a.
  rewrite -(@cross Rr c o n.+1 (fun a j => Kout ks (new i) (z j) a)); apply: eq_brow => j _.
  by rewrite E indep_Kout.
rewrite EK E indep_Kout (@joint_cov Rr c o n.+1 (fun a j => Kout ks (new i) (z j) a) (Kout ks (new i) (new i))
  (fun a => invmx (dense n.+1 n.+1 (Ka a)))).
eexists; eexists; split; first reflexivity.
move=> a k Hk; have [Hm' H0' E'] := child_markov Hk; have [_ Ha] := nth_error_drop Hk.
have := gpr_predict (sk_H (projT2 k)) (out_mean a) Hm' H0' (out_obs a) Hz (HR Ha) Hn0 Hinf H1 H2; cbv zeta => ->.
rewrite (gram_child Hk).
have -> : brow n.+1 (fun j => f_cov (to_sde (projT2 k)) (sk_H (projT2 k)) (new i) (z j)) = brow n.+1 (fun j => Kout ks (new i) (z j) a).
  by apply: eq_brow => j _; rewrite E' (KoutE _ _ Hk).
rewrite E' -(KoutE (new i) (new i) Hk); congr (Some (_, _)).
have J x := @joint_mean Rr c o n.+1 (fun a j => Kout ks (new i) (z j) a) (fun a => invmx (dense n.+1 n.+1 (Ka a))) x a Ha.
cbv beta in J; rewrite -(@pick_unflat Rr c o a _ _ Ha) [RHS]mulmxDr J.
rewrite (@pick_unflat Rr c o a _ _ Ha) (mulmxBr (U Rr c o n.+1 a)) (@U_flat Rr c o n.+1 a y Ha).
by rewrite (@U_flat Rr c o n.+1 a (fun i => mean (z i)) Ha).
Qed.
End Reg.

Lemma indep_example (l s2 : R) : 0 < l -> 0 < s2 ->
  let ks := [:: mkchild (matern12 1 0 l s2 0); mkchild (matern32 1 0 l s2 0)] in
  let cR a : 'M[R]_1 := a.+1%:R%:M in
  [/\ every (fun d k => plain_kernel k) ks, every (fun d k => noisy k) ks &
      forall a, (a < size ks)%N -> lownz (cR a)].
Proof.
move=> Hl Hs ks cR; have [[L1 J1 M1 N1 _] [L2 J2 M2 N2 _] _] := matern_ready 1 Hl Hs; split.
- by move=> k [<-|[<-|[]]]; apply: lib_plain.
- by move=> k [<-|[<-|[]]].
- move=> a _; split; first by apply/is_trig_mxP => i j; rewrite !ord1.
  by move=> i; rewrite mxE eqxx mulr1n (@pnatr_eq0 Rr).
Qed.
