(* Proofs for natural gradients, part 5: the variational models.  Exact convergence for a
   Gaussian likelihood, and the correspondence with the updates of CVI. *)
From Coq Require Import Reals Lra FunctionalExtensionality.
From Coquelicot Require Import Derive_2d.
From mathcomp Require Import all_ssreflect all_algebra.
From Verif Require Import RealStruct Log Nat Alg Lin Ent Spd MCalc MCont M_Block S_Block P_Block P_Block2
  M_SSM S_SSM P_SSM M_SSMLog S_Gauss P_Gauss P_SSMLog M_Trans S_Trans P_Trans P_TransLog P_Elbo
  S_Kalman M_Kalman P_Kalman M_Kernel S_Kernel P_Kernel M_Cond P_Cond P_Cond2 P_Cond3 P_Cond4 M_Emission P_Emission M_Sort P_Sort M_Models S_GP P_Models P_Models2
  M_Cvi S_Cvi P_Cvi M_NatGrad S_NatGrad P_NatGrad P_NatGrad2 P_NatGrad3 P_NatGrad4.
Set Implicit Arguments.
Unset Strict Implicit.
Unset Printing Implicit Defensive.
Import Order.Theory GRing.Theory Num.Theory.
Local Open Scope ring_scope.

Section Gauss.
Variables (o d : nat) (ker : sde_kernel Rr d) (emission : R -> 'M[R]_(o, d)) (mean : R -> 'cV[R]_o).
Hypothesis Hker : markov_kernel ker.
Hypothesis Hm0 : k_mean0 ker = 0.
Variables (n : nat) (z : nat -> R) (y : nat -> 'cV[R]_o) (s2 : R).
Hypothesis Hz : increasing n.+1 z.
Hypothesis Hs : 0 < s2.
Hypothesis Hn : (0 < n)%N.
Hypothesis Hinf : - APPROX_INF Rr < z 0%N.
Variables (gamma beta1 beta2 epsilon : R).
Hypothesis g01 : 0 <= gamma <= 1.

Let elbo := vgp_elbo ker emission mean (ext_gaussian_ve s2) n z y.

(* the gradient exists *)
Lemma vgp_grads : exists grads : ssm Rr d -> triple Rr d * triple Rr d,
  forall q', ssm_chol n q' -> exp_gradient n (loss_of elbo) q' (grads q').1.
Proof.
have [post [P1 P2 _]] := gpr_post emission mean Hker Hm0 y Hz (@cR_low o s2 Hs) Hn.
exists (fun q => (triple_lincomb 1 (ssm_to_naturals n q) (-1) (ssm_to_naturals n post), ssm_to_naturals n q)) => q Cq.
have L1 := gpr_evidence emission mean Hker Hm0 y Hz (@cR_low o s2 Hs).
move: L1; set l := gauss_logpdf _ _ _ => L1.
apply: (@gradient_shift d n (fun q' => ssm_kl_divergence n q' post) _ (- l)) => //; last exact: kl_is_gradient.
move=> q' Cq'; have Nq' := ssm_chol_nonsing Cq'.
have [e [l' [post' [E1 E2 E3 E4]]]] := vgp_evidence emission mean Hker Hm0 y Hz Hs Hn Hinf Nq'.
move: E2 E3; rewrite P1 L1 => -[El] [Ep]; rewrite /loss_of /elbo E1 El -E4 -Ep.
by move: (ssm_kl_divergence n q' post) => k; rewrite opprD addrCA subrr addr0.
Qed.

Lemma vgp_natgrad grads : (forall q', ssm_chol n q' -> exp_gradient n (loss_of elbo) q' (grads q').1) ->
  exists post l, [/\ gpr_posterior ker emission mean n z y (Num.sqrt s2)%:M = Some post,
    gpr_log_likelihood ker emission mean n z y (Num.sqrt s2)%:M = Some l &
    forall r q st, ssm_chol n q ->
    exists q' e e', [/\ natgrad_run n gamma beta1 beta2 epsilon false grads r q st = Some (q', st), ssm_chol n q',
      same_triple n (ssm_to_naturals n q')
        (triple_lincomb ((1 - gamma) ^+ r) (ssm_to_naturals n q) (1 - (1 - gamma) ^+ r) (ssm_to_naturals n post)) &
      [/\ elbo q = Some e, elbo q' = Some e', e <= e' <= l & (gamma = 1 -> (0 < r)%N -> e' = l)]]].
Proof.
move=> Hg.
have [post [P1 P2 _]] := gpr_post emission mean Hker Hm0 y Hz (@cR_low o s2 Hs) Hn.
pose l := gauss_logpdf (flat n.+1 (fun k => mean (z k))) (f_gram ker emission n.+1 n.+1 z z +
  dense n.+1 n.+1 (rdiag (fun _ => (Num.sqrt s2)%:M *m (Num.sqrt s2)%:M^T))) (flat n.+1 y).
have L1 := gpr_evidence emission mean Hker Hm0 y Hz (@cR_low o s2 Hs).
have ev q : ssm_nonsing n q -> exists2 e, elbo q = Some e & e + ssm_kl_divergence n q post = l.
  move=> Nq; have [e [l' [post' [E1 E2 E3 E4]]]] := vgp_evidence emission mean Hker Hm0 y Hz Hs Hn Hinf Nq.
  exists e => //; move: E2 E3; rewrite P1 L1 => -[El] [Ep].
  by rewrite Ep E4 -El.
exists post, l; split=> // r q st Cq.
have Hl q' : ssm_chol n q' -> ssm_kl_divergence n q' post = loss_of elbo q' + l.
  move=> /ssm_chol_nonsing/ev [e Ee <-]; rewrite /loss_of Ee.
  by move: (ssm_kl_divergence n q' post) => k; crng.
have [q' [R1 R2 R3]] := run_kl beta1 beta2 epsilon Hn g01 P2 Hl Hg r st Cq.
have Nq := ssm_chol_nonsing Cq; have Nq' := ssm_chol_nonsing R2.
have [e Ee Ke] := ev q Nq; have [e' Ee' Ke'] := ev q' Nq'.
exists q', e, e'; split=> //; split=> //; last first.
  move=> g1 r0; rewrite -Ke' (kl_same Nq' P2) ?addr0 //.
  apply: (same_trans R3); move: (ssm_to_naturals n q) (ssm_to_naturals n post) => y1 y2.
  by split=> k Hk; rewrite /triple_lincomb /= g1 subrr expr0n eqn0Ngt r0 /= scale0r add0r subr0 scale1r.
apply/andP; split; last by rewrite -Ke' ler_addl kl_ge0.
have rate : 0 <= 1 - (1 - gamma) ^+ r <= 1.
  case/andP: g01 => g0 g1; rewrite subr_ge0 exprn_ile1 ?subr_ge0 //; last by rewrite ler_subl_addl ler_addr.
  by rewrite ler_subl_addl ler_addr exprn_ge0 // subr_ge0.
have R3' : same_triple n (ssm_to_naturals n q') (triple_lincomb (1 - (1 - (1 - gamma) ^+ r)) (ssm_to_naturals n q)
    (1 - (1 - gamma) ^+ r) (ssm_to_naturals n post)).
  by move: R3; rewrite subKr.
have := kl_decrease Nq Nq' P2 rate R3'.
have h := kl_ge0 Nq Nq'.
have Ee1 : e = l - ssm_kl_divergence n q post by rewrite -Ke addrK.
have Ee2 : e' = l - ssm_kl_divergence n q' post by rewrite -Ke' addrK.
case: (eqVneq (1 - (1 - gamma) ^+ r) 0) => r0.
  move=> _; rewrite Ee1 Ee2 (_ : ssm_kl_divergence n q' post = ssm_kl_divergence n q post) //.
  have Es : same_triple n (ssm_to_naturals n q') (ssm_to_naturals n q).
    apply: (same_trans R3'); move: (ssm_to_naturals n q) (ssm_to_naturals n post) => y1 y2.
    by split=> k Hk; rewrite /triple_lincomb /= r0 subr0 scale0r addr0 scale1r.
  exact: (kl_same_left Nq' Nq P2 Es).
move: rate => /andP[rt0 _]; have {}rt0 : 0 < 1 - (1 - gamma) ^+ r by rewrite lt_neqAle eq_sym r0.
rewrite -mulrDr ler_pmul2l // Ee1 Ee2 => h'.
by rewrite ler_add2l ler_opp2; apply: le_trans h'; rewrite ler_addl.
Qed.
End Gauss.
