(* Two small decision procedures used by the proofs: [zmod] proves equalities in
   abelian groups (in particular sums of matrix monomials), [crng] proves
   equalities in commutative rings.  Library file. *)
From mathcomp Require Import all_ssreflect all_algebra.
From Coq Require Import ZArith Ring_polynom InitialRing Ring_theory.
Set Implicit Arguments.
Unset Strict Implicit.
Unset Printing Implicit Defensive.
Import GRing.Theory.
Local Open Scope ring_scope.

Inductive zexp := ZVar of nat | ZAdd of zexp & zexp | ZOpp of zexp | ZZero
  | ZMuln of zexp & nat.

Section Zmod.
Variable V : zmodType.
Implicit Types (e : seq V).

Fixpoint zeval e (t : zexp) : V :=
  match t with
  | ZVar n => nth 0 e n
  | ZAdd a b => zeval e a + zeval e b
  | ZOpp a => - zeval e a
  | ZZero => 0
  | ZMuln a n => zeval e a *+ n
  end.

Fixpoint ladd (a b : seq int) : seq int :=
  match a, b with
  | [::], _ => b
  | _, [::] => a
  | x :: a', y :: b' => (x + y) :: ladd a' b'
  end.

Definition lscale (c : int) (a : seq int) := [seq c * x | x <- a].

Fixpoint lvar n : seq int := if n is n'.+1 then 0 :: lvar n' else [:: 1].

Fixpoint znorm (t : zexp) : seq int :=
  match t with
  | ZVar n => lvar n
  | ZAdd a b => ladd (znorm a) (znorm b)
  | ZOpp a => lscale (-1) (znorm a)
  | ZZero => [::]
  | ZMuln a n => lscale (n%:Z) (znorm a)
  end.

Fixpoint leval e (a : seq int) : V :=
  match a with
  | [::] => 0
  | x :: a' => head 0 e *~ x + leval (behead e) a'
  end.

Lemma leval_add e a b : leval e (ladd a b) = leval e a + leval e b.
Proof.
elim: a b e => [|x a IH] [|y b] e /=; rewrite ?add0r ?addr0 //.
by rewrite IH mulrzDl addrACA.
Qed.

Lemma leval_scale e c a : leval e (lscale c a) = leval e a *~ c.
Proof.
elim: a e => [|x a IH] e /=; first by rewrite mul0rz.
by rewrite IH mulrzDr mulrC mulrzA.
Qed.

Lemma leval_var e n : leval e (lvar n) = nth 0 e n.
Proof.
elim: n e => [|n IH] [|x e] //=; rewrite ?mulr1z ?mulr0z ?add0r ?addr0 ?IH //.
by rewrite nth_nil.
Qed.

Lemma znormE e t : leval e (znorm t) = zeval e t.
Proof.
elim: t => [n|a IHa b IHb|a IH||a IH n] //=.
- exact: leval_var.
- by rewrite leval_add IHa IHb.
- by rewrite leval_scale IH mulrN1z.
- by rewrite leval_scale IH pmulrn.
Qed.

Definition lzero (a : seq int) := all (fun x => x == 0) a.

Lemma lzeroP e a : lzero a -> leval e a = 0.
Proof.
elim: a e => [|x a IH] e //= /andP[/eqP -> H].
by rewrite mulr0z IH // addr0.
Qed.

Lemma zmod_correct e t u :
  lzero (znorm (ZAdd t (ZOpp u))) = true -> zeval e t = zeval e u.
Proof.
move=> H; apply/eqP; rewrite -subr_eq0; apply/eqP.
by rewrite -[LHS]/(zeval e (ZAdd t (ZOpp u))) -znormE; apply: lzeroP.
Qed.

End Zmod.

Ltac z_same a b :=
  match constr:(Set) with
  | _ => let _ := match constr:(Set) with _ => constr_eq a b end in constr:(true)
  | _ => let _ := match constr:(Set) with _ => unify a b end in constr:(true)
  | _ => constr:(false)
  end.
Ltac z_mem a l :=
  match l with
  | nil => constr:(false)
  | cons ?b ?l' => match z_same a b with true => constr:(true) | false => z_mem a l' end
  end.
Ltac z_idx a l :=
  match l with
  | cons ?b ?l' => match z_same a b with
                   | true => constr:(O)
                   | false => let n := z_idx a l' in constr:(S n) end
  end.
Ltac z_snoc l a :=
  match l with
  | @nil ?V => constr:(@cons V a nil)
  | @cons ?V ?x ?l' => let t := z_snoc l' a in constr:(@cons V x t)
  end.
Ltac z_atoms t l :=
  match t with
  | @GRing.add _ ?a ?b => let l1 := z_atoms a l in z_atoms b l1
  | @GRing.opp _ ?a => z_atoms a l
  | @GRing.zero _ => l
  | @GRing.natmul _ ?a ?n => z_atoms a l
  | _ => match z_mem t l with
         | true => l
         | false => z_snoc l t
         end
  end.
Ltac z_reify t l :=
  match t with
  | @GRing.add _ ?a ?b =>
      let x := z_reify a l in let y := z_reify b l in constr:(ZAdd x y)
  | @GRing.opp _ ?a => let x := z_reify a l in constr:(ZOpp x)
  | @GRing.zero _ => constr:(ZZero)
  | @GRing.natmul _ ?a ?n => let x := z_reify a l in constr:(ZMuln x n)
  | _ => let n := z_idx t l in constr:(ZVar n)
  end.
Ltac zmod :=
  match goal with
  | |- @eq ?T ?a ?b =>
      let l0 := constr:(@nil T) in
      let l1 := z_atoms a l0 in
      let l := z_atoms b l1 in
      let x := z_reify a l in
      let y := z_reify b l in
      refine (@zmod_correct _ l x y _); vm_compute; reflexivity
  end.

Section Crng.
Variable R : comRingType.

Lemma crng_theory :
  ring_theory (0 : R) 1 +%R *%R (fun x y => x - y) -%R eq.
Proof.
constructor.
- exact: add0r.
- exact: addrC.
- exact: addrA.
- exact: mul1r.
- exact: mulrC.
- exact: mulrA.
- exact: mulrDl.
- by [].
- exact: subrr.
Qed.

Lemma crng_ext : ring_eq_ext (@GRing.add R) *%R -%R eq.
Proof. by constructor; move=> // x y -> //; move=> z t ->. Qed.

Definition crng_phi : Z -> R := gen_phiZ 0 1 +%R *%R -%R.

Definition crng_morph := gen_phiZ_morph (Eqsth R) crng_ext crng_theory.

Lemma crng_pow : power_theory (1 : R) *%R eq nat_of_N (fun x n => x ^+ n).
Proof.
constructor=> x [|p] //=.
elim/Pos.peano_ind: p => [|p IH]; first by rewrite expr1.
rewrite Pos2Nat.inj_succ exprS IH.
rewrite (pow_pos_succ (Eqsth R) _ (@mulrA R)) //.
Qed.

Definition crng_eval (l : seq R) (e : PExpr Z) : R :=
  PEeval 0 1 +%R *%R (fun x y => x - y) -%R crng_phi nat_of_N (fun x n => x ^+ n) l e.

Lemma crng_correct l e1 e2 :
  Peq Zeq_bool (norm_subst 0%Z 1%Z Z.add Z.mul Z.sub Z.opp Zeq_bool Z.quotrem 0 nil e1)
               (norm_subst 0%Z 1%Z Z.add Z.mul Z.sub Z.opp Zeq_bool Z.quotrem 0 nil e2) = true ->
  crng_eval l e1 = crng_eval l e2.
Proof.
have Hd : div_theory eq Z.add Z.mul (gen_phiZ 0 1 +%R *%R -%R : Z -> R) Z.quotrem.
  apply: InitialRing.Ztriv_div_th; exact: Eqsth.
exact: (@ring_correct _ _ _ _ _ _ _ _ (Eqsth R) crng_ext (Rth_ARth (Eqsth R) crng_ext crng_theory)
  _ _ _ _ _ _ _ _ _ crng_morph _ _ _ crng_pow _ Hd 0%N l nil e1 e2 I).
Qed.

End Crng.

Ltac c_isnat n :=
  match n with
  | O => constr:(true)
  | S ?m => c_isnat m
  | _ => constr:(false)
  end.
Ltac c_atoms t l :=
  match t with
  | @GRing.add _ ?a ?b => let l1 := c_atoms a l in c_atoms b l1
  | @GRing.mul _ ?a ?b => let l1 := c_atoms a l in c_atoms b l1
  | @GRing.opp _ ?a => c_atoms a l
  | @GRing.exp _ ?a ?n => match c_isnat n with
      | true => c_atoms a l
      | false => match z_mem t l with true => l | false => z_snoc l t end
      end
  | @GRing.zero _ => l
  | @GRing.one _ => l
  | @GRing.natmul _ ?a ?n => match c_isnat n with
      | true => c_atoms a l
      | false => match z_mem t l with true => l | false => z_snoc l t end
      end
  | _ => match z_mem t l with
         | true => l
         | false => z_snoc l t
         end
  end.
Ltac c_iter x n :=
  match n with
  | O => constr:(@PEc Z 0%Z)
  | S O => x
  | S ?m => let y := c_iter x m in constr:(PEadd x y)
  end.
Ltac c_reify t l :=
  match t with
  | @GRing.add _ ?a ?b =>
      let x := c_reify a l in let y := c_reify b l in constr:(PEadd x y)
  | @GRing.mul _ ?a ?b =>
      let x := c_reify a l in let y := c_reify b l in constr:(PEmul x y)
  | @GRing.opp _ ?a => let x := c_reify a l in constr:(PEopp x)
  | @GRing.zero _ => constr:(@PEc Z 0%Z)
  | @GRing.one _ => constr:(@PEc Z 1%Z)
  | @GRing.exp _ ?a ?n => match c_isnat n with
      | true => let x := c_reify a l in
                let k := eval vm_compute in (N.of_nat n) in constr:(PEpow x k)
      | false => let k := z_idx t l in
                 let q := eval vm_compute in (Pos.of_succ_nat k) in constr:(@PEX Z q)
      end
  | @GRing.natmul _ ?a ?n => match c_isnat n with
      | true => let x := c_reify a l in c_iter x n
      | false => let k := z_idx t l in
                 let q := eval vm_compute in (Pos.of_succ_nat k) in constr:(@PEX Z q)
      end
  | _ => let k := z_idx t l in
         let q := eval vm_compute in (Pos.of_succ_nat k) in constr:(@PEX Z q)
  end.
Ltac crng :=
  match goal with
  | |- @eq ?T ?a ?b =>
      let l0 := constr:(@nil T) in
      let l1 := c_atoms a l0 in
      let l := c_atoms b l1 in
      let x := c_reify a l in
      let y := c_reify b l in
      refine (@crng_correct _ l x y _); vm_compute; reflexivity
  end.

Lemma mxDE (R : zmodType) m n (A B : 'M[R]_(m, n)) i j : (A + B) i j = A i j + B i j.
Proof. by rewrite mxE. Qed.
Lemma mxNE (R : zmodType) m n (A : 'M[R]_(m, n)) i j : (- A) i j = - A i j.
Proof. by rewrite mxE. Qed.
Lemma mxZE (R : ringType) m n (a : R) (A : 'M[R]_(m, n)) i j : (a *: A) i j = a * A i j.
Proof. by rewrite mxE. Qed.
Lemma mx0E (R : zmodType) m n i j : (0 : 'M[R]_(m, n)) i j = 0.
Proof. by rewrite mxE. Qed.
Lemma mxsumE (R : zmodType) m n (I : Type) (r : seq I) (P : pred I) (F : I -> 'M[R]_(m, n)) i j :
  (\sum_(k <- r | P k) F k) i j = \sum_(k <- r | P k) F k i j.
Proof. exact: summxE. Qed.
Definition mxlin := (mxDE, mxNE, mxZE, mx0E).

(* expand a matrix expression into a signed sum of left-associated monomials *)
Ltac mxexp := rewrite ?(mulmxDl, mulmxDr, mulmxBl, mulmxBr, mulNmx, mulmxN, mulmxA, opprD, opprK,
  mulmx1, mul1mx, mulmx0, mul0mx).
Ltac mxring := repeat (progress mxexp); zmod.

Goal forall (R : rcfType) (x y : R), (x + y) ^+ 2 * 2%:R = x ^+ 2 *+ 2 + 4%:R * x * y + y ^+2 *2%:R.
Proof. move=> R x y; crng. Qed.
Goal forall (R : fieldType) n (A B C : 'M[R]_n), (A + B) *m C - A *m C = B *m C.
Proof. by move=> R n A B C; mxring. Qed.

Lemma trmxD (V : zmodType) p q (X Y : 'M[V]_(p, q)) : (X + Y)^T = X^T + Y^T.
Proof. by apply/matrixP=> i j; rewrite !mxE. Qed.
Lemma trmxN (V : zmodType) p q (X : 'M[V]_(p, q)) : (- X)^T = - X^T.
Proof. by apply/matrixP=> i j; rewrite !mxE. Qed.
Lemma trmxB (V : zmodType) p q (X Y : 'M[V]_(p, q)) : (X - Y)^T = X^T - Y^T.
Proof. by rewrite trmxD trmxN. Qed.
