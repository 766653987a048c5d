(* Specification of kernel expressions. *)
From mathcomp Require Import all_ssreflect all_algebra.
From Verif Require Import M_Comb S_Comb M_Expr.
Set Implicit Arguments.
Unset Strict Implicit.
Unset Printing Implicit Defensive.
Import GRing.Theory.
Local Open Scope ring_scope.

Section S.
Variable F : rcfType.

(* the covariance function of an expression, from the covariance functions c of its kernels *)
Fixpoint expr_cov (c : child F 1 -> F -> F -> F) (e : kexpr F) (s t : F) : F :=
  match e with
  | KLeaf k => c k s t
  | KAdd a b => expr_cov c a s t + expr_cov c b s t
  | KMul a b => expr_cov c a s t * expr_cov c b s t
  end.

(* p holds for every kernel of the expression *)
Fixpoint leaves (p : child F 1 -> Prop) (e : kexpr F) : Prop :=
  match e with
  | KLeaf k => p k
  | KAdd a b | KMul a b => leaves p a /\ leaves p b
  end.

(* noise in the steps of an expression: every step of the process adds noise in every direction (b = true) or none does;
   both sides of a sum must be of the same kind *)
Inductive noise : bool -> kexpr F -> Prop :=
| noise_leaf k : noisy (projT2 k) -> noise true (KLeaf k)
| no_noise_leaf k : noiseless (projT2 k) -> noise false (KLeaf k)
| noise_add b e1 e2 : noise b e1 -> noise b e2 -> noise b (KAdd e1 e2)
| noise_mul b1 b2 e1 e2 : noise b1 e1 -> noise b2 e2 -> noise (b1 || b2) (KMul e1 e2).
End S.
