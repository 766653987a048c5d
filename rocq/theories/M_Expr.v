(* Model of the operators + and * on kernels. *)
From mathcomp Require Import all_ssreflect all_algebra.
From Verif Require Import M_Comb.
Set Implicit Arguments.
Unset Strict Implicit.
Unset Printing Implicit Defensive.

Section Ops.
Variable F : rcfType.

(* sde_kernel.py:342-345 SDEKernel.__add__; equal output dimensions are part of the type; the jitter is the default of Sum *)
Definition kernel_add o (k1 k2 : child F o) : child F o := mkchild (sum_kernel [:: k1; k2] 0%R).
(* sde_kernel.py:347-350 SDEKernel.__mul__, for kernels with one output *)
Definition kernel_mul (k1 k2 : child F 1) : child F 1 := mkchild (product_kernel [:: k1; k2] 0%R).

(* sde_kernel.py:342-350: an expression in kernels, sums and products *)
Inductive kexpr := KLeaf (k : child F 1) | KAdd (a b : kexpr) | KMul (a b : kexpr).
(* sde_kernel.py:342-350: the kernel that python builds for the expression *)
Fixpoint kernel_of (e : kexpr) : child F 1 :=
  match e with
  | KLeaf k => k
  | KAdd a b => kernel_add (kernel_of a) (kernel_of b)
  | KMul a b => kernel_mul (kernel_of a) (kernel_of b)
  end.

(* sde_kernel.py:1256-1265 and 1267-1276, IndependentMultiOutputStack.__add__ and __mul__: the lists of kernels; None: the
   assertion on the numbers of kernels fails *)
Definition stack_zip (op : child F 1 -> child F 1 -> child F 1) (ks ks' : seq (child F 1)) : option (seq (child F 1)) :=
  if size ks == size ks' then Some [seq op p.1 p.2 | p <- zip ks ks'] else None.
(* sde_kernel.py:1256-1265 *)
Definition stack_add := stack_zip (@kernel_add 1).
(* sde_kernel.py:1267-1276 *)
Definition stack_mul := stack_zip kernel_mul.
End Ops.
