(* Specification vocabulary: draws of a normal distribution whose mean and Cholesky factor
   move with a parameter h. *)
From Coq Require Import Reals.
From Coquelicot Require Import Coquelicot.
From mathcomp Require Import all_ssreflect all_algebra.
From Verif Require Import RealStruct MCalc Stein S_Gauss.
Set Implicit Arguments.
Unset Strict Implicit.
Unset Printing Implicit Defensive.
Import GRing.Theory.
Local Open Scope ring_scope.

Section S.
Variable d : nat.

(* f is differentiable along every differentiable path, with gradient G; G is continuous along
   straight lines *)
Definition has_gradient (f : 'cV[R]_d -> R) (G : 'cV[R]_d -> 'cV[R]_d) : Prop :=
  (forall (y : R -> 'cV[R]_d) t y', mderiv y t y' -> is_derive (fun s => f (y s)) t (((G (y t))^T *m y') 0 0)) /\
  (forall y v i t, continuous (fun s : R => G (y + s *: v) i 0) t).

(* the draw with noise e, and where a draw moves when the parameter is h and its noise stays *)
Definition normal_draw (M : R -> 'cV[R]_d) (C : R -> 'M[R]_d) (e : 'cV[R]_d) : 'cV[R]_d := M 0 + C 0 *m e.
Definition normal_flow (M : R -> 'cV[R]_d) (C : R -> 'M[R]_d) (h : R) (y : 'cV[R]_d) : 'cV[R]_d :=
  M h + C h *m (invmx (C 0) *m (y - M 0)).

(* the noise of all draws, with component i of the noise of draw k replaced by t *)
Definition set_noise (k : nat) (i : 'I_d) (t : R) (e : nat -> 'cV[R]_d) (j : nat) : 'cV[R]_d :=
  if j == k then \col_l (if l == i then t else e j l 0) else e j.
End S.
