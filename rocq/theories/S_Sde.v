(* Specification vocabulary for stochastic differential equations. *)
From mathcomp Require Import all_ssreflect all_algebra.
Set Implicit Arguments.
Unset Strict Implicit.
Unset Printing Implicit Defensive.
Import GRing.Theory Num.Theory.
Local Open Scope ring_scope.

Section Sde.
Variables (F : rcfType) (d : nat).

(* the Euler update of x from time t to time t' with the standard normal draw w *)
Definition euler_update (f : 'cV[F]_d -> F -> 'cV[F]_d) (l : 'cV[F]_d -> F -> 'M[F]_d) (t t' : F) (w x : 'cV[F]_d) : 'cV[F]_d :=
  x + (t' - t) *: f x t + Num.sqrt (t' - t) *: (l x t *m w).

(* xs are the values at the times ts of the Euler path started at x0 *)
Definition euler_path f l (x0 : 'cV[F]_d) (ts : seq F) (noise : seq 'cV[F]_d) (xs : seq 'cV[F]_d) : Prop :=
  [/\ size xs = size ts, (0 < size xs)%N, nth 0 xs 0 = x0 &
      forall k, (k.+1 < size ts)%N ->
        nth 0 xs k.+1 = euler_update f l (nth 0 ts k) (nth 0 ts k.+1) (nth 0 noise k) (nth 0 xs k)].
End Sde.

Section Normal.
Variable F : rcfType.

(* moments of the standard normal: E z^(k+2) = (k+1) E z^k *)
Fixpoint nmom2 (k : nat) : F * F := if k is k'.+1 then let: (a, b) := nmom2 k' in (b, (k'.+1)%:R * a) else (1, 0).
Definition nmom (k : nat) : F := (nmom2 k).1.

(* expectation of a polynomial under N(0, 1) and under N(m, v) *)
Definition std_expect (p : {poly F}) : F := \sum_(k < size p) p`_k * nmom k.
Definition normal_expect (m v : F) (p : {poly F}) : F := std_expect (p \Po (m%:P + Num.sqrt v *: 'X)).

(* nodes and weights that integrate the polynomials of degree below 2 H exactly *)
Definition gauss_hermite (H : nat) (node weight : nat -> F) : Prop :=
  forall k, (k < 2 * H)%N -> \sum_(h < H) weight h * node h ^+ k = nmom k.
End Normal.
