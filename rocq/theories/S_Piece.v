(* Specification vocabulary for the piecewise kernel: the kernel governing a time is the
   one numbered by how many change points are at or before it. *)
From mathcomp Require Import all_ssreflect all_algebra.
From Verif Require Import Lin Spd M_Kernel M_Cond M_Comb S_Comb.
Set Implicit Arguments.
Unset Strict Implicit.
Unset Printing Implicit Defensive.
Import GRing.Theory Num.Theory.
Local Open Scope ring_scope.

Section S.
Variable F : rcfType.
Implicit Types (cps times : seq F).

Definition active cps (t : F) : nat := count (fun c => c <= t) cps.

Definition in_range (t : F) : bool := (- APPROX_INF F <= t) && (t < APPROX_INF F).

(* what the constructor expects of its arguments *)
Definition pw_args o d (kernels : seq (skernel F o d)) cps : Prop :=
  [/\ (0 < size cps)%N, (size cps < size kernels)%N, sorted <=%R cps & all in_range cps].

(* the process the class documents: the dynamics of the kernel governing the start of a
   transition, started from the steady state of the kernel governing the first time *)
Definition pw_spec o d (k0 : skernel F o d) (kernels : seq (skernel F o d)) cps (jitter : F) : sde_kernel F d :=
  let ker t := nth k0 kernels (active cps t) in
  SdeKernel (fun t dt => sk_A (ker t) dt)
    (fun t dt => sk_P (ker t) - sk_A (ker t) dt *m sk_P (ker t) *m (sk_A (ker t) dt)^T + jitter *: 1%:M)
    (fun t dt => sk_off (ker t) dt)
    0
    (fun t => sk_P (ker t)).

(* a positive definite steady state, noise in every direction *)
Definition pw_good o d (k : skernel F o d) : Prop := spd (sk_P k) /\ noisy k.

(* in addition the transitions and offsets over successive steps compose *)
Record pw_process o d (k : skernel F o d) : Prop := PwProcess {
  pw_is_good : pw_good k;
  pw_semi : forall a b, 0 < a -> 0 < b -> sk_A k (a + b) = sk_A k b *m sk_A k a;
  pw_offs : forall a b, 0 < a -> 0 < b -> sk_off k (a + b) = sk_A k b *m sk_off k a + sk_off k b
}.

End S.
