(* Linear arithmetic for ssreflect naturals.  Library file. *)
From mathcomp Require Import all_ssreflect.
From mathcomp Require Export zify.

Ltac nlia := lia.

Goal forall a b c, (a < b)%N -> (b <= c)%N -> (a + 3 <= c + 2)%N.
Proof. intros; nlia. Qed.
Goal forall a b, (a < b)%N -> (b == a)%N = false.
Proof. intros; nlia. Qed.
Goal forall a b d, (a < b)%N -> (0 < d)%N -> (a * d < b * d)%N.
Proof. intros; nia. Qed.
