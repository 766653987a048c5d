(* Model of markovflow/ssm_natgrad.py, SSMNaturalGradient.

   One batch element, over the reals of the standard library.  The two gradients that
   tf.GradientTape computes by the chain rule through the trainable variables (142-172) are
   inputs: detas and dthetas, in the format of the expectation and natural parameters.  The
   variables of the model are its five parameters; the change of variables of gpflow's
   triangular transform (162-163 and 214-215) is a reshape and is left out. *)
From Coq Require Import Reals.
From mathcomp Require Import all_ssreflect all_algebra.
From Verif Require Import RealStruct M_Block M_SSM M_SSMLog M_Trans.
Set Implicit Arguments.
Unset Strict Implicit.
Unset Printing Implicit Defensive.
Import GRing.Theory Num.Theory.
Local Open Scope ring_scope.

Section NatGrad.
Variables (d n : nat).

(* ssm_natgrad.py:187, 197-200, 210: elementwise arithmetic on the lists [linear, diagonal, sub-diagonal] *)
Definition triple_lincomb (a : R) (t : triple Rr d) (b : R) (t' : triple Rr d) : triple Rr d :=
  Triple (fun k => a *: t_lin t k + b *: t_lin t' k) (fun k => a *: t_diag t k + b *: t_diag t' k)
         (fun k => a *: t_sub t k + b *: t_sub t' k).

(* ssm_natgrad.py:190: tf.reduce_sum(g * gt) of two tensors [num, a, b] *)
Definition reduce_prod (num a b : nat) (g gt : nat -> 'M[R]_(a, b)) : R :=
  \sum_(k < num) \sum_(i < a) \sum_(j < b) g k i j * gt k i j.

(* ssm_natgrad.py:89-92 and 104-108: the buffers _ms, _v and _step_counter *)
Record ng_state := NgState { ng_ms : triple Rr d; ng_v : R; ng_counter : nat }.
(* ssm_natgrad.py:89-92 and 104-108 *)
Definition ng_init : ng_state := NgState (Triple (fun _ => 0) (fun _ => 0) (fun _ => 0)) 0 1.

Variables (gamma beta1 beta2 epsilon : R) (momentum : bool).

(* ssm_natgrad.py:180-184 *)
Definition ng_lr (counter : nat) : R :=
  gamma * Num.sqrt (1 - beta2 ^+ counter) / (1 - beta1 ^+ counter).

(* ssm_natgrad.py:190-192 *)
Definition natgrad_norm (detas dthetas : triple Rr d) : R :=
  reduce_prod n.+1 (t_lin detas) (t_lin dthetas) + reduce_prod n.+1 (t_diag detas) (t_diag dthetas)
  + reduce_prod n (t_sub detas) (t_sub dthetas) * 2%:R.

(* ssm_natgrad.py:187 and 194 *)
Definition ng_ms_new (st : ng_state) (detas : triple Rr d) : triple Rr d :=
  triple_lincomb beta1 (ng_ms st) (1 - beta1) detas.
(* ssm_natgrad.py:194 *)
Definition ng_v_new (st : ng_state) (detas dthetas : triple Rr d) : R :=
  ng_v st * beta2 + (1 - beta2) * natgrad_norm detas dthetas.

(* ssm_natgrad.py:175-210: the new natural parameters and the new buffers.  None: tf.sqrt of a negative
   number, all the parameters become NaN. *)
Definition ng_thetas (thetas detas dthetas : triple Rr d) (st : ng_state) : option (triple Rr d * ng_state) :=
  if momentum then
    let lr := ng_lr (ng_counter st) in
    let ms_new := ng_ms_new st detas in
    let v_new := ng_v_new st detas dthetas in
    if v_new < 0 then None else
    Some (triple_lincomb 1 thetas (- (lr / (Num.sqrt v_new + epsilon))) ms_new, NgState ms_new v_new (ng_counter st).+1)
  else Some (triple_lincomb 1 thetas (- gamma) detas, st).

(* ssm_natgrad.py:121-218 _natgrad_step *)
Definition natgrad_step (detas dthetas : triple Rr d) (q : ssm Rr d) (st : ng_state) : option (ssm Rr d * ng_state) :=
  obind (fun x : triple Rr d * ng_state => omap (fun q' => (q', x.2)) (naturals_to_ssm n x.1))
    (ng_thetas (ssm_to_naturals n q) detas dthetas st).

(* ssm_natgrad.py:95-109, repeated calls of minimize, with the gradients of the current model *)
Fixpoint natgrad_run (grads : ssm Rr d -> triple Rr d * triple Rr d) (r : nat) (q : ssm Rr d) (st : ng_state) :
    option (ssm Rr d * ng_state) :=
  if r is r'.+1 then
    obind (fun x : ssm Rr d * ng_state => natgrad_run grads r' x.1 x.2)
      (natgrad_step (grads q).1 (grads q).2 q st)
  else Some (q, st).
End NatGrad.
