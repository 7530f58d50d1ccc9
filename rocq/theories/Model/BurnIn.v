(** Model of the burn-in logic shared (as duplicated code) by
    pysgmcmc/samplers/sghmc.py:126-196 and pysgmcmc/samplers/sgld.py:117-178, for
    one target parameter.  All tensors are the vectorized (n,1) columns, held
    as lists. *)
From Coq Require Import List Arith ZArith.
From Verif.Base Require Import Py Num Vec.
From Verif.Model Require Import TensorUtils.
Import ListNotations.

Section B.
Context {T : Type} `{Num T}.

(** The TensorFlow variables tau, r, g, v_hat, minv of one parameter. *)
Record adapt := Adapt {
  a_tau : list T; a_r : list T; a_g : list T; a_vhat : list T; a_minv : list T }.

(** Initial values: tau, g, v_hat ones (sghmc.py:126-129, 135-143), r = 1/(tau+1)
    (131-133), minv = 1/sqrt(v_hat) (146-149). sgld.py:117-142 identical. *)
Definition adapt_init (n : nat) : adapt :=
  let ones := repeat n1 n in
  {| a_tau := ones;
     a_r := map (fun t => ndiv n1 (nadd t n1)) ones;
     a_g := ones; a_vhat := ones;
     a_minv := map (fun v => ndiv n1 (nsqrt v)) ones |}.

(** One execution of the burn-in ops with gradient [grad]: all new values
    are computed from the old ones (the control dependencies enforce it; C34). *)
Definition adapt_step (grad : list T) (a : adapt) : adapt :=
  let r_t := map (fun t => ndiv n1 (nadd t n1)) (a_tau a) in             (* sghmc.py:168 *)
  let tau_t := vmap2 nadd (a_tau a)                                      (* 172-176 *)
    (map (fun q => nadd q n1)
       (vmap2 safe_divide
          (vmap2 nmul (vmap2 nmul (map nopp (a_g a)) (a_g a)) (a_tau a)) (a_vhat a))) in
  let minv_t := map (fun v => safe_divide n1 (safe_sqrt v)) (a_vhat a) in (* 179-183 *)
  let g_t := vmap2 nadd (a_g a)                                          (* 186-190 *)
    (vmap2 nadd (vmap2 nmul (map nopp r_t) (a_g a)) (vmap2 nmul r_t grad)) in
  let vhat_t := vmap2 nadd (a_vhat a)                                    (* 192-196 *)
    (vmap2 nadd (vmap2 nmul (map nopp r_t) (a_vhat a))
                (vmap2 nmul r_t (map (fun x => npow x 2) grad))) in
  {| a_tau := tau_t; a_r := r_t; a_g := g_t; a_vhat := vhat_t; a_minv := minv_t |}.

(** The tensor minv_t used downstream: the assigned value, unless it is fed
    (base_classes.py:454), in which case the assignment still runs. *)
Definition minv_used (fed : option (list T)) (a' : adapt) : list T :=
  match fed with Some m => m | None => a_minv a' end.

End B.
Arguments adapt : clear implicits.
