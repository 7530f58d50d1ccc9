(** What C115 says about SGHMC in double precision and in exact arithmetic. *)
From Coq Require Import List ZArith Reals.
From Flocq Require Import Core.Core.
From Verif.Base Require Import Py Num Float64.
From Verif.Spec Require Import Doubles Dynamics.
Local Open Scope R_scope.

(** Stepsize, friction and gradient scale a sampler is used with. *)
Definition usual_sghmc (eps alpha s : f64) : Prop :=
  between64 (bpow radix2 (-20)) (bpow radix2 20) eps /\ between64 (bpow radix2 (-20)) 1 alpha /\ between64 1 (bpow radix2 100) s.
(** A mass of usual size, and a stepsize small enough for friction and mass: eps^2 / s <= alpha * m. *)
Definition usual_mass (eps alpha s m : f64) : Prop :=
  between64 (bpow radix2 (-20)) (bpow radix2 20) m /\ value eps ^ 2 / value s <= value alpha * value m.
(** An entry, its momentum, the gradient's push and the noise are at most 2^e in size. *)
Definition moderate_entry (e : Z) (eps alpha s m g xi v x : f64) : Prop :=
  bounded64 e x /\ bounded64 e v /\ finite g /\ finite xi /\
  Rabs (value eps ^ 2 * value m * value g) <= bpow radix2 e /\
  Rabs (sqrt (Rmax (sghmc_noise_var (value eps) (value alpha) (value s) (value m)) guard) * value xi) <= bpow radix2 e.
