(** What C114 says about SGLD in double precision and in exact arithmetic. *)
From Coq Require Import List ZArith Reals.
From Flocq Require Import Core.Core.
From Verif.Base Require Import Py Num Float64.
From Verif.Spec Require Import Doubles Dynamics.
Import ListNotations.
Local Open Scope R_scope.

(** One step of preconditioned Langevin dynamics on all entries, in exact arithmetic. *)
Fixpoint langevin (eps A s : R) (ms gs xis xs : list R) : list R :=
  match ms, gs, xis, xs with
  | m :: ms, g :: gs, xi :: xis, x :: xs => sgld_theta eps A s m g xi x :: langevin eps A s ms gs xis xs
  | _, _, _, _ => []
  end.
(** Stepsize, A and gradient scale a sampler is used with. *)
Definition usual_sgld (eps A s : f64) : Prop :=
  between64 (bpow radix2 (-20)) (bpow radix2 20) eps /\ between64 (bpow radix2 (-20)) (bpow radix2 20) A /\ between64 1 (bpow radix2 100) s.
(** An entry, its drift and its noise are at most 2^e in size. *)
Definition within (e : Z) (eps A s m x g xi : f64) : Prop :=
  bounded64 e x /\ finite g /\ finite xi /\
  Rabs (sgld_drift (value eps) (value A) (value m) * value g) <= bpow radix2 e /\
  Rabs (sqrt (2 * sgld_drift (value eps) (value A) (value m) / (value s + 3 * guard)) * value xi) <= bpow radix2 e.
Definition all_within (e : Z) (eps A s : f64) (ms xs gs xis : list f64) : Prop :=
  forall i m x g xi, nth_error ms i = Some m -> nth_error xs i = Some x -> nth_error gs i = Some g -> nth_error xis i = Some xi ->
  within e eps A s m x g xi.
