(** What C111 says about the Gaussian mixtures in double precision. *)
From Coq Require Import List ZArith Reals.
From Flocq Require Import Core.Core.
From Verif.Base Require Import Py Num Float64.
From Verif.Spec Require Import Doubles Optima.
Import ListNotations.

(** exp of non-positive numbers, ln of numbers between 2^-30 and 2^30 and pi are computed with an error of at most 2^-40. *)
Definition accurate (NT : NumT f64) : Prop :=
  (forall x, finite x -> (value x <= 0)%R -> between64 0 1 (nexp x) /\ (Rabs (value (nexp x) - exp (value x)) <= bpow radix2 (-40))%R) /\
  (forall x, between64 (bpow radix2 (-30)) (bpow radix2 30) x -> finite (nln x) /\ (Rabs (value (nln x) - ln (value x)) <= bpow radix2 (-40))%R) /\
  finite npi /\ (Rabs (value npi - PI) <= bpow radix2 (-40))%R.
(** The mixture density with the given double weights, means and variances. *)
Definition mixture64 (weights mu var : list f64) (x : R) : R :=
  mixture (map (fun '(w, (m, s)) => (value w, value m, value s)) (combine weights (combine mu var))) x.
(** One to sixteen components, weights in [2^-10, 1], means up to 32 in size, variances in [1/8, 8]. *)
Definition modest (weights mu var : list f64) : Prop :=
  length mu = length var /\ length var = length weights /\ 1 <= length weights <= 16 /\
  Forall (between64 (bpow radix2 (-10)) 1) weights /\ Forall (bounded64 5) mu /\ Forall (between64 (/ 8) 8) var.
