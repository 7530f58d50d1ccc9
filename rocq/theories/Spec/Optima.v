(** Optima of real functions of n variables, and Gaussian mixtures. *)
From Coq Require Import List Reals.
From Verif.Base Require Import Py.
From Verif.Spec Require Import Svgd.
Import ListNotations.
Local Open Scope R_scope.

(** [f] computes a total function on sequences of length n whose least value [m]
    is attained exactly at the points satisfying [P]. *)
Definition least_at (n : nat) (f : list R -> res R) (m : R) (P : list R -> Prop) : Prop :=
  forall x, length x = n -> exists y, f x = Ok y /\ m <= y /\ (y = m <-> P x).
Definition greatest_at (n : nat) (f : list R -> res R) (m : R) (P : list R -> Prop) : Prop :=
  forall x, length x = n -> exists y, f x = Ok y /\ y <= m /\ (y = m <-> P x).

(** Density of the normal distribution. *)
Definition normal_density (mu var x : R) : R := exp (- (x - mu) ^ 2 / (2 * var)) / sqrt (2 * PI * var).

(** Mixture density; components (weight, mean, variance). *)
Definition mixture (cs : list (R * R * R)) (x : R) : R :=
  Rsum (map (fun '(w, mu, var) => w * normal_density mu var x) cs).
