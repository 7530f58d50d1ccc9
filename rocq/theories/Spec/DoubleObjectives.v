(** What C110 says about the benchmark functions in double precision. *)
From Coq Require Import List ZArith Reals.
From Flocq Require Import Core.Core.
From Verif.Base Require Import Py Num Float64.
From Verif.Spec Require Import Doubles.

(** sin and cos of a finite number are in [-1, 1], cos of a zero is one, and pi is a double between 3 and 4. *)
Definition usual_trig (NT : NumT f64) : Prop :=
  (forall x, finite x -> between64 (-1) 1 (nsin x) /\ between64 (-1) 1 (ncos x)) /\
  (forall x, finite x -> value x = 0%R -> value (ncos x) = 1%R) /\ between64 3 4 npi.
(** [f] is finite on inputs up to 2^e in size, where [P] holds of the input and the value. *)
Definition on_box (k : nat) (e : Z) (f : list f64 -> res f64) (P : list f64 -> f64 -> Prop) : Prop :=
  forall x, length x = k -> Forall (bounded64 e) x -> exists y, f x = Ok y /\ finite y /\ P x y.
