(** What C112 says about the training cost of a network in double precision. *)
From Coq Require Import List ZArith Reals.
From Flocq Require Import Core.Core.
From Flocq Require IEEE754.BinarySingleNaN.
From Verif.Base Require Import Py Num Float64.
From Verif.Model Require Import TensorUtils.
From Verif.Spec Require Import Doubles.
Import ListNotations.

(** exp of a finite number is a double that is not negative, or +inf; the logarithms of the two prior
    constants 1e-6 and 0.01 are at most 32 in size. *)
Definition usual_exp_ln (NT : NumT f64) : Prop :=
  (forall x, finite x -> (finite (nexp x) /\ (0 <= value (nexp x))%R) \/ nexp x = BinarySingleNaN.B754_infinity false) /\
  bounded64 5 (nln (nfrac 1 1000000)) /\ bounded64 5 (nln (nfrac 1 100)).
(** Labels, predicted means and log variances up to 2^200 in size, at most 2^20 of them. *)
Definition moderate_rows (rows : list (f64 * (f64 * f64))) : Prop :=
  (0 < length rows)%nat /\ (Z.of_nat (length rows) <= 2 ^ 20)%Z /\
  Forall (fun r => bounded64 200 (fst r) /\ bounded64 200 (fst (snd r)) /\ bounded64 200 (snd (snd r))) rows.
(** One to four hundred variables with 1 to 2^20 entries up to 2^200 in size. *)
Definition moderate_variables (params : list (tensor f64)) : Prop :=
  (0 < length params <= 400)%nat /\
  Forall (fun p => length (data p) = prod (shape p) /\ (0 < length (data p))%nat /\ (Z.of_nat (length (data p)) <= 2 ^ 20)%Z /\ Forall (bounded64 200) (data p)) params.
(** The same log variances, and every prediction at least as close to its label as in the other batch. *)
Definition fits_better (rows rows' : list (f64 * (f64 * f64))) : Prop :=
  Forall2 (fun r r' => snd (snd r) = snd (snd r') /\
    (Rabs (value (fst r) - value (fst (snd r))) <= Rabs (value (fst r') - value (fst (snd r'))))%R) rows rows'.
