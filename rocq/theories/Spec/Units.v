(** Changing the units in which data are measured (C79). *)
From Coq Require Import List Reals.
From Verif.Base Require Import Py.
From Verif.Model Require Import BNN.
Import ListNotations.
Local Open Scope R_scope.

(** Labels in other units: [v] becomes [a v + s]. *)
Definition relabel (a s : R) (y : list R) : list R := map (fun v => a * v + s) y.
(** One scale and one shift for each feature. *)
Fixpoint remeasure (u : list (R * R)) (x : list R) : list R :=
  match u, x with
  | (a, s) :: u', v :: x' => (a * v + s) :: remeasure u' x'
  | _, _ => []
  end.
Definition positive (u : list (R * R)) : Prop := Forall (fun p => 0 < fst p) u.

(** A prediction in other units: means change like labels, variances with the square of the scale. *)
Definition reexpress (a s : R) (p : prediction R) : prediction R :=
  match p with
  | Aggregate m v => Aggregate (relabel a s m) (map (fun x => a ^ 2 * x) v)
  | AggregateScalar m v => AggregateScalar (a * m + s) (a ^ 2 * v)
  | Individual f n => Individual (map (relabel a s) f) (map (map (fun x => a ^ 2 * x)) n)
  end.
Definition on_result {A B} (f : A -> B) (r : res A) : res B :=
  match r with Ok a => Ok (f a) | Raise e => Raise e end.
