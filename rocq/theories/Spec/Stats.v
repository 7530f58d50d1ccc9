(** Elementary statistics of data columns over the reals. *)
From Coq Require Import List Reals.
From Verif.Spec Require Import Svgd.
Import ListNotations.
Local Open Scope R_scope.

Definition mean (l : list R) : R := Rsum l / INR (length l).
(** Population variance. *)
Definition variance (l : list R) : R := mean (map (fun x => (x - mean l) ^ 2) l).
Definition column (X : list (list R)) (j : nat) : list R := map (fun r => nth j r 0) X.
(** n x d matrix with at least one row. *)
Definition matrix (d : nat) (X : list (list R)) : Prop := X <> [] /\ Forall (fun r => length r = d) X.
(** Not constant. *)
Definition varied (l : list R) : Prop := exists a b, In a l /\ In b l /\ a <> b.
(** Extremes. *)
Definition is_min (l : list R) (m : R) : Prop := In m l /\ forall x, In x l -> m <= x.
Definition is_max (l : list R) (m : R) : Prop := In m l /\ forall x, In x l -> x <= m.
