(** How often minibatches contain a datapoint (C78). *)
From Coq Require Import List Arith Reals.
From Verif.Model Require Import DataBatches.
Import ListNotations.
Local Open Scope R_scope.

Definition total {A} (f : A -> R) (l : list A) : R := fold_right (fun a s => f a + s) 0 l.

(** The first [k] answers of a generator to the question "an index below [m]". *)
Fixpoint draws (R : rng_ops) (k : nat) (st : rng_state R) (m : nat) : list nat :=
  match k with
  | O => []
  | S k' => let '(s, st') := rng_randint R st m in s :: draws R k' st' m
  end.

(** The datapoints a batch holds. *)
Definition datapoints {X L} (h : heap X L) (b : batch) : list (X * L) := combine (batch_x h b) (batch_y h b).

(** Number of windows of length [b] in a row of [n] places that cover place [r]. *)
Definition coverage (n b r : nat) : nat := Nat.min (Nat.min (r + 1) (n - r)) (Nat.min b (n - b + 1)).
