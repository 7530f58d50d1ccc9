(** Weighted averages of an initial value and observed values (C92). *)
From Coq Require Import List Reals.
Import ListNotations.
Local Open Scope R_scope.

Fixpoint total (ws : list R) : R := match ws with [] => 0 | w :: ws => w + total ws end.
Fixpoint weighted (ws xs : list R) : R :=
  match ws, xs with w :: ws, x :: xs => w * x + weighted ws xs | _, _ => 0 end.

(** [a] is the average of [init] and [xs] with weight [w0] for the former and [ws] for
    the latter. *)
Definition average_of (w0 : R) (ws : list R) (init : R) (xs : list R) (a : R) : Prop :=
  length ws = length xs /\ w0 + total ws = 1 /\ a = w0 * init + weighted ws xs.

(** f 1 + ... + f n, and the average of the first [n] samples (C94). *)
Fixpoint sum_to (n : nat) (f : nat -> R) : R := match n with O => 0 | S n' => sum_to n' f + f n end.
Definition sample_mean (n : nat) (f : nat -> R) : R := sum_to n f / INR n.
