(** Posterior densities of neural networks. *)
From Coq Require Import Reals List.
Import ListNotations.
Local Open Scope R_scope.

(** Density at distance [x] from the mean of a normal distribution with variance [v]. *)
Definition normal (v x : R) : R := exp (- (x ^ 2 / (2 * v))) / sqrt (2 * PI * v).

Fixpoint Rprod (l : list R) : R := match l with [] => 1 | x :: l' => x * Rprod l' end.

(** Density of label [y] for a network that predicts mean [m] and log variance [lv]. *)
Definition observed (y m lv : R) : R := normal (exp lv) (y - m).
