(** Moments of a damped, noisy oscillator (C77): position x and velocity v with
    v' = (1 - d) v - k x + noise of variance q, x' = x + v'. *)
From Coq Require Import Reals.
Local Open Scope R_scope.

(** Means of position (relative to the minimum) and velocity after one step. *)
Definition mean_step (d k : R) (ab : R * R) : R * R :=
  let '(a, b) := ab in
  let b' := (1 - d) * b - k * a in (a + b', b').

(** Variance of the position, covariance, variance of the velocity after one step, when the
    noise has variance [q] and is uncorrelated with position and velocity. *)
Record cov := Cov { c_xx : R; c_xv : R; c_vv : R }.
Definition cov_step (d k q : R) (s : cov) : cov :=
  let vv := (1 - d) ^ 2 * c_vv s + k ^ 2 * c_xx s - 2 * (1 - d) * k * c_xv s + q in
  let xv' := (1 - d) * c_xv s - k * c_xx s in      (* old position, new velocity *)
  {| c_xx := c_xx s + 2 * xv' + vv; c_xv := xv' + vv; c_vv := vv |}.

Fixpoint iterate {A} (f : A -> A) (n : nat) (a : A) : A :=
  match n with O => a | S n' => f (iterate f n' a) end.

(** Convergence of a sequence of reals. *)
Definition tends (u : nat -> R) (l : R) : Prop :=
  forall delta, 0 < delta -> exists N, forall n, (N <= n)%nat -> Rabs (u n - l) < delta.

(** Stability region. *)
Definition stable (d k : R) : Prop := 0 < d < 2 /\ 0 < k < 2 * (2 - d).

(** The stationary covariance. *)
Definition stationary (d k q : R) : cov :=
  let vv := q / (d * (2 - d - k / 2)) in
  {| c_xx := vv * (2 - d) / (2 * k); c_xv := vv / 2; c_vv := vv |}.
