(** Stein variational gradient descent (Liu & Wang 2016) over the reals. *)
From Coq Require Import List Reals.
From Verif.Spec Require Import Tensor.
Import ListNotations.
Local Open Scope R_scope.

Fixpoint Rsum (l : list R) : R := match l with [] => 0 | x :: l' => x + Rsum l' end.

(** RBF kernel with bandwidth h. *)
Definition rbf (h : R) (x y : list R) : R := exp (- (sqdist x y) / (2 * h ^ 2)).

(** All n^2 squared distances. *)
Definition sqdists (X : list (list R)) : list R := flat_map (fun x => map (sqdist x) X) X.

(** The median heuristic: h^2 = med / (2 log(n+1)). *)
Definition bandwidth (X : list (list R)) (h : R) : Prop :=
  exists med, is_median (sqdists X) med /\ h = sqrt (med / (2 * ln (INR (length X) + 1))).

(** Component k of the gradient of y |-> rbf h y x at y. *)
Definition rbf_grad (h : R) (y x : list R) (k : nat) : R := rbf h y x * (nth k x 0 - nth k y 0) / h ^ 2.

(** The published direction for a particle at x: mean over the particles y of
    k(y,x) grad log p(y) + grad_y k(y,x).  [YS] are the particles with the gradients of
    log p; the update is x + eps * direction. *)
Definition stein_direction (h : R) (YS : list (list R * list R)) (x : list R) (k : nat) : R :=
  Rsum (map (fun '(y, s) => rbf h y x * nth k s 0 + rbf_grad h y x k) YS) / INR (length YS).

(** The same with the sign of the kernel gradient reversed. *)
Definition flipped_direction (h : R) (YS : list (list R * list R)) (x : list R) (k : nat) : R :=
  Rsum (map (fun '(y, s) => rbf h y x * nth k s 0 - rbf_grad h y x k) YS) / INR (length YS).

(** Entry (i,k) of a matrix given by rows. *)
Definition entry (A : list (list R)) (i k : nat) : R := nth k (nth i A []) 0.

(** Rows of A in the order sigma. *)
Definition pick {T} (sigma : list nat) (A : list (list T)) : list (list T) := map (fun i => nth i A []) sigma.

Fixpoint replace_nth (k : nat) (v : R) (l : list R) : list R :=
  match l, k with
  | [], _ => []
  | _ :: l', 0%nat => v :: l'
  | a :: l', S k' => a :: replace_nth k' v l'
  end.
