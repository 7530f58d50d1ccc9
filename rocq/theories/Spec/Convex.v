(** Strongly convex costs, distances of points, and the points a sampler returns (C97). *)
From Coq Require Import Reals List ZArith.
From Verif.Base Require Import Py.
From Verif.Model Require Import TensorUtils BaseClasses.
From Verif.Spec Require Import Sampler.
Import ListNotations.
Local Open Scope R_scope.

(** Inner product, squared distance, and the latter with entry i divided by [ms] i. *)
Fixpoint inner (xs ys : list R) : R :=
  match xs, ys with x :: xs, y :: ys => x * y + inner xs ys | _, _ => 0 end.
Fixpoint dist2 (xs ys : list R) : R :=
  match xs, ys with x :: xs, y :: ys => (x - y) ^ 2 + dist2 xs ys | _, _ => 0 end.
Fixpoint scaled_dist2 (ms xs ys : list R) : R :=
  match ms, xs, ys with m :: ms, x :: xs, y :: ys => (x - y) ^ 2 / m + scaled_dist2 ms xs ys | _, _, _ => 0 end.
Fixpoint sum_squares (xs : list R) : R := match xs with [] => 0 | x :: xs => x ^ 2 + sum_squares xs end.
Fixpoint minus (xs ys : list R) : list R :=
  match xs, ys with x :: xs, y :: ys => x - y :: minus xs ys | _, _ => [] end.

(** A function [U] on points of [n] entries lies above its tangents [G] by mu/2 times the squared
    distance; its gradient is Lipschitz. *)
Definition strongly_convex (n : nat) (mu : R) (U : list R -> R) (G : list R -> list R) : Prop :=
  forall x y, length x = n -> length y = n -> U x + inner (G x) (minus y x) + mu / 2 * dist2 x y <= U y.
Definition lipschitz (n : nat) (L : R) (G : list R -> list R) : Prop :=
  forall x y, length x = n -> length y = n -> dist2 (G x) (G y) <= L ^ 2 * dist2 x y.

(** All entries of some parameters; of a sample. *)
Definition flat (vs : list (tensor R)) : list R := concat (map data vs).
Definition point_of (s : sample (tensor R)) : list R :=
  match s with SBare v => data v | SList vs => flat vs end.

(** A cost function on parameters with [sizes] entries whose value and gradients are [U] and [G],
    whatever is fed. *)
Definition computes (sizes : list nat) (target : list (tensor R) -> (nat -> option (tensor R)) -> res (R * list (list R)))
    (U : list R -> R) (G : list R -> list R) : Prop :=
  forall vs user, map (fun v => length (data v)) vs = sizes ->
  exists gss, target vs user = Ok (U (flat vs), gss) /\ map (@length R) gss = sizes /\ concat gss = G (flat vs).

(** The points returned by successful calls, in order. *)
Definition points (E : env (tensor R)) (cs : list (call_record E)) : list (list R) :=
  flat_map (fun c => match cr_res E c with Ok (s, _) => [point_of s] | Raise _ => [] end) cs.

(** The normals of call [k] (from 0) for parameters with these keys and sizes. *)
Definition normals (variate : Z * Z -> nat -> R) (reserve : nat -> nat) (keys : list (Z * Z)) (sizes : list nat) (k : nat) : list R :=
  concat (map (fun '(key, d) => map (fun i => variate key (k * reserve d + i)%nat) (seq 0 d)) (combine keys sizes)).

(** The energy of a chain with momentum and friction [al] at two successive points, relative to a point [z]: it
    vanishes only at rest in z (C98). *)
Fixpoint restless (al : R) (ms before now z : list R) : R :=
  match ms, before, now, z with
  | m :: ms, p :: before, x :: now, c :: z =>
      (((x - c) + (1 - al) / al * (x - p)) ^ 2 + (x - p) ^ 2 / al ^ 2) / m + restless al ms before now z
  | _, _, _, _ => 0
  end.

(** A cost function fed with minibatches: whenever one of [batches] is fed, its gradient is within [delta] of [G] (C99). *)
Definition estimates (sizes : list nat) (target : list (tensor R) -> (nat -> option (tensor R)) -> res (R * list (list R)))
    (batches : list (nat * tensor R) -> Prop) (G : list R -> list R) (delta : R) : Prop :=
  forall vs user b, map (fun v => length (data v)) vs = sizes -> batches b ->
  (forall n v, assoc b n = Some v -> user n = Some v) ->
  exists cost gss, target vs user = Ok (cost, gss) /\ map (@length R) gss = sizes /\
    dist2 (concat gss) (G (flat vs)) <= delta ^ 2.
(** All batches a sampler was given are of this kind. *)
Definition given_batches (batches : list (nat * tensor R) -> Prop) (E : env (tensor R)) (cs : list (call_record E)) : Prop :=
  Forall (fun c => Forall (fun r => forall b, r = Ok b -> batches b) (batch_results (cr_events E c))) cs.

(** Means of numbers and, entry by entry, of lists with [n] entries. *)
Fixpoint sum_of (l : list R) : R := match l with [] => 0 | x :: l => x + sum_of l end.
Definition mean_of (l : list R) : R := sum_of l / INR (length l).
Definition mean_vector (n : nat) (rows : list (list R)) : list R := map (fun i => mean_of (map (fun r => nth i r 0) rows)) (seq 0 n).
(** The batch of some datapoints (features, label) for two placeholders. *)
Definition batch_of (px py : nat) (w : list (list R * R)) : list (nat * tensor R) :=
  [(px, Tensor [length w; length (hd [] (map fst w))] (concat (map fst w))); (py, Tensor [length w; 1%nat] (map snd w))].
(** A cost function whose gradient is the mean over the datapoints that are fed of a [gradient] per datapoint. *)
Definition averages_batch (sizes : list nat) (target : list (tensor R) -> (nat -> option (tensor R)) -> res (R * list (list R)))
    (px py : nat) (gradient : list R * R -> list R -> list R) : Prop :=
  forall vs user w, map (fun v => length (data v)) vs = sizes -> w <> [] ->
  (forall n v, assoc (batch_of px py w) n = Some v -> user n = Some v) ->
  exists cost gss, target vs user = Ok (cost, gss) /\ map (@length R) gss = sizes /\
    concat gss = mean_vector (list_sum sizes) (map (fun p => gradient p (flat vs)) w).
