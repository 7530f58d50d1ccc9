(** What the tensor utility properties C35-C40 mean. *)
From Coq Require Import List Arith Reals Bool Sorting.
Import ListNotations.

(** *** Nested arrays, as written in Python: rank-k array = list of rank-(k-1)
    arrays. *)
Fixpoint nd (T : Type) (k : nat) : Type :=
  match k with 0 => T | S k' => list (nd T k') end.

(** Rectangular with the given shape. *)
Fixpoint has_shape {T} (k : nat) (s : list nat) : nd T k -> Prop :=
  match k, s with
  | 0, [] => fun _ => True
  | S k', n :: s' => fun a => length a = n /\ Forall (has_shape k' s') a
  | _, _ => fun _ => False
  end.

(** [a[i1][i2]...[ik]] *)
Fixpoint index {T} (k : nat) : nd T k -> list nat -> option T :=
  match k with
  | 0 => fun a idx => match idx with [] => Some a | _ => None end
  | S k' => fun a idx =>
      match idx with
      | i :: idx' => match nth_error a i with Some b => index k' b idx' | None => None end
      | [] => None
      end
  end.

(** All entries in the order in which they are written. *)
Fixpoint written {T} (k : nat) : nd T k -> list T :=
  match k with
  | 0 => fun a => [a]
  | S k' => fun a => flat_map (written k') a
  end.

(** Row-major position of a multi-index. *)
Fixpoint offset (s idx : list nat) : nat :=
  match s, idx with
  | _ :: s', i :: idx' => i * fold_right Nat.mul 1 s' + offset s' idx'
  | _, _ => 0
  end.
Definition in_bounds (s idx : list nat) : Prop := Forall2 lt idx s.

(** *** Medians *)
(** [v] is the median of [l]: the middle of the sorted values, or the mean of
    the two middle ones. *)
Definition is_median (l : list R) (v : R) : Prop :=
  exists s, Permutation.Permutation s l /\ StronglySorted Rle s /\
    (Nat.odd (length l) = true -> nth_error s (length l / 2) = Some v) /\
    (Nat.odd (length l) = false ->
       exists a b, nth_error s (length l / 2 - 1) = Some a /\ nth_error s (length l / 2) = Some b /\
                   v = ((a + b) / 2)%R).

Definition count (P : R -> Prop) (dec : forall x, {P x} + {~ P x}) (l : list R) : nat :=
  length (filter (fun x => if dec x then true else false) l).

(** *** Distances *)
(** Pairs i < j < m in lexicographic order. *)
Definition pairs (m : nat) : list (nat * nat) :=
  filter (fun '(i, j) => i <? j) (list_prod (seq 0 m) (seq 0 m)).

Fixpoint sqdist (a b : list R) : R :=
  match a, b with
  | x :: a', y :: b' => ((x - y) ^ 2 + sqdist a' b')%R
  | _, _ => 0%R
  end.
Definition dist2 (a b : list R) : R := sqrt (sqdist a b).

(** Rows of a matrix given by its nested form. *)
Definition matrix_shape (m d : nat) (a : list (list R)) : Prop :=
  length a = m /\ Forall (fun r => length r = d) a.

(** Square matrix [mat] (flat, dimension n) is the symmetric matrix with zero
    diagonal and upper triangle [v] in the order of [pairs]. *)
Definition symmetric_form {T} (zero : T) (n : nat) (v mat : list T) : Prop :=
  length mat = n * n /\
  (forall i, i < n -> nth_error mat (n * i + i) = Some zero) /\
  (forall p i j, nth_error (pairs n) p = Some (i, j) ->
     nth_error mat (n * i + j) = nth_error v p /\ nth_error mat (n * j + i) = nth_error v p).
