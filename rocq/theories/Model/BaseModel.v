(** Model of pysgmcmc/models/base_model.py.  Matrices (N, D) are lists of N rows of
    equal length; N >= 1 where column statistics are taken. *)
From Coq Require Import List Arith ZArith Bool.
From Verif.Base Require Import Py Num Vec.
Import ListNotations.
Local Open Scope list_scope.

Section S.
Context {T : Type} `{Num T}.

(** Columns of a matrix: what [axis=0] reduces. *)
Definition width (X : list (list T)) : nat := length (hd [] X).
Definition columns (X : list (list T)) : list (list T) :=
  map (fun j => map (fun r => nth j r n0) X) (seq 0 (width X)).

(** np.mean and np.std (population standard deviation) of a 1-d array; the order
    of summation is not modelled. *)
Definition np_mean (l : list T) : T := ndiv (nsum l) (nint (Z.of_nat (length l))).
Definition np_std (l : list T) : T :=
  let m := np_mean l in nsqrt (np_mean (map (fun x => nmul (nsub x m) (nsub x m)) l)).

(** x is NaN: comparisons with it are false. *)
Definition np_isnan (x : T) : bool := negb (nltb x n1) && negb (nltb n0 x).
(** np.min / np.max propagate NaN. *)
Definition np_min2 (a b : T) : T := if np_isnan a then a else if np_isnan b then b else nmin a b.
Definition np_max2 (a b : T) : T := if np_isnan a then a else if np_isnan b then b else nmax a b.
Definition np_min (l : list T) : T := match l with [] => n0 | x :: l' => fold_left np_min2 l' x end.
Definition np_max (l : list T) : T := match l with [] => n0 | x :: l' => fold_left np_max2 l' x end.

Definition default {A} (o : option A) (d : A) : A := match o with Some a => a | None => d end.

(** zero_one_normalization, base_model.py:109-118, on a matrix.  [lower], [upper]
    if given have one entry per column. *)
Definition zero_one_normalization (X : list (list T)) (lower upper : option (list T))
  : list (list T) * list T * list T :=
  let lo := default lower (map np_min (columns X)) in
  let up := default upper (map np_max (columns X)) in
  (map (fun r => vmap2 ndiv (vmap2 nsub r lo) (vmap2 nsub up lo)) X, lo, up).

(** zero_one_unnormalization, base_model.py:121-122 *)
Definition zero_one_unnormalization (X : list (list T)) (lo up : list T) : list (list T) :=
  map (fun r => vmap2 nadd lo (vmap2 nmul (vmap2 nsub up lo) r)) X.

(** zero_mean_unit_var_normalization, base_model.py:125-133, on a matrix and on a
    1-d array. *)
Definition zmuv_normalization (X : list (list T)) (mean std : option (list T))
  : list (list T) * list T * list T :=
  let m := default mean (map np_mean (columns X)) in
  let s := default std (map np_std (columns X)) in
  (map (fun r => vmap2 ndiv (vmap2 nsub r m) s) X, m, s).
(** zero_mean_unit_var_normalization of a matrix with given statistics: numpy broadcasts [X - mean] and
    [.. / std] (132) if the widths are equal or one of them is 1.
    Simplification: the width of a matrix without rows is not represented. *)
Definition zmuv_given (X : list (list T)) (m s : list T) : res (list (list T)) :=
  let d := length m in
  if forallb (fun r => length r =? d) X then Ok (fst (fst (zmuv_normalization X (Some m) (Some s))))
  else if forallb (fun r => length r =? 1) X then
    Ok (fst (fst (zmuv_normalization (map (fun r => repeat (hd n0 r) d) X) (Some m) (Some s))))
  else if d =? 1 then
    Ok (fst (fst (zmuv_normalization X (Some (repeat (hd n0 m) (width X))) (Some (repeat (hd n0 s) (width X))))))
  else Raise ValueError.
Definition zmuv_normalization1 (y : list T) (mean std : option T) : list T * T * T :=
  let m := default mean (np_mean y) in
  let s := default std (np_std y) in
  (map (fun v => ndiv (nsub v m) s) y, m, s).

(** zero_mean_unit_var_unnormalization, base_model.py:136-137; matrix with vectors,
    1-d array with scalars. *)
Definition zmuv_unnormalization (X : list (list T)) (m s : list T) : list (list T) :=
  map (fun r => vmap2 nadd (vmap2 nmul r s) m) X.
Definition zmuv_unnormalization1 (y : list T) (m s : T) : list T :=
  map (fun v => nadd (nmul v s) m) y.

(** np.argmin: first NaN if there is one, otherwise the first minimum;
    ValueError on an empty array. *)
Fixpoint argmin_from (i : nat) (best : nat) (bv : T) (l : list T) : nat :=
  match l with
  | [] => best
  | x :: l' =>
      if negb (np_isnan bv) && (np_isnan x || nltb x bv) then argmin_from (S i) i x l'
      else argmin_from (S i) best bv l'
  end.
Definition np_argmin (l : list T) : res nat :=
  match l with [] => Raise ValueError | x :: l' => Ok (argmin_from 1 0 x l') end.

(** get_incumbent, base_model.py:94-106, on self.X, self.y; [None] before
    training (np.argmin(None) is 0, then None[0] is a TypeError). *)
Definition get_incumbent (X : option (list (list T))) (y : option (list T)) : res (list T * T) :=
  match y with
  | None => Raise TypeError
  | Some y =>
      do i <- np_argmin y;
      match X with
      | None => Raise TypeError
      | Some X =>
          match nth_error X i, nth_error y i with
          | Some x, Some v => Ok (x, v)
          | _, _ => Raise IndexError
          end
      end
  end.

(** A model object: its data and whatever else train changes. *)
Record model (St : Type) := Model { m_X : option (list (list T)); m_y : option (list T); m_rest : St }.
Arguments Model {St}. Arguments m_X {St}. Arguments m_y {St}. Arguments m_rest {St}.

(** update, base_model.py:30-45, over the subclass's train.  np.append(None, X, axis=0) is a
    ValueError (zero-dimensional), so is a row of another length. *)
Definition update {St} (train : list (list T) -> list T -> model St -> res unit * model St)
    (X : list (list T)) (y : list T) (self : model St) : res unit * model St :=
  match m_X self with
  | None => (Raise ValueError, self)                                      (* 43 *)
  | Some X0 =>
      if negb (forallb (fun r => Nat.eqb (length r) (width X0)) X) then (Raise ValueError, self) else
      match m_y self with
      | None => (Raise ValueError, self)                                  (* 44 *)
      | Some y0 => train (X0 ++ X) (y0 ++ y) self                         (* 45 *)
      end
  end.
End S.
Arguments model : clear implicits. Arguments Model {T St}. Arguments m_X {T St}. Arguments m_y {T St}. Arguments m_rest {T St}.

(** The decorators _check_shapes_train (66-72) and _check_shapes_predict (74-79): [shape] lists. *)
Definition check_shapes_train {A} (xs ys : list nat) (f : res A) : res A :=
  match xs, ys with
  | nx :: _, ny :: _ =>
      do _ <- assert_ (Nat.eqb nx ny);
      do _ <- assert_ (Nat.eqb (length xs) 2);
      do _ <- assert_ (Nat.eqb (length ys) 1);
      f
  | _, _ => Raise IndexError                       (* shape[0] of a 0-d array *)
  end.
Definition check_shapes_predict {A} (xs : list nat) (f : res A) : res A :=
  do _ <- assert_ (Nat.eqb (length xs) 2); f.
