(** Python basics used by all models: exceptions as values, a small universe of
    Python values for [isinstance] checks, slices. *)
From Coq Require Import List Arith Lia ZArith String Bool.
Import ListNotations.

(** Exceptions that the modelled code can raise (or let pass through). *)
Inductive exn : Type :=
| AssertionError
| ValueError
| TypeError
| StopIteration
| NotImplementedError
| IndexError
| KeyError
| AttributeError
| UnboundLocalError
| OtherError (n : nat).        (* any exception raised by user code / TensorFlow *)

(** Outcome of a call. *)
Inductive res (A : Type) : Type :=
| Ok (a : A)
| Raise (e : exn).
Arguments Ok {A} a.
Arguments Raise {A} e.

Definition bind {A B} (m : res A) (f : A -> res B) : res B :=
  match m with Ok a => f a | Raise e => Raise e end.

Notation "'do' x <- m ; k" := (bind m (fun x => k))
  (at level 200, x pattern, m at level 100, k at level 200, right associativity).

(** [assert cond] *)
Definition assert_ (b : bool) : res unit :=
  if b then Ok tt else Raise AssertionError.

Definition is_ok {A} (m : res A) : bool :=
  match m with Ok _ => true | Raise _ => false end.

(** The Python values that can be passed where the code checks types.  [PBool]
    is a subclass of [int] in Python; numpy integer scalars ([PNpInt]) are not. *)
Inductive pyval : Type :=
| PNone
| PBool (b : bool)
| PInt (z : Z)
| PNpInt (z : Z)
| PFloat (num : Z) (den : positive)
| PStr (s : string)
| PObj (tag : nat).           (* any other object *)

(** [isinstance(v, int)], returning the integer. *)
Definition as_int (v : pyval) : option Z :=
  match v with
  | PInt z => Some z
  | PBool true => Some 1%Z
  | PBool false => Some 0%Z
  | _ => None
  end.

Definition is_int (v : pyval) : bool :=
  match as_int v with Some _ => true | None => false end.

Definition is_none (v : pyval) : bool :=
  match v with PNone => true | _ => false end.

(** [l[start:start+len]] for a list / first axis of an array, [start >= 0]. *)
Definition window {A} (start len : nat) (l : list A) : list A :=
  firstn len (skipn start l).

(** Extended slice [l[start::step]], [start >= 0], [step >= 1]: fuel is the list
    itself. *)
Fixpoint every_from {A} (skip period : nat) (l : list A) : list A :=
  match l with
  | [] => []
  | a :: l' =>
      match skip with
      | 0 => a :: every_from (period - 1) period l'
      | S s => every_from s period l'
      end
  end.
