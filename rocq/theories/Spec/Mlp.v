(** The network the documentation describes (C61, C96): three tanh layers and a linear one. *)
From Coq Require Import List Arith Reals.
From Verif.Model Require Import TensorUtils.
From Verif.Spec Require Import Tensor.
Import ListNotations.
Local Open Scope R_scope.

(** Entry of a tensor at a multi-index; 0 outside its shape. *)
Fixpoint inside (s idx : list nat) : bool :=
  match s, idx with
  | [], [] => true
  | n :: s', i :: idx' => (i <? n)%nat && inside s' idx'
  | _, _ => false
  end.
Definition entry (t : tensor R) (idx : list nat) : R :=
  if inside (shape t) idx then nth (offset (shape t) idx) (data t) 0 else 0.

Fixpoint sum_below (n : nat) (f : nat -> R) : R :=
  match n with O => 0 | S n' => sum_below n' f + f n' end.
Definition affine (n_in : nat) (K b : tensor R) (x : nat -> R) (j : nat) : R :=
  sum_below n_in (fun i => x i * entry K [i; j]) + entry b [j].
Definition tanh_layer (n_in : nat) (K b : tensor R) (x : nat -> R) (j : nat) : R := tanh (affine n_in K b x j).

(** Mean predicted for the input [x 0, ..., x (n-1)]. *)
Definition perceptron (n : nat) (K1 b1 K2 b2 K3 b3 K4 b4 : tensor R) (x : nat -> R) : R :=
  affine 50 K4 b4 (tanh_layer 50 K3 b3 (tanh_layer 50 K2 b2 (tanh_layer n K1 b1 x))) 0.
