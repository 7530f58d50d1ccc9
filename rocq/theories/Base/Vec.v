(** Elementwise operations on flat vectors (lists). *)
From Coq Require Import List Arith Lia.
Import ListNotations.

Definition vmap2 {A B C} (f : A -> B -> C) (a : list A) (b : list B) : list C :=
  map (fun '(x, y) => f x y) (combine a b).

Lemma vmap2_length : forall A B C (f : A -> B -> C) a b n,
  length a = n -> length b = n -> length (vmap2 f a b) = n.
Proof. intros. unfold vmap2. rewrite map_length, combine_length. lia. Qed.

Lemma nth_error_vmap2 : forall A B C (f : A -> B -> C) a b k,
  nth_error (vmap2 f a b) k =
  match nth_error a k, nth_error b k with Some x, Some y => Some (f x y) | _, _ => None end.
Proof.
  unfold vmap2. induction a as [|x a IH]; intros b k; cbn.
  - now destruct k.
  - destruct b as [|y b]; cbn.
    + destruct k; cbn; auto. now destruct (nth_error a k).
    + destruct k; cbn; auto.
Qed.

Lemma nth_error_ext : forall A (l m : list A), (forall k, nth_error l k = nth_error m k) -> l = m.
Proof.
  induction l as [|x l IH]; intros m H; destruct m as [|y m]; auto; try (specialize (H 0); discriminate).
  pose proof (H 0) as H0. injection H0 as ->. f_equal. apply IH. intros k. apply (H (S k)).
Qed.

Lemma nth_error_lt : forall A (l : list A) k, k < length l -> exists x, nth_error l k = Some x.
Proof.
  intros. destruct (nth_error l k) eqn:E; eauto. apply nth_error_None in E. lia.
Qed.

Lemma nth_error_repeat : forall A (x : A) n k, k < n -> nth_error (repeat x n) k = Some x.
Proof. induction n; intros k Hk; [lia|]. destruct k; cbn; auto. apply IHn; lia. Qed.
