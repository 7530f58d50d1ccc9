(** List lemmas used across proofs. *)
From Coq Require Import List Arith Lia Permutation Bool.
From Verif.Base Require Import Py.
Import ListNotations.

Lemma window_length : forall A s n (l : list A),
  s + n <= length l -> length (window s n l) = n.
Proof.
  intros. unfold window. rewrite firstn_length, skipn_length. lia.
Qed.

Lemma window_split : forall A s n (l : list A),
  l = firstn s l ++ window s n l ++ skipn n (skipn s l).
Proof.
  intros. unfold window. rewrite firstn_skipn. now rewrite firstn_skipn.
Qed.

Lemma window_all : forall A (l : list A) n, n = length l -> window 0 n l = l.
Proof. intros; subst. unfold window. simpl. apply firstn_all. Qed.

Lemma skipn_combine : forall A B n (l : list A) (m : list B),
  skipn n (combine l m) = combine (skipn n l) (skipn n m).
Proof.
  induction n; intros; simpl; auto.
  destruct l; simpl; auto.
  destruct m; simpl; auto.
  now rewrite combine_nil.
Qed.

Lemma firstn_combine : forall A B n (l : list A) (m : list B),
  firstn n (combine l m) = combine (firstn n l) (firstn n m).
Proof.
  induction n; intros; simpl; auto.
  destruct l; simpl; auto. destruct m; simpl; auto. now rewrite IHn.
Qed.

Lemma window_combine : forall A B s n (l : list A) (m : list B),
  window s n (combine l m) = combine (window s n l) (window s n m).
Proof.
  intros. unfold window. now rewrite skipn_combine, firstn_combine.
Qed.

Lemma nth_error_window : forall A s n (l : list A) i,
  i < n -> nth_error (window s n l) i = nth_error l (s + i).
Proof.
  intros. unfold window.
  revert l s i H. induction n; intros; [lia|].
  destruct (skipn s l) eqn:E; simpl.
  - destruct i; simpl.
    + rewrite Nat.add_0_r. symmetry. apply nth_error_None.
      assert (length (skipn s l) = 0) by now rewrite E.
      rewrite skipn_length in H0. lia.
    + symmetry. apply nth_error_None.
      assert (length (skipn s l) = 0) by now rewrite E.
      rewrite skipn_length in H0. lia.
  - assert (Hl : l = firstn s l ++ a :: l0) by (rewrite <- E; now rewrite firstn_skipn).
    assert (s < length l).
    { assert (length (skipn s l) = S (length l0)) by now rewrite E.
      rewrite skipn_length in H0. lia. }
    destruct i; simpl.
    + rewrite Nat.add_0_r. rewrite Hl at 1.
      rewrite nth_error_app2 by (rewrite firstn_length; lia).
      rewrite firstn_length, Nat.min_l by lia.
      now rewrite Nat.sub_diag.
    + replace (s + S i) with (S s + i) by lia.
      assert (H1 : skipn 1 (skipn s l) = skipn (S s) l).
      { clear. revert l. induction s; intros; [now destruct l|].
        destruct l; [reflexivity|]. exact (IHs l). }
      rewrite E in H1. cbn [skipn] in H1.
      rewrite <- (IHn l (S s) i) by lia. cbn [skipn]. now rewrite <- H1.
Qed.

Lemma nth_error_firstn : forall A n (l : list A) i,
  i < n -> nth_error (firstn n l) i = nth_error l i.
Proof.
  intros. change (firstn n l) with (window 0 n l). now rewrite nth_error_window.
Qed.
