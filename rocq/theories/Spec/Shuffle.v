(** Orders of a batch and averages over a generator's answers (C83-C85). *)
From Coq Require Import List Arith Lia ZArith Reals Permutation.
From Verif.Model Require Import DataBatches.
From Verif.Spec Require Import Coverage.
Import ListNotations.

(** The answers of a generator to the questions of one shuffle of a view with [i + 1] places:
    an index up to [i], then up to [i - 1], ..., up to 1. *)
Fixpoint interval_answers (R : rng_ops) (i : nat) (st : rng_state R) : list nat * rng_state R :=
  match i with
  | 0 => ([], st)
  | S i' =>
      let '(j, st1) := rng_interval R st i in
      let '(js, st2) := interval_answers R i' st1 in (j :: js, st2)
  end.
(** All the possible ones. *)
Fixpoint orders (i : nat) : list (list nat) :=
  match i with
  | 0 => [[]]
  | S i' => flat_map (fun j => map (cons j) (orders i')) (seq 0 (S i))
  end.

(** The answers to the questions of [k] shuffles. *)
Fixpoint shuffle_answers (R : rng_ops) (k i : nat) (st : rng_state R) : list (list nat) :=
  match k with
  | 0 => []
  | S k' => let '(c, st') := interval_answers R i st in c :: shuffle_answers R k' i st'
  end.

(** All sequences of [k] elements of [l]. *)
Fixpoint sequences {A} (k : nat) (l : list A) : list (list A) :=
  match k with
  | 0 => [[]]
  | S k' => flat_map (fun a => map (cons a) (sequences k' l)) l
  end.

Local Open Scope R_scope.
Definition average {A} (f : A -> R) (l : list A) : R := total f l / INR (length l).

(** [k] batches of size [b] out of [n] datapoints: generator states that, taken together, give every
    possible sequence of start positions with every possible sequence of shuffle answers equally
    often - independent uniform draws. *)
Definition answers_of (R : rng_ops) (k b n : nat) (st : rng_state R) : list nat * list (list nat) :=
  (draws R k st (n - b + 1), shuffle_answers R k (b - 1) st).
Definition all_answers (k b n : nat) : list (list nat * list (list nat)) :=
  list_prod (sequences k (seq 0 (n - b + 1))) (sequences k (orders (b - 1))).
Definition equidistributed (R : rng_ops) (k b n : nat) (sts : list (rng_state R)) : Prop :=
  exists c, (0 < c)%nat /\
    Permutation (map (answers_of R k b n) sts) (concat (repeat (all_answers k b n) c)).

(** The speed of mixing. *)
Definition mixing_rate (b n : nat) : R := 1 - (/ (INR (n - b + 1) * INR b)) ^ (n - 1).

(** A generator that answers from two prepared lists, one for each kind of question. *)
Definition pop (l : list nat) (m : nat) : nat := match l with [] => 0 | a :: _ => a mod m end%nat.
Lemma pop_lt : forall l m, (0 < m)%nat -> (pop l m < m)%nat.
Proof. intros [|a l] m H; cbn [pop]; [exact H|]. apply Nat.mod_upper_bound. lia. Qed.
Lemma pop_randint : forall (s : list nat * list nat) n, (0 < n)%nat -> (fst (pop (fst s) n, (tl (fst s), snd s)) < n)%nat.
Proof. intros s n H. apply pop_lt, H. Qed.
Lemma pop_interval : forall (s : list nat * list nat) i, (fst (pop (snd s) (S i), (fst s, tl (snd s))) <= i)%nat.
Proof. intros s i. cbn [fst]. pose proof (pop_lt (snd s) (S i)). lia. Qed.
Definition scripted : rng_ops :=
  {| rng_state := list nat * list nat; rng_seed := fun z => ([Z.to_nat z], [Z.to_nat z]);
     rng_randint := fun s n => (pop (fst s) n, (tl (fst s), snd s));
     rng_interval := fun s i => (pop (snd s) (S i), (fst s, tl (snd s)));
     rng_randint_lt := pop_randint; rng_interval_le := pop_interval |}.

(** numpy's legacy generator draws integers below a power of two by masking one 32-bit word, in
    [randint] as in the [random_interval] of [shuffle]: both answers are the low bits of the same
    word when asked in the same state. *)
Definition masked (R : rng_ops) : Prop :=
  exists (word : rng_state R -> nat) (nxt : rng_state R -> rng_state R),
  forall s p, (1 <= p <= 32)%nat ->
    rng_randint R s (2 ^ p)%nat = (word s mod 2 ^ p, nxt s)%nat /\
    rng_interval R s (2 ^ p - 1)%nat = (word s mod 2 ^ p, nxt s)%nat.
