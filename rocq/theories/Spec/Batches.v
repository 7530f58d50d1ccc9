(** What the batch properties C01-C07 mean, in elementary terms. *)
From Coq Require Import List Arith ZArith Permutation.
From Verif.Base Require Import Py.
From Verif.Model Require Import DataBatches.
Import ListNotations.

(** A dataset is a list of (features, label) pairs; this is how it is laid out
    in the two arrays passed to the generator functions. *)
Definition arrays_of {X L} (D : list (X * L)) : heap X L :=
  {| hx := map fst D; hy := map snd D; hyrows := length D; hywidth := 1 |}.

(** Python integers: [bool] is a subclass of [int]. *)
Definition int_value (v : pyval) (z : Z) : Prop :=
  v = PInt z \/ (v = PBool true /\ z = 1%Z) \/ (v = PBool false /\ z = 0%Z).

Definition valid_batch_size (v : pyval) (n : nat) : Prop :=
  exists z, int_value v z /\ (z > 0)%Z /\ n = Z.to_nat z.

Definition valid_seed (v : pyval) : Prop :=
  v = PNone \/ exists z, int_value v z /\ (0 <= z <= 4294967295)%Z.

Definition valid_args {X L} (a : gen_args) (h : heap X L) : Prop :=
  (exists n, valid_batch_size (ga_batch_size a) n) /\
  valid_seed (ga_seed a) /\
  hyrows h = length (hx h).

(** The batch [b], read from the arrays [h], consists of [n] consecutive
    datapoints of the dataset [D], features and labels in the same order. *)
Definition aligned_window {X L} (D : list (X * L)) (n : nat) (h : heap X L) (b : batch) : Prop :=
  exists pre w post,
    D = pre ++ w ++ post /\ length w = n /\
    batch_x h b = map fst w /\ batch_y h b = map snd w.

(** ** Interleavings of two generators with other code using numpy's global RNG *)
Section Interleave.
Context {X L : Type} {R : rng_ops} {G : global_ops}.

Inductive action := NextA | NextB | Other (f : glob_state G -> glob_state G).

Fixpoint interleave (acts : list action) (A B : gen_state R) (g : glob_state G) (h : heap X L)
  : list (res batch) * list (res batch) :=
  match acts with
  | [] => ([], [])
  | NextA :: acts' =>
      let '(r, A', g') := gb_next R G A g h in
      let '(ra, rb) := interleave acts' A' B g' h in (r :: ra, rb)
  | NextB :: acts' =>
      let '(r, B', g') := gb_next R G B g h in
      let '(ra, rb) := interleave acts' A B' g' h in (ra, r :: rb)
  | Other f :: acts' => interleave acts' A B (f g) h
  end.
End Interleave.
