(** Model of pysgmcmc/data_batches.py. *)
From Coq Require Import List Arith Lia ZArith Bool.
From Verif.Base Require Import Py.
Import ListNotations.

(** ** Random number generators

    [np.random.RandomState] as an oracle: any state space with any
    transition functions whose results respect the documented range.
    - [rng_seed]     : [rng = RandomState(); rng.seed(seed)]
    - [rng_randint]  : [rng.randint(0, n)], end-exclusive, for n >= 1
    - [rng_interval] : numpy's [random_interval(i)], end-inclusive, used by
      [RandomState.shuffle]. *)
Record rng_ops := RngOps {
  rng_state : Type;
  rng_seed : Z -> rng_state;
  rng_randint : rng_state -> nat -> nat * rng_state;
  rng_interval : rng_state -> nat -> nat * rng_state;
  rng_randint_lt : forall s n, 0 < n -> fst (rng_randint s n) < n;
  rng_interval_le : forall s i, fst (rng_interval s i) <= i
}.

(** numpy's global generator, used once by [np.random.randint(1, 100000)]
    (data_batches.py:102 and 196). *)
Record global_ops := GlobalOps {
  glob_state : Type;
  glob_draw : glob_state -> Z * glob_state;
  glob_draw_range : forall g, (1 <= fst (glob_draw g) < 100000)%Z
}.

(** ** Arrays

    The caller's arrays.  [hx] are the rows of [x] (rows are never looked
    into).  [hy] are the labels of [y] in row-major order; [hyrows] is
    [y.shape[0]] and [hywidth] the number of labels per row (1 for shapes (N,)
    and (N,1), k for (N,k)).
    Simplification: [x] and [y] are separate C-contiguous buffers, so that slicing and
    [reshape] return views. *)
Record heap (X L : Type) := Heap {
  hx : list X;
  hy : list L;
  hyrows : nat;
  hywidth : nat
}.
Arguments Heap {X L}.
Arguments hx {X L}.
Arguments hy {X L}.
Arguments hyrows {X L}.
Arguments hywidth {X L}.

(** A yielded batch holds two numpy views into those buffers:
    data_batches.py:122-128.  (offset, number of rows) in [hx] / [hy]. *)
Record batch := Batch { bx_off : nat; bx_len : nat; by_off : nat; by_len : nat }.

(** What the user sees when looking at the arrays of a batch *now*. *)
Definition batch_x {X L} (h : heap X L) (b : batch) : list X :=
  window (bx_off b) (bx_len b) (hx h).
Definition batch_y {X L} (h : heap X L) (b : batch) : list L :=
  window (by_off b) (by_len b) (hy h).

(** ** generate_batches, data_batches.py:10-129 *)

Section Generators.
Context {X L : Type}.
Variable R : rng_ops.
Variable G : global_ops.

(** The arguments of the generator function.  *)
Record gen_args := GenArgs { ga_batch_size : pyval; ga_seed : pyval }.

(** A generator object: created, suspended at a [yield], or finished. *)
Inductive gen_state : Type :=
| GNew (a : gen_args)
| GRunning (st : rng_state R) (bs n : nat)
| GDone.

Definition max_seed : Z := (2 ^ 32 - 1)%Z.

(** [seed is None or (0 <= seed <= 2 ** 32 - 1)], lines 93-95; evaluated only
    if the earlier assertions passed. *)
Definition seed_type_ok (s : pyval) : bool := is_none s || is_int s.
Definition seed_range_ok (s : pyval) : bool :=
  match as_int s with
  | Some z => (0 <=? z)%Z && (z <=? max_seed)%Z
  | None => is_none s
  end.
Definition batch_size_pos (v : pyval) : bool :=
  match as_int v with Some z => (0 <? z)%Z | None => false end.

(** The statements before the loop, lines 90-111.  Returns the generator's
    local state; the global RNG is advanced only when [seed is None]. *)
Definition gb_start (a : gen_args) (g : glob_state G) (h : heap X L)
  : res (rng_state R * nat * nat) * glob_state G :=
  if negb (is_int (ga_batch_size a)) then (Raise AssertionError, g)       (* 90 *)
  else if negb (batch_size_pos (ga_batch_size a)) then (Raise AssertionError, g) (* 91 *)
  else if negb (seed_type_ok (ga_seed a)) then (Raise AssertionError, g)  (* 93 *)
  else if negb (seed_range_ok (ga_seed a)) then (Raise AssertionError, g) (* 95 *)
  else if negb (hyrows h =? length (hx h)) then (Raise AssertionError, g) (* 97 *)
  else
    let n := length (hx h) in                                             (* 99 *)
    let '(seed, g') :=                                                    (* 101-102 *)
      match as_int (ga_seed a) with
      | Some z => (z, g)
      | None => glob_draw G g
      end in
    let st := rng_seed R seed in                                          (* 104-105 *)
    let bs := match as_int (ga_batch_size a) with
              | Some z => Nat.min (Z.to_nat z) n                          (* 111 *)
              | None => 0
              end in
    (Ok (st, bs, n), g').

(** One iteration of the loop, lines 120-129. *)
Definition gb_iter (h : heap X L) (st : rng_state R) (bs n : nat) : batch * rng_state R :=
  let '(start, st') := rng_randint R st (n - bs + 1) in                   (* 120 *)
  ({| bx_off := start; bx_len := bs;                                      (* 122 *)
      by_off := start * hywidth h; by_len := bs * hywidth h |},           (* 123,127 *)
   st').

(** [next(gen)].  An exception (or the end) finishes a Python generator: every
    later [next] raises [StopIteration]. *)
Definition gb_next (gs : gen_state) (g : glob_state G) (h : heap X L)
  : res batch * gen_state * glob_state G :=
  match gs with
  | GNew a =>
      match gb_start a g h with
      | (Ok (st, bs, n), g') =>
          let '(b, st') := gb_iter h st bs n in (Ok b, GRunning st' bs n, g')
      | (Raise e, g') => (Raise e, GDone, g')
      end
  | GRunning st bs n =>
      let '(b, st') := gb_iter h st bs n in (Ok b, GRunning st' bs n, g)
  | GDone => (Raise StopIteration, GDone, g)
  end.

(** [k] successive [next] calls on a generator. *)
Fixpoint gb_run (k : nat) (gs : gen_state) (g : glob_state G) (h : heap X L)
  : list (res batch) * gen_state * glob_state G :=
  match k with
  | 0 => ([], gs, g)
  | S k' =>
      let '(r, gs1, g1) := gb_next gs g h in
      let '(rs, gs2, g2) := gb_run k' gs1 g1 h in
      (r :: rs, gs2, g2)
  end.

(** ** generate_shuffled_batches, data_batches.py:132-206 *)

(** Swap two positions of a buffer (the body of numpy's shuffle loop). *)
Definition set_nth {A} (i : nat) (a : A) (l : list A) : list A :=
  firstn i l ++ match skipn i l with [] => [] | _ :: t => a :: t end.
Definition swap {A} (i j : nat) (l : list A) : list A :=
  match nth_error l i, nth_error l j with
  | Some a, Some b => set_nth j a (set_nth i b l)
  | _, _ => l
  end.

(** [rng.shuffle(view)]: numpy's Fisher-Yates,
    [for i in reversed(range(1, n)): j = random_interval(i); swap(i, j)],
    on the view starting at [off]; called with [i = n - 1]. *)
Fixpoint shuffle_from {A} (st : rng_state R) (off i : nat) (l : list A)
  : list A * rng_state R :=
  match i with
  | 0 => (l, st)
  | S i' =>
      let '(j, st') := rng_interval R st i in
      shuffle_from st' off i' (swap (off + i) (off + j) l)
  end.
Definition shuffle_view {A} (st : rng_state R) (off len : nat) (l : list A)
  : list A * rng_state R := shuffle_from st off (len - 1) l.

Inductive sgen_state : Type :=
| SNew (a : gen_args)
| SRunning (rx ry : rng_state R) (inner : gen_state)
| SDone.

(** [rng.seed(seed)] on a Python value (lines 199-200): integers in range are
    accepted, other integers raise ValueError, everything else modelled here
    TypeError.  Simplification: array-like seeds (which numpy accepts) are not
    modelled. *)
Definition np_seed (s : pyval) : res Z :=
  match s with
  | PNpInt z | PInt z =>
      if (0 <=? z)%Z && (z <=? max_seed)%Z then Ok z else Raise ValueError
  | PBool true => Ok 1%Z
  | PBool false => Ok 0%Z
  | _ => Raise TypeError
  end.

(** The body of the for loop, lines 202-206, given the inner generator. *)
Definition sb_iter (rx ry : rng_state R) (inner : gen_state)
    (g : glob_state G) (h : heap X L)
  : res batch * sgen_state * glob_state G * heap X L :=
  match gb_next inner g h with
  | (Ok b, inner', g') =>
      let '(hx', rx') := shuffle_view rx (bx_off b) (bx_len b) (hx h) in  (* 204 *)
      let '(hy', ry') := shuffle_view ry (by_off b) (by_len b) (hy h) in  (* 205 *)
      (Ok b, SRunning rx' ry' inner', g',
       {| hx := hx'; hy := hy'; hyrows := hyrows h; hywidth := hywidth h |})
  | (Raise e, _, g') => (Raise e, SDone, g', h)
  end.

Definition sb_next (gs : sgen_state) (g : glob_state G) (h : heap X L)
  : res batch * sgen_state * glob_state G * heap X L :=
  match gs with
  | SNew a =>
      let '(sv, g') :=                                                    (* 195-196 *)
        if is_none (ga_seed a)
        then let '(z, g1) := glob_draw G g in (PInt z, g1)
        else (ga_seed a, g) in
      match np_seed sv with                                               (* 198-200 *)
      | Raise e => (Raise e, SDone, g', h)
      | Ok z =>
          sb_iter (rng_seed R z) (rng_seed R z)
                  (GNew {| ga_batch_size := ga_batch_size a; ga_seed := sv |}) g' h
      end
  | SRunning rx ry inner => sb_iter rx ry inner g h
  | SDone => (Raise StopIteration, SDone, g, h)
  end.

Fixpoint sb_run (k : nat) (gs : sgen_state) (g : glob_state G) (h : heap X L)
  : list (res batch) * sgen_state * glob_state G * heap X L :=
  match k with
  | 0 => ([], gs, g, h)
  | S k' =>
      let '(r, gs1, g1, h1) := sb_next gs g h in
      let '(rs, gs2, g2, h2) := sb_run k' gs1 g1 h1 in
      (r :: rs, gs2, g2, h2)
  end.

End Generators.
Arguments GDone {R}.
Arguments GNew {R} a.
Arguments SNew {R} a.
Arguments SDone {R}.

(** ** Two concrete oracles, for examples: a linear congruential generator. *)
Definition lcg_next (s : Z) : Z := ((s * 1103515245 + 12345) mod 2147483648)%Z.
Definition lcg_mod (s : Z) (n : nat) : nat :=
  Z.to_nat ((lcg_next s / 65536) mod Z.of_nat n).
Lemma lcg_randint_lt : forall s n, 0 < n -> fst (lcg_mod s n, lcg_next s) < n.
Proof.
  intros; cbn [fst]. unfold lcg_mod.
  pose proof (Z.mod_pos_bound (lcg_next s / 65536) (Z.of_nat n)). lia.
Qed.
Lemma lcg_interval_le : forall s i, fst (lcg_mod s (S i), lcg_next s) <= i.
Proof.
  intros; cbn [fst]. unfold lcg_mod.
  pose proof (Z.mod_pos_bound (lcg_next s / 65536) (Z.of_nat (S i))). lia.
Qed.
Definition lcg : rng_ops :=
  {| rng_state := Z; rng_seed := fun z => z;
     rng_randint := fun s n => (lcg_mod s n, lcg_next s);
     rng_interval := fun s i => (lcg_mod s (S i), lcg_next s);
     rng_randint_lt := lcg_randint_lt;
     rng_interval_le := lcg_interval_le |}.

Lemma counter_range : forall g : Z, (1 <= fst ((1 + g mod 99999)%Z, (g + 1)%Z) < 100000)%Z.
Proof. intros; cbn [fst]. pose proof (Z.mod_pos_bound g 99999). lia. Qed.
Definition counter_global : global_ops :=
  {| glob_state := Z; glob_draw := fun g => ((1 + g mod 99999)%Z, (g + 1)%Z);
     glob_draw_range := counter_range |}.
