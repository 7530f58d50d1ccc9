(** Model of pysgmcmc/tensor_utils.py. *)
From Coq Require Import String List Arith ZArith Bool.
From Verif.Base Require Import Py Num.
Import ListNotations.
Local Open Scope list_scope.

(** A TensorFlow tensor with static shape: shape and row-major data. *)
Record tensor (T : Type) := Tensor { shape : list nat; data : list T }.
Arguments Tensor {T}. Arguments shape {T}. Arguments data {T}.

Definition prod (s : list nat) : nat := fold_right Nat.mul 1 s.
Definition well_shaped {T} (t : tensor T) : Prop := length (data t) = prod (shape t).

(** Python objects passed where a tensor is expected. *)
Inductive tobj (T : Type) :=
| OVariable (t : tensor T)       (* tf.Variable, with its (initialized) value *)
| OTensor (t : tensor T)         (* tf.Tensor *)
| OOther.                        (* anything else *)
Arguments OVariable {T}. Arguments OTensor {T}. Arguments OOther {T}.

(** [tf.reshape(t, s)] for a fully specified shape: row-major order is kept;
    incompatible sizes are rejected when the graph is built. *)
Definition tf_reshape {T} (t : tensor T) (s : list nat) : res (tensor T) :=
  if prod s =? prod (shape t) then Ok {| shape := s; data := data t |} else Raise ValueError.

(** vectorize, tensor_utils.py:17-104.  For a variable the result is a new
    variable initialized with the reshaped value (93-96); the model returns its
    value. *)
Definition vectorize {T} (o : tobj T) : res (tensor T) :=
  match o with
  | OVariable t => tf_reshape t [prod (shape t); 1]                     (* 93-96 *)
  | OTensor t => tf_reshape t [prod (shape t); 1]                       (* 98-99 *)
  | OOther => Raise ValueError                                          (* 101-105 *)
  end.

(** unvectorize, tensor_utils.py:107-153 *)
Definition unvectorize {T} (t : tensor T) (original_shape : list nat) : res (tensor T) :=
  tf_reshape t original_shape.

(** _is_vector, tensor_utils.py:156-157 *)
Definition is_vector {T} (t : tensor T) : bool := length (shape t) =? 1.

Section Numeric.
Context {T : Type} `{Num T}.

(** [tf.nn.top_k(l, n, sorted=True).values] for n = len(l): all elements,
    largest first. *)
Fixpoint insert_desc (x : T) (l : list T) : list T :=
  match l with
  | [] => [x]
  | y :: l' => if nltb x y then y :: insert_desc x l' else x :: l
  end.
Definition top_k_all (l : list T) : list T := fold_right insert_desc [] l.

(** median, tensor_utils.py:160-208.  An empty tensor has no element -1: building
    the graph fails. *)
Definition median (t : tensor T) : res T :=
  let l := data t in                                                    (* 197 reshape [-1] *)
  let n := length l in                                                  (* 199 *)
  let sorted := top_k_all l in                                          (* 201 *)
  let mid := n / 2 in                                                   (* 203 *)
  if n =? 0 then Raise ValueError else
  if n mod 2 =? 1 then Ok (nth mid sorted n0)                           (* 205-206 *)
  else Ok (ndiv (nadd (nth (mid - 1) sorted n0) (nth mid sorted n0)) n2).         (* 208 *)

(** safe_divide, tensor_utils.py:269, elementwise *)
Definition safe_divisor (y c : T) : T := (y + (n2 * nsign y * c + c))%num.
Definition safe_divide_with (c x y : T) : T := (x / safe_divisor y c)%num.
(** default small_constant=1e-16 *)
Definition small_constant : T := nfrac 1 10000000000000000.
Definition safe_divide (x y : T) : T := safe_divide_with small_constant x y.

(** [tf.clip_by_value]; [None] is the bound +inf. *)
Definition clip_by_value (x lo : T) (hi : option T) : T :=
  nmax (match hi with None => x | Some h => nmin x h end) lo.
(** safe_sqrt, tensor_utils.py:319-323 *)
Definition safe_sqrt_with (lo : T) (hi : option T) (x : T) : T := nsqrt (clip_by_value x lo hi).
Definition safe_sqrt (x : T) : T := safe_sqrt_with n0 None x.

(** Row [i] of a 2-d tensor with [d] columns *)
Definition row (d : nat) (l : list T) (i : nat) : list T := window (i * d) d l.

(** [tf.norm(a - b)] *)
Definition euclidean_distance (a b : list T) : T :=
  nsqrt (nsum (map (fun '(x, y) => ((x - y) * (x - y))%num) (combine a b))).

(** The condensed distances, tensor_utils.py:399-409 *)
Definition pairwise_euclidean_distance (m d : nat) (l : list T) : list T :=
  flat_map (fun i => map (fun j => euclidean_distance (row d l i) (row d l j))
                         (seq (S i) (m - S i))) (seq 0 m).

(** pdist, tensor_utils.py:326-419 *)
Definition pdist (o : tobj T) (metric : string) : res (tensor T) :=
  match o with
  | OOther => Raise AssertionError                                      (* 392 *)
  | OVariable t | OTensor t =>
      match shape t with
      | [m; d] =>
          if String.eqb metric "euclidean"%string
          then let v := pairwise_euclidean_distance m d (data t) in
               Ok {| shape := [length v]; data := v |}
          else Raise NotImplementedError                                (* 413-417 *)
      | _ => Raise ValueError                                           (* 394-395 *)
      end
  end.

(** [tf.dynamic_stitch] for single-column data: position k of the result
    (of size [n]) is the element paired with index k; later pairs win. *)
Definition dynamic_stitch (n : nat) (l : list (nat * T)) : list T :=
  map (fun k => fold_left (fun acc '(i, v) => if i =? k then v else acc) l n0) (seq 0 n).

(** upper_triangular_indices, tensor_utils.py:505-532 *)
Definition upper_triangular_indices (d : nat) : list nat :=
  flat_map (fun r => map (fun c => d * r + c) (seq (S r) (d - S r))) (seq 0 d).

(** [range(0, stop, step)] *)
Definition range_step (stop step : nat) : list nat :=
  filter (fun k => k mod step =? 0) (seq 0 stop).

(** [tf.transpose] of a (d,d) matrix *)
Definition transpose (d : nat) (l : list T) : list T :=
  flat_map (fun i => map (fun j => nth (d * j + i) l n0) (seq 0 d)) (seq 0 d).

Definition mem (x : nat) (l : list nat) : bool := existsb (Nat.eqb x) l.

(** squareform, tensor_utils.py:422-576.  [np.ceil(np.sqrt(2n))] is taken exact. *)
Definition squareform (o : tobj T) : res (tensor T) :=
  match o with
  | OTensor t =>
      if is_vector t then
        let n := hd 0 (shape t) in
        if n =? 0 then Ok {| shape := [1; 1]; data := [n0] |}           (* 473-474 *)
        else
          let dim := Nat.sqrt_up (n * 2) in                             (* 479 *)
          if negb (dim * (dim - 1) =? n * 2) then Raise ValueError      (* 482-486 *)
          else
            let total := dim * dim in
            let diagonal := range_step total (dim + 1) in               (* 541 *)
            let upper := upper_triangular_indices dim in                (* 542 *)
            let remaining := filter (fun k => negb (mem k diagonal || mem k upper))
                               (seq 0 total) in                         (* 544-546 *)
            let zeros k := repeat n0 k in
            let stitched := dynamic_stitch total
              (combine diagonal (zeros dim) ++ combine upper (data t) ++
               combine remaining (zeros (total - n - dim))) in          (* 548-563 *)
            Ok {| shape := [dim; dim];
                  data := map (fun '(a, b) => (a + b)%num)
                            (combine stitched (transpose dim stitched)) |} (* 566-571 *)
      else Raise NotImplementedError                                    (* 573-576 *)
  | _ => Raise AssertionError                                           (* 466 *)
  end.

End Numeric.

(** uninitialized_params, tensor_utils.py:579-605: [initialized] is the answer
    of [tf.is_variable_initialized] in the given session. *)
Definition uninitialized_params {A} (session_ok : bool) (initialized : A -> bool) (params : list A)
  : res (list A) :=
  do _ <- assert_ session_ok;
  let init_flag := map initialized params in
  Ok (map fst (filter (fun '(_, flag) => negb flag) (combine params init_flag))).

(** [session.run(tf.variables_initializer(vs))]: every listed variable gets its
    initial value, whether it had a value or not.  A session store maps
    variables to values; [None] is uninitialized. *)
Definition run_initializers {A V} (eqb : A -> A -> bool) (initial : A -> V) (vs : list A)
    (store : A -> option V) : A -> option V :=
  fun v => if existsb (eqb v) vs then Some (initial v) else store v.
