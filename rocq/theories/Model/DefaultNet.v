(** get_default_net (pysgmcmc/models/bayesian_neural_network.py:28-69) as a function to be
    passed as [get_net]: the variables it creates, in order of creation, and its output as a
    function of their values. *)
From Coq Require Import String List Arith ZArith.
From Verif.Base Require Import Py Num.
From Verif.Model Require Import TensorUtils BaseModel Session BNN.
Import ListNotations.
Local Open Scope list_scope.

Section S.
Context {T : Type} `{Num T} `{NumT T}.

(** A vector and a matrix from row-major data. *)
Definition vector_of (n : nat) (t : tensor T) : list T := map (fun i => nth i (data t) n0) (seq 0 n).
Definition matrix_of (rows cols : nat) (t : tensor T) : list (list T) :=
  map (fun i => map (fun j => nth (i * cols + j) (data t) n0) (seq 0 cols)) (seq 0 rows).

(** bayesian_neural_network.py:28-69 for inputs of [n_inputs] features.  Each tf.layers.dense
    (30-56) reserves its name and creates a kernel and a bias; output_bias (58-61) is a plain
    tf.Variable, whose name tensorflow makes unique.  The rows of the output (63-67) are
    (mean, log variance).  Initial values: [default_initial] below. *)
Definition default_builder (n_inputs : nat) : net_builder T :=
  {| gn_names := ["fc_layer_1"; "fc_layer_2"; "fc_layer_3"; "fc_layer_4"]%string;
     gn_vars := [[n_inputs; 50]; [50]; [50; 50]; [50]; [50; 50]; [50]; [50; 1]; [1]; [1; 1]];
     gn_out := fun vals X =>
       match vals with
       | [k1; b1; k2; b2; k3; b3; k4; b4; ob] =>
           Ok (map (fun r => (nth 0 r n0, nth 1 r n0))
             (default_net (matrix_of n_inputs 50 k1) (vector_of 50 b1) (matrix_of 50 50 k2) (vector_of 50 b2)
                (matrix_of 50 50 k3) (vector_of 50 b3) (matrix_of 50 1 k4) (vector_of 1 b4) (nth 0 (data ob) n0) X))
       | _ => Raise ValueError
       end;
     gn_fails := None |}.

(** ** Initial values *)

(** tensorflow.contrib.layers.variance_scaling_initializer(factor=1.0, seed=seed), imported as
    HeNormal (29, 32, 39, 46, 53): truncated standard normals, from a random op of its own, times
    sqrt(1.3 * factor / fan_in).  (Library behaviour.)  [stream key i] is the i-th truncated normal an op
    with the seeds [key] produces. *)
Variable stream : Z * Z -> nat -> T.
Definition he_normal (s : list nat) (fan_in : nat) (o : noise_op) : tensor T :=
  {| shape := s;
     data := map (fun z => (z * nsqrt (nfrac 13 10 * n1 / nint (Z.of_nat fan_in)) + n0)%num)
                 (fst (draw stream (fun n => n) (prod s) o)) |}.
(** tf.zeros_initializer (33, 40, 47, 54) *)
Definition zeros_init (s : list nat) : tensor T := {| shape := s; data := repeat n0 (prod s) |}.

(** Values of the variables after the first run of their initializers, for the seed of the
    network: all four kernels are given the same seed (32, 39, 46, 53).  [ids j]: id of the
    last op when the j-th random op is created; [entropy j]: what its kernel would seed itself with. *)
Definition default_initial (graph_seed seed : option Z) (ids : nat -> nat) (entropy : nat -> Z * Z) (n_inputs : nat)
  : list (tensor T) :=
  let op j := make_noise_op graph_seed seed (ids j) (entropy j) in
  [he_normal [n_inputs; 50] n_inputs (op 0); zeros_init [50];
   he_normal [50; 50] 50 (op 1); zeros_init [50];
   he_normal [50; 50] 50 (op 2); zeros_init [50];
   he_normal [50; 1] 50 (op 3); zeros_init [1];
   {| shape := [1; 1]; data := [nln (nfrac 1 1000)] |}].                           (* 58-61 *)
End S.
