(** The TensorFlow session as used by a burn-in sampler (SGHMC or SGLD) with any
    number of target parameters: what [session.run] on the sampler's tensors
    returns and leaves behind.  Together with Model/BaseClasses.v this gives the
    complete run of a sampler. *)
From Coq Require Import List Arith ZArith Bool.
From Verif.Base Require Import Py Num Vec.
From Verif.Model Require Import TensorUtils BurnIn SGHMC SGLD Stepsize BaseClasses.
Import ListNotations.

(** *** Random ops *)

(** TF1 [random_seed.get_seed]: the pair of seeds of a random op from the graph
    seed, the op seed and the id of the last op of the graph; [None]: both
    undefined, the kernel then seeds itself from entropy.  (Library behaviour; the
    literal is DEFAULT_GRAPH_SEED.) *)
Definition get_seed (graph_seed op_seed : option Z) (last_id : nat) : option (Z * Z) :=
  match graph_seed, op_seed with
  | Some g, Some o => Some (g, o)
  | Some g, None => Some (g, Z.of_nat last_id)
  | None, Some o => Some (87654321%Z, o)
  | None, None => None
  end.

(** A random_normal op: its seeds, and how far its generator has advanced. *)
Record noise_op := NoiseOp { op_key : Z * Z; op_pos : nat }.

(** [tf.random_normal(shape, dtype, seed=self.seed)], base_classes.py:218-220, created
    when the graph has [last_id] ops; [entropy] is what the kernel would seed itself with. *)
Definition make_noise_op (graph_seed seed : option Z) (last_id : nat) (entropy : Z * Z) : noise_op :=
  {| op_key := match get_seed graph_seed seed last_id with Some k => k | None => entropy end;
     op_pos := 0 |}.

Section S.
Context {T : Type} `{Num T}.

(** The counter-based generator: variate number [i] of the stream of a seed pair;
    [reserve n] is how far n draws advance it. *)
Variable stream : Z * Z -> nat -> T.
Variable reserve : nat -> nat.
Definition draw (n : nat) (o : noise_op) : list T * noise_op :=
  (map (fun i => stream (op_key o) (op_pos o + i)) (seq 0 n),
   {| op_key := op_key o; op_pos := op_pos o + reserve n |}).

(** Per-parameter part of a sampler: its state, the current value of the target
    variable, the tensor minv_t, and one execution of its ops (stepsize, gradient, normal
    draws, fed minv_t). *)
Record kernel := Kernel {
  k_state : Type;
  k_value : k_state -> tensor T;
  k_minv : option (list T) -> k_state -> list T;    (* minv_t, from the state after the step *)
  k_step : T -> list T -> list T -> option (list T) -> k_state -> k_state
}.
Definition sghmc_kernel (c : config T) : kernel :=
  {| k_state := pstate T; k_value := p_val;
     k_minv := fun fed p => minv_used fed (p_adapt p);
     k_step := sghmc_step c |}.
Definition sgld_kernel (c : lconfig T) : kernel :=
  {| k_state := lstate T; k_value := l_val;
     k_minv := fun fed p => minv_used fed (l_adapt p);
     k_step := sgld_step c |}.
Variable K : kernel.

(** Everything held by the session: the stepsize variable, the per-parameter
    variables, the generator states. *)
Record sess := Sess { z_eps : T; z_params : list (k_state K * noise_op) }.

(** Cost and vectorized gradients for parameter values and a feed of user
    placeholders (sghmc.py:121-122); evaluation may fail. *)
Definition objective := list (tensor T) -> (nat -> option (tensor T)) -> res (T * list (list T)).
Variable cost_grads : objective.

Definition scalar_tensor (x : T) : tensor T := {| shape := []; data := [x] |}.
Definition column_tensor (l : list T) : tensor T := {| shape := [length l; 1]; data := l |}.

(** The ops of one parameter; a fed minv_t or a gradient of wrong size is a shape
    error. *)
Definition run_param (eps : T) (grad : list T) (fed : option (tensor T)) (p : k_state K * noise_op)
  : res (tensor T * (k_state K * noise_op)) :=
  let n := length (data (k_value K (fst p))) in
  let fed' := option_map data fed in
  if (length grad =? n) && match fed' with Some m => length m =? n | None => true end then
    let '(xi, o') := draw n (snd p) in
    let p' := k_step K eps grad xi fed' (fst p) in
    Ok (column_tensor (k_minv K fed' p'), (p', o'))
  else Raise ValueError.

Fixpoint run_params (eps : T) (f : feed (tensor T)) (i : nat) (gs : list (list T))
    (ps : list (k_state K * noise_op)) : res (list (tensor T) * list (k_state K * noise_op)) :=
  match ps, gs with
  | [], [] => Ok ([], [])
  | p :: ps', g :: gs' =>
      do (m, p') <- run_param eps g (lookup f (KMinv i)) p;
      do (ms, qs) <- run_params eps f (S i) gs' ps';
      Ok (m :: ms, p' :: qs)
  | _, _ => Raise ValueError
  end.

Definition values (z : sess) : list (tensor T) := map (fun p => k_value K (fst p)) (z_params z).

(** The stepsize: [self.epsilon] as fed (base_classes.py:297, 435), else its value. *)
Definition fed_eps (f : feed (tensor T)) (z : sess) : T :=
  match lookup f KEps with Some t => hd n0 (data t) | None => z_eps z end.

(** [session.run([theta_t, cost, minv_t], feed_dict)].  Cost and gradients are those at the
    parameter values before the run (snapshot reads; see C34 for other schedules).
    A failing run is modelled as leaving the variables as they were. *)
Definition session_run_model (f : feed (tensor T)) (z : sess) : res (outputs (tensor T)) * sess :=
  match cost_grads (values z) (fun n => lookup f (KUser n)) with
  | Raise e => (Raise e, z)
  | Ok (c, gs) =>
      match run_params (fed_eps f z) f 0 gs (z_params z) with
      | Raise e => (Raise e, z)
      | Ok (ms, ps) =>
          let z' := {| z_eps := z_eps z; z_params := ps |} in
          (Ok {| o_theta := values z'; o_cost := scalar_tensor c; o_minv := ms |}, z')
      end
  end.

(** The sampler's environment. *)
Definition sampler_env (B : Type) (bg : option (B -> res (list (nat * tensor T)) * B))
    (sc : schedule (tensor T) (sample (tensor T) * tensor T)) : env (tensor T) :=
  {| bg_state := B; bg_next := bg; sched := sc; sess_state := sess; run := session_run_model |}.

End S.

(** The session right after construction (base_classes.py:103-119, sghmc.py:111-251,
    sgld.py:106-211): every parameter's ops get a noise op with the sampler's seed. *)
Section Init.
Context {T : Type} `{Num T}.
Definition noise_ops (graph_seed seed : option Z) (ids : list nat) (entropy : nat -> Z * Z) (n : nat)
  : list noise_op :=
  map (fun i => make_noise_op graph_seed seed (nth i ids 0) (entropy i)) (seq 0 n).
Definition sghmc_session (c : config T) (eps0 : T) (params : list (tensor T)) (ops : list noise_op)
  : sess (sghmc_kernel c) :=
  {| z_eps := eps0; z_params := combine (map pinit params) ops : list (k_state (sghmc_kernel c) * noise_op) |}.
Definition sgld_session (c : lconfig T) (eps0 : T) (params : list (tensor T)) (ops : list noise_op)
  : sess (sgld_kernel c) :=
  {| z_eps := eps0; z_params := combine (map linit params) ops : list (k_state (sgld_kernel c) * noise_op) |}.
End Init.
