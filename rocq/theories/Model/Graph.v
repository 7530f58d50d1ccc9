(** Dataflow graphs as TensorFlow executes them, and the graphs that the samplers'
    constructors build.  [session.run] (base_classes.py:298, 438) executes the ops
    that the fetched tensors depend on, each once, in an order of the executor's
    choice that respects data and control dependencies. *)
From Coq Require Import List Arith ZArith Bool.
From Verif.Base Require Import Py Num Vec.
From Verif.Model Require Import TensorUtils BurnIn SGHMC SGLD Relativistic SVGD.
Import ListNotations.

(** *** Execution of a graph *)
Section Graph.
Context {node var value : Type}.
Variable node_eq : forall a b : node, {a = b} + {a <> b}.
Variable var_eq : forall a b : var, {a = b} + {a <> b}.

(** An input of an op: the contents a variable's buffer has when the op executes (a
    reference, e.g. the output of [tf.assign]), the output of another op, or a fed
    value. *)
Inductive input := Var (x : var) | Out (k : node) | Fed (v : value).

(** An op: inputs, control inputs (all of them ops), the variable it assigns if
    any, and what it computes. *)
Record op := Op { inputs : list input; control : list node; target : option var;
                  compute : list value -> value }.
Definition graph := node -> op.

Definition out_deps (l : list input) : list node :=
  flat_map (fun i => match i with Out k => [k] | _ => [] end) l.
Definition deps (o : op) : list node := control o ++ out_deps (inputs o).

Record exec := Exec { mem : var -> value; out : node -> value }.

Definition fetch (s : exec) (i : input) : value :=
  match i with Var x => mem s x | Out k => out s k | Fed v => v end.

Definition execute (G : graph) (s : exec) (k : node) : exec :=
  let o := G k in
  let v := compute o (map (fetch s) (inputs o)) in
  {| mem := match target o with
            | Some x => fun y => if var_eq y x then v else mem s y
            | None => mem s
            end;
     out := fun k' => if node_eq k' k then v else out s k' |}.
Definition run_order (G : graph) (l : list node) (s : exec) : exec := fold_left (execute G) l s.

(** [l] is a possible order of execution of the ops [nodes]. *)
Definition schedule (G : graph) (nodes l : list node) : Prop :=
  NoDup l /\ (forall k, In k l <-> In k nodes) /\
  forall l1 k l2, l = l1 ++ k :: l2 -> incl (deps (G k)) l1.
End Graph.
Arguments input : clear implicits.
Arguments op : clear implicits.
Arguments exec : clear implicits.
Arguments graph : clear implicits.

(** *** Variables and ops of the samplers *)

(** tau, R, g, v_hat, minv, v, the vectorized clone, the parameter (sghmc.py:126-155,
    base_classes.py:103), the relativistic momentum (relativistic_sghmc.py:108-113), each with
    the index of the target parameter; SVGD's historical_grad (svgd.py:112) has index 0. *)
Inductive vkind := XTau | XR | XG | XVhat | XMinv | XMom | XVec | XParam | XHist.
Definition gvar : Type := vkind * nat.

(** The ops, named after the assignments of sghmc.py:168-251.  Each stands for the
    assignment and the arithmetic that computes the assigned value. *)
Inductive okind := OGrad | OR | OTau | OMinv | OG | OVhat | ONoise | OMom | OVec | OTheta
                 | OStack | OPhi | OHist | OAdj.
Inductive gnode := Node (k : okind) (i : nat) | Read (x : gvar) | Cost.

Definition vkind_eq : forall a b : vkind, {a = b} + {a <> b}. Proof. decide equality. Defined.
Definition gvar_eq : forall a b : gvar, {a = b} + {a <> b}.
Proof. decide equality; [apply Nat.eq_dec|apply vkind_eq]. Defined.
Definition okind_eq : forall a b : okind, {a = b} + {a <> b}. Proof. decide equality. Defined.
Definition gnode_eq : forall a b : gnode, {a = b} + {a <> b}.
Proof. decide equality; [apply Nat.eq_dec|apply okind_eq|apply gvar_eq]. Defined.

Section S.
Context {T : Type} `{Num T}.
Notation value := (list T).
Notation inp := (input gnode gvar value).
Notation ops := (op gnode gvar value).

(** How the value of a Python variable [x] used as a tensor (not through the result
    of an assignment) is read: by the op [x/read] that TensorFlow creates with the variable
    and that has no control inputs.  [snapshots = true]: that op copies the value.
    [false]: it forwards the buffer, so that a consumer sees what the buffer holds when the
    consumer executes (reference variables of TensorFlow 1). *)
Variable snapshots : bool.
Definition val (x : gvar) : inp := if snapshots then Out (Read x) else Var x.

(** Stepsize, normal draws (one random op per parameter, with its own generator, see
    Model/Session.v), fed minv_t, of this [session.run]. *)
Variable eps : T.
Variable xi : nat -> list T.
Variable fed : nat -> option (list T).

(** The gradient of parameter [i]: the parameters its subgraph reads, and the function
    of their values (sghmc.py:121-122); likewise the cost (base_classes.py:100). *)
Variable grad_reads : nat -> list nat.
Variable grad_fun : nat -> list (list T) -> list T.
Variable cost_reads : list nat.
Variable cost_fun : list (list T) -> list T.

Definition params (js : list nat) : list inp := map (fun j => val (XParam, j)) js.
Definition cost_op : ops :=
  {| inputs := params cost_reads; control := []; target := None; compute := cost_fun |}.
Definition grad_op (i : nat) : ops :=
  {| inputs := params (grad_reads i); control := []; target := None; compute := grad_fun i |}.
Definition read_op (x : gvar) : ops :=
  {| inputs := [Var x]; control := []; target := None; compute := hd [] |}.
Definition no_op : ops := {| inputs := []; control := []; target := None; compute := fun _ => [] |}.

(** Control inputs inside the three [with tf.control_dependencies] blocks of sghmc.py
    (171, 185, 200; sgld.py:156, 169, 183), which nest. *)
Definition ctl1 (i : nat) : list gnode := [Node OR i].
Definition ctl2 (i : nat) : list gnode := ctl1 i ++ [Node OTau i; Node OMinv i].
Definition ctl3 (i : nat) : list gnode := ctl2 i ++ [Node OG i; Node OVhat i].

(** minv_t: the output of an assignment, unless fed *)
Definition minv_in (i : nat) : inp :=
  match fed i with Some m => Fed m | None => Var (XMinv, i) end.

(** Burn-in ops, sghmc.py:168-196 and sgld.py:154-181. [tf.assign_add(x, d)] reads the
    reference x itself when it executes. *)
Definition burnin_op (k : okind) (i : nat) : ops :=
  match k with
  | OGrad => grad_op i
  | OR =>                                                                (* sghmc.py:168 *)
      {| inputs := [val (XTau, i)]; control := []; target := Some (XR, i);
         compute := fun l => map (fun t => ndiv n1 (nadd t n1)) (nth 0 l []) |}
  | OTau =>                                                              (* 172-176 *)
      {| inputs := [Var (XTau, i); val (XG, i); val (XTau, i); val (XVhat, i)];
         control := ctl1 i; target := Some (XTau, i);
         compute := fun l =>
           let tau0 := nth 0 l [] in let g := nth 1 l [] in
           let tau := nth 2 l [] in let vhat := nth 3 l [] in
           vmap2 nadd tau0
             (map (fun q => nadd q n1)
                (vmap2 safe_divide (vmap2 nmul (vmap2 nmul (map nopp g) g) tau) vhat)) |}
  | OMinv =>                                                             (* 179-183 *)
      {| inputs := [val (XVhat, i)]; control := ctl1 i; target := Some (XMinv, i);
         compute := fun l => map (fun v => safe_divide n1 (safe_sqrt v)) (nth 0 l []) |}
  | OG =>                                                                (* 186-190 *)
      {| inputs := [Var (XG, i); Var (XR, i); val (XG, i); Out (Node OGrad i)];
         control := ctl2 i; target := Some (XG, i);
         compute := fun l =>
           let g0 := nth 0 l [] in let r := nth 1 l [] in
           let g := nth 2 l [] in let grad := nth 3 l [] in
           vmap2 nadd g0 (vmap2 nadd (vmap2 nmul (map nopp r) g) (vmap2 nmul r grad)) |}
  | OVhat =>                                                             (* 192-196 *)
      {| inputs := [Var (XVhat, i); Var (XR, i); val (XVhat, i); Out (Node OGrad i)];
         control := ctl2 i; target := Some (XVhat, i);
         compute := fun l =>
           let v0 := nth 0 l [] in let r := nth 1 l [] in
           let v := nth 2 l [] in let grad := nth 3 l [] in
           vmap2 nadd v0 (vmap2 nadd (vmap2 nmul (map nopp r) v)
                                     (vmap2 nmul r (map (fun x => npow x 2) grad))) |}
  | _ => no_op
  end.

(** theta_t: sghmc.py:245-251, sgld.py:205-211, relativistic_sghmc.py:137-140 *)
Definition theta_op (ctl : list gnode) (i : nat) : ops :=
  {| inputs := [Var (XVec, i)]; control := ctl; target := Some (XParam, i);
     compute := fun l => nth 0 l [] |}.

(** SGHMC, sghmc.py:168-251 *)
Definition sghmc_op (c : config T) (k : okind) (i : nat) : ops :=
  match k with
  | ONoise =>                                                            (* 211-225 *)
      {| inputs := [minv_in i]; control := ctl3 i; target := None;
         compute := fun l => vmap2 nmul (map (sigma c eps) (nth 0 l [])) (xi i) |}
  | OMom =>                                                              (* 233-238 *)
      {| inputs := [Var (XMom, i); minv_in i; Out (Node OGrad i); val (XMom, i); Out (Node ONoise i)];
         control := ctl3 i; target := Some (XMom, i);
         compute := fun l =>
           let v0 := nth 0 l [] in let m := nth 1 l [] in let grad := nth 2 l [] in
           let v := nth 3 l [] in let sample := nth 4 l [] in
           vmap2 nadd v0
             (vmap2 nadd
                (vmap2 nsub
                   (vmap2 nmul (map (fun x => nmul (nopp (npow eps 2)) x) m) grad)
                   (map (fun v => nmul (mdecay c) v) v))
                sample) |}
  | OVec =>                                                              (* 241-243 *)
      {| inputs := [Var (XVec, i); Var (XMom, i)]; control := Node OMom i :: ctl3 i;
         target := Some (XVec, i);
         compute := fun l => vmap2 nadd (nth 0 l []) (nth 1 l []) |}
  | OTheta => theta_op (Node OVec i :: ctl3 i) i
  | _ => burnin_op k i
  end.

(** SGLD, sgld.py:154-211 *)
Definition sgld_op (c : lconfig T) (k : okind) (i : nat) : ops :=
  match k with
  | ONoise =>                                                            (* 186-195 *)
      {| inputs := [minv_in i]; control := ctl3 i; target := None;
         compute := fun l => vmap2 nmul (map (lsigma c eps) (nth 0 l [])) (xi i) |}
  | OVec =>                                                              (* 201-204 *)
      {| inputs := [Var (XVec, i); minv_in i; Out (Node OGrad i); Out (Node ONoise i)];
         control := ctl3 i; target := Some (XVec, i);
         compute := fun l =>
           let v0 := nth 0 l [] in let m := nth 1 l [] in
           let grad := nth 2 l [] in let sample := nth 3 l [] in
           vmap2 nadd v0
             (vmap2 nadd
                (vmap2 nmul (map (fun x => nmul (nmul (nopp eps) x) (l_A c)) m) grad)
                sample) |}
  | OTheta => theta_op (Node OVec i :: ctl3 i) i
  | OMom => no_op
  | _ => burnin_op k i
  end.

(** Relativistic SGHMC, relativistic_sghmc.py:120-140: no control inputs; the scalar
    momentum is a one-element value.  [grad_fun] is the gradient of the cost, of
    which -1 times is taken (100-103). *)
Definition rel_op (c : rconfig T) (k : okind) (i : nat) : ops :=
  match k with
  | OGrad => grad_op i
  | ONoise =>                                                            (* 125 *)
      {| inputs := []; control := []; target := None;
         compute := fun _ => map (fun x => nmul (rel_noise_scale c eps) x) (xi i) |}
  | OMom =>                                                              (* 123, 126-129 *)
      {| inputs := [Var (XMom, i); val (XMom, i); Out (Node OGrad i); Out (Node ONoise i)];
         control := []; target := Some (XMom, i);
         compute := fun l =>
           let p0 := hd n0 (nth 0 l []) in let p := hd n0 (nth 1 l []) in
           let grad := map nopp (nth 2 l []) in let n := nth 3 l [] in
           let delta := map (fun y => nsub y (nmul (r_D c) (rel_velocity c eps p)))
                          (vmap2 nadd (map (fun g => nmul eps g) grad) n) in
           [nadd p0 (hd n0 delta)] |}
  | OVec =>                                                              (* 131-135 *)
      {| inputs := [Var (XVec, i); Var (XMom, i)]; control := [Node OMom i]; target := Some (XVec, i);
         compute := fun l =>
           map (fun x => nadd x (rel_velocity c eps (hd n0 (nth 1 l [])))) (nth 0 l []) |}
  | OTheta => theta_op [Node OVec i] i
  | _ => no_op
  end.

Definition graph_of (per_param : okind -> nat -> ops) : graph gnode gvar value :=
  fun k => match k with Node o i => per_param o i | Read x => read_op x | Cost => cost_op end.

(** The ops that the fetches theta_t, cost (and minv_t) need, for [n] parameters:
    those of every parameter, the cost, and with snapshots the reads. *)
Definition burnin_kinds : list okind := [OGrad; OR; OTau; OMinv; OG; OVhat].
Definition sghmc_kinds : list okind := burnin_kinds ++ [ONoise; OMom; OVec; OTheta].
Definition sgld_kinds : list okind := burnin_kinds ++ [ONoise; OVec; OTheta].
Definition rel_kinds : list okind := [OGrad; ONoise; OMom; OVec; OTheta].

Definition read_params (n : nat) : list nat := cost_reads ++ flat_map grad_reads (seq 0 n).
Definition nodes_of (kinds : list okind) (reads : list vkind) (n : nat) : list gnode :=
  flat_map (fun i => map (fun k => Node k i) kinds) (seq 0 n) ++ [Cost] ++
  if snapshots then
    flat_map (fun i => map (fun x => Read (x, i)) reads) (seq 0 n) ++
    map (fun j => Read (XParam, j)) (read_params n)
  else [].

Definition sghmc_graph (c : config T) := graph_of (sghmc_op c).
Definition sghmc_nodes := nodes_of sghmc_kinds [XTau; XG; XVhat; XMom].
Definition sgld_graph (c : lconfig T) := graph_of (sgld_op c).
Definition sgld_nodes := nodes_of sgld_kinds [XTau; XG; XVhat].
Definition rel_graph (c : rconfig T) := graph_of (rel_op c).
Definition rel_nodes := nodes_of rel_kinds [XMom].

(** Variables before the run *)
Definition sghmc_mem (ps : nat -> pstate T) (x : gvar) : value :=
  let p := ps (snd x) in
  match fst x with
  | XTau => a_tau (p_adapt p) | XR => a_r (p_adapt p) | XG => a_g (p_adapt p)
  | XVhat => a_vhat (p_adapt p) | XMinv => a_minv (p_adapt p)
  | XMom => p_mom p | XVec => p_vec p | XParam => data (p_val p) | XHist => []
  end.
Definition sgld_mem (ps : nat -> lstate T) (x : gvar) : value :=
  let p := ps (snd x) in
  match fst x with
  | XTau => a_tau (l_adapt p) | XR => a_r (l_adapt p) | XG => a_g (l_adapt p)
  | XVhat => a_vhat (l_adapt p) | XMinv => a_minv (l_adapt p)
  | XVec => l_vec p | XParam => data (l_val p) | XMom | XHist => []
  end.
Definition rel_mem (ps : nat -> rstate T) (x : gvar) : value :=
  let p := ps (snd x) in
  match fst x with
  | XMom => [r_mom p] | XVec => r_vec p | XParam => data (r_val p) | _ => []
  end.

(** The state of parameter [i] in a memory; its shape [sh] is static. *)
Definition adapt_in (m : gvar -> value) (i : nat) : adapt T :=
  {| a_tau := m (XTau, i); a_r := m (XR, i); a_g := m (XG, i); a_vhat := m (XVhat, i);
     a_minv := m (XMinv, i) |}.
Definition sghmc_in (m : gvar -> value) (sh : list nat) (i : nat) : pstate T :=
  {| p_adapt := adapt_in m i; p_mom := m (XMom, i); p_vec := m (XVec, i);
     p_val := {| shape := sh; data := m (XParam, i) |} |}.
Definition sgld_in (m : gvar -> value) (sh : list nat) (i : nat) : lstate T :=
  {| l_adapt := adapt_in m i; l_vec := m (XVec, i);
     l_val := {| shape := sh; data := m (XParam, i) |} |}.
Definition rel_in (m : gvar -> value) (sh : list nat) (i : nat) : rstate T :=
  {| r_mom := hd n0 (m (XMom, i)); r_vec := m (XVec, i);
     r_val := {| shape := sh; data := m (XParam, i) |} |}.

(** All variables with given contents, no op executed yet. *)
Definition start (m : gvar -> value) : exec gnode gvar value := {| mem := m; out := fun _ => [] |}.
End S.

(** *** SVGD, svgd.py:85-144: n particles of dimension d; values are matrices, a particle
    being a matrix of one row *)
Section SVGD.
Context {T : Type} `{Num T} `{NumT T}.
Notation value := (list (list T)).
Notation ops := (op gnode gvar value).
Variable snapshots : bool.
Definition mval (x : gvar) : input gnode gvar value := if snapshots then Out (Read x) else Var x.
Variable c : sconfig T.
Variable eps : T.
Variables n d : nat.
(** Cost of each particle and its gradients, as functions of the stacked particles (87-90,
    121) *)
Variable cost_fun lnpgrad : list (list T) -> list (list T).

Definition svgd_op (k : gnode) : ops :=
  match k with
  | Node OStack _ =>                                                     (* 85 *)
      {| inputs := map (fun j => mval (XParam, j)) (seq 0 n); control := []; target := None;
         compute := @concat (list T) |}
  | Node OPhi _ =>                                                       (* 121-128 *)
      {| inputs := [Out (Node OStack 0)]; control := []; target := None;
         compute := fun l => let X := nth 0 l [] in
           match svgd_grad n d X (lnpgrad X) with Ok g => g | Raise _ => [] end |}
  | Node OHist _ =>                                                      (* 130-133 *)
      {| inputs := [mval (XHist, 0); Out (Node OPhi 0)]; control := []; target := Some (XHist, 0);
         compute := fun l =>
           mmap2 (fun h y => (s_alpha c * h + (n1 - s_alpha c) * npow y 2)%num) (nth 0 l []) (nth 1 l []) |}
  | Node OAdj _ =>                                                       (* 135-138 *)
      {| inputs := [Out (Node OPhi 0); Var (XHist, 0)]; control := [Node OHist 0]; target := None;
         compute := fun l =>
           mmap2 (fun y h => (y / (s_fudge c + nsqrt h))%num) (nth 0 l []) (nth 1 l []) |}
  | Node OTheta i =>                                                     (* 140-144 *)
      {| inputs := [Var (XParam, i); Out (Node OAdj 0)]; control := []; target := Some (XParam, i);
         compute := fun l =>
           mmap2 (fun x a => (x - eps * a)%num) (nth 0 l []) [nth i (nth 1 l []) []] |}
  | Cost =>                                                              (* 87-88 *)
      {| inputs := [Out (Node OStack 0)]; control := []; target := None;
         compute := fun l => cost_fun (nth 0 l []) |}
  | Read x => {| inputs := [Var x]; control := []; target := None; compute := fun l => nth 0 l [] |}
  | Node _ _ => {| inputs := []; control := []; target := None; compute := fun _ => [] |}
  end.
Definition svgd_nodes : list gnode :=
  [Node OStack 0; Node OPhi 0; Node OHist 0; Node OAdj 0; Cost] ++
  map (fun i => Node OTheta i) (seq 0 n) ++
  if snapshots then Read (XHist, 0) :: map (fun j => Read (XParam, j)) (seq 0 n) else [].
Definition svgd_mem (X H : list (list T)) (x : gvar) : value :=
  match x with (XParam, j) => [nth j X []] | (XHist, _) => H | _ => [] end.
Definition svgd_start (X H : list (list T)) : exec gnode gvar value :=
  {| mem := svgd_mem X H; out := fun _ => [] |}.
End SVGD.
