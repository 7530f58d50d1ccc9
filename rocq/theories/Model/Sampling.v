(** Model of pysgmcmc/sampling.py and of the argument handling of the sampler
    constructors. *)
From Coq Require Import String List Arith ZArith Bool.
From Verif.Base Require Import Py.
Import ListNotations.
Local Open Scope list_scope.
Local Open Scope string_scope.

(** The enum, sampling.py:8-11 *)
Inductive method := SGHMC | RelativisticSGHMC | SGLD | SVGD.
(** First argument of the functions below: a member or any other value. *)
Inductive mval := MMember (m : method) | MOther (v : pyval).

(** is_burn_in_mcmc, sampling.py:40, and is_supported, sampling.py:64 *)
Definition is_burn_in_mcmc (v : mval) : bool :=
  match v with MMember SGHMC | MMember SGLD => true | _ => false end.
Definition is_supported (v : mval) : bool :=
  match v with MMember SGHMC | MMember SGLD => true | _ => false end.

(** *** Values passed to constructors *)
(** What the constructors look at in an arbitrary object. *)
Record traits := Traits {
  t_next : bool; t_update : bool; t_initial : bool;     (* hasattr __next__, update, initial_value *)
  t_callable : bool; t_name : bool;                     (* callable, hasattr __name__ *)
  t_session : bool                                      (* tf.Session or tf.InteractiveSession *)
}.
Inductive value :=
| VPy (v : pyval)
| VConst (num : Z) (den : positive)      (* a ConstantStepsizeSchedule object *)
| VDType (name : string)                 (* a tf.DType *)
| VObj (id : nat) (t : traits).          (* any other object *)

Definition v_none (v : value) : bool := match v with VPy PNone => true | _ => false end.
Definition v_int (v : value) : bool := match v with VPy p => is_int p | _ => false end.
Definition v_number (v : value) : bool :=
  match v with VPy (PInt _) | VPy (PBool _) | VPy (PFloat _ _) => true | _ => false end.
Definition v_next (v : value) : bool := match v with VConst _ _ => true | VObj _ t => t_next t | _ => false end.
Definition v_update (v : value) : bool := match v with VConst _ _ => true | VObj _ t => t_update t | _ => false end.
Definition v_initial (v : value) : bool := match v with VConst _ _ => true | VObj _ t => t_initial t | _ => false end.
Definition v_callable (v : value) : bool := match v with VObj _ t => t_callable t | _ => false end.
Definition v_name (v : value) : bool := match v with VObj _ t => t_name t | VDType _ => true | _ => false end.
Definition v_session (v : value) : bool := match v with VObj _ t => t_session t | _ => false end.
Definition v_dtype (v : value) : bool := match v with VDType _ => true | _ => false end.

Definition float (num : Z) (den : positive) : value := VPy (PFloat num den).

Definition kwargs := list (string * value).
Fixpoint get (kw : kwargs) (n : string) : option value :=
  match kw with
  | [] => None
  | (k, v) :: kw' => if n =? k then Some v else get kw' n
  end.
Definition has {A} (l : list (string * A)) (n : string) : bool := existsb (fun '(k, _) => n =? k) l.

Section S.

(** [tf.get_default_session()] when the sampler modules were imported: the default
    of [session] in every constructor. *)
Variable import_session : value.

(** inspect.signature(Class.__init__).parameters: names in order with their defaults
    (sghmc.py:30-33, sgld.py:32-35, relativistic_sghmc.py:24-27, svgd.py:23-26). *)
Definition signature (m : method) : list (string * option value) :=
  match m with
  | SGHMC =>
      [("self", None); ("params", None); ("cost_fun", None); ("batch_generator", Some (VPy PNone));
       ("stepsize_schedule", Some (VConst 1 100)); ("burn_in_steps", Some (VPy (PInt 3000)));
       ("mdecay", Some (float 1 20)); ("scale_grad", Some (float 1 1));
       ("session", Some import_session); ("dtype", Some (VDType "float64")); ("seed", Some (VPy PNone))]
  | SGLD =>
      [("self", None); ("params", None); ("cost_fun", None); ("batch_generator", Some (VPy PNone));
       ("stepsize_schedule", Some (VConst 1 100)); ("burn_in_steps", Some (VPy (PInt 3000)));
       ("A", Some (float 1 1)); ("scale_grad", Some (float 1 1));
       ("session", Some import_session); ("dtype", Some (VDType "float64")); ("seed", Some (VPy PNone))]
  | RelativisticSGHMC =>
      [("self", None); ("params", None); ("cost_fun", None); ("batch_generator", Some (VPy PNone));
       ("stepsize_schedule", Some (VConst 1 1000)); ("mass", Some (float 1 1));
       ("speed_of_light", Some (float 1 1)); ("D", Some (float 1 1)); ("Bhat", Some (float 0 1));
       ("session", Some import_session); ("dtype", Some (VDType "float64")); ("seed", Some (VPy PNone))]
  | SVGD =>
      [("self", None); ("particles", None); ("cost_fun", None); ("batch_generator", Some (VPy PNone));
       ("stepsize_schedule", Some (VConst 1 10)); ("alpha", Some (float 9 10));
       ("fudge_factor", Some (float 1 1000000));
       ("session", Some import_session); ("dtype", Some (VDType "float64")); ("seed", Some (VPy PNone))]
  end.

(** Binding of keyword arguments to parameters; [missing] is the exception for a
    parameter that has neither an argument nor a default (sampling.py:231-265). *)
Fixpoint resolve (missing : exn) (sig : list (string * option value)) (kw : kwargs) : res kwargs :=
  match sig with
  | [] => Ok []
  | (n, d) :: sig' =>
      do v <- match get kw n, d with
              | Some v, _ => Ok v                                        (* 265 *)
              | None, Some v => Ok v
              | None, None => Raise missing                              (* 254-263 *)
              end;
      do rest <- resolve missing sig' kw;
      Ok ((n, v) :: rest)
  end.
Definition without_self (sig : list (string * option value)) : list (string * option value) :=
  filter (fun '(n, _) => negb (n =? "self")) sig.

(** The arguments get_sampler passes to the constructor, sampling.py:175-271.  Keywords named
    like its own parameters collide with them. *)
Definition bind_args (v : mval) (kw : kwargs) : res (method * kwargs) :=
  if existsb (fun '(k, _) => (k =? "cls") || (k =? "sampling_method")) kw then Raise TypeError else
  match v with
  | MOther _ => Raise ValueError                                         (* 187-193 *)
  | MMember m =>
      if existsb (fun '(k, _) => negb (has (signature m) k)) kw
      then Raise ValueError                                              (* 204-229 *)
      else do args <- resolve ValueError (without_self (signature m)) kw;   (* 267-271 *)
           Ok (m, args)
  end.

(** *** Constructors *)
(** Attributes of the constructed object that come from the arguments. *)
Record sampler_obj := SamplerObj {
  so_method : method;
  so_params : value; so_cost_fun : value; so_batch_generator : value;
  so_schedule : value;                    (* self.stepsize_schedule *)
  so_burn_in : option value; so_session : value; so_dtype : value; so_seed : value;
  so_constants : kwargs                   (* the remaining arguments *)
}.

(** Everything the constructors do with TensorFlow (stacking the particles,
    building the graph, running initializers): may fail. *)
Variable stack : value -> res unit.
Variable build : method -> kwargs -> res unit.

Definition arg (kw : kwargs) (n : string) : value := match get kw n with Some v => v | None => VPy PNone end.

(** MCMCSampler.__init__, base_classes.py:73-122.  [sched] is the schedule
    it receives. *)
Definition base_init (m : method) (params : string) (sched : value) (burn_in : option value) (kw : kwargs)
  : res sampler_obj :=
  do _ <- assert_ (v_none (arg kw "batch_generator") || v_next (arg kw "batch_generator"));   (* 73 *)
  do _ <- assert_ (v_none (arg kw "seed") || v_int (arg kw "seed"));     (* 74 *)
  do _ <- assert_ (v_session (arg kw "session"));                        (* 76 *)
  do _ <- assert_ (v_dtype (arg kw "dtype"));                            (* 77 *)
  do _ <- assert_ (v_callable (arg kw "cost_fun"));                      (* 79 *)
  do _ <- assert_ (v_update sched);                                      (* 87 *)
  do _ <- assert_ (v_next sched);                                        (* 88 *)
  do _ <- assert_ (v_initial sched);                                     (* 89 *)
  do _ <- build m kw;
  Ok {| so_method := m; so_params := arg kw params; so_cost_fun := arg kw "cost_fun";
        so_batch_generator := arg kw "batch_generator"; so_schedule := sched; so_burn_in := burn_in;
        so_session := arg kw "session"; so_dtype := arg kw "dtype"; so_seed := arg kw "seed";
        so_constants := filter (fun '(k, _) =>
          (k =? "mdecay") || (k =? "A") || (k =? "scale_grad") || (k =? "mass") || (k =? "speed_of_light")
          || (k =? "D") || (k =? "Bhat") || (k =? "alpha") || (k =? "fudge_factor")) kw |}.

(** The constructors on complete keyword arguments: sghmc.py:102-107, sgld.py:96-100
    (no stepsize_schedule passed on: the base class default is used),
    relativistic_sghmc.py:91-95, svgd.py:81-98; BurnInMCMCSampler.__init__,
    base_classes.py:377-384. *)
Definition construct (m : method) (kw : kwargs) : res sampler_obj :=
  match m with
  | SGHMC =>
      do _ <- assert_ (v_int (arg kw "burn_in_steps"));
      base_init m "params" (arg kw "stepsize_schedule") (Some (arg kw "burn_in_steps")) kw
  | SGLD =>
      do _ <- assert_ (v_int (arg kw "burn_in_steps"));
      base_init m "params" (VConst 1 100) (Some (arg kw "burn_in_steps")) kw
  | RelativisticSGHMC => base_init m "params" (arg kw "stepsize_schedule") None kw
  | SVGD =>
      do _ <- assert_ (v_number (arg kw "alpha"));                       (* 81 *)
      do _ <- assert_ (v_number (arg kw "fudge_factor"));
      do _ <- assert_ (v_callable (arg kw "cost_fun"));
      do _ <- stack (arg kw "particles");                                (* 85 *)
      do _ <- (if v_name (arg kw "cost_fun") then Ok tt else Raise AttributeError);   (* 90 *)
      base_init m "particles" (arg kw "stepsize_schedule") None kw
  end.

(** get_sampler, sampling.py:67-273 *)
Definition get_sampler (v : mval) (kw : kwargs) : res sampler_obj :=
  do (m, args) <- bind_args v kw; construct m args.

(** [Class( **kw)]: Python's own binding of keyword arguments. *)
Definition call_class (m : method) (kw : kwargs) : res sampler_obj :=
  if existsb (fun '(k, _) => (k =? "self") || negb (has (signature m) k)) kw then Raise TypeError
  else do args <- resolve TypeError (without_self (signature m)) kw; construct m args.

End S.
