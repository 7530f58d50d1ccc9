(** The documented constructor interfaces: required parameters, optional ones with
    their documented defaults (docstrings of the four samplers). *)
From Coq Require Import String List ZArith Bool.
From Verif.Base Require Import Py.
From Verif.Model Require Import Sampling.
Import ListNotations.
Local Open Scope list_scope.
Local Open Scope string_scope.

Definition required (m : method) : list string :=
  match m with SVGD => ["particles"; "cost_fun"] | _ => ["params"; "cost_fun"] end.

(** [session]'s documented default, the default session, is left open here. *)
Definition optional (import_session : value) (m : method) : list (string * value) :=
  [("batch_generator", VPy PNone); ("session", import_session); ("dtype", VDType "float64"); ("seed", VPy PNone)] ++
  match m with
  | SGHMC => [("stepsize_schedule", VConst 1 100); ("burn_in_steps", VPy (PInt 3000)); ("mdecay", VPy (PFloat 1 20)); ("scale_grad", VPy (PFloat 1 1))]
  | SGLD => [("stepsize_schedule", VConst 1 100); ("burn_in_steps", VPy (PInt 3000)); ("A", VPy (PFloat 1 1)); ("scale_grad", VPy (PFloat 1 1))]
  | RelativisticSGHMC => [("stepsize_schedule", VConst 1 1000); ("mass", VPy (PFloat 1 1)); ("speed_of_light", VPy (PFloat 1 1)); ("D", VPy (PFloat 1 1)); ("Bhat", VPy (PFloat 0 1))]
  | SVGD => [("stepsize_schedule", VConst 1 10); ("alpha", VPy (PFloat 9 10)); ("fudge_factor", VPy (PFloat 1 1000000))]
  end.

Definition parameter (import_session : value) (m : method) (n : string) : Prop :=
  In n (required m) \/ In n (map fst (optional import_session m)).

(** The value parameter n must receive. *)
Definition expected (import_session : value) (m : method) (kw : kwargs) (n : string) (v : value) : Prop :=
  In (n, v) kw \/ (~ In n (map fst kw) /\ In (n, v) (optional import_session m)).


(** *** What the constructors demand of their arguments, kind by kind. *)
Definition none_value (v : value) : Prop := v = VPy PNone.
Definition int_kind (v : value) : Prop := (exists z, v = VPy (PInt z)) \/ (exists b, v = VPy (PBool b)).
Definition number_kind (v : value) : Prop := int_kind v \/ exists n d, v = VPy (PFloat n d).
Definition dtype_kind (v : value) : Prop := exists n, v = VDType n.
Definition session_kind (v : value) : Prop := exists i t, v = VObj i t /\ t_session t = true.
Definition function_kind (v : value) : Prop := exists i t, v = VObj i t /\ t_callable t = true.
Definition iterator_kind (v : value) : Prop :=
  (exists n d, v = VConst n d) \/ (exists i t, v = VObj i t /\ t_next t = true).
Definition schedule_kind (v : value) : Prop :=
  (exists n d, v = VConst n d) \/
  (exists i t, v = VObj i t /\ t_next t = true /\ t_update t = true /\ t_initial t = true).

(** The arguments as a function from names to values. *)
Definition admissible (m : method) (a : string -> value) : Prop :=
  (none_value (a "batch_generator") \/ iterator_kind (a "batch_generator")) /\
  (none_value (a "seed") \/ int_kind (a "seed")) /\
  session_kind (a "session") /\ dtype_kind (a "dtype") /\ function_kind (a "cost_fun") /\
  match m with
  | SGHMC => schedule_kind (a "stepsize_schedule") /\ int_kind (a "burn_in_steps")
  | SGLD => int_kind (a "burn_in_steps")
  | RelativisticSGHMC => schedule_kind (a "stepsize_schedule")
  | SVGD => schedule_kind (a "stepsize_schedule") /\ number_kind (a "alpha") /\ number_kind (a "fudge_factor")
  end.

(** The attribute of a sampler that stands for a constructor parameter. *)
Definition attribute (o : sampler_obj) (n : string) : option value :=
  if (n =? "params") || (n =? "particles") then Some (so_params o)
  else if n =? "cost_fun" then Some (so_cost_fun o) else if n =? "batch_generator" then Some (so_batch_generator o)
  else if n =? "stepsize_schedule" then Some (so_schedule o) else if n =? "burn_in_steps" then so_burn_in o
  else if n =? "session" then Some (so_session o) else if n =? "dtype" then Some (so_dtype o) else if n =? "seed" then Some (so_seed o)
  else get (so_constants o) n.
