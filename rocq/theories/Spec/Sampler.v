(** What the sampler-loop properties C09-C14 mean, in terms of the calls a
    sampler makes to its batch generator, schedule and session. *)
From Coq Require Import List Arith ZArith Bool.
From Verif.Base Require Import Py.
From Verif.Model Require Import Stepsize BaseClasses.
Import ListNotations.

Section S.
Context {V : Type}.
Variable E : env V.

(** The batch (if any) drawn at the start of a step.  *)
Definition batch_events (evs : list (event V)) (b : list (nat * V)) : Prop :=
  match bg_next E with
  | Some _ => evs = [EvBatch (Ok b)]
  | None => evs = [] /\ b = []
  end.

Fixpoint assoc (b : list (nat * V)) (n : nat) : option V :=
  match b with
  | [] => None
  | (m, v) :: b' => if n =? m then Some v else assoc b' n
  end.

(** The dictionary fed to the session: stepsize, then batch, then whatever was in
    the dictionary before. *)
Definition feed_ok (base : feed V) (b : list (nat * V)) (eps : V) (f : feed V) : Prop :=
  lookup f KEps = Some eps /\
  (forall n, lookup f (KUser n) =
             match assoc b n with Some v => Some v | None => lookup base (KUser n) end) /\
  (forall i, lookup f (KMinv i) = lookup base (KMinv i)).

(** The possible outcomes of one sampler step, as result + calls made, when the
    feed dictionary starts as [base] and the parameter values are presented to
    the user by [fmt]. *)
Inductive step_outcome (base : feed V) (fmt : list V -> sample V)
  : res (sample V * V) -> list (event V) -> Prop :=
| SO_batch_fails : forall e,
    bg_next E <> None ->
    step_outcome base fmt (Raise e) [EvBatch (Raise e)]
| SO_stepsize_fails : forall evb b e,
    batch_events evb b ->
    step_outcome base fmt (Raise e) (evb ++ [EvStepsize (Raise e)])
| SO_run_fails : forall evb b eps f e,
    batch_events evb b -> feed_ok base b eps f ->
    step_outcome base fmt (Raise e) (evb ++ [EvStepsize (Ok eps); EvRun f (Raise e)])
| SO_update_fails : forall evb b eps f o e,
    batch_events evb b -> feed_ok base b eps f ->
    step_outcome base fmt (Raise e)
      (evb ++ [EvStepsize (Ok eps); EvRun f (Ok o);
               EvUpdate (fmt (o_theta o)) (o_cost o) (Raise e)])
| SO_ok : forall evb b eps f o,
    batch_events evb b -> feed_ok base b eps f ->
    step_outcome base fmt (Ok (fmt (o_theta o), o_cost o))
      (evb ++ [EvStepsize (Ok eps); EvRun f (Ok o);
               EvUpdate (fmt (o_theta o)) (o_cost o) (Ok tt)]).

(** How parameter values are presented: a list, or bare if there is only one. *)
Definition as_list (l : list V) : sample V := SList l.
Definition unravel (l : list V) : sample V :=
  match l with [v] => SBare v | _ => SList l end.

(** Content of the caller's dictionary; [None]: no dictionary passed. *)
Definition user_content (u : option (feed V)) : feed V :=
  match u with Some f => f | None => [] end.

(** Number of successful calls. *)
Definition succeeded (c : call_record E) : bool := is_ok (cr_res E c).
Definition successes (cs : list (call_record E)) : nat := length (filter succeeded cs).

(** All calls made to the batch generator / runs made, in order. *)
Definition batch_results (evs : list (event V)) : list (res (list (nat * V))) :=
  flat_map (fun ev => match ev with EvBatch r => [r] | _ => [] end) evs.
Definition stepsize_results (evs : list (event V)) : list (res V) :=
  flat_map (fun ev => match ev with EvStepsize r => [r] | _ => [] end) evs.
Definition runs (evs : list (event V)) : list (feed V * res (outputs V)) :=
  flat_map (fun ev => match ev with EvRun f r => [(f, r)] | _ => [] end) evs.
Definition updates (evs : list (event V)) : list (sample V * V * res unit) :=
  flat_map (fun ev => match ev with EvUpdate s c r => [(s, c, r)] | _ => [] end) evs.
Definition all_events (cs : list (call_record E)) : list (event V) :=
  flat_map (cr_events E) cs.

(** The calls seen by the schedule object, and their results. *)
Definition sched_calls (evs : list (event V)) : list (sch_call (sample V * V)) :=
  flat_map (fun ev => match ev with
    | EvStepsize _ => [CallNext]
    | EvUpdate s c _ => [CallUpdate (s, c)]
    | _ => [] end) evs.
Definition sched_results (evs : list (event V)) : list (res (option V)) :=
  flat_map (fun ev => match ev with
    | EvStepsize r => [do v <- r; Ok (Some v)]
    | EvUpdate _ _ r => [do _ <- r; Ok None]
    | _ => [] end) evs.

(** Running the session on a list of feeds. *)
Fixpoint run_all (fs : list (feed V)) (z : sess_state E)
  : list (res (outputs V)) * sess_state E :=
  match fs with
  | [] => ([], z)
  | f :: fs' =>
      let '(r, z1) := run E f z in
      let '(rs, z2) := run_all fs' z1 in (r :: rs, z2)
  end.

(** The first [k] results of the batch generator, called repeatedly. *)
Fixpoint stream {S A} (nx : S -> res A * S) (s : S) (k : nat) : list (res A) :=
  match k with
  | 0 => []
  | S k' => let '(r, s') := nx s in r :: stream nx s' k'
  end.

End S.
