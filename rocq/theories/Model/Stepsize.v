(** Model of pysgmcmc/stepsize_schedules.py. *)
From Coq Require Import List.
From Verif.Base Require Import Py.
Import ListNotations.

(** A stepsize schedule as seen by a sampler: an object with [initial_value],
    [__next__] and [update(params, cost)] (stepsize_schedules.py:4-34,
    required by base_classes.py:87-89).  [SS] is the state of the object, [A]
    the arguments passed to [update], [V] the stepsizes. *)
Record schedule (V A : Type) := Schedule {
  sch_state : Type;
  sch_initial : sch_state -> V;
  sch_next : sch_state -> res V * sch_state;
  sch_update : A -> sch_state -> res unit * sch_state
}.
Arguments sch_state {V A}.
Arguments sch_initial {V A}.
Arguments sch_next {V A}.
Arguments sch_update {V A}.

(** ConstantStepsizeSchedule, stepsize_schedules.py:37-91.  The object's only
    attribute is [initial_value] (line 9). *)
Definition constant_schedule (V A : Type) : schedule V A :=
  {| sch_state := V;                                   (* self.initial_value *)
     sch_initial := fun s => s;
     sch_next := fun s => (Ok s, s);                   (* line 64 *)
     sch_update := fun _ s => (Ok tt, s)               (* lines 89-91: pass *)
  |}.

(** A client's sequence of calls on a schedule object. *)
Inductive sch_call (A : Type) := CallNext | CallUpdate (a : A).
Arguments CallNext {A}.
Arguments CallUpdate {A} a.

Fixpoint sch_drive {V A} (S : schedule V A) (cs : list (sch_call A)) (s : sch_state S)
  : list (res (option V)) * sch_state S :=
  match cs with
  | [] => ([], s)
  | CallNext :: cs' =>
      let '(r, s1) := sch_next S s in
      let '(rs, s2) := sch_drive S cs' s1 in
      ((do v <- r; Ok (Some v)) :: rs, s2)
  | CallUpdate a :: cs' =>
      let '(r, s1) := sch_update S a s in
      let '(rs, s2) := sch_drive S cs' s1 in
      ((do _ <- r; Ok None) :: rs, s2)
  end.
