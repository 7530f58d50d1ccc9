(** Model of the control flow of pysgmcmc/samplers/base_classes.py:
    MCMCSampler.__next__ and BurnInMCMCSampler.__next__. *)
From Coq Require Import List Arith ZArith Bool.
From Verif.Base Require Import Py.
From Verif.Model Require Import Stepsize.
Import ListNotations.

Section Sampler.

(** Python objects that are only passed around: arrays, stepsizes, costs. *)
Context {V : Type}.

(** Keys of a feed dictionary: placeholders or other tensors of the user, the
    stepsize variable [self.epsilon], and the tensors [self.minv_t[i]]. *)
Inductive key := KUser (n : nat) | KEps | KMinv (i : nat).
Definition key_eqb (a b : key) : bool :=
  match a, b with
  | KUser n, KUser m => n =? m
  | KEps, KEps => true
  | KMinv i, KMinv j => i =? j
  | _, _ => false
  end.

(** Dictionaries: association lists, newest binding first. *)
Definition feed := list (key * V).
Fixpoint lookup (f : feed) (k : key) : option V :=
  match f with
  | [] => None
  | (k', v) :: f' => if key_eqb k k' then Some v else lookup f' k
  end.
(** [d.update(e)]; within [e] keys are distinct, as in a Python dict. *)
Definition update (d e : feed) : feed := e ++ d.

(** A batch yielded by the batch generator: placeholder -> array. *)
Definition batch_dict := list (nat * V).
Definition batch_feed (b : batch_dict) : feed := map (fun '(p, v) => (KUser p, v)) b.

(** [sample] as returned to the user: a list of arrays, or a bare array. *)
Inductive sample := SList (l : list V) | SBare (v : V).

(** What one session run returns: [theta_t], [cost], [minv_t]. *)
Record outputs := Outputs { o_theta : list V; o_cost : V; o_minv : list V }.

(** The environment of a sampler.
    - [bg]: the batch generator, [None] if no generator was given;
    - [sched]: the stepsize schedule;
    - [run]: [session.run] on the sampler's graph with a feed dictionary; the
      state is everything held by the session (all TensorFlow variables, RNG
      states); an exception may leave the state changed. *)
Record env := Env {
  bg_state : Type;
  bg_next : option (bg_state -> res batch_dict * bg_state);
  sched : schedule V (sample * V);
  sess_state : Type;
  run : feed -> sess_state -> res outputs * sess_state
}.
Variable E : env.

(** Attributes of a sampler object that change over time. *)
Record state := State {
  n_iterations : nat;                    (* base_classes.py:83 *)
  minv : option (list V);                (* attribute [minv], set at line 438 *)
  s_bg : bg_state E;
  s_sched : sch_state (sched E);
  s_sess : sess_state E;
  s_user : feed                          (* content of the dict passed by the caller *)
}.

(** Calls a sampler makes to its environment, as they happen. *)
Inductive event :=
| EvBatch (r : res batch_dict)
| EvStepsize (r : res V)
| EvRun (f : feed) (r : res outputs)
| EvUpdate (s : sample) (c : V) (r : res unit).

(** State, exceptions and the list of events of a call. *)
Definition M (A : Type) := state -> res A * state * list event.
Definition ret {A} (a : A) : M A := fun s => (Ok a, s, []).
Definition mbind {A B} (m : M A) (k : A -> M B) : M B := fun s =>
  match m s with
  | (Ok a, s1, e1) => let '(r, s2, e2) := k a s1 in (r, s2, e1 ++ e2)
  | (Raise e, s1, e1) => (Raise e, s1, e1)
  end.
Definition mraise {A} (e : exn) : M A := fun s => (Raise e, s, []).
Notation "'let!' x := m 'in' k" := (mbind m (fun x => k))
  (at level 200, x pattern, m at level 100, k at level 200, right associativity).

(** _next_batch, base_classes.py:190-192 *)
Definition next_batch : M feed := fun s =>
  match bg_next E with
  | None => (Ok [], s, [])                                               (* 192 *)
  | Some nx =>
      let '(r, bg') := nx (s_bg s) in                                    (* 191 *)
      (do b <- r; Ok (batch_feed b),
       {| n_iterations := n_iterations s; minv := minv s; s_bg := bg';
          s_sched := s_sched s; s_sess := s_sess s; s_user := s_user s |},
       [EvBatch r])
  end.

(** _next_stepsize, base_classes.py:195-197 *)
Definition next_stepsize : M feed := fun s =>
  let '(r, sc') := sch_next (sched E) (s_sched s) in
  (do e <- r; Ok [(KEps, e)],
   {| n_iterations := n_iterations s; minv := minv s; s_bg := s_bg s;
      s_sched := sc'; s_sess := s_sess s; s_user := s_user s |},
   [EvStepsize r]).

(** [self.session.run(..., feed_dict=f)] *)
Definition session_run (f : feed) : M outputs := fun s =>
  let '(r, ss') := run E f (s_sess s) in
  (r,
   {| n_iterations := n_iterations s; minv := minv s; s_bg := s_bg s;
      s_sched := s_sched s; s_sess := ss'; s_user := s_user s |},
   [EvRun f r]).

(** [self.stepsize_schedule.update(params, cost)] *)
Definition schedule_update (p : sample) (c : V) : M unit := fun s =>
  let '(r, sc') := sch_update (sched E) (p, c) (s_sched s) in
  (r,
   {| n_iterations := n_iterations s; minv := minv s; s_bg := s_bg s;
      s_sched := sc'; s_sess := s_sess s; s_user := s_user s |},
   [EvUpdate p c r]).

(** [self.n_iterations += 1] *)
Definition count_iteration : M unit := fun s =>
  (Ok tt,
   {| n_iterations := S (n_iterations s); minv := minv s; s_bg := s_bg s;
      s_sched := s_sched s; s_sess := s_sess s; s_user := s_user s |}, []).

(** [self.minv = m] *)
Definition set_minv (m : list V) : M unit := fun s =>
  (Ok tt,
   {| n_iterations := n_iterations s; minv := Some m; s_bg := s_bg s;
      s_sched := s_sched s; s_sess := s_sess s; s_user := s_user s |}, []).

(** A dictionary local to [__next__]: either the caller's own dict object
    (mutated in place by [update]) or a fresh one. *)
Inductive dict_ref := UserDict | FreshDict (f : feed).

Definition dict_update (d : dict_ref) (e : feed) : M dict_ref := fun s =>
  match d with
  | UserDict =>
      (Ok UserDict,
       {| n_iterations := n_iterations s; minv := minv s; s_bg := s_bg s;
          s_sched := s_sched s; s_sess := s_sess s; s_user := update (s_user s) e |}, [])
  | FreshDict f => (Ok (FreshDict (update f e)), s, [])
  end.
Definition dict_get (d : dict_ref) : M feed := fun s =>
  match d with
  | UserDict => (Ok (s_user s), s, [])
  | FreshDict f => (Ok f, s, [])
  end.

(** The part shared by both [__next__] methods: feed the next batch and the
    next stepsize, then run the session; base_classes.py:296-300 (MCMCSampler)
    and 434-441 (BurnInMCMCSampler). *)
Definition feed_and_run (d : dict_ref) : M outputs :=
  let! b := next_batch in
  let! d1 := dict_update d b in                                          (* 296 / 434 *)
  let! e := next_stepsize in
  let! d2 := dict_update d1 e in                                         (* 297 / 435 *)
  let! f := dict_get d2 in
  session_run f.                                                         (* 298 / 438 *)

(** MCMCSampler.__next__, base_classes.py:258-310, on a dictionary [d] (the
    [feed_dict is None] case, lines 293-294, is [FreshDict []]). *)
Definition mcmc_next (d : dict_ref) : M (sample * V) :=
  let! o := feed_and_run d in                                            (* 296-300 *)
  let p := match o_theta o with
           | [v] => SBare v                                              (* 302-304 *)
           | l => SList l
           end in
  let! _ := schedule_update p (o_cost o) in                              (* 306 *)
  let! _ := count_iteration in                                           (* 308 *)
  ret (p, o_cost o).

(** Configuration of a burn-in sampler: [burn_in_steps] (any int, line 384) and
    the number of target parameters (length of [minv_t]). *)
Variable burn_in_steps : Z.
Variable n_params : nat.

(** is_burning_in, base_classes.py:406 *)
Definition is_burning_in (s : state) : bool :=
  (Z.of_nat (n_iterations s) <? burn_in_steps)%Z.

(** [dict(zip(self.minv_t, self.minv))], line 454 *)
Definition minv_feed (m : list V) : feed :=
  combine (map KMinv (seq 0 n_params)) m.

(** BurnInMCMCSampler.__next__, base_classes.py:408-456 *)
Definition burnin_next (d : dict_ref) : M (sample * V) := fun s =>
  (if is_burning_in s then                                               (* 432 *)
     let! o := feed_and_run d in                                         (* 434-441 *)
     let! _ := set_minv (o_minv o) in
     let! _ := schedule_update (SList (o_theta o)) (o_cost o) in         (* 443 *)
     let! _ := count_iteration in                                        (* 445 *)
     ret (SList (o_theta o), o_cost o)                                   (* 446 *)
   else if (0 <? burn_in_steps)%Z then                                   (* 449 *)
     match minv s with
     | None => mraise AssertionError                                     (* 451 *)
     | Some m => mcmc_next (FreshDict (minv_feed m))                     (* 454, 456 *)
     end
   else mcmc_next d) s.

(** A call of [next(sampler)] / [sampler.__next__(feed_dict)].  [None] is the
    default argument; [Some f] a dictionary with content [f], whose content
    after the call is [s_user]. *)
Definition call (nx : dict_ref -> M (sample * V)) (u : option feed) (s : state)
  : res (sample * V) * state * list event :=
  match u with
  | None => nx (FreshDict []) s
  | Some f =>
      nx UserDict {| n_iterations := n_iterations s; minv := minv s; s_bg := s_bg s;
                     s_sched := s_sched s; s_sess := s_sess s; s_user := f |}
  end.

(** A history of calls: for each call its argument, the state before, the
    result, and the events it caused. *)
Record call_record := CallRecord {
  cr_user : option feed;
  cr_pre : state;
  cr_res : res (sample * V);
  cr_events : list event;
  cr_post : state
}.

Fixpoint drive (nx : dict_ref -> M (sample * V)) (us : list (option feed)) (s : state)
  : list call_record * state :=
  match us with
  | [] => ([], s)
  | u :: us' =>
      let '(r, s1, ev) := call nx u s in
      let '(rs, s2) := drive nx us' s1 in
      ({| cr_user := u; cr_pre := s; cr_res := r; cr_events := ev; cr_post := s1 |} :: rs, s2)
  end.

(** State after the constructor (base_classes.py:73-122). *)
Definition initial_state (b0 : bg_state E) (c0 : sch_state (sched E)) (z0 : sess_state E) : state :=
  {| n_iterations := 0; minv := None; s_bg := b0; s_sched := c0; s_sess := z0; s_user := [] |}.

End Sampler.
Arguments feed : clear implicits.
Arguments env : clear implicits.
Arguments sample : clear implicits.
Arguments outputs : clear implicits.
Arguments event : clear implicits.
