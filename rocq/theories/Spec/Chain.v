(** Complete Markov chains as the samplers are meant to produce them: entry by entry over
    the reals, without tensors, feeds or sessions. *)
From Coq Require Import Reals List Arith ZArith Bool.
From Verif.Base Require Import Py.
From Verif.Model Require Import TensorUtils Stepsize BaseClasses.
From Verif.Spec Require Import Dynamics Sampler.
Import ListNotations.
Local Open Scope R_scope.

(** One scalar entry of a target parameter: its value, its momentum (SGLD: unused), the
    running averages of the burn-in adaptation, and the inverse mass last used. *)
Record entry := Entry { theta : R; momentum : R; averages : scalar; mass : R }.

(** Entry of a fresh sampler. *)
Definition start (p x : R) : entry := Entry x p scalar0 1.

(** The inverse mass of a step: re-estimated while [adapting], else that of the step before. *)
Definition mass_of (adapting : bool) (e : entry) : R :=
  if adapting then inverse_mass (s_v (averages e)) else mass e.

(** SGHMC (Springenberg et al. 2016, eq. 10) *)
Definition sghmc_entry (alpha s eps : R) (adapting : bool) (grad xi : R) (e : entry) : entry :=
  let m := mass_of adapting e in
  let p := sghmc_momentum eps alpha s m grad xi (momentum e) in
  Entry (theta e + p) p (adapt_scalar grad (averages e)) m.

(** SGLD (Chen et al. 2016, with the same preconditioner) *)
Definition sgld_entry (A s eps : R) (adapting : bool) (grad xi : R) (e : entry) : entry :=
  let m := mass_of adapting e in
  Entry (sgld_theta eps A s m grad xi (theta e)) (momentum e) (adapt_scalar grad (averages e)) m.

(** Relativistic SGHMC (Lu et al. 2017, eq. 10): mass m, speed limit c, friction D, estimate Bhat
    of the gradient noise. *)
Definition relativistic_velocity (m c p : R) : R := p / (m * sqrt (p ^ 2 / (m * c) ^ 2 + 1)).
Definition relativistic_entry (m c D Bhat eps : R) (adapting : bool) (grad xi : R) (e : entry) : entry :=
  let p := momentum e - eps * grad - eps * D * relativistic_velocity m c (momentum e)
           + sqrt (eps * (2 * D - eps * Bhat)) * xi in
  Entry (theta e + eps * relativistic_velocity m c p) p (averages e) (mass e).

(** A target parameter: shape, entries in row-major order, seeds of its noise and the number of
    variates used up. *)
Record parameter := Param { dims : list nat; entries : list entry; seeds : Z * Z; used : nat }.
Definition value (p : parameter) : tensor R := Tensor (dims p) (map theta (entries p)).

Section Chain.
Variable rule : R -> bool -> R -> R -> entry -> entry.    (* stepsize, adapting, gradient, noise *)
Variable variate : Z * Z -> nat -> R.                     (* standard normals of a pair of seeds *)
Variable reserve : nat -> nat.                            (* variates used up by a draw *)
Variable target : list (tensor R) -> (nat -> option (tensor R)) -> res (R * list (list R)).

(** All entries, from the [i]-th variate on. *)
Fixpoint moved (eps : R) (adapting : bool) (noise : nat -> R) (i : nat) (gs : list R) (es : list entry)
  : list entry :=
  match gs, es with
  | g :: gs', e :: es' => rule eps adapting g (noise i) e :: moved eps adapting noise (S i) gs' es'
  | _, _ => []
  end.
Definition move (eps : R) (adapting : bool) (gs : list R) (p : parameter) : parameter :=
  {| dims := dims p;
     entries := moved eps adapting (variate (seeds p)) (used p) gs (entries p);
     seeds := seeds p;
     used := (used p + reserve (length (entries p)))%nat |}.
Fixpoint moves (eps : R) (adapting : bool) (gss : list (list R)) (ps : list parameter)
  : option (list parameter) :=
  match gss, ps with
  | [], [] => Some []
  | gs :: gss', p :: ps' =>
      if (length gs =? length (entries p))%nat then
        option_map (cons (move eps adapting gs p)) (moves eps adapting gss' ps')
      else None
  | _, _ => None
  end.

(** One transition: cost and gradients at the values before it, then all parameters. *)
Definition transition (eps : R) (adapting : bool) (user : nat -> option (tensor R)) (ps : list parameter)
  : option (R * list parameter) :=
  match target (map value ps) user with
  | Ok (cost, gss) => option_map (pair cost) (moves eps adapting gss ps)
  | Raise _ => None
  end.

(** What the calls of a sampler do, for a plan that says after how many successful calls the mass
    is still adapted, the caller's dictionary still heeded, and how samples look. *)
Record plan := Plan {
  adapts : nat -> bool;
  heeds : nat -> bool;
  looks : nat -> list (tensor R) -> sample (tensor R) }.
Variable pl : plan.
Variable E : env (tensor R).

Definition number (x : R) : tensor R := Tensor [] [x].
(** The placeholders fed in a call: the batch, over the caller's dictionary. *)
Definition placeholders (t : nat) (c : call_record E) (b : list (nat * tensor R))
    (user : nat -> option (tensor R)) : Prop :=
  forall n, user n = match assoc b n with
                     | Some v => Some v
                     | None => if heeds pl t then lookup (user_content (cr_user E c)) (KUser n) else None
                     end.

(** [follows t ps calls]: from parameters [ps], after [t] successful calls. *)
Inductive follows : nat -> list parameter -> list (call_record E) -> Prop :=
| F_end : forall t ps, follows t ps []
| F_not_run : forall t ps c rest e,                      (* batch generator or schedule failed *)
    cr_res E c = Raise e -> runs (cr_events E c) = [] ->
    follows t ps rest -> follows t ps (c :: rest)
| F_run_fails : forall t ps c rest e b evb eps f user,
    cr_res E c = Raise e -> batch_events E evb b ->
    cr_events E c = evb ++ [EvStepsize (Ok eps); EvRun f (Raise e)] ->
    placeholders t c b user -> transition (hd 0 (data eps)) (adapts pl t) user ps = None ->
    follows t ps rest -> follows t ps (c :: rest)
| F_update_fails : forall t ps c rest e b evb eps f o user cost ps',
    cr_res E c = Raise e -> batch_events E evb b ->
    transition (hd 0 (data eps)) (adapts pl t) user ps = Some (cost, ps') ->
    cr_events E c = evb ++ [EvStepsize (Ok eps); EvRun f (Ok o);
                            EvUpdate (looks pl t (map value ps')) (number cost) (Raise e)] ->
    placeholders t c b user ->
    follows t ps' rest -> follows t ps (c :: rest)
| F_moves : forall t ps c rest b evb eps f o user cost ps',
    batch_events E evb b ->
    transition (hd 0 (data eps)) (adapts pl t) user ps = Some (cost, ps') ->
    cr_res E c = Ok (looks pl t (map value ps'), number cost) ->
    cr_events E c = evb ++ [EvStepsize (Ok eps); EvRun f (Ok o);
                            EvUpdate (looks pl t (map value ps')) (number cost) (Ok tt)] ->
    placeholders t c b user ->
    follows (S t) ps' rest -> follows t ps (c :: rest).
End Chain.

(** Burn-in of [n] steps (none if n <= 0: then the mass is adapted for ever). *)
Definition burn_in_plan (n : Z) : plan :=
  let early t := (Z.of_nat t <? n)%Z || (n <=? 0)%Z in
  {| adapts := early; heeds := early;
     looks := fun t l => if (Z.of_nat t <? n)%Z then SList l else unravel l |}.
Definition plain_plan : plan :=
  {| adapts := fun _ => true; heeds := fun _ => true; looks := fun _ => unravel |}.

(** Parameter of a freshly built sampler: initial momentum [p], initial value [v]. *)
Definition fresh (p : R) (v : tensor R) (k : Z * Z) : parameter :=
  Param (shape v) (map (start p) (data v)) k 0.
