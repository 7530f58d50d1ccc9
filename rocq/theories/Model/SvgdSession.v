(** The TensorFlow session as used by SVGDSampler (pysgmcmc/samplers/svgd.py): what [session.run] on the
    sampler's tensors returns and leaves behind.  With Model/BaseClasses.v ([mcmc_next]) this
    gives the complete run of the sampler. *)
From Coq Require Import List Arith ZArith Bool.
From Verif.Base Require Import Py Num Vec.
From Verif.Model Require Import TensorUtils SVGD Stepsize BaseClasses.
Import ListNotations.

Section S.
Context {T : Type} `{Num T} `{NumT T}.

(** The stepsize variable, the particles (rows), historical_grad (svgd.py:104-115). *)
Record vsess := VSess { v_eps : T; v_particles : list (list T); v_hist : list (list T) }.

Fixpoint each {A B} (f : A -> res B) (l : list A) : res (list B) :=
  match l with
  | [] => Ok []
  | a :: l' => do b <- f a; do bs <- each f l'; Ok (b :: bs)
  end.

Variable c : sconfig T.
Variable d : nat.                                          (* length of a particle *)
(** cost_fun on one particle, with its gradient, for a feed of user placeholders. *)
Definition particle_cost := list T -> (nat -> option (tensor T)) -> res (T * list T).
Variable cost_grad : particle_cost.

(** [session.run([theta_t, cost], feed_dict)] (base_classes.py:298): cost_fun is mapped over the particles
    (svgd.py:87-88); the gradients of the vector of costs with respect to the stacked particles (121) are those of the
    sum of its entries, so row i is the gradient of cost_fun at particle i.  Costs and
    gradients are those of the particles before the run (see C34); a failing run leaves the variables alone. *)
Definition svgd_session_run (f : feed (tensor T)) (z : vsess) : res (outputs (tensor T)) * vsess :=
  let X := v_particles z in
  match each (fun x => cost_grad x (fun n => lookup f (KUser n))) X with
  | Raise e => (Raise e, z)
  | Ok cgs =>
      let eps := match lookup f KEps with Some t => hd n0 (data t) | None => v_eps z end in
      match svgd_step c eps (length X) d X (map snd cgs) (v_hist z) with
      | Raise e => (Raise e, z)
      | Ok (X', H') =>
          (Ok {| o_theta := map (fun x => {| shape := [d]; data := x |}) X';            (* 140-144 *)
                 o_cost := {| shape := [length X]; data := map fst cgs |};
                 o_minv := [] |},
           {| v_eps := v_eps z; v_particles := X'; v_hist := H' |})
      end
  end.

(** The sampler's environment. *)
Definition svgd_env (B : Type) (bg : option (B -> res (list (nat * tensor T)) * B))
    (sc : schedule (tensor T) (sample (tensor T) * tensor T)) : env (tensor T) :=
  {| bg_state := B; bg_next := bg; sched := sc; sess_state := vsess; run := svgd_session_run |}.

(** Right after construction (svgd.py:104-119). *)
Definition svgd_session (eps0 : T) (X : list (list T)) : vsess :=
  {| v_eps := eps0; v_particles := X; v_hist := svgd_history (length X) d |}.
End S.
Arguments vsess : clear implicits.
