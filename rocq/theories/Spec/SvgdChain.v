(** Complete runs of Stein variational gradient descent with AdaGrad, coordinate by coordinate, with the direction
    as implemented (the kernel gradient reversed, C28). *)
From Coq Require Import Reals List Arith ZArith Bool.
From Verif.Base Require Import Py.
From Verif.Model Require Import TensorUtils Stepsize BaseClasses.
From Verif.Spec Require Import Tensor Svgd Sampler.
Import ListNotations.

Section S.
Variables alpha fudge : R.
Variable d : nat.
(** minus log density of a particle and its gradient, under placeholders *)
Variable target : list R -> (nat -> option (tensor R)) -> res (R * list R).

(** Particles with gradients of the log density. *)
Definition scored (X L : list (list R)) : list (list R * list R) := combine X (map (map Ropp) L).

(** One move of n particles X with squared-gradient averages H, for gradients L of minus the log density. *)
Definition moved_particles (eps : R) (X H L X' H' : list (list R)) : Prop :=
  length X' = length X /\ length H' = length X /\ Forall (fun r => length r = d) (X' ++ H') /\
  exists h, bandwidth X h /\ (0 < h)%R /\
  forall i k, i < length X -> k < d ->
    let D := flipped_direction h (scored X L) (nth i X []) k in
    entry H' i k = (alpha * entry H i k + (1 - alpha) * D ^ 2)%R /\
    entry X' i k = (entry X i k + eps * (D / (fudge + sqrt (entry H' i k))))%R.

(** Costs and gradients at the particles. *)
Definition evaluates (user : nat -> option (tensor R)) (X : list (list R)) (costs : list R) (L : list (list R)) : Prop :=
  length costs = length X /\ length L = length X /\
  forall i, i < length X -> target (nth i X []) user = Ok (nth i costs 0%R, nth i L []).

Variable E : env (tensor R).
(** The placeholders fed: the batch, over the caller's dictionary. *)
Definition fed (c : call_record E) (b : list (nat * tensor R)) (user : nat -> option (tensor R)) : Prop :=
  forall n, user n = match assoc b n with Some v => Some v | None => lookup (user_content (cr_user E c)) (KUser n) end.

Definition shown (X : list (list R)) : sample (tensor R) := SList (map (Tensor [d]) X).
Definition shown_costs (l : list R) : tensor R := Tensor [length l] l.

(** [vfollows X H calls]: what calls do from particles X and averages H.  Once half of all distances are zero nothing is said
    (the numbers are then NaN for ever, C31). *)
Inductive vfollows : list (list R) -> list (list R) -> list (call_record E) -> Prop :=
| V_end : forall X H, vfollows X H []
| V_degenerate : forall X H c rest, bandwidth X 0 -> vfollows X H (c :: rest)
| V_not_run : forall X H c rest e,
    cr_res E c = Raise e -> runs (cr_events E c) = [] -> vfollows X H rest -> vfollows X H (c :: rest)
| V_run_fails : forall X H c rest e b evb eps f user x,
    cr_res E c = Raise e -> batch_events E evb b ->
    cr_events E c = evb ++ [EvStepsize (Ok eps); EvRun f (Raise e)] ->
    fed c b user -> In x X -> target x user = Raise e ->
    vfollows X H rest -> vfollows X H (c :: rest)
| V_update_fails : forall X H c rest e b evb eps f o user costs L X' H',
    cr_res E c = Raise e -> batch_events E evb b -> fed c b user ->
    evaluates user X costs L -> moved_particles (hd 0%R (data eps)) X H L X' H' ->
    cr_events E c = evb ++ [EvStepsize (Ok eps); EvRun f (Ok o); EvUpdate (shown X') (shown_costs costs) (Raise e)] ->
    vfollows X' H' rest -> vfollows X H (c :: rest)
| V_moves : forall X H c rest b evb eps f o user costs L X' H',
    batch_events E evb b -> fed c b user ->
    evaluates user X costs L -> moved_particles (hd 0%R (data eps)) X H L X' H' ->
    cr_res E c = Ok (shown X', shown_costs costs) ->
    cr_events E c = evb ++ [EvStepsize (Ok eps); EvRun f (Ok o); EvUpdate (shown X') (shown_costs costs) (Ok tt)] ->
    vfollows X' H' rest -> vfollows X H (c :: rest).
End S.
