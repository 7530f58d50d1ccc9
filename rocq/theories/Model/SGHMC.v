(** Model of pysgmcmc/samplers/sghmc.py: the numeric update of one parameter. *)
From Coq Require Import List Arith ZArith.
From Verif.Base Require Import Py Num Vec.
From Verif.Model Require Import TensorUtils BurnIn.
Import ListNotations.

Section S.
Context {T : Type} `{Num T}.

(** Graph constants (sghmc.py:111-117): mdecay and scale_grad; [noise] is 0. *)
Record config := Config { mdecay : T; scale_grad : T }.

(** Variables of one target parameter: burn-in variables, momentum V, the
    vectorized clone (base_classes.py:103), and the parameter itself. *)
Record pstate := PState {
  p_adapt : adapt T; p_mom : list T; p_vec : list T; p_val : tensor T }.

Definition pinit (v : tensor T) : pstate :=
  {| p_adapt := adapt_init (length (data v));
     p_mom := repeat n0 (length (data v));                              (* 152-155 *)
     p_vec := data v;
     p_val := v |}.

Definition noise : T := n0.                                             (* 111 *)

(** sghmc.py:115 *)
Definition epsilon_scaled (c : config) (eps : T) : T := ndiv eps (nsqrt (scale_grad c)).

(** sghmc.py:211-217, per element *)
Definition noise_scale (c : config) (eps m : T) : T :=
  let es := epsilon_scaled c eps in
  nsub (nsub (nmul (nmul (nmul n2 (npow es 2)) (mdecay c)) m)
             (nmul (nmul (nmul n2 (npow es 3)) (npow m 2)) noise))
       (npow es 4).

(** sghmc.py:220-221 *)
Definition sigma (c : config) (eps m : T) : T :=
  nsqrt (nmax (noise_scale c eps m) (nfrac 1 10000000000000000)).

(** One execution of the sampler's ops for one parameter: stepsize [eps], vectorized
    gradient [grad], standard normal draws [xi], fed inverse mass [fed]. *)
Definition sghmc_step (c : config) (eps : T) (grad xi : list T) (fed : option (list T))
    (p : pstate) : pstate :=
  let a' := adapt_step grad (p_adapt p) in
  let m := minv_used fed a' in
  let sample := vmap2 nmul (map (sigma c eps) m) xi in                  (* 223-225; base_classes.py:218 *)
  let mom' := vmap2 nadd (p_mom p)                                      (* 233-238 *)
    (vmap2 nadd
       (vmap2 nsub
          (vmap2 nmul (map (fun x => nmul (nopp (npow eps 2)) x) m) grad)
          (map (fun v => nmul (mdecay c) v) (p_mom p)))
       sample) in
  let vec' := vmap2 nadd (p_vec p) mom' in                              (* 241-243 *)
  {| p_adapt := a'; p_mom := mom'; p_vec := vec';
     p_val := {| shape := shape (p_val p); data := vec' |} |}.          (* 245-251 *)

End S.
Arguments config : clear implicits.
Arguments pstate : clear implicits.
