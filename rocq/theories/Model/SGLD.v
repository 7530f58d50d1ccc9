(** Model of pysgmcmc/samplers/sgld.py: the numeric update of one parameter. *)
From Coq Require Import List Arith ZArith.
From Verif.Base Require Import Py Num Vec.
From Verif.Model Require Import TensorUtils BurnIn.
Import ListNotations.

Section S.
Context {T : Type} `{Num T}.

(** Graph constants (sgld.py:106-108); [noise] is 0. *)
Record lconfig := LConfig { l_A : T; l_scale_grad : T }.

Record lstate := LState { l_adapt : adapt T; l_vec : list T; l_val : tensor T }.

Definition linit (v : tensor T) : lstate :=
  {| l_adapt := adapt_init (length (data v)); l_vec := data v; l_val := v |}.

Definition lnoise : T := n0.                                            (* 107 *)

(** sgld.py:186-191, per element *)
Definition lsigma (c : lconfig) (eps m : T) : T :=
  safe_sqrt (nmul (nmul n2 eps)
    (safe_divide (nmul m (nsub (l_A c) lnoise)) (l_scale_grad c))).

Definition sgld_step (c : lconfig) (eps : T) (grad xi : list T) (fed : option (list T))
    (p : lstate) : lstate :=
  let a' := adapt_step grad (l_adapt p) in                              (* 154-184 *)
  let m := minv_used fed a' in
  let sample := vmap2 nmul (map (lsigma c eps) m) xi in                 (* 193-195 *)
  let vec' := vmap2 nadd (l_vec p)                                      (* 201-204 *)
    (vmap2 nadd
       (vmap2 nmul (map (fun x => nmul (nmul (nopp eps) x) (l_A c)) m) grad)
       sample) in
  {| l_adapt := a'; l_vec := vec';
     l_val := {| shape := shape (l_val p); data := vec' |} |}.          (* 205-211 *)

End S.
Arguments lconfig : clear implicits.
Arguments lstate : clear implicits.
