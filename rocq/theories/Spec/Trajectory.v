(** Runs of one parameter of a sampler as a sequence of steps with arbitrary
    inputs. *)
From Coq Require Import List Arith Reals.
From Verif.Base Require Import Py Num Vec.
From Verif.Model Require Import TensorUtils BurnIn SGHMC SGLD.
Import ListNotations.

(** What one step receives from outside: stepsize, gradient, normal draws, fed mass. *)
Record step_input (T : Type) := StepInput {
  i_eps : T; i_grad : list T; i_xi : list T; i_fed : option (list T) }.
Arguments StepInput {T}. Arguments i_eps {T}. Arguments i_grad {T}. Arguments i_xi {T}. Arguments i_fed {T}.

(** All tensors have the parameter's size. *)
Definition sized {T} (n : nat) (i : step_input T) : Prop :=
  length (i_grad i) = n /\ length (i_xi i) = n /\
  match i_fed i with Some m => length m = n | None => True end.

Section S.
Context {T : Type} `{Num T}.
Definition sghmc_run (c : config T) (ins : list (step_input T)) (p : pstate T) : pstate T :=
  fold_left (fun p i => sghmc_step c (i_eps i) (i_grad i) (i_xi i) (i_fed i) p) ins p.
Definition sgld_run (c : lconfig T) (ins : list (step_input T)) (p : lstate T) : lstate T :=
  fold_left (fun p i => sgld_step c (i_eps i) (i_grad i) (i_xi i) (i_fed i) p) ins p.
End S.

(** The squared gradients of entry [k] lie in [lo, hi]. *)
Definition squared_gradients_in (lo hi : R) (k : nat) (ins : list (step_input R)) : Prop :=
  forall i g, In i ins -> nth_error (i_grad i) k = Some g -> (lo <= g ^ 2 <= hi)%R.

(** Exact reals as floating point numbers. *)
Definition fin_input (i : step_input R) : step_input XR :=
  StepInput (Fin (i_eps i)) (map Fin (i_grad i)) (map Fin (i_xi i)) (option_map (map Fin) (i_fed i)).
Definition fin_tensor (t : tensor R) : tensor XR := Tensor (shape t) (map Fin (data t)).
Definition fin_adapt (a : adapt R) : adapt XR :=
  Adapt (map Fin (a_tau a)) (map Fin (a_r a)) (map Fin (a_g a)) (map Fin (a_vhat a)) (map Fin (a_minv a)).
