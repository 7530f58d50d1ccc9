(** What the properties of the Bayesian neural network mean. *)
From Coq Require Import List Arith ZArith Bool.
From Verif.Base Require Import Py.
From Verif.Model Require Import BaseClasses Sampling BNN.
From Verif.Spec Require Import Batches Sampler.
Import ListNotations.

(** Python integers as constructor arguments. *)
Definition int_arg (v : value) (z : Z) : Prop := exists p, v = VPy p /\ int_value p z.

(** Arguments of the right kind ... *)
Definition well_typed (a : bnn_args) : Prop :=
  (exists z, int_arg (a_n_nets a) z /\ (z > 0)%Z) /\
  (exists z, int_arg (a_n_iters a) z /\ (z > 0)%Z) /\
  (exists z, int_arg (a_burn_in_steps a) z /\ (z >= 0)%Z) /\
  (exists z, int_arg (a_sample_steps a) z /\ (z > 0)%Z) /\
  (exists z, int_arg (a_batch_size a) z /\ (z > 0)%Z) /\
  (exists nm, a_dtype a = VDType nm) /\
  v_callable (a_get_net a) = true /\ v_callable (a_batch_generator a) = true /\
  v_update (a_schedule a) = true /\ v_next (a_schedule a) = true.
(** ... and a supported sampling method. *)
Definition supported (m : mval) : Prop := m = MMember SGHMC \/ m = MMember SGLD.

(** Iterations whose parameters are kept: after burn-in, every [ss]-th.  The k-th
    of them (from 0) is iteration [kept bi ss k]. *)
Definition kept (bi ss k : nat) : nat := (bi / ss + 1 + k) * ss.
(** Number of kept iterations among the first [n]. *)
Definition n_kept (bi ss n : nat) : nat := (n - 1) / ss - bi / ss.


(** *** Draws
    A draw is the sample with the calls made for it.  [mass_fed m ev]: every run made
    for it was fed the mass matrices [m], or none. *)
Section D.
Context {V : Type}.
Variables n_params bi : nat.
Definition mass_fed (m : option (list V)) (ev : list (event V)) : Prop :=
  forall f r, In (f, r) (runs ev) -> forall i, i < n_params ->
    lookup f (KMinv i) = match m with Some l => nth_error l i | None => None end.

(** Made with the mass matrix that the last of [bi] burn-in draws computed; without
    burn-in, with no mass matrix fed. *)
Definition frozen (tr : list (sample V * list (event V))) (ev : list (event V)) : Prop :=
  (bi = 0 -> mass_fed None ev) /\
  (0 < bi -> exists p0 ev0 f0 o0,
     nth_error tr (bi - 1) = Some (p0, ev0) /\ runs ev0 = [(f0, Ok o0)] /\ mass_fed (Some (o_minv o0)) ev).
End D.
