(** Model of pysgmcmc/samplers/relativistic_sghmc.py. *)
From Coq Require Import List Arith ZArith Bool.
From Verif.Base Require Import Py Num Vec.
From Verif.Model Require Import TensorUtils BurnIn SGHMC SGLD Stepsize BaseClasses Session.
Import ListNotations.

Section S.
Context {T : Type} `{Num T}.

(** Graph constants (relativistic_sghmc.py:105-106, 117-118) *)
Record rconfig := RConfig { r_mass : T; r_c : T; r_D : T; r_bhat : T }.

(** Variables of one target parameter: scalar momentum (108-113), vectorized clone,
    the parameter. *)
Record rstate := RState { r_mom : T; r_vec : list T; r_val : tensor T }.
Definition rinit (v : tensor T) (p0 : T) : rstate := {| r_mom := p0; r_vec := data v; r_val := v |}.

(** [p_grad], [p_grad_new]: relativistic_sghmc.py:123, 131 *)
Definition rel_velocity (c : rconfig) (eps p : T) : T :=
  ((eps * p) / (r_mass c * nsqrt (((p * p) / (npow (r_mass c) 2 * npow (r_c c) 2)) + n1)))%num.
(** scale of the noise, 125 *)
Definition rel_noise_scale (c : rconfig) (eps : T) : T :=
  nsqrt (eps * (n2 * r_D c - eps * r_bhat c))%num.

(** One execution of the ops of a parameter; [grad] is the vectorized gradient of -cost
    (100-103), [xi] the standard normals.  The reshapes to the scalar momentum (128) and
    back (134) exist for one-element parameters only (see [rel_construct]), for which
    the [hd] below is the element. *)
Definition rel_step (c : rconfig) (eps : T) (grad xi : list T) (s : rstate) : rstate :=
  let p_grad := rel_velocity c eps (r_mom s) in                          (* 123 *)
  let n := map (fun x => nmul (rel_noise_scale c eps) x) xi in           (* 125 *)
  let delta := map (fun y => nsub y (nmul (r_D c) p_grad))
                 (vmap2 nadd (map (fun g => nmul eps g) grad) n) in
  let p := nadd (r_mom s) (hd n0 delta) in                               (* 126-129 *)
  let p_grad_new := rel_velocity c eps p in                              (* 131 *)
  let vec' := map (fun x => nadd x p_grad_new) (r_vec s) in              (* 132-135 *)
  {| r_mom := p; r_vec := vec';
     r_val := {| shape := shape (r_val s); data := vec' |} |}.           (* 137-140 *)

(** As a kernel of Model/Session.v; [grad] there is the gradient of the cost. *)
Definition rel_kernel (c : rconfig) : kernel (T:=T) :=
  {| k_state := rstate; k_value := r_val; k_minv := fun _ _ => [];
     k_step := fun eps grad xi _ s => rel_step c eps (map nopp grad) xi s |}.

(** The initial momenta of ARSpy for [n] parameters (143-223): a function of the
    seed; [None]: whatever the library draws. *)
Definition rel_session (c : rconfig) (eps0 : T) (params : list (tensor T)) (momenta : list T)
    (ops : list noise_op) : sess (rel_kernel c) :=
  {| z_eps := eps0;
     z_params := combine (map (fun '(v, p) => rinit v p) (combine params momenta)) ops
                 : list (k_state (rel_kernel c) * noise_op) |}.

(** [isinstance(v, float)] *)
Definition is_float (v : pyval) : bool := match v with PFloat _ _ => true | _ => false end.

(** The checks the constructor makes on the mass, the speed of light and the static shapes:
    asserts of _sample_relativistic_momentum (192-194), then for each parameter the
    graph of 122-140. *)
Fixpoint rel_shapes (params : list (tensor T)) : res unit :=
  match params with
  | [] => Ok tt
  | v :: rest =>
      do vec <- vectorize (OVariable v);                                 (* base_classes.py:103 *)
      do _ <- tf_reshape vec [];                                         (* 128: to momentum.shape = () *)
      do _ <- tf_reshape (Tensor [] [n0]) (shape vec);                   (* 134 *)
      do _ <- unvectorize vec (shape v);                                 (* 139 *)
      rel_shapes rest
  end.
Definition rel_construct (mass c : pyval) (params : list (tensor T)) : res unit :=
  do _ <- assert_ (is_float mass);
  do _ <- assert_ (is_float c);
  rel_shapes params.

End S.
Arguments rconfig : clear implicits.
Arguments rstate : clear implicits.
