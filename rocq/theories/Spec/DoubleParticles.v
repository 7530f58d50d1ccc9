(** What C108 and C109 say about SVGD in double precision. *)
From Coq Require Import List ZArith Reals.
From Flocq Require Import Core.Core.
From Flocq Require IEEE754.BinarySingleNaN.
From Verif.Base Require Import Py Num Float64.
From Verif.Model Require Import TensorUtils SVGD BaseClasses SvgdSession.
From Verif.Spec Require Import Sampler Tensor Doubles.

(** The particles of a sample, as rows. *)
Definition rows_shown (s : sample (tensor f64)) : list (list f64) := map data (values_of s).
(** SVGD with 0 <= alpha < 1 and a fudge factor of at least 2^-400. *)
Definition moderate_stein (c : sconfig f64) : Prop :=
  (finite (s_alpha c) /\ (0 <= value (s_alpha c) < 1)%R) /\ (finite (s_fudge c) /\ (bpow radix2 (-400) <= value (s_fudge c))%R).
(** The graph is run with a stepsize [e] for which [P e]. *)
Definition stepsize_in (E : env (tensor f64)) (P : f64 -> Prop) (cl : call_record E) : Prop :=
  forall f r, In (f, r) (runs (cr_events E cl)) -> exists t, lookup f KEps = Some t /\ P (hd n0 (data t)).
(** How far one step of size [e] may move a coordinate with value [x]: e / sqrt (1 - alpha), up to rounding. *)
Definition reach (c : sconfig f64) (e x : R) : R :=
  ((1 + bpow radix2 (-46)) * (e / sqrt (1 - value (s_alpha c))) + bpow radix2 (-53) * Rabs x + bpow radix2 (-1074))%R.
(** *** Kernel (C109) *)
(** exp maps numbers that are not positive, and -inf, to [0, 1]. *)
Definition usual_exp (NT : NumT f64) : Prop :=
  forall x, (finite x /\ (value x <= 0)%R) \/ x = BinarySingleNaN.B754_infinity true -> between64 0 1 (nexp x).
(** ln (n + 1) is between 1/2 and 16, as for 1 <= n <= 2^20. *)
Definition usual_ln (NT : NumT f64) (n : nat) : Prop := between64 (1 / 2) 16 (nln (nadd (nint (Z.of_nat n)) n1)).
(** Particles whose distance from each other is at least [r]. *)
Definition apart (r : R) (X : list (list f64)) : Prop :=
  forall i j a b, i < j -> nth_error X i = Some a -> nth_error X j = Some b -> (r <= dist2 (map value a) (map value b))%R.
(** The graph is run with a stepsize of at most one, gradients of at most 2^400, and particles that are at least 2^-20 apart. *)
Definition calm_stein {NT : NumT f64} (c : sconfig f64) d target B bg sc (cl : call_record (svgd_env c d target B bg sc)) : Prop :=
  let X := v_particles (s_sess _ (cr_pre _ cl)) in
  forall f r, In (f, r) (runs (cr_events _ cl)) ->
    (exists t, lookup f KEps = Some t /\ between64 0 1 (hd n0 (data t))) /\
    (forall x v g, In x X -> target x (fun m => lookup f (KUser m)) = Ok (v, g) -> Forall (bounded64 400) g) /\
    apart (bpow radix2 (-20)) X.
(** The number of ordered pairs of particles, each with itself included, that have the same coordinates. *)
Definition coinciding (X : list (list f64)) : nat :=
  length (filter (fun '(a, b) => if list_eq_dec Req_EM_T (map value a) (map value b) then true else false) (list_prod X X)).
