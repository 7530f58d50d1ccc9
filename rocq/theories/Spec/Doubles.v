(** What samplers in double precision return (C101-C104): entries that are infinite or NaN, and the
    sessions samplers start with. *)
From Coq Require Import List ZArith Reals Permutation.
From Flocq Require Import Core.Core.
From Flocq Require Import IEEE754.BinarySingleNaN.
From Verif.Base Require Import Py Num Float64.
From Verif.Model Require Import TensorUtils SGHMC SGLD Relativistic BaseClasses Session.

Import ListNotations.

(** The parameter values in a sample. *)
Definition values_of {V} (s : sample V) : list V := match s with SBare v => [v] | SList vs => vs end.
(** Entry [i] of parameter [j] is infinite or NaN. *)
Definition spoilt_entry (s : sample (tensor f64)) (j i : nat) : Prop :=
  exists v x, nth_error (values_of s) j = Some v /\ nth_error (data v) i = Some x /\ spoilt x.

(** SGHMC, SGLD and relativistic SGHMC right after construction. *)
Inductive started : forall K : kernel (T:=f64), sess K -> Prop :=
| started_sghmc : forall c eps0 params ops, started (sghmc_kernel c) (sghmc_session c eps0 params ops)
| started_sgld : forall c eps0 params ops, started (sgld_kernel c) (sgld_session c eps0 params ops)
| started_relativistic : forall c eps0 params momenta ops, Forall (fun v => length (data v) = 1) params ->
    started (rel_kernel c) (rel_session c eps0 params momenta ops).

(** [n] rows of [d] entries each. *)
Definition grid (n d : nat) (M : list (list f64)) : Prop := length M = n /\ Forall (fun r => length r = d) M.
(** *** Ranges (C102) *)
(** Finite, and at most 2^e in size; or between two numbers. *)
Definition bounded64 (e : Z) (x : f64) : Prop := finite x /\ (Rabs (value x) <= bpow radix2 e)%R.
Definition between64 (lo hi : R) (x : f64) : Prop := finite x /\ (lo <= value x <= hi)%R.
Definition bounded_tensor (e : Z) (v : tensor f64) : Prop := Forall (bounded64 e) (data v).
Definition bounded_sample (e : Z) (s : sample (tensor f64)) : Prop := Forall (bounded_tensor e) (values_of s).

(** SGHMC and SGLD right after construction, with arguments and initial values of any practical
    size: scale_grad between 1 and 2^900, mdecay between 0 and 1, A at most 1024. *)
Inductive moderate : forall K : kernel (T:=f64), sess K -> Prop :=
| moderate_sghmc : forall c eps0 params ops,
    between64 1 (bpow radix2 900) (scale_grad c) -> between64 0 1 (mdecay c) -> Forall (bounded_tensor 500) params ->
    moderate (sghmc_kernel c) (sghmc_session c eps0 params ops)
| moderate_sgld : forall c eps0 params ops,
    between64 1 (bpow radix2 900) (l_scale_grad c) -> bounded64 10 (l_A c) -> Forall (bounded_tensor 500) params ->
    moderate (sgld_kernel c) (sgld_session c eps0 params ops).

(** Relativistic SGHMC with arguments of a practical size: mass and speed of light between 2^-20 and 2^20,
    0 <= Bhat <= D <= 1024. *)
Definition moderate_config (c : rconfig f64) : Prop :=
  between64 (bpow radix2 (-20)) (bpow radix2 20) (r_mass c) /\ between64 (bpow radix2 (-20)) (bpow radix2 20) (r_c c) /\
  between64 0 (bpow radix2 10) (r_D c) /\ between64 0 (value (r_D c)) (r_bhat c).

(** The caller feeds no inverse mass above 2^54. *)
Definition moderate_feed (u : option (feed (tensor f64))) : Prop :=
  forall f i m, u = Some f -> lookup f (KMinv i) = Some m -> bounded_tensor 54 m.

(** A call at which the stepsize is at most 1 and all gradient entries are at most 2^400 in size. *)
Definition calm (K : kernel (T:=f64)) (cg : @objective f64) (z : sess K) (f : feed (tensor f64)) : Prop :=
  bounded64 0 (fed_eps K f z) /\
  forall cst gs, cg (values K z) (fun n => lookup f (KUser n)) = Ok (cst, gs) -> Forall (Forall (bounded64 400)) gs.

(** *** Data matrices (C103, C104) *)
(** Entry (i, j) of a matrix given by its rows. *)
Definition entry {A} (X : list (list A)) (i j : nat) : option A := match nth_error X i with Some r => nth_error r j | None => None end.
Definition not_a_number : f64 := B754_nan.
(** [s] is a result of adding up [l] in some order, with some bracketing. *)
Inductive added : list f64 -> f64 -> Prop :=
| added_nothing : added [] n0
| added_one : forall x, added [x] x
| added_two : forall l a b s t, Permutation l (a ++ b) -> added a s -> added b t -> added l (nadd s t).
(** Mean and standard deviation of a column, the sums being taken in any order. *)
Definition mean_of (l : list f64) (m : f64) : Prop := exists s, added l s /\ m = ndiv s (nint (Z.of_nat (length l))).
Definition std_of (l : list f64) (m sd : f64) : Prop := exists v, mean_of (map (fun x => nmul (nsub x m) (nsub x m)) l) v /\ sd = nsqrt v.
(** [yn] is [l] standardized. *)
Definition standardizes (l yn : list f64) : Prop := exists m sd, mean_of l m /\ std_of l m sd /\ yn = map (fun x => ndiv (nsub x m) sd) l.
(** *** Predictions (C107) *)
(** Population variance about a given mean. *)
Definition variance_of (l : list f64) (m v : f64) : Prop := mean_of (map (fun x => nmul (nsub x m) (nsub x m)) l) v.
(** What each network of an ensemble predicts for test point [j]. *)
Definition members (F : list (list f64)) (j : nat) : list f64 := map (fun r => nth j r not_a_number) F.
