(** Scalar recursions that the samplers are meant to implement (C17-C25), over
    the reals, written independently of the tensor code. *)
From Coq Require Import Reals List.
Import ListNotations.
Local Open Scope R_scope.

(** The guard constant of safe_divide. *)
Definition guard : R := / 10000000000000000.

(** Burn-in adaptation of one scalar entry (Springenberg et al. 2016, section 3.1,
    with averaging rate 1/(tau+1)), for v > 0. *)
Record scalar := Scalar { s_tau : R; s_g : R; s_v : R }.
Definition scalar0 : scalar := Scalar 1 1 1.
Definition rate (s : scalar) : R := 1 / (s_tau s + 1).
Definition adapt_scalar (grad : R) (s : scalar) : scalar :=
  {| s_tau := s_tau s * (1 - s_g s ^ 2 / (s_v s + 3 * guard)) + 1;
     s_g := (1 - rate s) * s_g s + rate s * grad;
     s_v := (1 - rate s) * s_v s + rate s * grad ^ 2 |}.
(** Inverse mass estimated from v. *)
Definition inverse_mass (v : R) : R := 1 / (sqrt v + 3 * guard).

(** SGHMC, eq. (10) of Springenberg et al.: stepsize eps, friction alpha (mdecay),
    inverse mass m, noise-scaled stepsize eps/sqrt(s). *)
Definition sghmc_noise_var (eps alpha s m : R) : R :=
  2 * (eps ^ 2 / s) * alpha * m - (eps ^ 2 / s) ^ 2.
Definition sghmc_momentum (eps alpha s m grad xi v : R) : R :=
  v - eps ^ 2 * m * grad - alpha * v + sqrt (Rmax (sghmc_noise_var eps alpha s m) guard) * xi.

(** Preconditioned Langevin dynamics with friction A: drift coefficient and noise. *)
Definition sgld_drift (eps A m : R) : R := eps * m * A.
Definition sgld_theta (eps A s m grad xi theta : R) : R :=
  theta - sgld_drift eps A m * grad + sqrt (2 * sgld_drift eps A m / (s + 3 * guard)) * xi.

(** A normalised linear functional: expectation of random variables on [O]. *)
Record expectation (O : Type) := Expectation {
  ex : (O -> R) -> R;
  ex_ext : forall f g, (forall w, f w = g w) -> ex f = ex g;
  ex_add : forall f g, ex (fun w => f w + g w) = ex f + ex g;
  ex_scale : forall a f, ex (fun w => a * f w) = a * ex f;
  ex_one : ex (fun _ => 1) = 1
}.
Arguments ex {O}. Arguments ex_ext {O}. Arguments ex_add {O}. Arguments ex_scale {O}. Arguments ex_one {O}.
Definition variance {O} (P : expectation O) (f : O -> R) : R :=
  ex P (fun w => (f w - ex P f) ^ 2).
