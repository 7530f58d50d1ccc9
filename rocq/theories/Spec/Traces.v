(** What a trace is: samples (steps) times variables. *)
From Coq Require Import String List Arith.
From Verif.Model Require Import SampleChains.
Import ListNotations.

Section S.
Context {T : Type}.
(** Samples of n variables: sequences of n values each, or, for one variable, bare floats. *)
Definition well_formed (n : nat) (smp : list (pv T)) : Prop :=
  smp <> [] /\ 1 <= n /\
  (Forall (fun s => exists l, s = VSeq l /\ length l = n) smp \/
   (n = 1 /\ Forall (fun s => exists b x, s = VFloat b x) smp)).
(** Value of variable i in step j. *)
Definition value_at (smp : list (pv T)) (i j : nat) : option (pv T) :=
  match nth_error smp j with
  | Some (VSeq l) => nth_error l i
  | Some (VFloat b x) => match i with 0 => Some (VFloat b x) | _ => None end
  | _ => None
  end.
(** vs are the values of variable i at steps burn, burn + thin, ... *)
Definition values_of (smp : list (pv T)) (i burn thin : nat) (vs : list (pv T)) : Prop :=
  forall k, nth_error vs k = value_at smp i (burn + k * thin).
(** i is the first / last position of name. *)
Definition first_position (ns : list string) (name : string) (i : nat) : Prop :=
  nth_error ns i = Some name /\ forall j, j < i -> nth_error ns j <> Some name.
Definition last_position (ns : list string) (name : string) (i : nat) : Prop :=
  nth_error ns i = Some name /\ forall j, i < j -> nth_error ns j <> Some name.
End S.
