(** Numbers used by the numeric code: a class of the operations, and two
    instances, exact real arithmetic [R] and reals extended by infinities and
    NaN [XR]. *)
From Coq Require Import ZArith QArith Reals Lra Bool.

(** Operations with a definite result in every floating point type; comparisons
    are false when undefined. [nfrac p q] is the literal p/q. *)
Class Num (T : Type) := {
  nadd : T -> T -> T;
  nsub : T -> T -> T;
  nmul : T -> T -> T;
  ndiv : T -> T -> T;
  nopp : T -> T;
  nsqrt : T -> T;
  nltb : T -> T -> bool;
  nfrac : Z -> positive -> T
}.

(** Transcendental functions. *)
Class NumT (T : Type) := {
  nexp : T -> T;
  nln : T -> T;
  nsin : T -> T;
  ncos : T -> T;
  npi : T
}.

Declare Scope num_scope.
Delimit Scope num_scope with num.
Notation "x + y" := (nadd x y) : num_scope.
Notation "x - y" := (nsub x y) : num_scope.
Notation "x * y" := (nmul x y) : num_scope.
Notation "x / y" := (ndiv x y) : num_scope.
Notation "- x" := (nopp x) : num_scope.

Section Derived.
Context {T : Type} `{Num T}.
Definition nint (z : Z) : T := nfrac z 1.
Definition n0 : T := nint 0.
Definition n1 : T := nint 1.
Definition n2 : T := nint 2.
(** [tf.maximum], [tf.minimum] *)
Definition nmax (a b : T) : T := if nltb a b then b else a.
Definition nmin (a b : T) : T := if nltb b a then b else a.
(** [tf.sign] *)
Definition nsign (a : T) : T := if nltb a n0 then nint (-1) else if nltb n0 a then n1 else n0.
(** integer powers [x ** k] *)
Fixpoint npow (x : T) (k : nat) : T :=
  match k with 0%nat => n1 | 1%nat => x | S k' => nmul x (npow x k') end.
(** [sum(l)], [tf.reduce_sum] *)
Definition nsum (l : list T) : T := List.fold_right nadd n0 l.
End Derived.

(** *** Exact real arithmetic *)
Definition Rltb (a b : R) : bool := if Rlt_dec a b then true else false.
Lemma Rltb_true : forall a b, Rltb a b = true <-> (a < b)%R.
Proof. intros. unfold Rltb. destruct (Rlt_dec a b); intuition discriminate. Qed.
Lemma Rltb_false : forall a b, Rltb a b = false <-> (b <= a)%R.
Proof.
  intros. unfold Rltb. destruct (Rlt_dec a b); split; intros; try discriminate; auto; lra.
Qed.

Definition Rfrac (z : Z) (p : positive) : R := (IZR z / IZR (Z.pos p))%R.

#[global] Instance Num_R : Num R := {
  nadd := Rplus; nsub := Rminus; nmul := Rmult; ndiv := Rdiv; nopp := Ropp;
  nsqrt := sqrt; nltb := Rltb; nfrac := Rfrac
}.
#[global] Instance NumT_R : NumT R := {
  nexp := exp; nln := ln; nsin := sin; ncos := cos; npi := PI
}.

Lemma nint_R : forall z, nint z = IZR z.
Proof. intros. unfold nint; cbn. unfold Rfrac. field. Qed.
Lemma n0_R : n0 = 0%R. Proof. apply nint_R. Qed.
Lemma n1_R : n1 = 1%R. Proof. apply nint_R. Qed.
Lemma n2_R : n2 = 2%R. Proof. apply nint_R. Qed.
Lemma nmax_R : forall a b : R, nmax a b = Rmax a b.
Proof.
  intros. unfold nmax; cbn. destruct (Rltb a b) eqn:E.
  - apply Rltb_true in E. rewrite Rmax_right; lra.
  - apply Rltb_false in E. rewrite Rmax_left; lra.
Qed.
Lemma nmin_R : forall a b : R, nmin a b = Rmin a b.
Proof.
  intros. unfold nmin; cbn. destruct (Rltb b a) eqn:E.
  - apply Rltb_true in E. rewrite Rmin_right; lra.
  - apply Rltb_false in E. rewrite Rmin_left; lra.
Qed.
Lemma npow_R : forall (x : R) k, npow x k = (x ^ k)%R.
Proof.
  induction k as [|k IH]; [apply n1_R|]. destruct k; [cbn; ring|].
  change (npow x (S (S k))) with (x * npow x (S k))%R. rewrite IH. reflexivity.
Qed.

(** *** Reals with infinities and NaN.  IEEE rules without rounding; there is a
    single zero, taken as positive where a sign matters (1/0 = +inf). *)
Inductive XR : Type := Fin (r : R) | PInf | NInf | NaN.

Definition xsgn (r : R) : XR :=       (* r * (+inf) *)
  if Rlt_dec 0 r then PInf else if Rlt_dec r 0 then NInf else NaN.
Definition xopp (x : XR) : XR :=
  match x with Fin r => Fin (- r) | PInf => NInf | NInf => PInf | NaN => NaN end.
Definition xadd (x y : XR) : XR :=
  match x, y with
  | Fin a, Fin b => Fin (a + b)
  | NaN, _ | _, NaN => NaN
  | PInf, NInf | NInf, PInf => NaN
  | PInf, _ | _, PInf => PInf
  | NInf, _ | _, NInf => NInf
  end.
Definition xmul (x y : XR) : XR :=
  match x, y with
  | Fin a, Fin b => Fin (a * b)
  | NaN, _ | _, NaN => NaN
  | PInf, PInf | NInf, NInf => PInf
  | PInf, NInf | NInf, PInf => NInf
  | PInf, Fin a | Fin a, PInf => xsgn a
  | NInf, Fin a | Fin a, NInf => xsgn (- a)
  end.
Definition xdiv (x y : XR) : XR :=
  match x, y with
  | Fin a, Fin b => if Req_EM_T b 0 then xsgn a else Fin (a / b)
  | NaN, _ | _, NaN => NaN
  | Fin _, _ => Fin 0
  | PInf, Fin b => if Req_EM_T b 0 then PInf else xsgn b
  | NInf, Fin b => if Req_EM_T b 0 then NInf else xsgn (- b)
  | _, _ => NaN
  end.
Definition xsqrt (x : XR) : XR :=
  match x with
  | Fin r => if Rlt_dec r 0 then NaN else Fin (sqrt r)
  | PInf => PInf
  | _ => NaN
  end.
Definition xltb (x y : XR) : bool :=
  match x, y with
  | Fin a, Fin b => Rltb a b
  | NaN, _ | _, NaN => false
  | PInf, _ => false
  | _, PInf => true
  | NInf, NInf => false
  | NInf, _ => true
  | _, NInf => false
  end.
Definition xexp (x : XR) : XR :=
  match x with Fin r => Fin (exp r) | PInf => PInf | NInf => Fin 0 | NaN => NaN end.
Definition xln (x : XR) : XR :=
  match x with
  | Fin r => if Rlt_dec 0 r then Fin (ln r) else if Rlt_dec r 0 then NaN else NInf
  | PInf => PInf | _ => NaN
  end.
Definition xlift (f : R -> R) (x : XR) : XR :=
  match x with Fin r => Fin (f r) | _ => NaN end.

#[global] Instance Num_XR : Num XR := {
  nadd := xadd; nsub := fun a b => xadd a (xopp b); nmul := xmul; ndiv := xdiv; nopp := xopp;
  nsqrt := xsqrt; nltb := xltb; nfrac := fun z p => Fin (Rfrac z p)
}.
#[global] Instance NumT_XR : NumT XR := {
  nexp := xexp; nln := xln; nsin := xlift sin; ncos := xlift cos; npi := Fin PI
}.

Definition is_fin (x : XR) : bool := match x with Fin _ => true | _ => false end.

Lemma nint_XR : forall z, (nint z : XR) = Fin (IZR z).
Proof. intros. unfold nint; cbn. unfold Rfrac. f_equal. field. Qed.
Lemma n0_XR : (n0 : XR) = Fin 0. Proof. apply nint_XR. Qed.
Lemma n1_XR : (n1 : XR) = Fin 1. Proof. apply nint_XR. Qed.
Lemma n2_XR : (n2 : XR) = Fin 2. Proof. apply nint_XR. Qed.
Lemma xdiv_fin : forall a b, b <> 0%R -> xdiv (Fin a) (Fin b) = Fin (a / b).
Proof. intros. cbn. destruct (Req_EM_T b 0); congruence. Qed.
Lemma xsqrt_fin : forall a, (0 <= a)%R -> xsqrt (Fin a) = Fin (sqrt a).
Proof. intros. cbn. destruct (Rlt_dec a 0); [lra|auto]. Qed.
Lemma xsqrt_neg : forall a, (a < 0)%R -> xsqrt (Fin a) = NaN.
Proof. intros. cbn. destruct (Rlt_dec a 0); [auto|lra]. Qed.
Lemma xadd_nan_l : forall x, xadd NaN x = NaN. Proof. reflexivity. Qed.
Lemma xadd_nan_r : forall x, xadd x NaN = NaN. Proof. destruct x; reflexivity. Qed.
Lemma xmul_nan_l : forall x, xmul NaN x = NaN. Proof. reflexivity. Qed.
Lemma xmul_nan_r : forall x, xmul x NaN = NaN. Proof. destruct x; reflexivity. Qed.
Lemma xdiv_nan_l : forall x, xdiv NaN x = NaN. Proof. reflexivity. Qed.
Lemma xdiv_nan_r : forall x, xdiv x NaN = NaN. Proof. destruct x; reflexivity. Qed.
Lemma nmax_XR_fin : forall a b, nmax (Fin a) (Fin b) = Fin (Rmax a b).
Proof. intros. rewrite <- nmax_R. unfold nmax; cbn. now destruct (Rltb a b). Qed.
