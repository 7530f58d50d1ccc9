(** The divisor of [safe_divide] in floating point, for C37. *)
From Coq Require Import Reals ZArith Lra Lia.
From Flocq Require Import Core.Core.
From Verif.Base Require Import Num.
From Verif.Model Require Import TensorUtils.

Section F.
(** Any binary floating-point format with gradual underflow and unbounded
    exponents: binary64 is prec = 53, emin = -1074; binary32 prec = 24, emin = -149. *)
Variables prec emin : Z.
Context {Hprec : Prec_gt_0 prec}.
Let fexp := FLT_exp emin prec.
Let format := generic_format radix2 fexp.
(** round to nearest, ties to even *)
Let rnd := round radix2 fexp ZnearestE.

(** Arithmetic with every operation rounded to the format. *)
Definition Num_rounded : Num R := {|
  nadd := fun a b => rnd (a + b); nsub := fun a b => rnd (a - b);
  nmul := fun a b => rnd (a * b); ndiv := fun a b => rnd (a / b);
  nopp := Ropp; nsqrt := fun a => rnd (sqrt a); nltb := Rltb;
  nfrac := fun z p => rnd (Rfrac z p) |}.

(** [tf.sign] *)
Definition fsign (y : R) : R := if Rlt_dec y 0 then -1 else if Rlt_dec 0 y then 1 else 0.

(** y + (2. * tf.sign(y) * c + c), every operation rounded *)
Definition float_divisor (y c : R) : R :=
  rnd (y + rnd (rnd (rnd (2 * fsign y) * c) + c)).

Lemma rnd_id : forall x, format x -> rnd x = x.
Proof. intros. apply round_generic; auto. apply valid_rnd_N. Qed.
Lemma rnd_le : forall x y, (x <= y)%R -> (rnd x <= rnd y)%R.
Proof. intros. apply round_le; auto. apply FLT_exp_valid; auto. apply valid_rnd_N. Qed.

Lemma format_opp : forall x, format x -> format (- x).
Proof. intros. now apply generic_format_opp. Qed.

Lemma format_double : forall x, format x -> format (2 * x).
Proof.
  intros x Hx. destruct (Req_dec x 0) as [->|Hnz].
  { rewrite Rmult_0_r. apply generic_format_0. }
  apply generic_format_FLT. apply FLT_format_generic in Hx; auto. destruct Hx as [f H1 H2 H3].
  exists (Float radix2 (Fnum f) (Fexp f + 1)); simpl; auto; try lia.
  rewrite H1. unfold F2R; simpl. rewrite bpow_plus. change (bpow radix2 1) with 2%R. ring.
Qed.

Lemma float_divisor_pos : forall y c, format y -> format c -> (emin <= 0)%Z ->
  (0 < c)%R -> (0 < y)%R -> (y <= float_divisor y c)%R.
Proof.
  intros y c Hy Hc Hemin Hc0 Hy0. unfold float_divisor, fsign.
  destruct (Rlt_dec y 0); [lra|]. destruct (Rlt_dec 0 y); [|lra].
  assert (H2 : rnd (2 * 1) = 2%R).
  { rewrite Rmult_1_r. apply rnd_id. change 2%R with (bpow radix2 1).
    apply generic_format_bpow. unfold fexp, FLT_exp. unfold Prec_gt_0 in Hprec. lia. }
  rewrite H2. rewrite (rnd_id (2 * c)) by now apply format_double.
  assert (c <= rnd (2 * c + c))%R.
  { rewrite <- (rnd_id c) at 1 by auto. apply rnd_le. lra. }
  rewrite <- (rnd_id y) at 1 by auto. apply rnd_le. lra.
Qed.

Lemma float_divisor_zero : forall c, format c -> float_divisor 0 c = c.
Proof.
  intros c Hc. unfold float_divisor, fsign.
  destruct (Rlt_dec 0 0); [lra|]. rewrite Rmult_0_r.
  rewrite (rnd_id 0) by apply generic_format_0. rewrite Rmult_0_l.
  rewrite (rnd_id 0) by apply generic_format_0. rewrite !Rplus_0_l.
  rewrite (rnd_id c) by auto. now apply rnd_id.
Qed.

Lemma float_divisor_neg : forall y c, format y -> format c -> (emin <= 0)%Z ->
  (0 < c)%R -> (y < 0)%R -> float_divisor y c = rnd (y - c) /\ (float_divisor y c <= y)%R.
Proof.
  intros y c Hy Hc Hemin Hc0 Hy0. unfold float_divisor, fsign.
  destruct (Rlt_dec y 0); [|lra].
  assert (H2 : rnd (2 * -1) = (-2)%R).
  { replace (2 * -1)%R with (- bpow radix2 1)%R by (simpl; lra). rewrite rnd_id; [simpl; lra|].
    apply format_opp. apply generic_format_bpow. unfold fexp, FLT_exp. unfold Prec_gt_0 in Hprec. lia. }
  rewrite H2. rewrite (rnd_id (-2 * c)).
  2:{ replace (-2 * c)%R with (- (2 * c))%R by ring. now apply format_opp, format_double. }
  replace (-2 * c + c)%R with (- c)%R by ring. rewrite (rnd_id (- c)) by now apply format_opp.
  split; [reflexivity|].
  rewrite <- (rnd_id y) at 2 by auto. apply rnd_le. lra.
Qed.
Lemma format_pm2 : (emin <= 0)%Z -> format 2 /\ format (-1) /\ format 1.
Proof.
  intros Hemin. unfold Prec_gt_0 in Hprec.
  assert (H1 : format 1) by (change 1%R with (bpow radix2 0); apply generic_format_bpow; unfold fexp, FLT_exp; lia).
  split; [change 2%R with (bpow radix2 1); apply generic_format_bpow; unfold fexp, FLT_exp; lia|].
  split; auto. replace (-1)%R with (- (1))%R by lra. now apply format_opp.
Qed.

(** The model's divisor, computed with rounding. *)
Lemma safe_divisor_rounded : forall y c, (emin <= 0)%Z ->
  @safe_divisor R Num_rounded y c = float_divisor y c.
Proof.
  intros y c Hemin. destruct (format_pm2 Hemin) as (F2 & Fm & F1).
  unfold safe_divisor, float_divisor, fsign, nsign, n0, n1, n2, nint. cbn.
  replace (Rfrac 0 1) with 0%R by (unfold Rfrac; lra).
  replace (Rfrac 1 1) with 1%R by (unfold Rfrac; lra).
  replace (Rfrac 2 1) with 2%R by (unfold Rfrac; lra).
  replace (Rfrac (-1) 1) with (-1)%R by (unfold Rfrac; lra).
  rewrite (rnd_id 0) by apply generic_format_0. rewrite (rnd_id 2), (rnd_id 1), (rnd_id (-1)) by auto.
  unfold Rltb. destruct (Rlt_dec y 0); [reflexivity|]. destruct (Rlt_dec 0 y); reflexivity.
Qed.

Lemma float_divisor_pos_eq : forall y c, format c -> (emin <= 0)%Z -> (0 < y)%R ->
  float_divisor y c = rnd (y + rnd (3 * c)).
Proof.
  intros y c Hc Hemin Hy0. destruct (format_pm2 Hemin) as (F2 & _). unfold float_divisor, fsign.
  destruct (Rlt_dec y 0); [lra|]. destruct (Rlt_dec 0 y); [|lra].
  rewrite Rmult_1_r, (rnd_id 2) by auto. rewrite (rnd_id (2 * c)) by now apply format_double.
  do 3 f_equal. ring.
Qed.
End F.
