(** IEEE 754 double precision (Flocq's binary64 with a single NaN, round to nearest even)
    as a third instance of the numbers of Base/Num.v: rounding, overflow, signed zeros,
    infinities and NaN. *)
From Coq Require Import ZArith Reals Lra Lia Bool.
From Flocq Require Import Core.Core IEEE754.BinarySingleNaN.
From Verif.Base Require Import Num.
Local Open Scope R_scope.

#[global] Instance prec64 : Prec_gt_0 53. Proof. reflexivity. Qed.
#[global] Instance emax64 : Prec_lt_emax 53 1024. Proof. reflexivity. Qed.
Definition f64 : Type := binary_float 53 1024.
Definition f_of_Z (z : Z) : f64 := binary_normalize 53 1024 prec64 emax64 mode_NE z 0 false.

#[global] Instance Num_f64 : Num f64 := {
  nadd := Bplus mode_NE; nsub := Bminus mode_NE; nmul := Bmult mode_NE; ndiv := Bdiv mode_NE;
  nopp := Bopp; nsqrt := Bsqrt mode_NE; nltb := Bltb;
  nfrac := fun z p => Bdiv mode_NE (f_of_Z z) (f_of_Z (Z.pos p)) }.

(** Neither infinite nor NaN; the real number it stands for. *)
Definition finite (x : f64) : Prop := is_finite x = true.
Definition value (x : f64) : R := B2R x.

(** Rounding to doubles (gradual underflow; no largest number). *)
Definition rnd64 : R -> R := round radix2 (FLT_exp (-1074) 53) ZnearestE.
(** 2^1024: what rounds to at least this overflows. *)
Definition huge : R := bpow radix2 1024.

(** [x] is finite and stands for [r]. *)
Definition rep (x : f64) (r : R) : Prop := finite x /\ value x = r.

Lemma rnd64_mono : forall x y, x <= y -> rnd64 x <= rnd64 y.
Proof. intros. apply round_le; auto. apply FLT_exp_valid. reflexivity. apply valid_rnd_N. Qed.
Lemma rnd64_id : forall x, generic_format radix2 (FLT_exp (-1074) 53) x -> rnd64 x = x.
Proof. intros. apply round_generic; auto. apply valid_rnd_N. Qed.
Lemma rnd64_0 : rnd64 0 = 0. Proof. apply rnd64_id, generic_format_0. Qed.
Lemma rnd64_opp : forall x, rnd64 (- x) = - rnd64 x. Proof. intros. apply round_NE_opp. Qed.
Lemma value_format : forall x : f64, generic_format radix2 (FLT_exp (-1074) 53) (value x).
Proof. intros x. apply (generic_format_B2R 53 1024). Qed.
Lemma value_round : forall x : f64, rnd64 (value x) = value x.
Proof. intros. apply rnd64_id, value_format. Qed.
Lemma value_bound : forall x : f64, Rabs (value x) < huge.
Proof. intros. apply (abs_B2R_lt_emax 53 1024). Qed.
Lemma format64_bpow : forall e, (-1074 <= e)%Z -> generic_format radix2 (FLT_exp (-1074) 53) (bpow radix2 e).
Proof. intros e He. apply generic_format_bpow. unfold FLT_exp. lia. Qed.
Lemma rnd64_bound : forall e x, (-1074 <= e)%Z -> Rabs x <= bpow radix2 e -> Rabs (rnd64 x) <= bpow radix2 e.
Proof.
  intros e x He Hx. pose proof (rnd64_id _ (format64_bpow e He)) as E. apply Rabs_le.
  pose proof (Rle_abs x). pose proof (Rle_abs (- x)) as H1. rewrite Rabs_Ropp in H1.
  split; [rewrite <- E, <- rnd64_opp|rewrite <- E]; apply rnd64_mono; lra.
Qed.
Lemma below_huge : forall e x, (-1074 <= e < 1024)%Z -> Rabs x <= bpow radix2 e -> Rabs (rnd64 x) < huge.
Proof. intros e x He Hx. eapply Rle_lt_trans; [apply (rnd64_bound e); [lia|exact Hx]|]. apply bpow_lt. lia. Qed.

(** *** Operations on finite numbers that do not overflow *)
Lemma rep_add : forall x y a b, rep x a -> rep y b -> Rabs (rnd64 (a + b)) < huge -> rep (nadd x y) (rnd64 (a + b)).
Proof.
  intros x y a b [Fx <-] [Fy <-] H. pose proof (Bplus_correct 53 1024 prec64 emax64 mode_NE x y Fx Fy) as C.
  rewrite Rlt_bool_true in C by exact H. split; apply C.
Qed.
Lemma rep_sub : forall x y a b, rep x a -> rep y b -> Rabs (rnd64 (a - b)) < huge -> rep (nsub x y) (rnd64 (a - b)).
Proof.
  intros x y a b [Fx <-] [Fy <-] H. pose proof (Bminus_correct 53 1024 prec64 emax64 mode_NE x y Fx Fy) as C.
  rewrite Rlt_bool_true in C by exact H. split; apply C.
Qed.
Lemma rep_mul : forall x y a b, rep x a -> rep y b -> Rabs (rnd64 (a * b)) < huge -> rep (nmul x y) (rnd64 (a * b)).
Proof.
  intros x y a b [Fx <-] [Fy <-] H. pose proof (Bmult_correct 53 1024 prec64 emax64 mode_NE x y) as C.
  rewrite Rlt_bool_true in C by exact H. destruct C as (C1 & C2 & _). split; [|exact C1].
  unfold finite in *. etransitivity; [exact C2|]. now rewrite Fx, Fy.
Qed.
Lemma rep_div : forall x y a b, rep x a -> rep y b -> b <> 0 -> Rabs (rnd64 (a / b)) < huge -> rep (ndiv x y) (rnd64 (a / b)).
Proof.
  intros x y a b [Fx <-] [Fy <-] Hb H. pose proof (Bdiv_correct 53 1024 prec64 emax64 mode_NE x y Hb) as C.
  rewrite Rlt_bool_true in C by exact H. destruct C as (C1 & C2 & _). split; [|exact C1].
  unfold finite in *. etransitivity; [exact C2|]. exact Fx.
Qed.
Lemma rep_opp : forall x a, rep x a -> rep (nopp x) (- a).
Proof. intros x a [Fx <-]. split; [unfold finite; etransitivity; [apply is_finite_Bopp|exact Fx]|apply B2R_Bopp]. Qed.
Lemma rep_sqrt : forall x a, rep x a -> 0 <= a -> rep (nsqrt x) (rnd64 (sqrt a)).
Proof.
  intros x a [Fx <-] Ha. destruct (Bsqrt_correct 53 1024 prec64 emax64 mode_NE x) as (C1 & C2 & _). split; [|exact C1].
  unfold finite. etransitivity; [exact C2|]. destruct x as [s|s| |s m e He]; try discriminate Fx; auto. destruct s; auto.
  exfalso. unfold value in Ha. cbn in Ha. pose proof (F2R_lt_0 radix2 (Float radix2 (Z.neg m) e) (eq_refl)). lra.
Qed.
Lemma rep_ltb : forall x y a b, rep x a -> rep y b -> nltb x y = Rltb a b.
Proof.
  intros x y a b [Fx <-] [Fy <-]. etransitivity; [apply (Bltb_correct 53 1024 x y Fx Fy)|]. unfold Rltb.
  destruct (Rlt_dec (value x) (value y)) as [L|L]; [now apply Rlt_bool_true|apply Rlt_bool_false; unfold value in L; lra].
Qed.
Lemma rep_max : forall x y a b, rep x a -> rep y b -> rep (nmax x y) (Rmax a b).
Proof.
  intros x y a b Hx Hy. rewrite <- nmax_R. unfold nmax. rewrite (rep_ltb x y a b) by assumption. cbn. destruct (Rltb a b); assumption.
Qed.
Lemma rep_min : forall x y a b, rep x a -> rep y b -> rep (nmin x y) (Rmin a b).
Proof.
  intros x y a b Hx Hy. rewrite <- nmin_R. unfold nmin. rewrite (rep_ltb y x b a) by assumption. cbn. destruct (Rltb b a); assumption.
Qed.

(** *** Literals *)
Lemma rep_Z : forall z, generic_format radix2 (FLT_exp (-1074) 53) (IZR z) -> Rabs (IZR z) < huge -> rep (f_of_Z z) (IZR z).
Proof.
  intros z Hf Hz. pose proof (binary_normalize_correct 53 1024 prec64 emax64 mode_NE z 0 false) as C. cbv zeta in C.
  replace (F2R (Float radix2 z 0)) with (IZR z) in C by (unfold F2R; cbn; ring).
  change (round radix2 (SpecFloat.fexp 53 1024) (round_mode mode_NE) (IZR z)) with (rnd64 (IZR z)) in C.
  rewrite (rnd64_id _ Hf), Rlt_bool_true in C by exact Hz. split; apply C.
Qed.
Lemma format_Z : forall z k, (Z.abs (z / 2 ^ k) < 2 ^ 53)%Z -> (0 <= k)%Z -> (z = z / 2 ^ k * 2 ^ k)%Z ->
  generic_format radix2 (FLT_exp (-1074) 53) (IZR z).
Proof.
  intros z k Hz Hk E. apply generic_format_FLT. exists (Float radix2 (z / 2 ^ k) k); cbn; [|exact Hz|lia].
  unfold F2R; cbn. rewrite E at 1. rewrite mult_IZR. f_equal. apply (IZR_Zpower radix2). exact Hk.
Qed.
Lemma IZR_huge : forall z, (Z.abs z < 2 ^ 1024)%Z -> Rabs (IZR z) < huge.
Proof. intros z Hz. rewrite <- abs_IZR. unfold huge. rewrite <- (IZR_Zpower radix2) by lia. apply IZR_lt. exact Hz. Qed.
Lemma rep_frac : forall z p k k', (Z.abs (z / 2 ^ k) < 2 ^ 53)%Z -> (0 <= k)%Z -> (z = z / 2 ^ k * 2 ^ k)%Z ->
  (Z.abs (Z.pos p / 2 ^ k') < 2 ^ 53)%Z -> (0 <= k')%Z -> (Z.pos p = Z.pos p / 2 ^ k' * 2 ^ k')%Z ->
  (Z.abs z < 2 ^ 1023)%Z -> (Z.pos p < 2 ^ 1024)%Z -> rep (nfrac z p) (rnd64 (Rfrac z p)).
Proof.
  intros z p k k' H1 H2 H3 H4 H5 H6 Bz Bp. cbn [nfrac Num_f64]. unfold Rfrac.
  assert (P : 1 <= IZR (Z.pos p)) by (apply IZR_le; lia).
  apply rep_div; [apply rep_Z; [now apply (format_Z z k)|apply IZR_huge; assert (2 ^ 1023 < 2 ^ 1024)%Z by reflexivity; lia]
                 |apply rep_Z; [now apply (format_Z (Z.pos p) k')|now apply IZR_huge]|lra|].
  apply (below_huge 1023); [lia|]. unfold Rdiv. rewrite Rabs_mult, <- abs_IZR, Rabs_inv, (Rabs_right (IZR (Z.pos p))) by lra.
  apply Rle_trans with (IZR (Z.abs z) * 1).
  - apply Rmult_le_compat_l; [apply IZR_le; lia|]. rewrite <- Rinv_1. apply Rinv_le_contravar; lra.
  - rewrite Rmult_1_r, <- (IZR_Zpower radix2) by lia. apply IZR_le. cbn. lia.
Qed.
Lemma rnd64_Z : forall z, (Z.abs z < 2 ^ 53)%Z -> rnd64 (IZR z) = IZR z.
Proof. intros z Hz. apply rnd64_id, (format_Z z 0); rewrite ?Z.div_1_r; cbn; lia. Qed.
Lemma rep_int : forall z, (Z.abs z < 2 ^ 53)%Z -> rep (nint z) (IZR z).
Proof.
  intros z Hz. pose proof (rep_frac z 1 0 0) as H. unfold nint. replace (Rfrac z 1) with (IZR z) in H by (unfold Rfrac; field).
  rewrite rnd64_Z in H by exact Hz. assert (2 ^ 53 < 2 ^ 1023)%Z by reflexivity. apply H; rewrite ?Z.div_1_r; try (cbn; lia).
Qed.
Lemma rep_0 : rep n0 0. Proof. apply (rep_int 0). reflexivity. Qed.
Lemma rep_1 : rep n1 1. Proof. apply (rep_int 1). reflexivity. Qed.
Lemma rep_2 : rep n2 2. Proof. apply (rep_int 2). reflexivity. Qed.

(** *** Infinities and NaN *)
(** Infinite or NaN. *)
Definition spoilt (x : f64) : Prop := is_finite x = false.
Ltac spoilt_cases x y := unfold spoilt; destruct x as [?|[|]| |[|] ? ? ?], y as [[|]|[|]| |[|] ? ? ?]; intros; try discriminate; try reflexivity.
Lemma add_spoilt_l : forall x y : f64, spoilt x -> spoilt (nadd x y). Proof. intros x y. spoilt_cases x y. Qed.
Lemma add_spoilt_r : forall x y : f64, spoilt y -> spoilt (nadd x y). Proof. intros x y. spoilt_cases x y. Qed.
Lemma sub_spoilt_l : forall x y : f64, spoilt x -> spoilt (nsub x y). Proof. intros x y. spoilt_cases x y. Qed.
Lemma sub_spoilt_r : forall x y : f64, spoilt y -> spoilt (nsub x y). Proof. intros x y. spoilt_cases x y. Qed.
Lemma mul_spoilt_l : forall x y : f64, spoilt x -> spoilt (nmul x y). Proof. intros x y. spoilt_cases x y. Qed.
Lemma mul_spoilt_r : forall x y : f64, spoilt y -> spoilt (nmul x y). Proof. intros x y. spoilt_cases x y. Qed.
Lemma div_spoilt_l : forall x y : f64, spoilt x -> spoilt (ndiv x y). Proof. intros x y. spoilt_cases x y. Qed.
Lemma opp_spoilt : forall x : f64, spoilt x -> spoilt (nopp x). Proof. unfold spoilt. intros x. destruct x; auto. Qed.
Lemma sqrt_spoilt : forall x : f64, spoilt x -> spoilt (nsqrt x). Proof. unfold spoilt. intros [s|[|]| |s m e H]; auto; discriminate. Qed.
