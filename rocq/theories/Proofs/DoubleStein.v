(** One entry of an SVGD step in double precision. *)
From Coq Require Import List Arith Lia ZArith Bool Reals Lra.
From Flocq Require Import Core.Core Plus_error.
From Flocq Require IEEE754.BinarySingleNaN.
From Verif.Proofs Require Import SafeFloat FloatCell FloatAdapt.
From Verif.Base Require Import Py Num Float64 Vec Lists.
From Verif.Spec Require Import Doubles.
From Verif.Proofs Require Import DoubleCell DoubleRun.
From Verif.Props Require Import PDoubleData PDoubleTensor.
Import ListNotations.
Local Open Scope R_scope.

(** *** Numbers that are not negative *)
Definition inf64 : f64 := BinarySingleNaN.B754_infinity false.
(** Zero, positive, or NaN. *)
Definition upper (z : f64) : Prop := match z with
  | BinarySingleNaN.B754_infinity b => b = false
  | BinarySingleNaN.B754_finite b _ _ _ => b = false
  | _ => True end.
Lemma upper_finite : forall z, finite z -> 0 <= value z -> upper z.
Proof.
  intros [b|b| |b m e He] F P; cbn; auto; try discriminate F. destruct b; [|reflexivity]. exfalso. unfold value in P. cbn in P.
  pose proof (F2R_lt_0 radix2 (Float radix2 (Z.neg m) e) eq_refl). lra.
Qed.
Lemma upper_cases : forall z, upper z -> (finite z /\ 0 <= value z) \/ z = inf64 \/ z = not_a_number.
Proof.
  intros [b|b| |b m e He] U; cbn in U; auto.
  - left. split; [reflexivity|]. unfold value. cbn. lra.
  - subst b. auto.
  - subst b. left. split; [reflexivity|]. unfold value. cbn. pose proof (F2R_gt_0 radix2 (Float radix2 (Z.pos m) e) eq_refl). lra.
Qed.
Lemma upper_mul : forall a b, upper a -> upper b -> upper (nmul a b).
Proof.
  intros a b Ha Hb. destruct (upper_cases a Ha) as [[Fa Pa]|[->| ->]], (upper_cases b Hb) as [[Fb Pb]|[->| ->]].
  - pose proof (BinarySingleNaN.Bmult_correct 53 1024 prec64 emax64 BinarySingleNaN.mode_NE a b) as C. destruct (Rlt_bool _ _).
    + destruct C as (C1 & C2 & _). apply upper_finite.
      * unfold finite in *. cbn [nmul Num_f64]. rewrite C2, Fa, Fb. reflexivity.
      * unfold value at 1. cbn [nmul Num_f64]. rewrite C1, <- rnd64_0. apply rnd64_mono. unfold value in *. now apply Rmult_le_pos.
    + destruct a as [sa|sa| |sa ma ea Ea], b as [sb|sb| |sb mb eb Eb]; try discriminate Fa; try discriminate Fb; cbn [upper nmul Num_f64] in *; try exact I. subst sa sb.
      cbn [nmul Num_f64]. cbn [BinarySingleNaN.Bsign xorb] in C. destruct (BinarySingleNaN.Bmult _ _ _) as [s|s| |s m e He]; cbn in C |- *; auto; unfold BinarySingleNaN.binary_overflow in C; cbn in C; congruence.
  - destruct a as [sa|sa| |sa ma ea Ea]; cbn in *; auto; now subst.
  - destruct a as [sa|sa| |sa ma ea Ea]; cbn in *; auto.
  - destruct b as [sa|sa| |sa ma ea Ea]; cbn in *; auto; now subst.
  - reflexivity.
  - exact I.
  - destruct b as [sa|sa| |sa ma ea Ea]; cbn in *; auto.
  - exact I.
  - exact I.
Qed.
Lemma upper_square : forall y, upper (nmul y y).
Proof.
  intros y. destruct y as [s|s| |s m e He] eqn:Ey; cbn [nmul Num_f64]; [exact I|destruct s; reflexivity|exact I|]. rewrite <- Ey.
  pose proof (BinarySingleNaN.Bmult_correct 53 1024 prec64 emax64 BinarySingleNaN.mode_NE y y) as C. destruct (Rlt_bool _ _).
  - destruct C as (C1 & C2 & _). apply upper_finite; [unfold finite; rewrite C2, Ey; reflexivity|]. unfold value at 1. rewrite C1, <- rnd64_0. apply rnd64_mono. apply Rle_0_sqr.
  - rewrite xorb_nilpotent in C. destruct (BinarySingleNaN.Bmult _ y y) as [s'|s'| |s' m' e' He']; cbn in C |- *; auto; unfold BinarySingleNaN.binary_overflow in C; cbn in C; congruence.
Qed.
Lemma upper_add : forall a b, upper a -> upper b -> upper (nadd a b).
Proof.
  intros a b Ha Hb. destruct (upper_cases a Ha) as [[Fa Pa]|[->| ->]], (upper_cases b Hb) as [[Fb Pb]|[->| ->]].
  - pose proof (BinarySingleNaN.Bplus_correct 53 1024 prec64 emax64 BinarySingleNaN.mode_NE a b Fa Fb) as C. destruct (Rlt_bool _ _).
    + destruct C as (C1 & C2 & _). apply upper_finite; [exact C2|].
      unfold value at 1. cbn [nadd Num_f64]. rewrite C1, <- rnd64_0. apply rnd64_mono. unfold value in *. lra.
    + destruct C as [C1 C2].
      destruct a as [sa|sa| |sa ma ea Ea], b as [sb|sb| |sb mb eb Eb]; try discriminate Fa; try discriminate Fb; cbn [upper] in *; subst.
      * destruct sa, sb; exact I.
      * reflexivity.
      * reflexivity.
      * cbn [BinarySingleNaN.Bsign] in C1. cbn [nadd Num_f64]. destruct (BinarySingleNaN.Bplus _ _ _) as [s|s| |s m e He]; cbn in C1 |- *; auto; unfold BinarySingleNaN.binary_overflow in C1; cbn in C1; congruence.
  - destruct a as [sa|sa| |sa ma ea Ea]; cbn in *; auto; now subst.
  - destruct a as [sa|sa| |sa ma ea Ea]; cbn in *; auto.
  - destruct b as [sa|sa| |sa ma ea Ea]; cbn in *; auto; now subst.
  - reflexivity.
  - exact I.
  - destruct b as [sa|sa| |sa ma ea Ea]; cbn in *; auto.
  - exact I.
  - exact I.
Qed.

(** A finite result is the correctly rounded one. *)
Lemma mul_value : forall a b : f64, finite (nmul a b) -> value (nmul a b) = rnd64 (value a * value b).
Proof.
  intros a b F. pose proof (BinarySingleNaN.Bmult_correct 53 1024 prec64 emax64 BinarySingleNaN.mode_NE a b) as C. destruct (Rlt_bool _ _); [apply C|exfalso].
  unfold finite in F. cbn [nmul Num_f64] in F. destruct (BinarySingleNaN.Bmult _ a b) as [| | |]; try discriminate F; cbn in C; unfold BinarySingleNaN.binary_overflow in C; cbn in C; discriminate C.
Qed.
Lemma add_value : forall a b : f64, finite a -> finite b -> finite (nadd a b) -> value (nadd a b) = rnd64 (value a + value b).
Proof.
  intros a b F1 F2 F. pose proof (BinarySingleNaN.Bplus_correct 53 1024 prec64 emax64 BinarySingleNaN.mode_NE a b F1 F2) as C. destruct (Rlt_bool _ _); [apply C|exfalso]. destruct C as [C _].
  unfold finite in F. cbn [nadd Num_f64] in F. destruct (BinarySingleNaN.Bplus _ a b) as [| | |]; try discriminate F; cbn in C; unfold BinarySingleNaN.binary_overflow in C; cbn in C; discriminate C.
Qed.
Lemma sub_value : forall a b : f64, finite a -> finite b -> finite (nsub a b) -> value (nsub a b) = rnd64 (value a - value b).
Proof.
  intros a b F1 F2 F. pose proof (BinarySingleNaN.Bminus_correct 53 1024 prec64 emax64 BinarySingleNaN.mode_NE a b F1 F2) as C. destruct (Rlt_bool _ _); [apply C|exfalso]. destruct C as [C _].
  unfold finite in F. cbn [nsub Num_f64] in F. destruct (BinarySingleNaN.Bminus _ a b) as [| | |]; try discriminate F; cbn in C; unfold BinarySingleNaN.binary_overflow in C; cbn in C; discriminate C.
Qed.
(** Products and sums of finite numbers are not NaN. *)
Lemma mul_nan : forall a b : f64, finite a -> finite b -> nmul a b <> not_a_number.
Proof.
  intros a b F1 F2 E. pose proof (BinarySingleNaN.Bmult_correct 53 1024 prec64 emax64 BinarySingleNaN.mode_NE a b) as C. cbn [nmul Num_f64] in E. rewrite E in C.
  destruct (Rlt_bool _ _); [destruct C as (_ & C & _); unfold finite in *; rewrite F1, F2 in C; discriminate C|cbn in C; unfold BinarySingleNaN.binary_overflow in C; cbn in C; discriminate C].
Qed.
Lemma add_nan : forall a b : f64, finite a -> finite b -> nadd a b <> not_a_number.
Proof.
  intros a b F1 F2 E. pose proof (BinarySingleNaN.Bplus_correct 53 1024 prec64 emax64 BinarySingleNaN.mode_NE a b F1 F2) as C. cbn [nadd Num_f64] in E. rewrite E in C.
  destruct (Rlt_bool _ _); [destruct C as (_ & C & _); discriminate C|destruct C as [C _]; cbn in C; unfold BinarySingleNaN.binary_overflow in C; cbn in C; discriminate C].
Qed.
Lemma inf_mul : forall a : f64, finite a -> 0 < value a -> nmul a inf64 = inf64.
Proof.
  intros [s|s| |s m e B] F P; try discriminate F; [unfold value in P; cbn in P; lra|]. destruct s; [|reflexivity]. exfalso. unfold value in P. cbn in P.
  pose proof (F2R_lt_0 radix2 (Float radix2 (Z.neg m) e) eq_refl). lra.
Qed.
Lemma add_inf : forall a : f64, finite a -> nadd a inf64 = inf64.
Proof. intros [s|s| |s m e B] F; try discriminate F; reflexivity. Qed.
Lemma inf_plus : forall a : f64, finite a -> nadd inf64 a = inf64.
Proof. intros [s|s| |s m e B] F; try discriminate F; reflexivity. Qed.
(** Squares overflow from 2^512 on. *)
Lemma square_overflows : forall y : f64, finite y -> p2 512 <= Rabs (value y) -> nmul y y = inf64.
Proof.
  intros y Fy Ly. destruct (upper_cases _ (upper_square y)) as [[F _]|[E|E]]; [exfalso|exact E|exfalso; now apply (mul_nan y y)].
  pose proof (value_bound (nmul y y)) as V. rewrite (mul_value _ _ F) in V.
  assert (L : huge <= Rabs (rnd64 (value y * value y))); [|lra].
  unfold rnd64. apply abs_round_ge_generic; [auto with typeclass_instances|apply valid_rnd_N|apply format64_bpow; lia|].
  rewrite Rabs_mult. change huge with (p2 (512 + 512)). rewrite p2_plus. pose proof (p2_pos 512). apply Rmult_le_compat; lra.
Qed.

(** *** The adaptive step of one entry *)
Section Entry.
Variables alpha fudge eps : f64.
Hypothesis Ha : finite alpha /\ 0 <= value alpha < 1.
Hypothesis Hf : finite fudge /\ p2 (-400) <= value fudge.
Hypothesis He : between64 0 (p2 400) eps.
(** New history and new value, for the old value [x], the direction [y] and the old history [h]. *)
Definition hist_next (y h : f64) : f64 := nadd (nmul alpha h) (nmul (nsub n1 alpha) (npow y 2)).
Definition entry_next (x y h : f64) : f64 := nsub x (nmul eps (ndiv y (nadd fudge (nsqrt (hist_next y h))))).

Lemma oma_rep : exists o, rep (nsub n1 alpha) o /\ (1 - p2 (-52)) * (1 - value alpha) <= o <= 1 /\ p2 (-54) <= o.
Proof.
  destruct Ha as [Fa Ra]. exists (rnd64 (1 - value alpha)).
  assert (L : p2 (-53) <= 1 - value alpha).
  { assert (value alpha <= pred radix2 (FLT_exp (-1074) 53) 1).
    { apply pred_ge_gt; [auto with typeclass_instances|apply value_format|change 1 with (bpow radix2 0); apply format64_bpow; lia|lra]. }
    change 1 with (bpow radix2 0) in H. rewrite pred_bpow in H. change (FLT_exp (-1074) 53 0) with (-53)%Z in H. fold (p2 0) (p2 (-53)) in H. change (p2 0) with 1 in H. lra. }
  pose proof (p2_pos (-53)) as P. split; [|split].
  - apply rep_sub; [apply rep_1|now split|]. apply (below_huge 0); [lia|]. rewrite Rabs_right by lra. cbn. lra.
  - split; [apply rel_bounds; [lra|pose proof (p2_le (-1022) (-53) ltac:(lia)); lra]|]. replace 1 with (rnd64 1) at 2 by (apply (rnd64_Z 1); reflexivity). apply rnd64_mono. lra.
  - unfold p2. rewrite <- (rnd64_id _ (format64_bpow (-54) ltac:(lia))). apply rnd64_mono. pose proof (p2_le (-54) (-53) ltac:(lia)). unfold p2 in *. lra.
Qed.
Lemma upper_alpha : upper alpha. Proof. destruct Ha as [F R]. apply upper_finite; [exact F|lra]. Qed.
Lemma upper_oma : upper (nsub n1 alpha).
Proof. destruct oma_rep as (o & [F V] & _ & P). apply upper_finite; [exact F|]. rewrite V. pose proof (p2_pos (-54)). lra. Qed.
Lemma hist_upper : forall y h, upper h -> upper (hist_next y h).
Proof. intros y h Hh. apply upper_add; apply upper_mul; [exact upper_alpha|exact Hh|exact upper_oma|apply upper_square]. Qed.

Lemma fin_of : forall z : f64, ~ spoilt z -> finite z.
Proof. intros z H. unfold spoilt, finite in *. destruct (BinarySingleNaN.is_finite z); [reflexivity|exfalso; now apply H]. Qed.
Lemma finite_not : forall z : f64, finite z -> ~ spoilt z. Proof. intros z F S. unfold finite, spoilt in *. congruence. Qed.
(** A finite new value: the direction was finite and the history is not NaN. *)
Lemma step_parts : forall x y h, finite (entry_next x y h) -> finite x /\ finite y /\ finite (ndiv y (nadd fudge (nsqrt (hist_next y h)))).
Proof.
  intros x y h F. split; [|split]; apply fin_of; intros S; apply (finite_not _ F); unfold entry_next.
  - now apply sub_spoilt_l.
  - now apply sub_spoilt_r, mul_spoilt_r, div_spoilt_l.
  - now apply sub_spoilt_r, mul_spoilt_r.
Qed.
Lemma hist_not_nan : forall y h, finite (ndiv y (nadd fudge (nsqrt (hist_next y h)))) -> hist_next y h <> not_a_number.
Proof.
  intros y h F E. rewrite E in F. change (nsqrt not_a_number) with not_a_number in F. destruct Hf as [Ff _]. destruct fudge as [s|s| |s m e B]; try discriminate Ff; cbn in F; destruct y; discriminate F.
Qed.
(** Infinite history: no move. *)
Lemma zero_quotient : forall y, finite y -> rep (ndiv y (nadd fudge (nsqrt inf64))) 0.
Proof.
  intros y F. destruct Hf as [Ff _]. replace (nadd fudge (nsqrt inf64)) with inf64 by (destruct fudge as [s|s| |s m e B]; try discriminate Ff; reflexivity).
  destruct y as [s|s| |s m e B]; try discriminate F; split; reflexivity.
Qed.
Lemma frozen_entry : forall x y h, finite x -> finite y -> hist_next y h = inf64 -> rep (entry_next x y h) (value x).
Proof.
  intros x y h Fx Fy E. unfold entry_next. rewrite E. destruct He as [Fe Re]. pose proof (zero_quotient y Fy) as Q.
  assert (M : rep (nmul eps (ndiv y (nadd fudge (nsqrt inf64)))) 0).
  { rewrite <- rnd64_0. rewrite <- (Rmult_0_r (value eps)). apply rep_mul; [now split|exact Q|]. rewrite Rmult_0_r, rnd64_0, Rabs_R0. apply bpow_gt_0. }
  replace (value x) with (rnd64 (value x - 0)) by (rewrite Rminus_0_r; apply value_round). apply rep_sub; [now split|exact M|]. rewrite Rminus_0_r, value_round. apply value_bound.
Qed.
(** The quotient is bounded whatever the direction. *)
Lemma quotient_bound : forall y h, finite y -> upper h -> hist_next y h <> not_a_number ->
  exists q, rep (ndiv y (nadd fudge (nsqrt (hist_next y h)))) q /\ Rabs q <= (1 + p2 (-48)) / sqrt (1 - value alpha).
Proof.
  intros y h Fy Hh HN. destruct Hf as [Ff Lf]. destruct Ha as [Fa Ra].
  assert (S1 : 0 < sqrt (1 - value alpha) <= 1).
  { split; [apply sqrt_lt_R0; lra|]. rewrite <- sqrt_1 at 2. apply sqrt_le_1_alt. lra. }
  set (r := sqrt (1 - value alpha)) in *. assert (IR : 1 <= / r) by (rewrite <- Rinv_1; apply Rinv_le_contravar; lra).
  pose proof (p2_pos (-48)) as P48. pose proof (p2_pos (-400)) as P400.
  destruct (upper_cases _ (hist_upper y h Hh)) as [[Fh Ph]|[E|E]]; [|exists 0; split; [rewrite E; now apply zero_quotient|rewrite Rabs_R0; apply Rmult_le_pos; lra]|contradiction].
  set (h' := hist_next y h) in *. pose proof (rep_sqrt h' (value h') (conj Fh eq_refl) Ph) as RS. set (s := rnd64 (sqrt (value h'))) in *.
  assert (Ps : 0 <= s) by (unfold s; rewrite <- rnd64_0; apply rnd64_mono, sqrt_pos).
  set (D := nadd fudge (nsqrt h')).
  assert (UF : upper D) by (apply upper_add; apply upper_finite; [exact Ff|lra|exact (proj1 RS)|rewrite (proj2 RS); exact Ps]).
  destruct (upper_cases D UF) as [[FD PD]|[E|E]].
  2:{ exists 0. split; [rewrite E; destruct y as [t|t| |t m e B]; try discriminate Fy; split; reflexivity|rewrite Rabs_R0; apply Rmult_le_pos; lra]. }
  2:{ exfalso. now apply (add_nan fudge (nsqrt h') Ff (proj1 RS)). }
  (* value of the denominator *)
  assert (VD : value D = rnd64 (value fudge + s)) by (rewrite <- (proj2 RS); apply add_value; [exact Ff|exact (proj1 RS)|exact FD]).
  assert (DL1 : p2 (-400) <= value D).
  { rewrite VD. unfold p2. rewrite <- (rnd64_id _ (format64_bpow (-400) ltac:(lia))). apply rnd64_mono. unfold p2 in *. lra. }
  assert (DL2 : s <= value D).
  { rewrite VD. replace s with (rnd64 s) at 1 by (unfold s; apply rnd64_id, generic_format_round; [apply FLT_exp_valid; reflexivity|apply valid_rnd_N]). apply rnd64_mono. lra. }
  destruct oma_rep as (o & RO & [OL OU] & OP).
  set (t := p2 (-52)) in *. assert (Pt : 0 < t) by apply p2_pos. assert (T48 : p2 (-48) = 16 * t) by (unfold t; change (-48)%Z with (4 + -52)%Z; rewrite p2_plus; reflexivity).
  assert (T1 : t <= / 1000000) by (unfold t, p2; cbn; lra).
  assert (AB : forall z, Rabs (value y / z) = Rabs (value y) / Rabs z) by (intros; unfold Rdiv; now rewrite Rabs_mult, Rabs_inv).
  destruct (Rle_dec (Rabs (value y)) (p2 (-480))) as [Ly|Ly].
  - (* tiny direction *)
    assert (B : Rabs (value y / value D) <= p2 (-80)).
    { rewrite AB, (Rabs_right (value D)) by lra. apply (Rmult_le_reg_r (value D)); [lra|]. unfold Rdiv. rewrite Rmult_assoc, Rinv_l, Rmult_1_r by lra.
      apply Rle_trans with (p2 (-80) * p2 (-400)); [rewrite <- p2_plus; exact Ly|]. apply Rmult_le_compat_l; [left; apply p2_pos|exact DL1]. }
    exists (rnd64 (value y / value D)). split; [apply rep_div; [now split|now split|lra|apply (below_huge (-80)); [lia|exact B]]|].
    eapply Rle_trans; [apply (rnd64_bound (-80)); [lia|exact B]|]. apply Rle_trans with 1; [change 1 with (bpow radix2 0); apply bpow_le; lia|]. apply Rle_trans with (1 * / r); [lra|]. apply Rmult_le_compat_r; lra.
  - apply Rnot_le_lt in Ly. set (Y := Rabs (value y)) in *. pose proof (p2_pos (-480)) as P480.
    (* y^2 does not overflow, for the history is finite *)
    assert (YY : Rabs (value y * value y) = Y * Y) by apply Rabs_mult.
    assert (NP : npow y 2 = nmul y y) by reflexivity.
    assert (FQ : finite (nmul y y)).
    { apply fin_of. intros S. apply (finite_not _ Fh). unfold h', hist_next. rewrite NP. apply add_spoilt_r, mul_spoilt_r, S. }
    assert (FA : finite (nmul alpha h)) by (apply fin_of; intros S; apply (finite_not _ Fh); apply add_spoilt_l, S).
    assert (FB : finite (nmul (nsub n1 alpha) (nmul y y))) by (apply fin_of; intros S; apply (finite_not _ Fh); unfold h', hist_next; rewrite NP; apply add_spoilt_r, S).
    pose proof (mul_value _ _ FQ) as VQ. pose proof (mul_value _ _ FB) as VB. rewrite (proj2 RO) in VB.
    assert (Y2 : p2 (-960) <= Y * Y) by (change (-960)%Z with (-480 + -480)%Z; rewrite p2_plus; apply Rmult_le_compat; lra).
    assert (QE : value y * value y = Y * Y) by (rewrite <- YY, Rabs_right; [reflexivity|apply Rle_ge, Rle_0_sqr]).
    rewrite QE in VQ. pose proof (p2_pos (-960)) as P960.
    assert (QL : (1 - t) * (Y * Y) <= value (nmul y y)) by (rewrite VQ; apply rel_bounds; [lra|pose proof (p2_le (-1022) (-960) ltac:(lia)); lra]).
    set (Q := value (nmul y y)) in *. assert (PQ : p2 (-961) <= Q) by (pose proof (p2_twice (-961) (-960) ltac:(lia)); nra).
    pose proof (p2_pos (-961)) as P961. pose proof (p2_pos (-54)) as P54.
    assert (OQ : p2 (-1015) <= o * Q) by (change (-1015)%Z with (-54 + -961)%Z; rewrite p2_plus; apply Rmult_le_compat; lra).
    assert (BL : (1 - t) * (o * Q) <= value (nmul (nsub n1 alpha) (nmul y y))).
    { rewrite VB. pose proof (p2_pos (-1015)). apply rel_bounds; [lra|pose proof (p2_le (-1022) (-1015) ltac:(lia)); lra]. }
    set (G := value (nmul (nsub n1 alpha) (nmul y y))) in *.
    assert (HG : G <= value h').
    { unfold h', hist_next. rewrite NP. rewrite add_value by assumption. replace G with (rnd64 G) by apply value_round. apply rnd64_mono.
      assert (0 <= value (nmul alpha h)); [|unfold G; lra]. destruct (upper_cases _ (upper_mul _ _ upper_alpha Hh)) as [[_ P]|[E|E]]; [exact P| |]; rewrite E in FA; discriminate FA. }
    assert (HL : (1 - 4 * t) * ((1 - value alpha) * (Y * Y)) <= value h').
    { assert (X1 : (1 - t) * ((1 - t) * (1 - value alpha) * ((1 - t) * (Y * Y))) <= (1 - t) * (o * Q)).
      { apply Rmult_le_compat_l; [lra|]. apply Rmult_le_compat; try lra; apply Rmult_le_pos; lra. }
      assert (X2 : 1 - 4 * t <= (1 - t) * ((1 - t) * (1 - t))) by nra.
      assert (X3 : 0 <= (1 - value alpha) * (Y * Y)) by (apply Rmult_le_pos; lra).
      assert (X4 : (1 - 4 * t) * ((1 - value alpha) * (Y * Y)) <= (1 - t) * ((1 - t) * (1 - t)) * ((1 - value alpha) * (Y * Y))) by (apply Rmult_le_compat_r; lra).
      replace ((1 - t) * ((1 - t) * (1 - t)) * ((1 - value alpha) * (Y * Y))) with ((1 - t) * ((1 - t) * (1 - value alpha) * ((1 - t) * (Y * Y)))) in X4 by ring. lra. }
    assert (SL : (1 - 4 * t) * (r * Y) <= sqrt (value h')).
    { assert (RY : 0 <= r * Y) by (apply Rmult_le_pos; [lra|unfold Y; apply Rabs_pos]).
      rewrite <- (sqrt_square ((1 - 4 * t) * (r * Y))) by (apply Rmult_le_pos; lra). apply sqrt_le_1_alt. eapply Rle_trans; [|exact HL].
      replace ((1 - 4 * t) * (r * Y) * ((1 - 4 * t) * (r * Y))) with ((1 - 4 * t) * ((1 - 4 * t) * (r * r * (Y * Y)))) by ring. unfold r. rewrite sqrt_sqrt by lra.
      apply Rmult_le_compat_l; [lra|]. assert (0 <= (1 - value alpha) * (Y * Y)) by (apply Rmult_le_pos; lra). nra. }
    assert (RL : p2 (-27) <= r).
    { unfold r. rewrite <- (sqrt_square (p2 (-27))) by (left; apply p2_pos). apply sqrt_le_1_alt. rewrite <- p2_plus. change (-27 + -27)%Z with (-54)%Z.
      assert (p2 (-53) <= 1 - value alpha); [|pose proof (p2_le (-54) (-53) ltac:(lia)); lra].
      assert (value alpha <= pred radix2 (FLT_exp (-1074) 53) 1).
      { apply pred_ge_gt; [auto with typeclass_instances|apply value_format|change 1 with (bpow radix2 0); apply format64_bpow; lia|lra]. }
      change 1 with (bpow radix2 0) in H. rewrite pred_bpow in H. change (FLT_exp (-1074) 53 0) with (-53)%Z in H. fold (p2 0) (p2 (-53)) in H. change (p2 0) with 1 in H. lra. }
    pose proof (p2_pos (-27)) as P27.
    assert (RYL : p2 (-507) <= r * Y) by (change (-507)%Z with (-27 + -480)%Z; rewrite p2_plus; apply Rmult_le_compat; lra).
    assert (SS : (1 - 6 * t) * (r * Y) <= s).
    { assert (L0 : p2 (-508) <= sqrt (value h')) by (pose proof (p2_twice (-508) (-507) ltac:(lia)); pose proof (p2_pos (-507)); nra).
      pose proof (p2_pos (-508)). destruct (rel_bounds (sqrt (value h'))) as [B1 _]; [lra|pose proof (p2_le (-1022) (-508) ltac:(lia)); lra|]. fold s t in B1.
      pose proof (p2_pos (-507)). assert ((1 - t) * ((1 - 4 * t) * (r * Y)) <= (1 - t) * sqrt (value h')) by (apply Rmult_le_compat_l; lra).
      assert ((1 - 6 * t) * (r * Y) <= (1 - t) * (1 - 4 * t) * (r * Y)) by (apply Rmult_le_compat_r; [lra|nra]). lra. }
    assert (YD : Y / value D <= (1 + 8 * t) / r).
    { pose proof (p2_pos (-507)). apply (Rmult_le_reg_r (value D)); [lra|]. unfold Rdiv at 1. rewrite Rmult_assoc, Rinv_l, Rmult_1_r by lra.
      apply Rle_trans with ((1 + 8 * t) / r * ((1 - 6 * t) * (r * Y))).
      - replace ((1 + 8 * t) / r * ((1 - 6 * t) * (r * Y))) with ((1 + 8 * t) * (1 - 6 * t) * Y) by (field; lra). rewrite <- (Rmult_1_l Y) at 1. apply Rmult_le_compat_r; [unfold Y; apply Rabs_pos|nra].
      - apply Rmult_le_compat_l; [apply Rmult_le_pos; [lra|left; apply Rinv_0_lt_compat; lra]|lra]. }
    assert (IR27 : / r <= p2 27) by (replace (p2 27) with (/ p2 (-27)); [apply Rinv_le_contravar; lra|unfold p2; rewrite <- bpow_opp; reflexivity]).
    assert (BQ : Rabs (value y / value D) <= p2 28).
    { rewrite AB, (Rabs_right (value D)) by lra. fold Y. eapply Rle_trans; [exact YD|]. apply Rle_trans with (2 * p2 27); [|apply p2_twice; lia]. apply Rmult_le_compat; lra. }
    exists (rnd64 (value y / value D)). split; [apply rep_div; [now split|now split|lra|apply (below_huge 28); [lia|exact BQ]]|].
    pose proof (err64 (value y / value D)) as ER. rewrite AB, (Rabs_right (value D)) in ER by lra. fold Y in ER.
    replace (p2 (-53)) with (t / 2) in ER by (unfold t; change (-52)%Z with (1 + -53)%Z; rewrite p2_plus; change (p2 1) with 2; field).
    assert (TT : p2 (-1075) <= t * / r) by (apply Rle_trans with (t * 1); [unfold t; rewrite Rmult_1_r; apply p2_le; lia|apply Rmult_le_compat_l; lra]).
    assert (E3 : t / 2 * (Y / value D) <= t / 2 * ((1 + 8 * t) / r)) by (apply Rmult_le_compat_l; lra).
    pose proof (Rabs_triang (rnd64 (value y / value D) - value y / value D) (value y / value D)) as TR. replace (rnd64 (value y / value D) - value y / value D + value y / value D) with (rnd64 (value y / value D)) in TR by ring.
    rewrite (AB (value D)), (Rabs_right (value D)) in TR by lra. fold Y in TR. rewrite T48.
    assert (E4 : t / 2 * ((1 + 8 * t) / r) <= t / r) by (unfold Rdiv; replace (t * / 2 * ((1 + 8 * t) * / r)) with (t * (/ 2 * (1 + 8 * t)) * / r) by ring; apply Rmult_le_compat_r; [lra|nra]).
    assert (TI : 0 <= t * / r) by (apply Rmult_le_pos; lra). unfold Rdiv in ER, TR, YD, E3, E4 |- *. lra.
Qed.
(** What one entry does: at most a bounded move. *)
Lemma entry_moves : forall x y h, upper h -> finite (entry_next x y h) ->
  Rabs (value (entry_next x y h) - value x) <= (1 + p2 (-46)) * (value eps / sqrt (1 - value alpha)) + p2 (-53) * Rabs (value x) + p2 (-1074).
Proof.
  intros x y h Hh F. destruct (step_parts x y h F) as (Fx & Fy & FQ). pose proof (hist_not_nan y h FQ) as HN.
  destruct (quotient_bound y h Fy Hh HN) as (q & RQ & BQ). destruct He as [Fe Re]. destruct Ha as [Fa Ra].
  assert (Pr : 0 < sqrt (1 - value alpha)) by (apply sqrt_lt_R0; lra). set (r := sqrt (1 - value alpha)) in *.
  assert (IR : 0 < / r) by (apply Rinv_0_lt_compat; exact Pr).
  set (t := p2 (-52)) in *. assert (Pt : 0 < t) by apply p2_pos. assert (T48 : p2 (-48) = 16 * t) by (unfold t; change (-48)%Z with (4 + -52)%Z; rewrite p2_plus; reflexivity).
  assert (T46 : p2 (-46) = 64 * t) by (unfold t; change (-46)%Z with (6 + -52)%Z; rewrite p2_plus; reflexivity).
  assert (T53 : p2 (-53) = t / 2) by (unfold t; change (-52)%Z with (1 + -53)%Z; rewrite p2_plus; change (p2 1) with 2; field).
  assert (T1 : t <= / 1000000) by (unfold t, p2; cbn; lra). rewrite T46, T53. rewrite T48 in BQ.
  set (A := value eps / r). assert (PA : 0 <= A) by (apply Rmult_le_pos; lra).
  assert (BE : Rabs (value eps * q) <= (1 + 16 * t) * A).
  { rewrite Rabs_mult, (Rabs_right (value eps)) by lra. replace ((1 + 16 * t) * A) with (value eps * ((1 + 16 * t) / r)) by (unfold A; field; lra). apply Rmult_le_compat_l; lra. }
  set (Qt := ndiv y (nadd fudge (nsqrt (hist_next y h)))) in *.
  assert (FM : finite (nmul eps Qt)) by (apply fin_of; intros S; apply (finite_not _ F), sub_spoilt_r, S).
  assert (VM : value (nmul eps Qt) = rnd64 (value eps * q)) by (rewrite <- (proj2 RQ); now apply mul_value).
  assert (VX : value (entry_next x y h) = rnd64 (value x - rnd64 (value eps * q))) by (rewrite <- VM; now apply sub_value).
  rewrite VX. pose proof (err64 (value eps * q)) as E1. rewrite T53 in E1. set (m := rnd64 (value eps * q)) in *.
  assert (FMF : generic_format radix2 (FLT_exp (-1074) 53) m) by (rewrite <- VM; apply value_format).
  pose proof (add_rel (value x) (- m) (value_format x) (generic_format_opp _ _ _ FMF)) as E2. change (value x + - m) with (value x - m) in E2. rewrite T53 in E2.
  assert (U1 : t / 2 * Rabs (value eps * q) <= t / 2 * ((1 + 16 * t) * A)) by (apply Rmult_le_compat_l; lra).
  pose proof (p2_twice (-1075) (-1074) ltac:(lia)) as T74. pose proof (p2_pos (-1075)) as P75. set (z := p2 (-1075)) in *.
  pose proof (Rabs_triang (m - value eps * q) (value eps * q)) as TM. replace (m - value eps * q + value eps * q) with m in TM by ring.
  assert (TA : 0 <= t * A <= / 1000000 * A) by (split; [apply Rmult_le_pos; lra|apply Rmult_le_compat_r; lra]).
  assert (TTA : t * (t * A) <= / 1000000 * (t * A)) by (apply Rmult_le_compat_r; lra).
  assert (BM : Rabs m <= A + 17 * (t * A) + z) by (replace ((1 + 16 * t) * A) with (A + 16 * (t * A)) in * by ring; lra).
  pose proof (Rabs_triang (value x) (- m)) as TX. rewrite Rabs_Ropp in TX. change (value x + - m) with (value x - m) in TX.
  assert (U2 : t / 2 * Rabs (value x - m) <= t / 2 * (Rabs (value x) + (A + 17 * (t * A) + z))) by (apply Rmult_le_compat_l; lra).
  replace (rnd64 (value x - m) - value x) with ((rnd64 (value x - m) - (value x - m)) + - m) by ring. eapply Rle_trans; [apply Rabs_triang|]. rewrite Rabs_Ropp.
  assert (TZ : t * z <= / 1000000 * z) by (apply Rmult_le_compat_r; lra). lra.
Qed.
(** *** Overflow of the history *)
Lemma oma_pos : finite (nsub n1 alpha) /\ 0 < value (nsub n1 alpha).
Proof. destruct oma_rep as (o & [F V] & _ & P). split; [exact F|]. rewrite V. pose proof (p2_pos (-54)). lra. Qed.
Lemma hist_stays : forall y h, h = inf64 -> 0 < value alpha -> finite y -> hist_next y h = inf64.
Proof.
  intros y h -> P Fy. destruct Ha as [Fa _]. destruct oma_pos as [FO PO]. unfold hist_next. rewrite (inf_mul alpha Fa P). change (npow y 2) with (nmul y y).
  destruct (upper_cases _ (upper_square y)) as [[FQ PQ]|[EQ|EQ]]; [| |exfalso; now apply (mul_nan y y)].
  - destruct (upper_cases _ (upper_mul _ _ upper_oma (upper_square y))) as [[F _]|[E2|E2]]; [now apply inf_plus|rewrite E2; reflexivity|exfalso; now apply (mul_nan _ _ FO FQ)].
  - rewrite EQ, (inf_mul _ FO PO). reflexivity.
Qed.
Lemma hist_overflows : forall y h, finite h -> 0 <= value h -> finite y -> p2 512 <= Rabs (value y) -> hist_next y h = inf64.
Proof.
  intros y h Fh Ph Fy Ly. destruct Ha as [Fa Ra]. destruct oma_pos as [FO PO]. unfold hist_next. change (npow y 2) with (nmul y y). rewrite (square_overflows y Fy Ly), (inf_mul _ FO PO). apply add_inf.
  refine (proj1 (rep_mul alpha h (value alpha) (value h) (conj Fa eq_refl) (conj Fh eq_refl) _)).
  eapply Rle_lt_trans; [|apply (value_bound h)]. rewrite (Rabs_right (value h)) by lra. rewrite Rabs_right by (apply Rle_ge; rewrite <- rnd64_0; apply rnd64_mono; apply Rmult_le_pos; lra).
  apply Rle_trans with (rnd64 (value h)); [apply rnd64_mono; rewrite <- (Rmult_1_l (value h)) at 2; apply Rmult_le_compat_r; lra|right; apply value_round].
Qed.
End Entry.
