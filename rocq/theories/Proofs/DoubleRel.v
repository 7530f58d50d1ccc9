(** Relativistic SGHMC in double precision: velocities, the scale of the noise, and what large momenta do. *)
From Coq Require Import List Arith Reals ZArith Lra Lia.
From Flocq Require Import Core.Core.
From Flocq Require IEEE754.BinarySingleNaN.
From Verif.Proofs Require Import FloatCell SafeFloat FloatAdapt.
From Verif.Base Require Import Py Num Float64 Vec Lists.
From Verif.Model Require Import TensorUtils Relativistic.
From Verif.Spec Require Import Doubles.
From Verif.Proofs Require Import DoubleCell DoubleRun.
From Verif.Props Require Import PRelativistic PDoubleData PDoubleTensor.
Import ListNotations.
Local Open Scope R_scope.

(** *** Relative closeness: x = (1 +- k d) y with d = 2^-52 *)
Definition dl : R := p2 (-52).
Lemma dl_range : 0 < dl <= / 1000000.
Proof. unfold dl, p2. change (bpow radix2 (-52)) with (/ 4503599627370496). lra. Qed.
Definition near (k x y : R) : Prop := (1 - k * dl) * y <= x <= (1 + k * dl) * y.
Lemma near_refl : forall y, near 0 y y. Proof. intros. unfold near. lra. Qed.
Lemma near_rnd : forall k z y, 0 <= k <= 100 -> p2 (-1000) <= y -> near k z y -> near (k + 2) (rnd64 z) y.
Proof.
  intros k z y Hk Hy [H1 H2]. pose proof dl_range as D. pose proof (p2_pos (-1000)) as Pp.
  assert (Hz : p2 (-1022) <= z).
  { pose proof (p2_twice (-1022) (-1000) ltac:(lia)). assert (/ 2 * y <= (1 - k * dl) * y) by (apply Rmult_le_compat_r; nra). lra. }
  pose proof (p2_pos (-1022)) as Pq. destruct (rel_bounds z ltac:(lra) Hz) as [R1 R2]. fold dl in R1, R2.
  assert (K : 0 <= k * dl <= 1 / 1000) by nra. set (h := k * dl) in *.
  split.
  - apply Rle_trans with ((1 - dl) * ((1 - h) * y)); [|eapply Rle_trans; [|exact R1]; apply Rmult_le_compat_l; lra].
    rewrite <- Rmult_assoc. apply Rmult_le_compat_r; [lra|]. replace ((k + 2) * dl) with (h + 2 * dl) by (unfold h; ring). nra.
  - apply Rle_trans with ((1 + dl) * ((1 + h) * y)); [eapply Rle_trans; [exact R2|]; apply Rmult_le_compat_l; lra|].
    rewrite <- Rmult_assoc. apply Rmult_le_compat_r; [lra|]. replace ((k + 2) * dl) with (h + 2 * dl) by (unfold h; ring). nra.
Qed.
Lemma near_mul : forall k1 k2 x1 x2 y1 y2, 0 <= k1 <= 100 -> 0 <= k2 <= 100 -> 0 <= y1 -> 0 <= y2 -> near k1 x1 y1 -> near k2 x2 y2 -> near (k1 + k2 + 1) (x1 * x2) (y1 * y2).
Proof.
  intros k1 k2 x1 x2 y1 y2 Hk1 Hk2 P1 P2 [A1 A2] [B1 B2]. pose proof dl_range as D.
  assert (K1 : 0 <= k1 * dl <= 1 / 1000) by nra. assert (K2 : 0 <= k2 * dl <= 1 / 1000) by nra.
  assert (KK : k1 * dl * (k2 * dl) <= dl) by (assert (k1 * (k2 * dl) <= 1) by nra; nra).
  assert (X1 : 0 <= x1) by nra. assert (X2 : 0 <= x2) by nra.
  split.
  - apply Rle_trans with (((1 - k1 * dl) * y1) * ((1 - k2 * dl) * y2)); [|apply Rmult_le_compat; nra].
    replace (((1 - k1 * dl) * y1) * ((1 - k2 * dl) * y2)) with ((1 - k1 * dl) * (1 - k2 * dl) * (y1 * y2)) by ring. apply Rmult_le_compat_r; [nra|]. nra.
  - apply Rle_trans with (((1 + k1 * dl) * y1) * ((1 + k2 * dl) * y2)); [apply Rmult_le_compat; nra|].
    replace (((1 + k1 * dl) * y1) * ((1 + k2 * dl) * y2)) with ((1 + k1 * dl) * (1 + k2 * dl) * (y1 * y2)) by ring. apply Rmult_le_compat_r; [nra|]. nra.
Qed.
Lemma near_sqrt : forall k x y, 0 <= k <= 100 -> 0 <= y -> near k x y -> near k (sqrt x) (sqrt y).
Proof.
  intros k x y Hk Py [A1 A2]. pose proof dl_range as D. assert (K : 0 <= k * dl <= 1 / 1000) by nra. set (h := k * dl) in *. pose proof (sqrt_pos y) as Ps.
  assert (Q : sqrt y * sqrt y = y) by now apply sqrt_sqrt. split; fold h.
  - apply Rle_trans with (sqrt ((1 - h) * y)); [|apply sqrt_le_1; nra]. apply Rsqr_incr_0_var; [|apply sqrt_pos]. unfold Rsqr. rewrite sqrt_sqrt by nra. rewrite <- Q at 3. nra.
  - apply Rle_trans with (sqrt ((1 + h) * y)); [apply sqrt_le_1; nra|]. apply Rsqr_incr_0_var; [|nra]. unfold Rsqr. rewrite sqrt_sqrt by nra. rewrite <- Q at 1. nra.
Qed.
Lemma near_inv : forall k x y, 0 <= k <= 100 -> 0 < y -> near k x y -> near (k + 1) (/ x) (/ y).
Proof.
  intros k x y Hk Py [A1 A2]. pose proof dl_range as D. assert (K : 0 <= k * dl <= 1 / 1000) by nra. assert (K2 : k * (k * dl) <= 1 / 2) by nra. assert (Px : 0 < x) by nra. pose proof (Rinv_0_lt_compat y Py) as Iy. pose proof (Rinv_0_lt_compat x Px) as Ix.
  assert (E1 : x * / x = 1) by (apply Rinv_r; lra). assert (E2 : y * / y = 1) by (apply Rinv_r; lra). split.
  - apply (Rmult_le_reg_l x); [exact Px|]. rewrite E1. apply Rle_trans with ((1 + k * dl) * y * ((1 - (k + 1) * dl) * / y)); [apply Rmult_le_compat_r; [nra|exact A2]|].
    replace ((1 + k * dl) * y * ((1 - (k + 1) * dl) * / y)) with ((1 + k * dl) * (1 - (k + 1) * dl) * (y * / y)) by ring. rewrite E2. nra.
  - apply (Rmult_le_reg_l x); [exact Px|]. rewrite E1. apply Rle_trans with ((1 - k * dl) * y * ((1 + (k + 1) * dl) * / y)); [|apply Rmult_le_compat_r; [nra|exact A1]].
    replace ((1 - k * dl) * y * ((1 + (k + 1) * dl) * / y)) with ((1 - k * dl) * (1 + (k + 1) * dl) * (y * / y)) by ring. rewrite E2. 
    assert (k * dl * ((k + 1) * dl) <= dl) by (assert (k * dl * (k + 1) <= 1) by nra; nra). nra.
Qed.

(** *** The velocity *)
Section Velocity.
Variable c : rconfig f64.
Variables eps p : f64.
Let M := value (r_mass c).
Let C := value (r_c c).
Let e := value eps.
Let P := value p.
Hypothesis Fm : finite (r_mass c).
Hypothesis Fc : finite (r_c c).
Hypothesis Fe : finite eps.
Hypothesis Fp : finite p.
Hypothesis Hm : p2 (-20) <= M <= p2 20.
Hypothesis Hc : p2 (-20) <= C <= p2 20.
Hypothesis He : 0 <= e <= 1.
Hypothesis Hp : Rabs P <= p2 460.

Let K := rnd64 (rnd64 (M * M) * rnd64 (C * C)).
Lemma sq_range : forall x, p2 (-20) <= x <= p2 20 -> p2 (-40) <= x * x <= p2 40.
Proof.
  intros x Hx. pose proof (p2_pos (-20)). change (-40)%Z with (-20 + -20)%Z. change 40%Z with (20 + 20)%Z. rewrite !p2_plus. nra.
Qed.
Lemma sq_rep : forall x, finite x -> p2 (-20) <= value x <= p2 20 -> rep (nmul x x) (rnd64 (value x * value x)) /\ near 2 (rnd64 (value x * value x)) (value x * value x) /\ p2 (-40) <= rnd64 (value x * value x) <= p2 40.
Proof.
  intros x Fx Hx. pose proof (sq_range _ Hx) as S. pose proof (p2_pos (-40)) as P4. split; [|split].
  - apply rep_mul; try now split. apply (below 40); [lia|]. rewrite Rabs_right; lra.
  - replace 2 with (0 + 2) at 1 by ring. apply near_rnd; [lra| |apply near_refl]. pose proof (p2_le (-1000) (-40) ltac:(lia)). lra.
  - split; [unfold p2 at 1; rewrite <- (rnd64_id _ (format64_bpow (-40) ltac:(lia)))|unfold p2; rewrite <- (rnd64_id _ (format64_bpow 40 ltac:(lia)))]; apply rnd64_mono, S.
Qed.
Lemma K_rep : rep (nmul (npow (r_mass c) 2) (npow (r_c c) 2)) K /\ near 7 K (M ^ 2 * C ^ 2) /\ p2 (-80) <= K <= p2 80.
Proof.
  destruct (sq_rep _ Fm Hm) as (R1 & N1 & B1). destruct (sq_rep _ Fc Hc) as (R2 & N2 & B2). fold M in R1, N1, B1. fold C in R2, N2, B2.
  change (npow (r_mass c) 2) with (nmul (r_mass c) (r_mass c)). change (npow (r_c c) 2) with (nmul (r_c c) (r_c c)).
  pose proof (sq_range _ Hm) as S1. pose proof (sq_range _ Hc) as S2. fold M in S1. fold C in S2. pose proof (p2_pos (-40)) as P4.
  assert (B : p2 (-80) <= rnd64 (M * M) * rnd64 (C * C) <= p2 80).
  { change (-80)%Z with (-40 + -40)%Z. change 80%Z with (40 + 40)%Z. rewrite !p2_plus. split; apply Rmult_le_compat; lra. }
  pose proof (p2_pos (-80)) as P8. split; [|split].
  - apply rep_mul; auto. apply (below 80); [lia|]. rewrite Rabs_right; lra.
  - unfold K. replace 7 with (2 + 2 + 1 + 2) by ring. apply near_rnd; [lra| |].
    + pose proof (p2_le (-1000) (-80) ltac:(lia)). eapply Rle_trans; [eassumption|]. change (-80)%Z with (-40 + -40)%Z. rewrite p2_plus. cbn [pow]. rewrite !Rmult_1_r. apply Rmult_le_compat; lra.
    + cbn [pow]. rewrite !Rmult_1_r. apply near_mul; auto; lra.
  - split; [unfold p2 at 1; rewrite <- (rnd64_id _ (format64_bpow (-80) ltac:(lia)))|unfold p2; rewrite <- (rnd64_id _ (format64_bpow 80 ltac:(lia)))]; apply rnd64_mono, B.
Qed.
Let X := P * P / (M ^ 2 * C ^ 2).
Let a1 := rnd64 (P * P).
Let q := rnd64 (a1 / K).
Let s1 := rnd64 (q + 1).
Let s2 := rnd64 (sqrt s1).
Let W := rnd64 (M * s2).
Let w := M * sqrt (X + 1).

Lemma P_sq : 0 <= P * P <= p2 920.
Proof. split; [apply Rle_0_sqr|]. change 920%Z with (460 + 460)%Z. rewrite p2_plus. apply abs_inv in Hp. nra. Qed.
Lemma a1_range : 0 <= a1 <= p2 920.
Proof.
  pose proof P_sq. unfold a1. split; [rewrite <- rnd64_0; apply rnd64_mono; lra|]. unfold p2. rewrite <- (rnd64_id _ (format64_bpow 920 ltac:(lia))). apply rnd64_mono, P_sq.
Qed.
Lemma q_arg : 0 <= a1 / K <= p2 1000.
Proof.
  pose proof a1_range as A. destruct K_rep as (_ & _ & B). pose proof (p2_pos (-80)) as P8. split; [apply Rmult_le_pos; [lra|left; apply Rinv_0_lt_compat; lra]|].
  apply (Rmult_le_reg_r K); [lra|]. unfold Rdiv. rewrite Rmult_assoc, Rinv_l, Rmult_1_r by lra. apply Rle_trans with (p2 1000 * p2 (-80)); [rewrite <- p2_plus; change (1000 + -80)%Z with 920%Z; lra|]. apply Rmult_le_compat_l; [left; apply p2_pos|lra].
Qed.
Lemma q_range : 0 <= q <= p2 1000.
Proof.
  pose proof q_arg as A. unfold q. split; [rewrite <- rnd64_0; apply rnd64_mono; lra|]. unfold p2. rewrite <- (rnd64_id _ (format64_bpow 1000 ltac:(lia))). apply rnd64_mono, A.
Qed.
Lemma X_nonneg : 0 <= X.
Proof. unfold X. pose proof P_sq. pose proof (p2_pos (-20)). apply Rmult_le_pos; [lra|]. left. apply Rinv_0_lt_compat. apply Rmult_lt_0_compat; apply pow_lt; lra. Qed.
Lemma MC_range : p2 (-80) <= M ^ 2 * C ^ 2.
Proof.
  pose proof (sq_range _ Hm) as S1. pose proof (sq_range _ Hc) as S2. fold M in S1. fold C in S2. pose proof (p2_pos (-40)) as P4.
  change (-80)%Z with (-40 + -40)%Z. rewrite p2_plus. cbn [pow]. rewrite !Rmult_1_r. apply Rmult_le_compat; lra.
Qed.
(** The argument of the square root. *)
Lemma q_near : near 12 (q + 1) (X + 1).
Proof.
  destruct K_rep as (_ & NK & BK). pose proof P_sq as PS. pose proof MC_range as HMC. pose proof (p2_pos (-80)) as P8. pose proof X_nonneg as X0. pose proof dl_range as D.
  pose proof (near_inv 7 K (M ^ 2 * C ^ 2) ltac:(lra) ltac:(lra) NK) as NI. replace (7 + 1) with 8 in NI by ring. destruct NI as [I1 I2].
  pose proof (err64 (P * P)) as E1. fold a1 in E1. rewrite (Rabs_right (P * P)) in E1 by lra. apply abs_inv in E1.
  pose proof (err64 (a1 / K)) as E2. fold q in E2. pose proof q_arg as QA. rewrite (Rabs_right (a1 / K)) in E2 by lra. apply abs_inv in E2.
  assert (D2 : p2 (-53) = dl / 2) by (unfold dl; change (-52)%Z with (1 + -53)%Z; rewrite p2_plus; change (p2 1) with 2; field). rewrite D2 in *.
  set (t := p2 (-1075)) in *. assert (Pt : 0 < t) by apply p2_pos.
  set (Y := / (M ^ 2 * C ^ 2)) in *. assert (HY : 0 < Y <= p2 80).
  { split; [apply Rinv_0_lt_compat; lra|]. unfold Y, p2. change 80%Z with (- (-80))%Z. rewrite bpow_opp. apply Rinv_le_contravar; [exact P8|exact HMC]. }
  assert (T : t * (4 * Y + 1) <= dl).
  { apply Rle_trans with (p2 (-1075) * (4 * p2 80 + 4 * p2 80)); [apply Rmult_le_compat_l; [left; exact Pt|]; pose proof (p2_le 0 80 ltac:(lia)); change (p2 0) with 1 in *; lra|].
    replace (4 * p2 80 + 4 * p2 80) with (p2 83) by (change 83%Z with (3 + 80)%Z; rewrite p2_plus; change (p2 3) with 8; ring). rewrite <- p2_plus. apply p2_le. lia. }
  assert (EX : X = P * P * Y) by reflexivity. set (A := P * P) in *. set (Z := / K) in *. unfold Rdiv in E2. fold Z in E2. unfold Rdiv in QA. fold Z in QA.
  assert (HZ : 0 < Z) by (apply Rinv_0_lt_compat; lra). pose proof a1_range as A1.
  assert (L1 : a1 * Z <= (1 + 9 * dl) * X + 2 * (t * Y)).
  { apply Rle_trans with (((1 + dl / 2) * A + t) * ((1 + 8 * dl) * Y)); [apply Rmult_le_compat; lra|]. rewrite EX.
    replace (((1 + dl / 2) * A + t) * ((1 + 8 * dl) * Y)) with ((1 + dl / 2) * (1 + 8 * dl) * (A * Y) + (1 + 8 * dl) * (t * Y)) by ring.
    assert (0 <= A * Y) by (apply Rmult_le_pos; lra). assert (0 <= t * Y) by (apply Rmult_le_pos; lra). apply Rplus_le_compat; apply Rmult_le_compat_r; nra. }
  assert (L2 : (1 - 9 * dl) * X - 2 * (t * Y) <= a1 * Z).
  { destruct (Rle_dec ((1 - dl / 2) * A - t) 0) as [N|N].
    - apply Rle_trans with 0; [|lra]. rewrite EX. assert ((1 - 9 * dl) * (A * Y) <= (1 - 9 * dl) * (2 * t * Y)) by (apply Rmult_le_compat_l; [lra|]; apply Rmult_le_compat_r; nra).
      assert (0 <= t * Y) by (apply Rmult_le_pos; lra). nra.
    - apply Rle_trans with (((1 - dl / 2) * A - t) * ((1 - 8 * dl) * Y)); [|apply Rmult_le_compat; [lra|apply Rmult_le_pos; lra|lra|lra]]. rewrite EX.
      replace (((1 - dl / 2) * A - t) * ((1 - 8 * dl) * Y)) with ((1 - dl / 2) * (1 - 8 * dl) * (A * Y) - (1 - 8 * dl) * (t * Y)) by ring.
      assert (0 <= A * Y) by (apply Rmult_le_pos; lra). assert (0 <= t * Y) by (apply Rmult_le_pos; lra). assert (F1 : (1 - 9 * dl) * (A * Y) <= (1 - dl / 2) * (1 - 8 * dl) * (A * Y)) by (apply Rmult_le_compat_r; nra). assert (F2 : (1 - 8 * dl) * (t * Y) <= 2 * (t * Y)) by (apply Rmult_le_compat_r; nra). lra. }
  clearbody t A Z X Y q a1. clear - E2 L1 L2 T D X0 Pt HY QA. set (b := a1 * Z) in *. clearbody b. assert (0 <= t * Y) by nra. split; nra.
Qed.
Lemma s1_range : 1 <= s1 <= p2 1001.
Proof.
  pose proof q_range as Q. unfold s1. split.
  - rewrite <- (rnd64_Z 1) at 1 by reflexivity. apply rnd64_mono. lra.
  - unfold p2. rewrite <- (rnd64_id _ (format64_bpow 1001 ltac:(lia))). apply rnd64_mono. change (bpow radix2 1001) with (p2 1001). pose proof (p2_twice 1000 1001 ltac:(lia)). pose proof (p2_le 0 1000 ltac:(lia)). change (p2 0) with 1 in *. lra.
Qed.
Lemma root_range : 1 <= sqrt s1 <= p2 501.
Proof.
  pose proof s1_range as S. split; [rewrite <- sqrt_1; apply sqrt_le_1; lra|]. apply Rle_trans with (sqrt (p2 1002)); [apply sqrt_le_1; [lra|left; apply p2_pos|]; pose proof (p2_le 1001 1002 ltac:(lia)); lra|].
  change 1002%Z with (501 + 501)%Z. rewrite p2_plus, sqrt_square; [lra|left; apply p2_pos].
Qed.
Lemma s2_range : 1 <= s2 <= p2 501.
Proof.
  pose proof root_range as S. unfold s2. split; [rewrite <- (rnd64_Z 1) at 1 by reflexivity|unfold p2; rewrite <- (rnd64_id _ (format64_bpow 501 ltac:(lia)))]; apply rnd64_mono; apply S.
Qed.
Lemma W_arg : p2 (-20) <= M * s2 <= p2 521.
Proof.
  pose proof s2_range as S. pose proof (p2_pos (-20)). change 521%Z with (20 + 501)%Z. rewrite p2_plus. split; [|apply Rmult_le_compat; lra]. rewrite <- (Rmult_1_r (p2 (-20))). apply Rmult_le_compat; lra.
Qed.
Lemma W_range : p2 (-20) <= W <= p2 521.
Proof.
  pose proof W_arg as S. unfold W. split; [unfold p2 at 1; rewrite <- (rnd64_id _ (format64_bpow (-20) ltac:(lia)))|unfold p2; rewrite <- (rnd64_id _ (format64_bpow 521 ltac:(lia)))]; apply rnd64_mono, S.
Qed.
Lemma w_range : p2 (-20) <= w.
Proof.
  unfold w. rewrite <- (Rmult_1_r (p2 (-20))). pose proof (p2_pos (-20)). pose proof X_nonneg. apply Rmult_le_compat; try lra. rewrite <- sqrt_1 at 1. apply sqrt_le_1; lra.
Qed.
Lemma W_near : near 19 W w.
Proof.
  pose proof q_near as N. pose proof X_nonneg as X0. pose proof w_range as HW. pose proof (p2_pos (-20)) as P2.
  pose proof (p2_le (-1000) 0 ltac:(lia)) as L0. change (p2 0) with 1 in L0. pose proof (p2_le (-1000) (-20) ltac:(lia)) as L1.
  assert (N1 : near 14 s1 (X + 1)) by (replace 14 with (12 + 2) by ring; apply near_rnd; [lra|lra|exact N]).
  assert (N2 : near 16 s2 (sqrt (X + 1))).
  { replace 16 with (14 + 2) by ring. apply near_rnd; [lra| |apply near_sqrt; [lra|lra|exact N1]]. apply Rle_trans with 1; [lra|]. rewrite <- sqrt_1 at 1. apply sqrt_le_1; lra. }
  unfold W, w in *. replace 19 with (0 + 16 + 1 + 2) by ring. apply near_rnd; [lra|lra|]. apply near_mul; try lra; [apply sqrt_pos|apply near_refl|exact N2].
Qed.
Lemma W_rep : rep (nmul (r_mass c) (nsqrt (nadd (ndiv (nmul p p) (nmul (npow (r_mass c) 2) (npow (r_c c) 2))) n1))) W.
Proof.
  destruct K_rep as (RK & _ & BK). pose proof (p2_pos (-80)) as P8. pose proof (p2_pos (-20)) as P2.
  pose proof P_sq as PS. pose proof a1_range as A1. pose proof q_arg as QA. pose proof q_range as Q. pose proof s1_range as S1. pose proof root_range as RR. pose proof W_arg as WA.
  assert (R1 : rep (nmul p p) a1) by (apply rep_mul; try (now split); apply (below 920); [lia|]; fold P; rewrite Rabs_right; lra).
  assert (R2 : rep (ndiv (nmul p p) (nmul (npow (r_mass c) 2) (npow (r_c c) 2))) q) by (apply rep_div; auto; [lra|]; apply (below 1000); [lia|]; rewrite Rabs_right; lra).
  assert (R3 : rep (nadd (ndiv (nmul p p) (nmul (npow (r_mass c) 2) (npow (r_c c) 2))) n1) s1).
  { apply rep_add; auto; [apply rep_1|]. apply (below 1001); [lia|]. pose proof (p2_twice 1000 1001 ltac:(lia)). pose proof (p2_le 0 1000 ltac:(lia)). change (p2 0) with 1 in *. rewrite Rabs_right; lra. }
  assert (R4 : rep (nsqrt (nadd (ndiv (nmul p p) (nmul (npow (r_mass c) 2) (npow (r_c c) 2))) n1)) s2) by (apply rep_sqrt; [exact R3|lra]).
  apply rep_mul; [now split|exact R4|]. apply (below 521); [lia|]. fold M. rewrite Rabs_right; lra.
Qed.

Let N := rnd64 (e * P).
Let V := rnd64 (N / W).
Let v := e * P / w.
Lemma eP_bound : Rabs (e * P) <= p2 460.
Proof. rewrite Rabs_mult, (Rabs_right e) by lra. pose proof (Rabs_pos P). nra. Qed.
Lemma V_arg : Rabs (N / W) <= p2 480.
Proof.
  pose proof W_range as HW. pose proof (p2_pos (-20)) as P2. unfold Rdiv. rewrite Rabs_mult, (Rabs_right (/ W)) by (left; apply Rinv_0_lt_compat; lra).
  apply (Rmult_le_reg_r W); [lra|]. rewrite Rmult_assoc, Rinv_l, Rmult_1_r by lra. apply Rle_trans with (p2 480 * p2 (-20)); [|apply Rmult_le_compat_l; [left; apply p2_pos|lra]].
  rewrite <- p2_plus. apply rnd64_bound; [lia|apply eP_bound].
Qed.
Lemma V_rep : rep (rel_velocity c eps p) V.
Proof.
  unfold rel_velocity. pose proof W_range as HW. pose proof (p2_pos (-20)) as P2. apply rep_div; [|exact W_rep|lra|].
  - apply rep_mul; try now split. apply (below 460); [lia|exact eP_bound].
  - apply (below 480); [lia|exact V_arg].
Qed.
Lemma v_is : v = rel_velocity (RConfig M C 0 0) e P.
Proof. rewrite rel_velocity_R. cbn [r_mass r_c]. reflexivity. Qed.
Lemma V_close : Rabs (V - v) <= p2 (-47) * Rabs v + p2 (-1050).
Proof.
  pose proof W_range as HW. pose proof w_range as Hw. pose proof (p2_pos (-20)) as P2. pose proof W_near as NW. pose proof dl_range as D.
  pose proof (near_inv 19 W w ltac:(lra) ltac:(lra) NW) as NI. replace (19 + 1) with 20 in NI by ring. destruct NI as [I1 I2].
  pose proof (err64 (e * P)) as E1. fold N in E1. pose proof (err64 (N / W)) as E2. fold V in E2.
  assert (D2 : p2 (-53) = dl / 2) by (unfold dl; change (-52)%Z with (1 + -53)%Z; rewrite p2_plus; change (p2 1) with 2; field). rewrite D2 in *.
  assert (D3 : p2 (-47) = 32 * dl) by (unfold dl; change (-47)%Z with (5 + -52)%Z; rewrite p2_plus; reflexivity). rewrite D3.
  set (t := p2 (-1075)) in *. assert (Pt : 0 < t) by apply p2_pos.
  unfold v, Rdiv in *. set (Y := / w) in *. set (Z := / W) in *. assert (HY : 0 < Y <= p2 20).
  { split; [apply Rinv_0_lt_compat; lra|]. unfold Y, p2. change 20%Z with (- (-20))%Z. rewrite bpow_opp. apply Rinv_le_contravar; [exact P2|exact Hw]. }
  assert (T : t * (4 * Y + 2) <= p2 (-1050)).
  { apply Rle_trans with (p2 (-1075) * (4 * p2 20 + 4 * p2 20)); [apply Rmult_le_compat_l; [left; exact Pt|]; pose proof (p2_le 0 20 ltac:(lia)); change (p2 0) with 1 in *; lra|].
    replace (4 * p2 20 + 4 * p2 20) with (p2 23) by (change 23%Z with (3 + 20)%Z; rewrite p2_plus; change (p2 3) with 8; ring). rewrite <- p2_plus. apply p2_le. lia. }
  set (x := e * P) in *. rewrite !Rabs_mult, (Rabs_right Y) in * by lra. rewrite (Rabs_right Z) in E2 by (apply Rle_ge; left; apply Rinv_0_lt_compat; lra).
  assert (HZ : 0 < Z) by (apply Rinv_0_lt_compat; lra). assert (IZ : Rabs (Z - Y) <= 20 * dl * Y) by (apply Rabs_le; lra).
  assert (HN : Rabs N <= (1 + dl / 2) * Rabs x + t) by (replace N with ((N - x) + x) by ring; eapply Rle_trans; [apply Rabs_triang|lra]).
  assert (B1 : Rabs (N * Z - x * Y) <= 21 * dl * (Rabs x * Y) + 2 * (t * Y)).
  { replace (N * Z - x * Y) with ((N - x) * Z + x * (Z - Y)) by ring. eapply Rle_trans; [apply Rabs_triang|]. rewrite !Rabs_mult, (Rabs_right Z) by lra.
    apply Rle_trans with ((dl / 2 * Rabs x + t) * ((1 + 20 * dl) * Y) + Rabs x * (20 * dl * Y)).
    - apply Rplus_le_compat; [apply Rmult_le_compat; [apply Rabs_pos|lra|lra|lra]|apply Rmult_le_compat_l; [apply Rabs_pos|exact IZ]].
    - assert (0 <= Rabs x * Y) by (apply Rmult_le_pos; [apply Rabs_pos|lra]). assert (0 <= t * Y) by (apply Rmult_le_pos; lra).
      replace ((dl / 2 * Rabs x + t) * ((1 + 20 * dl) * Y) + Rabs x * (20 * dl * Y)) with ((dl / 2 * (1 + 20 * dl) + 20 * dl) * (Rabs x * Y) + (1 + 20 * dl) * (t * Y)) by ring.
      apply Rplus_le_compat; apply Rmult_le_compat_r; nra. }
  replace (V - x * Y) with ((V - N * Z) + (N * Z - x * Y)) by ring. eapply Rle_trans; [apply Rabs_triang|].
  assert (B2 : Rabs N * Z <= 2 * (Rabs x * Y) + 2 * (t * Y)).
  { apply Rle_trans with (((1 + dl / 2) * Rabs x + t) * ((1 + 20 * dl) * Y)); [apply Rmult_le_compat; [apply Rabs_pos|lra|lra|lra]|].
    assert (0 <= Rabs x * Y) by (apply Rmult_le_pos; [apply Rabs_pos|lra]). assert (0 <= t * Y) by (apply Rmult_le_pos; lra).
    replace (((1 + dl / 2) * Rabs x + t) * ((1 + 20 * dl) * Y)) with ((1 + dl / 2) * (1 + 20 * dl) * (Rabs x * Y) + (1 + 20 * dl) * (t * Y)) by ring. apply Rplus_le_compat; apply Rmult_le_compat_r; nra. }
  assert (0 <= Rabs x * Y) by (apply Rmult_le_pos; [apply Rabs_pos|lra]). assert (0 <= t * Y) by (apply Rmult_le_pos; lra).
  set (AN := Rabs N * Z) in *. set (AX := Rabs x * Y) in *. set (TY := t * Y) in *.
  assert (B3 : dl / 2 * AN <= dl * AX + dl * TY) by nra. assert (B4 : dl * TY <= TY) by nra.
  assert (T' : 4 * TY + 2 * t <= p2 (-1050)) by (unfold TY; lra). assert (0 <= dl * AX) by (apply Rmult_le_pos; [lra|assumption]). lra.
Qed.
Lemma v_limit : Rabs v <= e * C.
Proof.
  pose proof (p2_pos (-20)) as P2. pose proof (velocity_below_c M C P ltac:(lra) ltac:(lra)) as H. unfold v, w, X.
  replace (e * P / (M * sqrt (P * P / (M ^ 2 * C ^ 2) + 1))) with (e * (P / (M * sqrt (P * P / (M ^ 2 * C ^ 2) + 1)))) by (unfold Rdiv; ring).
  rewrite Rabs_mult, (Rabs_right e) by lra. apply Rmult_le_compat_l; lra.
Qed.
Lemma V_limit : Rabs V <= (1 + p2 (-47)) * (e * C) + p2 (-1050).
Proof.
  pose proof V_close as H. pose proof v_limit as L. pose proof (p2_pos (-47)). replace V with ((V - v) + v) by ring. eapply Rle_trans; [apply Rabs_triang|].
  assert (p2 (-47) * Rabs v <= p2 (-47) * (e * C)) by (apply Rmult_le_compat_l; lra). lra.
Qed.
End Velocity.

(** *** One step *)
Lemma between_0 : forall lo hi x, (-1074 <= hi)%Z -> 0 <= lo -> lo <= x <= p2 hi -> 0 <= rnd64 x <= p2 hi.
Proof.
  intros lo hi x Hh Hl Hx. split; [rewrite <- rnd64_0; apply rnd64_mono; lra|]. unfold p2. rewrite <- (rnd64_id _ (format64_bpow hi ltac:(lia))). apply rnd64_mono, Hx.
Qed.
Definition rmom_bound (t : nat) (p : f64) : Prop := exists w, rep p w /\ Rabs w <= p2 420 + INR t * p2 404.
Lemma rmom_small : forall t p, fewd t -> rmom_bound t p -> finite p /\ Rabs (value p) <= p2 426.
Proof.
  intros t p HF (w & [F V] & B). split; [exact F|]. rewrite V. eapply Rle_trans; [exact B|]. pose proof (fewd_INR t HF).
  assert (INR t * p2 404 <= p2 21 * p2 404) by (apply Rmult_le_compat_r; [left; apply p2_pos|lra]). rewrite <- p2_plus in H0. change (21 + 404)%Z with 425%Z in H0.
  pose proof (p2_twice 425 426 ltac:(lia)). pose proof (p2_le 420 425 ltac:(lia)). lra.
Qed.
Lemma rmom_step : forall t p d, fewd t -> rmom_bound t p -> small d 402 -> rmom_bound (S t) (nadd p d).
Proof.
  intros t p d HF Hp Hd. destruct (rmom_small t p HF Hp) as [_ W]. destruct Hp as (w & Hw & B). destruct (small_rep _ _ Hd) as (a & Ra & Ba). rewrite (proj2 Hw) in W.
  assert (B1 : Rabs (w + a) <= p2 427).
  { eapply Rle_trans; [apply Rabs_triang|]. pose proof (p2_twice 426 427 ltac:(lia)). pose proof (p2_le 402 426 ltac:(lia)). lra. }
  exists (rnd64 (w + a)). split; [apply rep_add; auto; now apply (below 427)|]. pose proof (rnd64_err 427 _ ltac:(lia) B1) as E1. rewrite S_INR.
  replace (rnd64 (w + a)) with ((rnd64 (w + a) - (w + a)) + (w + a)) by ring. eapply Rle_trans; [apply Rabs_triang|]. pose proof (Rabs_triang w a).
  change (427 - 52)%Z with 375%Z in E1. pose proof (p2_le 375 402 ltac:(lia)). pose proof (p2_twice 402 403 ltac:(lia)). pose proof (p2_twice 403 404 ltac:(lia)). pose proof (p2_pos 402). lra.
Qed.
Section Step.
Variable c : rconfig f64.
Hypothesis HC : moderate_config c.
Variable eps : f64.
Hypothesis Fe : finite eps.
Hypothesis He : 0 <= value eps <= 1.

Lemma noise_small : small (rel_noise_scale c eps) 6.
Proof.
  destruct HC as (_ & _ & (FD & HD) & (FB & HB)). fold (p2 10) in HD. unfold rel_noise_scale. set (D := value (r_D c)) in *. set (b := value (r_bhat c)) in *. set (e := value eps) in *.
  pose proof (p2_le 10 11 ltac:(lia)) as L1. pose proof (p2_twice 10 11 ltac:(lia)) as L2.
  assert (R1 : rep (nmul eps (r_bhat c)) (rnd64 (e * b))).
  { apply rep_mul; try now split. apply (below 10); [lia|]. rewrite Rabs_right; nra. }
  assert (B1 : 0 <= rnd64 (e * b) <= D).
  { split; [rewrite <- rnd64_0; apply rnd64_mono; nra|]. unfold D. rewrite <- (value_round (r_D c)). apply rnd64_mono. fold D. nra. }
  assert (R2 : rep (nmul n2 (r_D c)) (rnd64 (2 * D))).
  { apply rep_mul; [apply rep_2|now split|]. apply (below 11); [lia|]. rewrite Rabs_right; lra. }
  assert (B2 : D <= rnd64 (2 * D) <= p2 11).
  { split; [unfold D at 1; rewrite <- (value_round (r_D c)); apply rnd64_mono; fold D; lra|]. apply (between_0 0 11); [lia|lra|lra]. }
  set (x1 := rnd64 (e * b)) in *. set (x2 := rnd64 (2 * D)) in *.
  assert (R3 : rep (nsub (nmul n2 (r_D c)) (nmul eps (r_bhat c))) (rnd64 (x2 - x1))) by (apply rep_sub; auto; apply (below 11); [lia|]; rewrite Rabs_right; lra).
  pose proof (between_0 0 11 (x2 - x1) ltac:(lia) ltac:(lra) ltac:(lra)) as B3. set (x3 := rnd64 (x2 - x1)) in *.
  assert (M4 : 0 <= e * x3 <= p2 11) by nra.
  assert (R4 : rep (nmul eps (nsub (nmul n2 (r_D c)) (nmul eps (r_bhat c)))) (rnd64 (e * x3))) by (apply rep_mul; [now split|exact R3|]; apply (below 11); [lia|]; rewrite Rabs_right; lra).
  pose proof (between_0 0 11 (e * x3) ltac:(lia) ltac:(lra) M4) as B4. set (x4 := rnd64 (e * x3)) in *.
  exists (rnd64 (sqrt x4)). split; [now apply rep_sqrt|]. apply rnd64_bound; [lia|]. rewrite Rabs_right by (apply Rle_ge, sqrt_pos).
  apply Rle_trans with (sqrt (p2 (6 + 6))); [apply sqrt_le_1; [lra|left; apply p2_pos|]; pose proof (p2_le 11 (6 + 6) ltac:(lia)); lra|]. rewrite p2_plus, sqrt_square; [unfold p2; lra|left; apply p2_pos].
Qed.
Lemma velocity_small : forall p, finite p -> Rabs (value p) <= p2 460 -> small (rel_velocity c eps p) 21.
Proof.
  intros p Fp Hp. destruct HC as ((Fm & Hm) & (Fc & Hc) & _). eexists. split; [now apply V_rep|]. eapply Rle_trans; [now apply V_limit|].
  fold (p2 (-20)) (p2 20) in Hm, Hc. pose proof (p2_pos (-20)). assert (value eps * value (r_c c) <= p2 20) by nra.
  pose proof (p2_twice 20 21 ltac:(lia)) as T. pose proof (p2_le (-1050) (-2) ltac:(lia)) as L1. pose proof (p2_le (-47) (-2) ltac:(lia)) as L2. change (p2 (-2)) with (/ 4) in *.
  pose proof (p2_le 0 20 ltac:(lia)) as L3. change (p2 0) with 1 in L3. pose proof (p2_pos (-47)). assert (0 <= value eps * value (r_c c)) by nra. nra.
Qed.
(** The change of the momentum. *)
Definition kick (p g x : f64) : f64 := nsub (nadd (nmul eps g) (nmul (rel_noise_scale c eps) x)) (nmul (r_D c) (rel_velocity c eps p)).
Lemma eps_small : small eps 0. Proof. exists (value eps). split; [now split|]. rewrite Rabs_right by lra. change (p2 0) with 1. lra. Qed.
Lemma D_small : small (r_D c) 10.
Proof. destruct HC as (_ & _ & (FD & HD) & _). exists (value (r_D c)). split; [now split|]. rewrite Rabs_right by lra. apply HD. Qed.
Lemma kick_small : forall p g x, small (rel_velocity c eps p) 21 -> small g 400 -> small x 10 -> small (kick p g x) 402.
Proof.
  intros p g x HV Hg Hx. pose proof noise_small as HN. pose proof eps_small as HE. pose proof D_small as HD. unfold kick. apply (small_sub _ _ 401 31); [| |lia|lia|lia].
  - apply (small_add _ _ 400 16); [| |lia|lia|lia]; [apply (small_mul _ _ 0 400)|apply (small_mul _ _ 6 10)]; auto; lia.
  - apply (small_mul _ _ 10 21); auto; lia.
Qed.
End Step.

(** *** Large momenta *)
Lemma inf_div : forall x a, rep x a -> 0 < a -> ndiv inf x = inf.
Proof.
  intros x a [F V] Ha. destruct x as [s|s| |[|] m e H]; try discriminate F; [unfold value in V; cbn in V; lra| |reflexivity].
  exfalso. unfold value in V. cbn in V. pose proof (F2R_lt_0 radix2 (Float radix2 (Z.neg m) e) eq_refl). lra.
Qed.
Lemma div_by_inf : forall x : f64, finite x -> rep (ndiv x inf) 0.
Proof. intros [s|s| |s m e H] F; try discriminate F; now split. Qed.
Lemma inf_add : forall x : f64, finite x -> nadd inf x = inf.
Proof. intros [s|s| |s m e H] F; try discriminate F; reflexivity. Qed.

Lemma velocity_frozen : forall c eps p, moderate_config c -> finite eps -> 0 <= value eps <= 1 -> finite p -> p2 512 <= Rabs (value p) <= p2 1000 -> rep (rel_velocity c eps p) 0.
Proof.
  intros c eps p ((Fm & Hm) & (Fc & Hc) & _) Fe He Fp Hp. unfold rel_velocity. rewrite square_overflow by (try exact Fp; apply Hp). fold (p2 (-20)) (p2 20) in Hm, Hc.
  destruct (K_rep c Fm Fc Hm Hc) as (RK & _ & BK). pose proof (p2_pos (-80)). pose proof (p2_pos (-20)). rewrite (inf_div _ _ RK) by lra. rewrite (inf_add _ (proj1 rep_1)).
  change (nsqrt inf) with inf. assert (Rm : rep (r_mass c) (value (r_mass c))) by now split. rewrite (proj1 (pos_inf _ _ Rm ltac:(lra))). apply div_by_inf.
  assert (RE : rep (nmul eps p) (rnd64 (value eps * value p))); [|exact (proj1 RE)]. apply rep_mul; try now split. apply (below 1000); [lia|].
  rewrite Rabs_mult, (Rabs_right (value eps)) by lra. pose proof (Rabs_pos (value p)). nra.
Qed.
(** A double of at least 2^512 absorbs anything below 2^458. *)
Lemma absorbs : forall y d, generic_format radix2 (FLT_exp (-1074) 53) y -> p2 512 <= Rabs y -> Rabs d <= p2 457 -> rnd64 (y + d) = y.
Proof.
  intros y d Fy Hy Hd. assert (N : Rabs (rnd64 (y + d) - (y + d)) <= Rabs d).
  { destruct (round_N_pt radix2 (FLT_exp (-1074) 53) (fun z => negb (Z.even z)) (y + d)) as [_ H]. specialize (H y Fy). change (round radix2 (FLT_exp (-1074) 53) (Znearest (fun z => negb (Z.even z))) (y + d)) with (rnd64 (y + d)) in H.
    replace (y - (y + d)) with (- d) in H by ring. now rewrite Rabs_Ropp in H. }
  assert (Q : Rabs (rnd64 (y + d) - y) <= p2 458).
  { replace (rnd64 (y + d) - y) with ((rnd64 (y + d) - (y + d)) + d) by ring. eapply Rle_trans; [apply Rabs_triang|]. pose proof (p2_twice 457 458 ltac:(lia)). lra. }
  assert (G : p2 511 <= Rabs (rnd64 (y + d))).
  { pose proof (Rabs_triang_inv y (y - rnd64 (y + d))) as T. replace (y - (y - rnd64 (y + d))) with (rnd64 (y + d)) in T by ring. rewrite Rabs_minus_sym in Q.
    pose proof (p2_twice 511 512 ltac:(lia)). pose proof (p2_le 458 511 ltac:(lia)). lra. }
  pose proof (p2_le 511 512 ltac:(lia)) as L. destruct (format_multiple y 511 Fy ltac:(lra) ltac:(lia)) as [k Ek].
  destruct (format_multiple (rnd64 (y + d)) 511 ltac:(apply generic_format_round; auto with typeclass_instances) G ltac:(lia)) as [k' Ek'].
  change (511 - 52)%Z with 459%Z in *. rewrite Ek' at 1. rewrite Ek. f_equal. rewrite Ek', Ek in Q at 1. rewrite <- Rmult_minus_distr_r, <- minus_IZR, Rabs_mult, (Rabs_right (p2 459)) in Q by (apply Rle_ge; left; apply p2_pos).
  assert (U : Rabs (IZR (k' - k)) < 1).
  { apply (Rmult_lt_reg_r (p2 459)); [apply p2_pos|]. eapply Rle_lt_trans; [exact Q|]. pose proof (p2_twice 458 459 ltac:(lia)). pose proof (p2_pos 458). lra. }
  rewrite <- abs_IZR in U. apply lt_IZR in U. assert (k' = k) by lia. now subst.
Qed.
