(** The burn-in adaptation in floating point, for C93: one entry, then histories. *)
From Coq Require Import List Arith Reals ZArith Lra Lia.
From Flocq Require Import Core.Core Relative.
From Verif.Base Require Import Py Num Vec Lists.
From Verif.Model Require Import TensorUtils BurnIn.
From Verif.Proofs Require Import SafeFloat FloatAdapt Dynamics.
Import ListNotations.
Local Open Scope R_scope.

Section F.
Variables prec emin : Z.
Context {Hprec : Prec_gt_0 prec}.
Hypothesis Hemin : (emin + prec + 54 <= 0)%Z.
Hypothesis Hprec10 : (10 <= prec)%Z.
Let fexp := FLT_exp emin prec.
Let format := generic_format radix2 fexp.
Let rnd := round radix2 fexp ZnearestE.
Let N := Num_rounded prec emin.
Let u := bpow radix2 (- prec).
Let eta := bpow radix2 (emin - 1).

Lemma u_pos : 0 < u. Proof. apply bpow_gt_0. Qed.
Lemma eta_pos : 0 < eta. Proof. apply bpow_gt_0. Qed.
Lemma u_small : 1024 * u <= 1.
Proof.
  change 1024 with (bpow radix2 10). unfold u. rewrite <- bpow_plus. change 1 with (bpow radix2 0).
  apply bpow_le. lia.
Qed.
Lemma rnd_err : forall x, Rabs (rnd x - x) <= u * Rabs x + eta.
Proof.
  intros x. destruct (error_N_FLT radix2 emin prec Hprec (fun z => negb (Z.even z)) x)
    as (e1 & e2 & H1 & H2 & _ & HE).
  fold fexp in HE. unfold rnd. change ZnearestE with (Znearest (fun z => negb (Z.even z))). rewrite HE.
  replace (x * (1 + e1) + e2 - x) with (x * e1 + e2) by ring.
  eapply Rle_trans; [apply Rabs_triang|]. apply Rplus_le_compat.
  - rewrite Rabs_mult, Rmult_comm. apply Rmult_le_compat_r; [apply Rabs_pos|].
    eapply Rle_trans; [exact H1|]. right. unfold u. change (/ 2) with (bpow radix2 (-1)).
    rewrite <- bpow_plus. f_equal. lia.
  - eapply Rle_trans; [exact H2|]. right. unfold eta. change (/ 2) with (bpow radix2 (-1)).
    rewrite <- bpow_plus. f_equal. lia.
Qed.
Lemma rnd_mono : forall x y, x <= y -> rnd x <= rnd y.
Proof. intros. apply (rnd_le prec emin). auto. Qed.
Lemma rnd_fmt : forall x, format x -> rnd x = x.
Proof. intros. now apply (rnd_id prec emin). Qed.
Lemma fmt_rnd : forall x, format (rnd x).
Proof. intros. apply generic_format_round; [apply FLT_exp_valid; auto|apply valid_rnd_N]. Qed.
Lemma rnd_opp : forall x, rnd (- x) = - rnd x.
Proof. intros. apply round_NE_opp. Qed.

(** Small dyadic numbers and small integers are in the format. *)
Lemma fmt_dyadic : forall m e, (Z.abs m < 2 ^ prec)%Z -> (emin <= e)%Z -> format (IZR m * bpow radix2 e).
Proof.
  intros m e Hm He. apply generic_format_FLT. exists (Float radix2 m e); cbn; auto.
Qed.
Lemma pow_1024 : (1024 <= 2 ^ prec)%Z.
Proof. change 1024%Z with (2 ^ 10)%Z. apply Z.pow_le_mono_r; lia. Qed.
Lemma fmt_int : forall m, (Z.abs m < 2 ^ prec)%Z -> format (IZR m).
Proof. intros m Hm. replace (IZR m) with (IZR m * bpow radix2 0) by (cbn; lra). apply fmt_dyadic; auto. lia. Qed.
Lemma fmt_quarters : forall m, (Z.abs m < 1024)%Z -> format (IZR m / 4).
Proof.
  intros m Hm. replace (IZR m / 4) with (IZR m * bpow radix2 (-2)) by (cbn; lra).
  pose proof pow_1024. apply fmt_dyadic; lia.
Qed.

Let c := @small_constant R N.
Lemma c_def : c = rnd (/ 10000000000000000).
Proof. unfold c, small_constant. cbn. fold fexp rnd. f_equal. unfold Rfrac. lra. Qed.
Lemma c_bounds : bpow radix2 (-54) <= c <= 1.
Proof.
  rewrite c_def. split.
  - rewrite <- (rnd_fmt (bpow radix2 (-54))).
    + apply rnd_mono. cbn. lra.
    + apply generic_format_bpow. unfold fexp, FLT_exp. lia.
  - rewrite <- (rnd_fmt 1) by (apply (fmt_int 1); pose proof pow_1024; lia). apply rnd_mono. lra.
Qed.
Lemma fmt_c : format c. Proof. rewrite c_def. apply fmt_rnd. Qed.
Lemma eta_uc : eta <= u * c.
Proof.
  apply Rle_trans with (u * bpow radix2 (-54)).
  - unfold u, eta. rewrite <- bpow_plus. apply bpow_le. lia.
  - apply Rmult_le_compat_l; [pose proof u_pos; lra|apply c_bounds].
Qed.

(** The guarded divisor of a nonnegative number. *)
Lemma divisor_bounds : forall y, format y -> 0 <= y ->
  y <= @safe_divisor R N y c /\ c <= @safe_divisor R N y c.
Proof.
  intros y Fy Hy. assert (E0 : (emin <= 0)%Z) by lia. unfold N. rewrite !(safe_divisor_rounded prec emin) by exact E0. pose proof fmt_c as Fc.
  pose proof c_bounds as Hc. pose proof (bpow_gt_0 radix2 (-54)).
  destruct (Rle_lt_or_eq_dec 0 y Hy) as [Hp|<-].
  - split; [apply float_divisor_pos; auto; lra|].
    rewrite float_divisor_pos_eq by auto. fold fexp rnd.
    rewrite <- (rnd_fmt c Fc) at 1. apply rnd_mono.
    assert (c <= rnd (3 * c)) by (apply Rle_trans with (rnd c); [rewrite (rnd_fmt c Fc); lra|apply rnd_mono; lra]).
    change (c <= y + rnd (3 * c)). lra.
  - rewrite float_divisor_zero by auto. lra.
Qed.

(** One step, spelled out. *)
Lemma one_R : @n1 R N = 1.
Proof.
  unfold n1, nint. cbn. fold fexp rnd. replace (Rfrac 1 1) with 1 by (unfold Rfrac; lra).
  apply rnd_fmt. apply (fmt_int 1). pose proof pow_1024; lia.
Qed.
Lemma zero_R : @n0 R N = 0.
Proof.
  unfold n0, nint. cbn. fold fexp rnd. replace (Rfrac 0 1) with 0 by (unfold Rfrac; lra).
  apply rnd_fmt. apply generic_format_0.
Qed.

Definition frate (tau : R) : R := rnd (1 / rnd (tau + 1)).
Lemma cell_step_rounded : forall x k,
  @cell_step R N x k =
  let r := frate (c_tau k) in
  {| c_tau := rnd (c_tau k + rnd (- quotient rnd (c_g k) (c_tau k) (@safe_divisor R N (c_vhat k) c) + 1));
     c_r := r;
     c_g := lerp rnd r (c_g k) x;
     c_vhat := lerp rnd r (c_vhat k) (rnd (x * x));
     c_minv := rnd (1 / @safe_divisor R N (@safe_sqrt R N (c_vhat k)) c) |}.
Proof.
  intros x k. unfold cell_step, lerp, quotient, frate, safe_divide, safe_divide_with. fold c.
  set (D1 := safe_divisor _ _). set (D2 := safe_divisor _ _). rewrite one_R. cbn [nadd nmul ndiv nopp npow N Num_rounded].
  fold fexp rnd.
  assert (E : rnd (rnd (rnd (- c_g k * c_g k) * c_tau k) / D1) = - rnd (rnd (rnd (c_g k * c_g k) * c_tau k) / D1)).
  { replace (- c_g k * c_g k) with (- (c_g k * c_g k)) by ring. rewrite rnd_opp.
    set (a := rnd (c_g k * c_g k)). replace (- a * c_tau k) with (- (a * c_tau k)) by ring. rewrite rnd_opp.
    set (b := rnd (a * c_tau k)). replace (- b / D1) with (- (b / D1)) by (unfold Rdiv; ring). apply rnd_opp. }
  f_equal. transitivity (rnd (c_tau k + rnd (rnd (rnd (rnd (- c_g k * c_g k) * c_tau k) / D1) + 1))); [reflexivity|].
  now rewrite E.
Qed.

(** The invariant after [t] steps. *)
Definition kappa : R := 2 * (75 * (eta * eta / u) + 14 * eta).
Definition few (t : nat) : Prop := 2048 * u * (INR t + 1) ^ 2 <= 1.
Record ok (t : nat) (k : cell R) : Prop := Ok {
  ok_tau : 1 / 2 <= c_tau k <= INR t + 1;
  ok_fv : format (c_vhat k);
  ok_v : 0 <= c_vhat k;
  ok_g : c_g k ^ 2 <= (1 + 200 * u * INR t) * c_vhat k + kappa * INR t;
  ok_r : 0 < c_r k <= 3 / 4;
  ok_m : 0 <= c_minv k <= 18014398509481984 }.

Lemma few_le : forall s t, (s <= t)%nat -> few t -> few s.
Proof.
  intros s t H. unfold few. apply le_INR in H. pose proof (pos_INR s). pose proof u_pos. intros HF.
  eapply Rle_trans; [|exact HF]. apply Rmult_le_compat_l; [lra|]. apply pow_incr. lra.
Qed.
Lemma few_int : forall t, few t -> (Z.of_nat t + 3 < 2 ^ prec)%Z.
Proof.
  intros t HF. apply lt_IZR. rewrite plus_IZR, <- INR_IZR_INZ.
  replace (IZR (2 ^ prec)) with (/ u).
  2:{ unfold u. rewrite bpow_opp, Rinv_inv. symmetry. apply (IZR_Zpower radix2). lia. }
  pose proof u_pos as Hu. pose proof (pos_INR t) as Ht. unfold few in HF.
  apply (Rmult_lt_reg_l u); [exact Hu|]. rewrite Rinv_r by lra.
  assert (u * (INR t + 1) <= u * (INR t + 1) ^ 2) by (apply Rmult_le_compat_l; nra).
  pose proof u_small. nra.
Qed.

Lemma kappa_pos : 0 < kappa.
Proof.
  pose proof u_pos. pose proof eta_pos. unfold kappa.
  assert (0 < eta * eta / u) by (apply Rdiv_lt_0_compat; nra). lra.
Qed.
Lemma kappa_small : kappa <= 178 * (u * c).
Proof.
  pose proof u_pos as Hu. pose proof eta_pos as He. pose proof eta_uc as Huc. pose proof c_bounds as Hc. unfold kappa.
  assert (eta * eta / u <= eta).
  { apply (Rmult_le_reg_r u); [lra|]. replace (eta * eta / u * u) with (eta * eta) by (field; lra).
    apply Rmult_le_compat_l; [lra|]. nra. }
  lra.
Qed.

Lemma frate_bounds : forall t tau, few t -> 1 / 2 <= tau <= INR t + 1 -> 0 < frate tau <= 3 / 4.
Proof.
  intros t tau HF Ht. unfold frate. pose proof (few_int t HF) as HI. pose proof pow_1024 as H10.
  assert (L : 3 / 2 <= rnd (tau + 1)).
  { rewrite <- (rnd_fmt (3 / 2)); [apply rnd_mono; lra|]. replace (3 / 2) with (6 / 4) by lra. apply (fmt_quarters 6). lia. }
  assert (Ui : rnd (tau + 1) <= INR t + 2).
  { rewrite <- (rnd_fmt (INR t + 2)); [apply rnd_mono; lra|].
    rewrite INR_IZR_INZ, <- plus_IZR. apply fmt_int. lia. }
  set (d := rnd (tau + 1)) in *. split.
  - apply Rlt_le_trans with u; [apply u_pos|].
    rewrite <- (rnd_fmt u) by (apply generic_format_bpow; unfold fexp, FLT_exp; lia). apply rnd_mono.
    apply Rle_trans with (1 / (INR t + 2)).
    + assert (HB : INR t + 2 <= / u).
      { apply IZR_lt in HI. rewrite plus_IZR, <- INR_IZR_INZ in HI.
        replace (IZR (2 ^ prec)) with (/ u) in HI; [lra|].
        unfold u. rewrite bpow_opp, Rinv_inv. symmetry. apply (IZR_Zpower radix2). lia. }
      pose proof u_pos. rewrite <- (Rinv_inv u). unfold Rdiv. rewrite Rmult_1_l.
      apply Rinv_le_contravar; [pose proof (pos_INR t)|]; lra.
    + apply Rmult_le_compat_l; [lra|]. apply Rinv_le_contravar; lra.
  - rewrite <- (rnd_fmt (3 / 4)) by (apply (fmt_quarters 3); lia). apply rnd_mono.
    apply Rle_trans with (1 / (3 / 2)); [|lra]. apply Rmult_le_compat_l; [lra|]. apply Rinv_le_contravar; lra.
Qed.

Lemma lerp_nonneg : forall r v X, 0 <= r <= 1 -> format v -> 0 <= v -> 0 <= X -> 0 <= lerp rnd r v X.
Proof.
  intros r v X Hr Fv Hv HX. unfold lerp.
  assert (Z0 : rnd 0 = 0) by (apply rnd_fmt, generic_format_0). rewrite <- Z0. apply rnd_mono.
  assert (H1 : - v <= rnd (- r * v)).
  { rewrite <- (rnd_fmt (- v)) by now apply generic_format_opp. apply rnd_mono. nra. }
  assert (H2 : 0 <= rnd (r * X)) by (rewrite <- Z0; apply rnd_mono; nra).
  assert (H3 : - v <= rnd (rnd (- r * v) + rnd (r * X))).
  { rewrite <- (rnd_fmt (- v)) at 1 by now apply generic_format_opp. apply rnd_mono. lra. }
  lra.
Qed.

Lemma ok_init : ok 0 (@cell_init R N).
Proof.
  assert (F : forall m, (Z.abs m < 1024)%Z -> rnd (IZR m / 4) = IZR m / 4) by (intros; apply rnd_fmt, fmt_quarters; auto).
  assert (H1 : rnd 1 = 1) by (replace 1 with (4 / 4) by lra; apply (F 4%Z); lia).
  assert (H2 : rnd (1 + 1) = 2) by (replace (1 + 1) with (8 / 4) by lra; rewrite (F 8%Z) by lia; lra).
  assert (H3 : rnd (1 / 2) = 1 / 2) by (replace (1 / 2) with (2 / 4) by lra; apply (F 2%Z); lia).
  unfold cell_init. rewrite one_R.
  change (ok 0 {| c_tau := 1; c_r := rnd (1 / rnd (1 + 1)); c_g := 1; c_vhat := 1; c_minv := rnd (1 / rnd (sqrt 1)) |}).
  rewrite H2, H3, sqrt_1, H1. replace (1 / 1) with 1 by lra. rewrite H1.
  constructor; cbn [c_tau c_r c_g c_vhat c_minv INR]; try lra.
  apply (fmt_int 1). pose proof pow_1024. lia.
Qed.

Lemma ok_step : forall t x k, few (S t) -> ok t k -> ok (S t) (@cell_step R N x k).
Proof.
  intros t x k HF [Ht Fv Hv Hg _ _]. rewrite cell_step_rounded. cbn zeta.
  assert (HFt : few t) by (apply (few_le _ (S t)); auto).
  pose proof (frate_bounds t _ HFt Ht) as Hr. pose proof (few_int _ HF) as HI. rewrite Nat2Z.inj_succ in HI.
  pose proof u_pos as Hu. pose proof eta_pos as He. pose proof u_small as Hus. pose proof c_bounds as Hc.
  pose proof (bpow_gt_0 radix2 (-54)) as Hb. pose proof (pos_INR t) as Hn. pose proof kappa_pos as Hk. pose proof kappa_small as Hks.
  pose proof eta_uc as Huc. unfold few in HF. rewrite S_INR in HF.
  assert (Z0 : rnd 0 = 0) by (apply rnd_fmt, generic_format_0).
  assert (HT2 : 2048 * u * (INR t + 2) ^ 2 <= 1) by (replace (INR t + 2) with (INR t + 1 + 1) by lra; exact HF).
  set (n := INR t) in *.
  assert (B1 : u * n <= u * (n + 2) ^ 2) by (apply Rmult_le_compat_l; nra).
  assert (B2 : u * (n + 1) <= u * (n + 2) ^ 2) by (apply Rmult_le_compat_l; nra).
  assert (B3 : u * (n * (n + 1)) <= u * (n + 2) ^ 2) by (apply Rmult_le_compat_l; nra).
  assert (Hun : 0 <= u * n) by nra.
  constructor; cbn [c_tau c_r c_g c_vhat c_minv]; rewrite ?S_INR; fold n.
  - destruct (divisor_bounds _ Fv Hv) as [D1 D2].
    assert (HQ : 0 <= quotient rnd (c_g k) (c_tau k) (@safe_divisor R N (c_vhat k) c) <= c_tau k + 1 / 4).
    { assert (T0 : c_tau k * n <= (n + 1) * n) by (apply Rmult_le_compat_r; lra).
      assert (T1 : c_tau k * (200 * u * n) <= 1 / 10).
      { assert (u * (c_tau k * n) <= u * ((n + 1) * n)) by (apply Rmult_le_compat_l; lra). lra. }
      assert (T2 : c_tau k * (kappa * n) <= c / 11).
      { apply Rle_trans with (178 * (u * c) * ((n + 1) * n)).
        { replace (c_tau k * (kappa * n)) with (kappa * (c_tau k * n)) by ring.
          apply Rmult_le_compat; try lra. apply Rmult_le_pos; lra. }
        replace (178 * (u * c) * ((n + 1) * n)) with (178 * (u * (n * (n + 1))) * c) by ring.
        replace (c / 11) with (1 / 11 * c) by lra. apply Rmult_le_compat_r; lra. }
      assert (T3 : 1024 * (c_tau k * u) <= 1).
      { assert (c_tau k * u <= (n + 1) * u) by (apply Rmult_le_compat_r; lra). lra. }
      assert (T4 : 0 <= kappa * n) by (apply Rmult_le_pos; lra).
      apply (quotient_bounds rnd u eta rnd_err Hu Hus He rnd_mono Z0 (c_g k) (c_vhat k) (c_tau k) _ c (200 * u * n) (kappa * n)); auto; lra. }
    apply (tau_bounds rnd u eta rnd_err Hu Hus rnd_mono); try lra.
    + replace (1 / 2) with (2 / 4) by lra. apply rnd_fmt, (fmt_quarters 2). lia.
    + apply rnd_fmt, (fmt_int 1). pose proof pow_1024; lia.
    + assert (c_tau k * u <= (n + 1) * u) by (apply Rmult_le_compat_r; lra). lra.
    + nra.
    + apply rnd_fmt. unfold n. rewrite INR_IZR_INZ, <- !plus_IZR. apply fmt_int. lia.
  - apply fmt_rnd.
  - apply lerp_nonneg; auto; [lra|]. rewrite <- Z0. apply rnd_mono. apply Rle_0_sqr.
  - assert (X0 : 0 <= rnd (x * x)) by (rewrite <- Z0; apply rnd_mono, Rle_0_sqr).
    assert (XE : Rabs (rnd (x * x) - x ^ 2) <= u * x ^ 2 + eta).
    { replace (x ^ 2) with (x * x) by ring. pose proof (rnd_err (x * x)) as E.
      rewrite (Rabs_right (x * x)) in E by (apply Rle_ge, Rle_0_sqr). exact E. }
    pose proof (moments_step rnd u eta rnd_err Hu Hus He (frate (c_tau k)) (c_g k) (c_vhat k) x (rnd (x * x))
                  (200 * u * n) (kappa * n)) as HM.
    eapply Rle_trans; [apply HM; auto; [lra|lra|nra]|].
    apply Rplus_le_compat.
    + right. ring.
    + assert (kappa * (24 * (u * n)) <= kappa * (1 / 2)) by (apply Rmult_le_compat_l; lra). unfold kappa in *. nra.
  - exact Hr.
  - assert (ES : @safe_sqrt R N (c_vhat k) = rnd (sqrt (c_vhat k))).
    { unfold safe_sqrt, safe_sqrt_with, clip_by_value, nmax. rewrite zero_R. cbn [nsqrt nltb N Num_rounded].
      unfold Rltb. destruct (Rlt_dec (c_vhat k) 0); [lra|]. reflexivity. }
    rewrite ES. destruct (divisor_bounds (rnd (sqrt (c_vhat k)))) as [_ D2]; [apply fmt_rnd| |].
    { rewrite <- Z0. apply rnd_mono, sqrt_pos. }
    set (D := safe_divisor _ _) in *. assert (HD : 0 < D) by lra. pose proof (Rinv_0_lt_compat _ HD). split.
    + rewrite <- Z0. apply rnd_mono. unfold Rdiv. lra.
    + replace 18014398509481984 with (bpow radix2 54) by (cbn; lra).
      rewrite <- (rnd_fmt (bpow radix2 54)) by (apply generic_format_bpow; unfold fexp, FLT_exp; lia).
      apply rnd_mono. replace (bpow radix2 54) with (/ bpow radix2 (-54)) by (rewrite <- bpow_opp; reflexivity).
      unfold Rdiv. rewrite Rmult_1_l. apply Rinv_le_contravar; lra.
Qed.

Lemma ok_run : forall n gs k, Forall (fun g => length g = n) gs -> (k < n)%nat -> few (length gs) ->
  exists e, at_index (fold_left (fun a g => @adapt_step R N g a) gs (@adapt_init R N n)) k e /\ ok (length gs) e.
Proof.
  intros n gs k. induction gs as [|g gs IH] using rev_ind; intros HF Hk HW.
  - exists (@cell_init R N). split; [now apply at_index_init|apply ok_init].
  - apply Forall_app in HF as [HF Hg]. inversion Hg as [|? ? Hgl _]; subst.
    rewrite app_length, Nat.add_1_r in *. 
    destruct IH as (e & He & Ho); auto; [apply (few_le _ (S (length gs))); auto|].
    destruct (nth_error_lt _ g k Hk) as [x Hx].
    exists (@cell_step R N x e). rewrite fold_left_app. cbn [fold_left].
    split; [now apply at_index_step|now apply ok_step].
Qed.
End F.
