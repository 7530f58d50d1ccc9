(** C94: averages over a run of SGLD or SGHMC on a Gaussian target converge in mean square
    to the target's mean, with a known constant. *)
From Coq Require Import List Arith Lia ZArith Reals Lra Psatz Bool.
From Verif.Base Require Import Py Num Vec Lists.
From Verif.Model Require Import TensorUtils BurnIn SGHMC SGLD.
From Verif.Spec Require Import Dynamics Gaussian Averages.
From Verif.Proofs Require Import Dynamics Trajectory Stability.
From Verif.Props Require Import PDynamics PGaussian.
Import ListNotations.
Local Open Scope R_scope.

(** Expectations of nonnegative variables are nonnegative; draws of different steps are
    uncorrelated. *)
Definition positive {O} (P : expectation O) : Prop := forall f, (forall w, 0 <= f w) -> 0 <= ex P f.
Definition white {O} (P : expectation O) (N : nat) (xi : nat -> O -> R) : Prop :=
  forall s t, (s < N)%nat -> (t < N)%nat -> s <> t -> ex P (fun w => xi s w * xi t w) = 0.

(** *** The general argument *)
Section General.
Context {O : Type} (P : expectation O).
Hypothesis HP : positive P.

Lemma ex_sum : forall f g, ex P (fun w => f w + g w) = ex P f + ex P g.
Proof. intros. apply ex_add. Qed.
Lemma ex_sq_expand : forall f g c,
  ex P (fun w => (f w + c * g w) ^ 2) =
  ex P (fun w => f w ^ 2) + 2 * c * ex P (fun w => f w * g w) + c ^ 2 * ex P (fun w => g w ^ 2).
Proof.
  intros. rewrite (ex_ext P _ (fun w => (f w ^ 2 + (2 * c) * (f w * g w)) + c ^ 2 * g w ^ 2)) by (intros; ring).
  rewrite (ex_add P (fun w => f w ^ 2 + (2 * c) * (f w * g w))), (ex_add P (fun w => f w ^ 2)), !ex_scale. ring.
Qed.

Lemma ex_le : forall f g, (forall w, f w <= g w) -> ex P f <= ex P g.
Proof.
  intros f g H. assert (0 <= ex P (fun w => g w + (-1) * f w)) by (apply HP; intros w; specialize (H w); lra).
  rewrite (ex_add P g), ex_scale in H0. lra.
Qed.

(** [kap * S = A + sg * W] with [A] bounded and [W] of variance [n]. *)
Lemma mean_square : forall (A W S : O -> R) kap sg C n, (0 < n)%nat -> kap <> 0 ->
  (forall w, kap * S w = A w + sg * W w) ->
  ex P (fun w => W w ^ 2) = INR n -> ex P (fun w => A w ^ 2) <= C ->
  Rabs (INR n * ex P (fun w => (S w / INR n) ^ 2) - sg ^ 2 / kap ^ 2) <= (sg ^ 2 + 2 * C) / (kap ^ 2 * sqrt (INR n)).
Proof.
  intros A W S kap sg C n Hn Hk HS HW HA.
  assert (HN : 1 <= INR n) by (apply (le_INR 1); lia).
  set (r := sqrt (INR n)).
  assert (Hr : 1 <= r) by (unfold r; rewrite <- sqrt_1; apply sqrt_le_1_alt; lra).
  assert (Hrr : r * r = INR n) by (unfold r; apply sqrt_sqrt; lra).
  assert (Hk2 : 0 < kap ^ 2) by (rewrite <- Rsqr_pow2; now apply Rsqr_pos_lt).
  set (a := ex P (fun w => A w ^ 2)) in *. set (c := ex P (fun w => A w * W w)).
  assert (Ha : 0 <= a) by (apply HP; intros; apply pow2_ge_0).
  assert (E : kap ^ 2 * ex P (fun w => S w ^ 2) = a + 2 * sg * c + sg ^ 2 * INR n).
  { rewrite <- ex_scale. rewrite <- HW. unfold a, c. rewrite <- ex_sq_expand. apply ex_ext. intros w. rewrite <- HS. ring. }
  assert (B : forall t, 0 <= a + 2 * t * c + t ^ 2 * INR n).
  { intros t. unfold a, c. rewrite <- HW, <- ex_sq_expand. apply HP. intros. apply pow2_ge_0. }
  (* |2 sg c| <= r a + sg^2 r *)
  assert (B1 : - (r * a + sg ^ 2 * r) <= 2 * sg * c).
  { specialize (B (sg / r)). apply (Rmult_le_compat_l r) in B; [|lra].
    replace (r * (a + 2 * (sg / r) * c + (sg / r) ^ 2 * INR n)) with (r * a + 2 * sg * c + sg ^ 2 * r) in B by (rewrite <- Hrr; field; lra). lra. }
  assert (B2 : 2 * sg * c <= r * a + sg ^ 2 * r).
  { specialize (B (- sg / r)). apply (Rmult_le_compat_l r) in B; [|lra].
    replace (r * (a + 2 * (- sg / r) * c + (- sg / r) ^ 2 * INR n)) with (r * a - 2 * sg * c + sg ^ 2 * r) in B by (rewrite <- Hrr; field; lra). lra. }
  assert (EQ : INR n * ex P (fun w => (S w / INR n) ^ 2) - sg ^ 2 / kap ^ 2 = (a + 2 * sg * c) / (kap ^ 2 * INR n)).
  { rewrite (ex_ext P _ (fun w => / INR n ^ 2 * S w ^ 2)) by (intros; field; lra). rewrite ex_scale.
    set (e := ex P (fun w => S w ^ 2)) in *.
    replace (a + 2 * sg * c) with (kap ^ 2 * e - sg ^ 2 * INR n) by lra. field. split; lra. }
  rewrite EQ, <- Hrr. unfold Rdiv. rewrite Rabs_mult, (Rabs_right (/ _)).
  2:{ apply Rle_ge, Rlt_le, Rinv_0_lt_compat. apply Rmult_lt_0_compat; [exact Hk2|nra]. }
  assert (M : Rabs (a + 2 * sg * c) <= r * (sg ^ 2 + 2 * C)).
  { assert (r * a <= r * C) by (apply Rmult_le_compat_l; lra). apply Rabs_le. split; nra. }
  apply Rle_trans with (r * (sg ^ 2 + 2 * C) * / (kap ^ 2 * (r * r))).
  - apply Rmult_le_compat_r; [|exact M]. apply Rlt_le, Rinv_0_lt_compat. apply Rmult_lt_0_compat; [exact Hk2|nra].
  - right. field. split; lra.
Qed.

(** Sums of white noise. *)
Definition noise_sum (xi : nat -> O -> R) (n : nat) (w : O) : R := sum_to n (fun t => xi (t - 1)%nat w).
Lemma noise_sum_var : forall N xi, white P N xi ->
  (forall t, (t < N)%nat -> ex P (fun w => xi t w ^ 2) = 1) ->
  forall n, (n <= N)%nat -> ex P (fun w => noise_sum xi n w ^ 2) = INR n.
Proof.
  intros N xi HW HV. induction n as [|n IH]; intros Hn.
  - unfold noise_sum. cbn. rewrite (ex_ext P _ (fun _ => 0)) by (intros; ring). apply ex_const.
  - rewrite (ex_ext P _ (fun w => (noise_sum xi n w + 1 * xi n w) ^ 2)).
    2:{ intros w. unfold noise_sum. cbn [sum_to]. replace (S n - 1)%nat with n by lia. ring. }
    rewrite (ex_sq_expand (noise_sum xi n) (xi n)), IH, HV, S_INR by lia.
    assert (Z : forall k, (k <= n)%nat -> ex P (fun w => noise_sum xi k w * xi n w) = 0).
    { induction k as [|k IHk]; intros Hk.
      - unfold noise_sum. cbn. rewrite (ex_ext P _ (fun _ => 0)) by (intros; ring). apply ex_const.
      - rewrite (ex_ext P _ (fun w => noise_sum xi k w * xi n w + xi k w * xi n w)).
        2:{ intros w. unfold noise_sum. cbn [sum_to]. replace (S k - 1)%nat with k by lia. ring. }
        rewrite (ex_add P (fun w => noise_sum xi k w * xi n w)), IHk, HW by lia. ring. }
    rewrite Z by lia. ring.
Qed.

Lemma ex_sq_diff : forall f g c, ex P (fun w => (f w - g w) ^ 2) <= 2 * ex P (fun w => (f w - c) ^ 2) + 2 * ex P (fun w => (g w - c) ^ 2).
Proof.
  intros. rewrite <- !ex_scale, <- ex_add. apply ex_le. intros w.
  assert (0 <= (f w - c + (g w - c)) ^ 2) by apply pow2_ge_0. nra.
Qed.
End General.

(** *** SGLD *)
Theorem C94_sgld_sample_mean :
  forall O (P : expectation O) A s eps m lam mu N st xi,
  0 < s -> 0 < lam -> 0 < eps * m * A -> eps * m * A * lam < 2 ->
  gaussian_chain P A s eps m lam mu N st xi -> positive P -> white P N xi ->
  let h := eps * m * A in
  let st' := s + 3 / 10000000000000000 in
  let C := 4 * ex P (fun w => (theta_of st 0 w - mu) ^ 2) + 2 / (st' * lam * (1 - h * lam / 2)) in
  forall n, (0 < n <= N)%nat ->
  Rabs (INR n * ex P (fun w => (sample_mean n (fun t => theta_of st t w) - mu) ^ 2) - 2 / (st' * h * lam ^ 2))
  <= (2 * h / st' + 2 * C) / ((h * lam) ^ 2 * sqrt (INR n)).
Proof.
  intros O P A s eps m lam mu N st xi Hs Hl Hh H2 HC HP HW h st' C n Hn.
  assert (Hst : 0 < st') by (unfold st'; lra). pose proof guard_pos as HG.
  assert (Eg : s + 3 * guard = st') by (unfold st', guard; lra).
  set (sg := sqrt (2 * h / st')).
  assert (Hsg : sg ^ 2 = 2 * h / st').
  { unfold sg. rewrite <- Rsqr_pow2. apply Rsqr_sqrt. apply Rmult_le_pos; [unfold h; lra|]. apply Rlt_le, Rinv_0_lt_compat, Hst. }
  set (rho := 1 - h * lam).
  assert (Hhl : 0 < h * lam) by (apply Rmult_lt_0_compat; assumption).
  assert (Hrho : -1 < rho < 1) by (unfold rho, h in *; lra).
  assert (Step : forall t w, (t < N)%nat -> theta_of st (S t) w - mu = rho * (theta_of st t w - mu) + sg * xi t w).
  { intros t w Ht. destruct (PDynamics.chain_step _ _ _ _ _ _ _ _ _ _ _ Hs (Rlt_le _ _ Hh) HC t w Ht) as (_ & _ & ->).
    rewrite Eg. unfold rho, sg, h. ring. }
  assert (Sum : forall k w, (k <= N)%nat -> h * lam * (sum_to k (fun t => theta_of st t w) - INR k * mu) =
                 - rho * (theta_of st k w - theta_of st 0 w) + sg * noise_sum xi k w).
  { induction k as [|k IH]; intros w Hk; [cbn; ring|].
    rewrite S_INR. cbn [sum_to]. unfold noise_sum in *. cbn [sum_to]. replace (S k - 1)%nat with k by lia.
    specialize (IH w ltac:(lia)). pose proof (Step k w ltac:(lia)) as E.
    replace (theta_of st (S k) w) with (mu + (rho * (theta_of st k w - mu) + sg * xi k w)) by lra.
    assert (h * lam = 1 - rho) by (unfold rho; ring). rewrite H in *. nra. }
  rewrite (ex_ext P _ (fun w => ((sum_to n (fun t => theta_of st t w) - INR n * mu) / INR n) ^ 2)).
  2:{ intros w. unfold sample_mean. f_equal. field. apply not_0_INR. lia. }
  replace (2 / (st' * h * lam ^ 2)) with (sg ^ 2 / (h * lam) ^ 2) by (rewrite Hsg; field; unfold h; repeat split; nra).
  rewrite <- Hsg.
  apply (mean_square P HP (fun w => - rho * (theta_of st n w - theta_of st 0 w)) (noise_sum xi n)); [lia|lra| | |].
  - intros w. apply Sum. lia.
  - apply (noise_sum_var P N); auto; [|lia]. intros. now apply (gc_var _ _ _ _ _ _ _ _ _ _ HC).
  - rewrite (ex_ext P _ (fun w => rho ^ 2 * (theta_of st n w - theta_of st 0 w) ^ 2)) by (intros; ring).
    rewrite ex_scale.
    pose proof (ex_sq_diff P HP (theta_of st n) (theta_of st 0) mu) as HD.
    set (M0 := ex P (fun w => (theta_of st 0 w - mu) ^ 2)) in *.
    set (Mn := ex P (fun w => (theta_of st n w - mu) ^ 2)) in *.
    assert (HE0 : 0 <= ex P (fun w => (theta_of st n w - theta_of st 0 w) ^ 2)) by (apply HP; intros; apply pow2_ge_0).
    assert (VM : forall t, ex P (fun w => (theta_of st t w - mu) ^ 2) = variance P (theta_of st t) + (ex P (theta_of st t) - mu) ^ 2).
    { intros t. rewrite variance_moments.
      rewrite (ex_ext P _ (fun w => theta_of st t w ^ 2 + ((-2 * mu) * theta_of st t w + mu ^ 2))) by (intros; ring).
      rewrite (ex_add P (fun w => theta_of st t w ^ 2)), (ex_add P (fun w => (-2 * mu) * theta_of st t w)), ex_scale, ex_const. ring. }
    destruct (C23_moments O P A s eps m lam mu N st xi Hs Hl Hh H2 HC n ltac:(lia)) as [EM EV]. fold h in EM, EV. fold rho in EM, EV. fold st' in EV.
    set (lv := 1 / (st' * lam * (1 - h * lam / 2))) in *.
    assert (Hlv : 0 < lv).
    { unfold lv. apply Rdiv_lt_0_compat; [lra|]. apply Rmult_lt_0_compat; [now apply Rmult_lt_0_compat|]. clear - H2. subst h. cbv beta. lra. }
    assert (HV0 : 0 <= variance P (theta_of st 0)) by (apply HP; intros; apply pow2_ge_0).
    assert (Hr2 : 0 <= rho ^ 2 <= 1) by (split; [apply pow2_ge_0|nra]).
    assert (Hp : 0 <= (rho ^ 2) ^ n <= 1).
    { split; [apply pow_le; lra|]. rewrite <- (pow1 n). apply pow_incr. lra. }
    assert (HMn : Mn <= M0 + lv).
    { unfold Mn, M0. rewrite !VM, EM.
      replace (variance P (theta_of st n)) with (lv + (rho ^ 2) ^ n * (variance P (theta_of st 0) - lv)) by lra.
      assert (EP : (rho ^ n) ^ 2 = (rho ^ 2) ^ n) by (rewrite <- !pow_mult; f_equal; lia).
      rewrite Rpow_mult_distr, EP. set (p := (rho ^ 2) ^ n) in *. set (V0 := variance P (theta_of st 0)) in *.
      set (b := ex P (theta_of st 0) - mu). pose proof (pow2_ge_0 b). set (B := b ^ 2) in *.
      assert (p * B <= 1 * B) by (apply Rmult_le_compat_r; lra).
      assert (p * V0 <= 1 * V0) by (apply Rmult_le_compat_r; lra).
      assert (0 <= p * lv) by (apply Rmult_le_pos; lra). lra. }
    assert (EC : C = 4 * M0 + 2 * lv) by (unfold C, lv; unfold Rdiv; ring). rewrite EC.
    set (D := ex P (fun w => (theta_of st n w - theta_of st 0 w) ^ 2)) in *.
    assert (rho ^ 2 * D <= 1 * D) by (apply Rmult_le_compat_r; lra). lra.
Qed.

(** *** SGHMC *)
Lemma tends_bounded : forall u l, tends u l -> exists B, 0 < B /\ forall n, Rabs (u n) <= B.
Proof. intros u l H. apply tends_cv in H. destruct (maj_by_pos u (exist _ l H)) as (B & HB & Hu). eauto. Qed.

Lemma second_moment : forall O (P : expectation O) f c,
  ex P (fun w => (f w - c) ^ 2) = PGaussian.covariance P f f + (ex P f - c) ^ 2.
Proof.
  intros. unfold PGaussian.covariance. set (e := ex P f).
  rewrite (ex_ext P _ (fun w => (f w - e) * (f w - e) + ((2 * (e - c)) * f w + (c ^ 2 - e ^ 2)))) by (intros; ring).
  rewrite (ex_add P (fun w => (f w - e) * (f w - e))), (ex_add P (fun w => 2 * (e - c) * f w)), ex_scale, PDynamics.ex_const.
  fold e. ring.
Qed.

Theorem C94_sghmc_sample_mean :
  forall d s eps m lam mu, 0 < s -> 0 < d < 2 ->
  let k := eps ^ 2 * m * lam in 0 < k < 2 * (2 - d) ->
  forall mean0 cov0, exists C, 0 < C /\
  forall O (P : expectation O) N st xi,
    hmc_chain P d s eps m lam mu N st xi -> positive P -> white P N xi ->
    (ex P (pos_of st 0) - mu, ex P (vel_of st 0)) = mean0 -> covariances P st 0 = cov0 ->
    forall n, (0 < n <= N)%nat ->
    Rabs (INR n * ex P (fun w => (sample_mean n (fun t => pos_of st t w) - mu) ^ 2) - noise_var d s eps m / k ^ 2)
    <= C / sqrt (INR n).
Proof.
  intros d s eps m lam mu Hs Hd k Hk mean0 cov0.
  assert (HS : stable d k) by (split; assumption).
  set (q := noise_var d s eps m).
  assert (Hq : 0 < q) by (unfold q, noise_var; eapply Rlt_le_trans; [|apply Rmax_r]; lra).
  destruct (mean_converges d k HS mean0) as [T1 T2].
  destruct (cov_converges d k q HS cov0) as (T3 & T4 & T5).
  destruct (tends_bounded _ _ T1) as (B1 & P1 & H1). destruct (tends_bounded _ _ T2) as (B2 & P2 & H2).
  destruct (tends_bounded _ _ T3) as (B3 & P3 & H3). destruct (tends_bounded _ _ T5) as (B4 & P4 & H4).
  set (X := B3 + B1 ^ 2). set (V := B4 + B2 ^ 2).
  assert (HX : 0 < X) by (unfold X; nra). assert (HV : 0 < V) by (unfold V; nra).
  set (C0 := 8 * (k - d) ^ 2 * X + 8 * (1 - d) ^ 2 * V).
  assert (HC0 : 0 <= C0).
  { unfold C0. pose proof (pow2_ge_0 (k - d)). pose proof (pow2_ge_0 (1 - d)). nra. }
  assert (Hk2 : 0 < k ^ 2) by nra.
  exists ((q + 2 * C0) / k ^ 2). split; [apply Rdiv_lt_0_compat; lra|].
  intros O P N st xi HC HP HW E0 E1 n Hn.
  set (sg := sqrt q).
  assert (Hsg : sg ^ 2 = q) by (unfold sg; rewrite <- Rsqr_pow2; apply Rsqr_sqrt; lra).
  assert (Mom : forall t, (t <= N)%nat ->
    ex P (fun w => (pos_of st t w - mu) ^ 2) <= X /\ ex P (fun w => (vel_of st t w - 0) ^ 2) <= V).
  { intros t Ht. destruct (C77_moments O P d s eps m lam mu N st xi Hs HC t Ht) as [M1 M2]. fold k q in M1, M2.
    rewrite E0 in M1. rewrite E1 in M2.
    specialize (H1 t). specialize (H2 t). specialize (H3 t). specialize (H4 t).
    rewrite <- M1 in H1, H2. rewrite <- M2 in H3, H4. cbn [fst snd covariances c_xx c_vv] in H1, H2, H3, H4.
    rewrite !second_moment. rewrite Rminus_0_r. split.
    - apply Rplus_le_compat; [eapply Rle_trans; [apply Rle_abs|exact H3]|].
      rewrite <- (pow2_abs (ex P (pos_of st t) - mu)). apply pow_incr. split; [apply Rabs_pos|exact H1].
    - apply Rplus_le_compat; [eapply Rle_trans; [apply Rle_abs|exact H4]|].
      rewrite <- (pow2_abs (ex P (vel_of st t))). apply pow_incr. split; [apply Rabs_pos|exact H2]. }
  assert (Step : forall t w, (t < N)%nat ->
     vel_of st (S t) w = (1 - d) * vel_of st t w - k * (pos_of st t w - mu) + sg * xi t w /\
     pos_of st (S t) w = pos_of st t w + vel_of st (S t) w).
  { intros t w Ht. destruct (PGaussian.chain_step P d s eps m lam mu N st xi Hs HC t w ltac:(lia)) as (_ & _ & HSt).
    apply HSt. exact Ht. }
  assert (Sum : forall j w, (j <= N)%nat -> k * (sum_to j (fun t => pos_of st t w) - INR j * mu) =
     ((k - d) * (pos_of st j w - pos_of st 0 w) - (1 - d) * (vel_of st j w - vel_of st 0 w)) + sg * noise_sum xi j w).
  { induction j as [|j IH]; intros w Hj; [cbn; ring|].
    rewrite S_INR. cbn [sum_to]. unfold noise_sum in *. cbn [sum_to]. replace (S j - 1)%nat with j by lia.
    specialize (IH w ltac:(lia)). destruct (Step j w ltac:(lia)) as [EV EX].
    rewrite EX. set (v' := vel_of st (S j) w) in *.
    replace (k * (sum_to j (fun t => pos_of st t w) + (pos_of st j w + v') - (INR j + 1) * mu))
      with (k * (sum_to j (fun t => pos_of st t w) - INR j * mu) + k * (pos_of st j w - mu) + k * v') by ring.
    rewrite IH. 
    replace (k * (pos_of st j w - mu)) with ((1 - d) * vel_of st j w + sg * xi j w - v') by lra. ring. }
  rewrite (ex_ext P _ (fun w => ((sum_to n (fun t => pos_of st t w) - INR n * mu) / INR n) ^ 2)).
  2:{ intros w. unfold sample_mean. f_equal. field. apply not_0_INR. lia. }
  rewrite <- Hsg. replace ((sg ^ 2 + 2 * C0) / k ^ 2 / sqrt (INR n)) with ((sg ^ 2 + 2 * C0) / (k ^ 2 * sqrt (INR n))).
  2:{ field. assert (0 < sqrt (INR n)) by (apply sqrt_lt_R0, lt_0_INR; lia). split; lra. }
  apply (mean_square P HP (fun w => (k - d) * (pos_of st n w - pos_of st 0 w) - (1 - d) * (vel_of st n w - vel_of st 0 w))
           (noise_sum xi n)); [lia|lra| | |].
  - intros w. apply Sum. lia.
  - apply (noise_sum_var P N); auto; [|lia]. intros. now apply (hc_var _ _ _ _ _ _ _ _ _ _ HC).
  - destruct (Mom n ltac:(lia)) as [X1 V1]. destruct (Mom 0%nat ltac:(lia)) as [X0 V0].
    pose proof (ex_sq_diff P HP (pos_of st n) (pos_of st 0) mu) as DX.
    pose proof (ex_sq_diff P HP (vel_of st n) (vel_of st 0) 0) as DV.
    set (dx := ex P (fun w => (pos_of st n w - pos_of st 0 w) ^ 2)) in *.
    set (dv := ex P (fun w => (vel_of st n w - vel_of st 0 w) ^ 2)) in *.
    apply Rle_trans with (2 * (k - d) ^ 2 * dx + 2 * (1 - d) ^ 2 * dv).
    + unfold dx, dv. rewrite <- !ex_scale, <- ex_add. apply (ex_le P HP). intros w.
      set (a := (k - d) * (pos_of st n w - pos_of st 0 w)). set (b := (1 - d) * (vel_of st n w - vel_of st 0 w)).
      replace (2 * (k - d) ^ 2 * (pos_of st n w - pos_of st 0 w) ^ 2 + 2 * (1 - d) ^ 2 * (vel_of st n w - vel_of st 0 w) ^ 2)
        with (2 * a ^ 2 + 2 * b ^ 2) by (unfold a, b; ring).
      assert (0 <= (a + b) ^ 2) by apply pow2_ge_0. nra.
    + unfold C0. pose proof (pow2_ge_0 (k - d)). pose proof (pow2_ge_0 (1 - d)).
      assert (dx <= 4 * X) by lra. assert (dv <= 4 * V) by lra.
      assert ((k - d) ^ 2 * dx <= (k - d) ^ 2 * (4 * X)) by (apply Rmult_le_compat_l; lra).
      assert ((1 - d) ^ 2 * dv <= (1 - d) ^ 2 * (4 * V)) by (apply Rmult_le_compat_l; lra). lra.
Qed.

(** *** Chains of every length: independent fair signs *)
Definition before (b : bool) (w : nat -> bool) (t : nat) : bool := match t with O => b | S t' => w t' end.
Fixpoint flips (n : nat) (f : (nat -> bool) -> R) : R :=
  match n with O => f (fun _ => false)
  | S n' => (flips n' (fun w => f (before true w)) + flips n' (fun w => f (before false w))) / 2 end.
Lemma flips_ext : forall n f g, (forall w, f w = g w) -> flips n f = flips n g.
Proof. induction n as [|n IH]; intros f g H; cbn; [apply H|]. f_equal. f_equal; apply IH; intros; apply H. Qed.
Lemma flips_add : forall n f g, flips n (fun w => f w + g w) = flips n f + flips n g.
Proof. induction n as [|n IH]; intros f g; cbn; [reflexivity|]. rewrite !IH. field. Qed.
Lemma flips_scale : forall n a f, flips n (fun w => a * f w) = a * flips n f.
Proof. induction n as [|n IH]; intros a f; cbn; [reflexivity|]. rewrite !IH. field. Qed.
Lemma flips_one : forall n, flips n (fun _ => 1) = 1.
Proof. induction n as [|n IH]; cbn; [reflexivity|]. rewrite !IH. field. Qed.
Definition fair (n : nat) : expectation (nat -> bool) :=
  Expectation _ (flips n) (flips_ext n) (flips_add n) (flips_scale n) (flips_one n).
Lemma fair_positive : forall n, positive (fair n).
Proof.
  intros n f. cbn. revert f. induction n as [|n IH]; intros f H; cbn; [apply H|].
  pose proof (IH (fun w => f (before true w)) (fun w => H _)). pose proof (IH (fun w => f (before false w)) (fun w => H _)). lra.
Qed.
Definition draw (t : nat) (w : nat -> bool) : R := if w t then 1 else -1.

(** What is decided by the first [t] signs is uncorrelated with the next. *)
Definition decided (t : nat) (f : (nat -> bool) -> R) : Prop :=
  forall w w', (forall i, (i < t)%nat -> w i = w' i) -> f w = f w'.
Lemma fair_next : forall n t f, (t < n)%nat -> decided t f -> flips n (fun w => f w * draw t w) = 0.
Proof.
  induction n as [|n IH]; intros t f Ht Hf; [lia|]. cbn. destruct t as [|t].
  - unfold draw, before. assert (E : forall b, flips n (fun w => f (before b w) * (if b then 1 else -1)) = (if b then 1 else -1) * flips n (fun w => f (before true w))).
    { intros b. rewrite <- flips_scale. apply flips_ext. intros w. rewrite (Hf (before b w) (before true w)); [ring|]. intros i Hi; lia. }
    change (fun w : nat -> bool => f (fun t : nat => match t with O => true | S t' => w t' end) * 1) with (fun w : nat -> bool => f (before true w) * (if true then 1 else -1)).
    change (fun w : nat -> bool => f (fun t : nat => match t with O => false | S t' => w t' end) * -1) with (fun w : nat -> bool => f (before false w) * (if false then 1 else -1)).
    rewrite !E. field.
  - assert (Z : forall b, flips n (fun w => f (before b w) * draw (S t) (before b w)) = 0).
    { intros b. change (flips n (fun w => f (before b w) * draw t w) = 0). apply (IH t); [lia|].
      intros w w' H. apply Hf. intros [|i] Hi; [reflexivity|]. cbn. apply H. lia. }
    rewrite !Z. field.
Qed.
Lemma draw_decided : forall s t, (s < t)%nat -> decided t (draw s).
Proof. intros s t H w w' E. unfold draw. now rewrite E. Qed.
Lemma fair_mean : forall n t, (t < n)%nat -> ex (fair n) (draw t) = 0.
Proof.
  intros n t H. cbn. rewrite (flips_ext n _ (fun w => 1 * draw t w)) by (intros; ring).
  apply (fair_next n t (fun _ => 1)); auto. intros w w' _. reflexivity.
Qed.
Lemma fair_var : forall n t, ex (fair n) (fun w => draw t w ^ 2) = 1.
Proof.
  intros n t. cbn [ex fair]. rewrite (flips_ext n _ (fun _ => 1)); [apply flips_one|].
  intros w. unfold draw. destruct (w t); ring.
Qed.
Lemma fair_white : forall n, white (fair n) n draw.
Proof.
  intros n s t Hs Ht Hst. cbn [ex fair]. destruct (Nat.lt_ge_cases s t) as [L|L].
  - apply fair_next; auto. now apply draw_decided.
  - rewrite (flips_ext n _ (fun w => draw t w * draw s w)) by (intros; ring).
    apply fair_next; auto. apply draw_decided. lia.
Qed.

(** SGLD from 5 on a Gaussian with mean 3 and precision 2, stepsize 1/10; SGHMC with friction 1/20. *)
Fixpoint fair_sgld (t : nat) (w : nat -> bool) : lstate R :=
  match t with
  | O => linit (Tensor [] [5])
  | S t' => let p := fair_sgld t' w in
      sgld_step (LConfig 1 1) (1/10) [2 * (hd 0 (l_vec p) - 3)] [draw t' w] (Some [1]) p
  end.
Fixpoint fair_sghmc (t : nat) (w : nat -> bool) : pstate R :=
  match t with
  | O => pinit (Tensor [] [5])
  | S t' => let p := fair_sghmc t' w in
      sghmc_step {| mdecay := 1/20; scale_grad := 1 |} (1/10) [2 * (hd 0 (p_vec p) - 3)] [draw t' w] (Some [1]) p
  end.
Lemma fair_sgld_decided : forall t w w', (forall i, (i < t)%nat -> w i = w' i) -> fair_sgld t w = fair_sgld t w'.
Proof.
  induction t as [|t IH]; intros w w' H; [reflexivity|]. cbn [fair_sgld].
  rewrite (IH w w') by (intros; apply H; lia). unfold draw. rewrite (H t) by lia. reflexivity.
Qed.
Lemma fair_sghmc_decided : forall t w w', (forall i, (i < t)%nat -> w i = w' i) -> fair_sghmc t w = fair_sghmc t w'.
Proof.
  induction t as [|t IH]; intros w w' H; [reflexivity|]. cbn [fair_sghmc].
  rewrite (IH w w') by (intros; apply H; lia). unfold draw. rewrite (H t) by lia. reflexivity.
Qed.
Example C94_sgld_every_length : forall N,
  gaussian_chain (fair N) 1 1 (1/10) 1 2 3 N fair_sgld draw /\ positive (fair N) /\ white (fair N) N draw /\
  0 < 1/10 * 1 * 1 /\ 1/10 * 1 * 1 * 2 < 2.
Proof.
  intros N. split; [|split; [apply fair_positive|split; [apply fair_white|lra]]]. constructor.
  - reflexivity.
  - reflexivity.
  - intros. now apply fair_mean.
  - intros. apply fair_var.
  - intros t Ht. apply (fair_next N t (fun w => hd 0 (l_vec (fair_sgld t w)))); auto.
    intros w w' H. now rewrite (fair_sgld_decided t w w' H).
Qed.
Example C94_sghmc_every_length : forall N,
  hmc_chain (fair N) (1/20) 1 (1/10) 1 2 3 N fair_sghmc draw /\ positive (fair N) /\ white (fair N) N draw /\
  0 < 1/20 < 2 /\ 0 < (1/10) ^ 2 * 1 * 2 < 2 * (2 - 1/20).
Proof.
  intros N. split; [|split; [apply fair_positive|split; [apply fair_white|lra]]]. constructor.
  - reflexivity.
  - reflexivity.
  - reflexivity.
  - intros. now apply fair_mean.
  - intros. apply fair_var.
  - intros t Ht. split.
    + apply (fair_next N t (fun w => hd 0 (p_vec (fair_sghmc t w)))); auto.
      intros w w' H. now rewrite (fair_sghmc_decided t w w' H).
    + apply (fair_next N t (fun w => hd 0 (p_mom (fair_sghmc t w)))); auto.
      intros w w' H. now rewrite (fair_sghmc_decided t w w' H).
Qed.
