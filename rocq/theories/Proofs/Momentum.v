(** Lemmas for C98. *)
From Coq Require Import List Arith Lia ZArith Reals Lra Psatz Bool.
From Verif.Base Require Import Py Lists.
From Verif.Model Require Import TensorUtils BaseClasses.
From Verif.Spec Require Import Dynamics Chain Convex.
From Verif.Proofs Require Import Convex.
Import ListNotations.
Local Open Scope R_scope.

(** *** Vectors *)
Fixpoint plus (xs ys : list R) : list R :=
  match xs, ys with x :: xs, y :: ys => x + y :: plus xs ys | _, _ => [] end.
Fixpoint times (t : R) (xs : list R) : list R := match xs with [] => [] | x :: xs => t * x :: times t xs end.
Lemma plus_length : forall a b, length a = length b -> length (plus a b) = length a.
Proof. induction a as [|x a IH]; intros [|y b] HL; try discriminate HL; cbn; auto. Qed.
Lemma times_length : forall t a, length (times t a) = length a.
Proof. induction a; cbn; auto. Qed.
Lemma inner_plus_r : forall a b c, length b = length a -> length c = length a -> inner a (plus b c) = inner a b + inner a c.
Proof. induction a as [|x a IH]; intros [|y b] [|z c] L1 L2; try discriminate; cbn [plus inner]; [ring|]. cbn in L1, L2. rewrite IH by lia. ring. Qed.
Lemma inner_times_r : forall a t b, inner a (times t b) = t * inner a b.
Proof. induction a as [|x a IH]; intros t [|y b]; cbn [times inner]; try ring. rewrite IH. ring. Qed.
Lemma dist2_inner : forall a b, dist2 a b = inner (minus a b) (minus a b).
Proof. induction a as [|x a IH]; intros [|y b]; cbn [minus inner dist2]; auto. rewrite IH. ring. Qed.
Lemma inner_self_pos : forall a, 0 <= inner a a.
Proof. induction a as [|x a IH]; cbn [inner]; [lra|]. pose proof (pow2_ge_0 x). nra. Qed.
Lemma young : forall eta a b, 0 < eta -> 2 * inner a b <= inner a a / eta + eta * inner b b.
Proof.
  intros eta a b He. revert b. induction a as [|x a IH]; intros [|y b]; cbn [inner].
  - unfold Rdiv. lra.
  - pose proof (inner_self_pos (y :: b)) as H. cbn [inner] in H. unfold Rdiv. apply (Rmult_le_compat_l eta) in H; lra.
  - pose proof (inner_self_pos (x :: a)) as H. cbn [inner] in H. unfold Rdiv.
    assert (0 <= (x * x + inner a a) * / eta) by (apply Rmult_le_pos; [lra|now apply Rlt_le, Rinv_0_lt_compat]). lra.
  - specialize (IH b).
    assert (Q : 2 * (x * y) <= x * x / eta + eta * (y * y)).
    { pose proof (pow2_ge_0 (x - eta * y)) as S. assert (0 <= (x - eta * y) ^ 2 / eta) by (apply Rmult_le_pos; [exact S|now apply Rlt_le, Rinv_0_lt_compat]).
      replace ((x - eta * y) ^ 2 / eta) with (x * x / eta + eta * (y * y) - 2 * (x * y)) in H by (field; lra). lra. }
    unfold Rdiv in *. lra.
Qed.

(** *** Gradients of convex functions are co-coercive *)
Section Coercive.
Variables (n : nat) (mu L : R) (U : list R -> R) (G : list R -> list R).
Hypothesis HC : strongly_convex n mu U G.
Hypothesis HL : lipschitz n L G.
Hypothesis HG : forall z, length z = n -> length (G z) = n.
Hypothesis Hmu : 0 <= mu.
Hypothesis HLp : 0 < L.

Lemma below : forall x y, length x = n -> length y = n -> U x + inner (G x) (minus y x) <= U y.
Proof.
  intros x y Hx Hy. pose proof (HC x y Hx Hy). pose proof (dist2_pos x y).
  assert (0 <= mu / 2 * dist2 x y) by (apply Rmult_le_pos; lra). lra.
Qed.
Lemma turn : forall x y z, length x = n -> length y = n -> length z = n ->
  inner (minus (G y) (G x)) (minus z x) <= L / 2 * dist2 y x + L / 2 * dist2 z x.
Proof.
  intros x y z Hx Hy Hz. pose proof (young L (minus (G y) (G x)) (minus z x) HLp) as Y.
  rewrite <- !dist2_inner in Y. pose proof (HL y x Hy Hx) as Q.
  assert (dist2 (G y) (G x) / L <= L * dist2 y x).
  { apply Rmult_le_reg_r with L; [exact HLp|]. unfold Rdiv. rewrite Rmult_assoc, Rinv_l by lra. nra. }
  lra.
Qed.
Definition middle (x y : list R) : list R := plus x (times (1 / 2) (minus y x)).
Lemma middle_spec : forall x y, length x = n -> length y = n ->
  length (middle x y) = n /\ dist2 (middle x y) x = dist2 y x / 4 /\ dist2 y (middle x y) = dist2 y x / 4 /\
  minus (middle x y) x = times (1 / 2) (minus y x) /\ minus y (middle x y) = times (1 / 2) (minus y x).
Proof.
  unfold middle. intros x y. revert y. generalize n. clear. induction x as [|a x IH]; intros n [|b y] Hx Hy; cbn in Hx, Hy; subst; try discriminate.
  - cbn. repeat split; lra.
  - injection Hy as Hy. destruct (IH (length x) y eq_refl Hy) as (I1 & I2 & I3 & I4 & I5).
    cbn [minus times plus length dist2]. rewrite I1, I2, I3, I4, I5. repeat split; try (f_equal; lra); field.
Qed.
Lemma improve : forall C, (forall x y, length x = n -> length y = n -> U y <= U x + inner (G x) (minus y x) + C * dist2 y x) ->
  forall x y, length x = n -> length y = n -> U y <= U x + inner (G x) (minus y x) + (C / 2 + L / 4) * dist2 y x.
Proof.
  intros C H x y Hx Hy. destruct (middle_spec x y Hx Hy) as (M1 & M2 & M3 & M4 & M5). set (m := middle x y) in *.
  pose proof (H x m Hx M1) as H1. pose proof (H m y M1 Hy) as H2. rewrite M4 in H1. rewrite M5 in H2. rewrite M2 in H1. rewrite M3 in H2.
  rewrite inner_times_r in H1, H2.
  pose proof (young L (minus (G m) (G x)) (times (1 / 2) (minus y x)) HLp) as Y.
  rewrite inner_times_r, inner_minus_l in Y by (rewrite minus_length; rewrite ?HG; congruence).
  rewrite <- dist2_inner in Y. rewrite <- M4 in Y. rewrite <- (dist2_inner m x), M2 in Y.
  pose proof (HL m x M1 Hx) as Q. rewrite M2 in Q.
  assert (dist2 (G m) (G x) / L <= L * (dist2 y x / 4)).
  { apply Rmult_le_reg_r with L; [exact HLp|]. unfold Rdiv at 1. rewrite Rmult_assoc, Rinv_l by lra. nra. }
  lra.
Qed.
Lemma above_n : forall k x y, length x = n -> length y = n -> U y <= U x + inner (G x) (minus y x) + (L / 2 + L / 2 * (1 / 2) ^ k) * dist2 y x.
Proof.
  induction k as [|k IH]; intros x y Hx Hy.
  - cbn [pow]. pose proof (below y x Hy Hx) as B. pose proof (turn x y y Hx Hy Hy) as T.
    rewrite inner_minus_l in T by (rewrite minus_length; rewrite ?HG; congruence).
    rewrite (inner_minus_flip (G y)) in B. lra.
  - pose proof (improve _ IH x y Hx Hy) as H. cbn [pow]. 
    replace (L / 2 + L / 2 * (1 / 2 * (1 / 2) ^ k)) with ((L / 2 + L / 2 * (1 / 2) ^ k) / 2 + L / 4) by field. exact H.
Qed.
Lemma above : forall x y, length x = n -> length y = n -> U y <= U x + inner (G x) (minus y x) + L / 2 * dist2 y x.
Proof.
  intros x y Hx Hy. apply Rnot_lt_le. intros Hlt.
  set (d := U y - (U x + inner (G x) (minus y x) + L / 2 * dist2 y x)). assert (Hd : 0 < d) by (unfold d; lra).
  set (D := L / 2 * dist2 y x). assert (HD : 0 <= D) by (unfold D; pose proof (dist2_pos y x); apply Rmult_le_pos; lra).
  destruct (pow_lt_1_zero (1 / 2) ltac:(rewrite Rabs_right; lra) (d / (D + 1))) as [N HN]; [apply Rdiv_lt_0_compat; lra|].
  specialize (HN N (le_n N)). rewrite Rabs_right in HN by (apply Rle_ge, pow_le; lra).
  pose proof (above_n N x y Hx Hy) as A.
  assert ((1 / 2) ^ N * (D + 1) < d).
  { apply Rmult_lt_reg_r with (/ (D + 1)); [apply Rinv_0_lt_compat; lra|]. rewrite Rmult_assoc, Rinv_r by lra. unfold Rdiv in HN. unfold Rdiv. lra. }
  assert (0 < (1 / 2) ^ N) by (apply pow_lt; lra).
  unfold d, D in *. lra.
Qed.
Lemma nudge_minus : forall k t (g y x : list R), length g = k -> length x = k -> length y = k ->
  minus (plus y (times t g)) y = times t g /\ minus (plus y (times t g)) x = plus (minus y x) (times t g).
Proof.
  clear. induction k as [|k IH]; intros t [|g0 g] [|y0 y] [|x0 x] H1 H2 H3; try discriminate; auto.
  cbn in *. destruct (IH t g y x) as [I1 I2]; try lia. rewrite I1, I2. split; f_equal; ring.
Qed.
Lemma tangent : forall x y, length x = n -> length y = n -> U x + inner (G x) (minus y x) + dist2 (G y) (G x) / (2 * L) <= U y.
Proof.
  intros x y Hx Hy. set (g := minus (G y) (G x)). set (u := plus y (times (- (1 / L)) g)).
  assert (Lg : length g = n) by (unfold g; rewrite minus_length; rewrite ?HG; congruence).
  assert (Lu : length u = n) by (unfold u; rewrite plus_length; rewrite ?times_length; congruence).
  pose proof (below x u Hx Lu) as B. pose proof (above y u Hy Lu) as A.
  assert (Eu : minus u y = times (- (1 / L)) g /\ minus u x = plus (minus y x) (times (- (1 / L)) g)).
  { unfold u. apply (nudge_minus n); assumption. }
  destruct Eu as [E1 E2]. rewrite (dist2_inner u y), E1 in A. rewrite E2 in B.
  rewrite inner_plus_r in B by (rewrite ?times_length, ?minus_length, HG; congruence). rewrite !inner_times_r in A, B.
  assert (E3 : inner (times (- (1 / L)) g) g = - (1 / L) * inner g g).
  { generalize (- (1 / L)) as t. intros t. clear. clearbody g. induction g as [|a g IH]; cbn [times inner]; [ring|]. rewrite IH. ring. }
  rewrite (inner_times_r (times (- (1 / L)) g)), E3 in A.
  assert (E4 : inner g g = inner (G y) g - inner (G x) g) by (unfold g at 1; apply inner_minus_l; rewrite HG; congruence).
  rewrite (dist2_inner (G y)). fold g.
  replace (inner g g / (2 * L)) with (1 / L * inner g g - L / 2 * (- (1 / L) * (- (1 / L) * inner g g))) by (field; lra).
  rewrite E4 at 1. lra.
Qed.
Lemma mu_le_L : (0 < n)%nat -> mu <= L.
Proof.
  intros Hn. set (x := repeat 0 n). set (y := repeat 1 n).
  assert (Hx : length x = n) by apply repeat_length. assert (Hy : length y = n) by apply repeat_length.
  pose proof (turn x y y Hx Hy Hy) as T. pose proof (monotone n mu U G y x HC HG Hy Hx) as M.
  assert (0 < dist2 y x).
  { unfold x, y. destruct n as [|k]; [lia|]. cbn [repeat dist2]. pose proof (dist2_pos (repeat 1 k) (repeat 0 k)). lra. }
  apply Rmult_le_reg_r with (dist2 y x); lra.
Qed.
Lemma coercive : forall x y, length x = n -> length y = n -> dist2 (G x) (G y) <= L * inner (minus (G x) (G y)) (minus x y).
Proof.
  intros x y Hx Hy. pose proof (tangent x y Hx Hy) as H1. pose proof (tangent y x Hy Hx) as H2.
  rewrite (dist2_sym (G y)) in H1. rewrite inner_minus_l by (rewrite minus_length; rewrite ?HG; congruence).
  rewrite (inner_minus_flip (G x)) in H1.
  assert (H : dist2 (G x) (G y) / L <= inner (G x) (minus x y) - inner (G y) (minus x y)).
  { replace (dist2 (G x) (G y) / L) with (dist2 (G x) (G y) / (2 * L) + dist2 (G x) (G y) / (2 * L)) by (field; lra). lra. }
  apply (Rmult_le_compat_l L) in H; [|lra]. replace (L * (dist2 (G x) (G y) / L)) with (dist2 (G x) (G y)) in H by (field; lra). exact H.
Qed.
End Coercive.

(** *** The energy of two trajectories with momentum *)
Section Energy.
Variable al : R.
Hypothesis Hal : 0 < al <= 1.

Fixpoint energy (ms vs xs ws ys : list R) : R :=
  match ms, vs, xs, ws, ys with
  | m :: ms, v :: vs, x :: xs, w :: ws, y :: ys =>
      (((x - y) + (1 - al) / al * (v - w)) ^ 2 + (v - w) ^ 2 / al ^ 2) / m + energy ms vs xs ws ys
  | _, _, _, _, _ => 0
  end.
Lemma energy_pos : forall ms vs xs ws ys, Forall (fun m => 0 < m) ms -> 0 <= energy ms vs xs ws ys.
Proof.
  intros ms vs xs ws ys H. revert vs xs ws ys. induction H as [|m ms Hm _ IH]; intros [|v vs] [|x xs] [|w ws] [|y ys]; cbn [energy]; try lra.
  specialize (IH vs xs ws ys).
  assert (0 <= (((x - y) + (1 - al) / al * (v - w)) ^ 2 + (v - w) ^ 2 / al ^ 2) / m); [|lra].
  apply Rmult_le_pos; [|now apply Rlt_le, Rinv_0_lt_compat]. apply Rplus_le_le_0_compat; [apply pow2_ge_0|].
  apply Rmult_le_pos; [apply pow2_ge_0|apply Rlt_le, Rinv_0_lt_compat, pow_lt; lra].
Qed.
Lemma energy_upper : forall ms vs xs ws ys, Forall (fun m => 0 < m) ms ->
  length vs = length ms -> length xs = length ms -> length ws = length ms -> length ys = length ms ->
  energy ms vs xs ws ys <= 2 * scaled_dist2 ms xs ys + 3 / al ^ 2 * scaled_dist2 ms vs ws.
Proof.
  intros ms vs xs ws ys H. revert vs xs ws ys.
  induction H as [|m ms Hm _ IH]; intros [|v vs] [|x xs] [|w ws] [|y ys] L1 L2 L3 L4; try discriminate; cbn [energy scaled_dist2]; [lra|].
  cbn in L1, L2, L3, L4. specialize (IH vs xs ws ys ltac:(lia) ltac:(lia) ltac:(lia) ltac:(lia)).
  assert (Q : (((x - y) + (1 - al) / al * (v - w)) ^ 2 + (v - w) ^ 2 / al ^ 2) <= 2 * (x - y) ^ 2 + 3 / al ^ 2 * (v - w) ^ 2).
  { set (d := x - y). set (q := (v - w) / al).
    replace ((1 - al) / al * (v - w)) with ((1 - al) * q) by (unfold q; field; lra).
    replace ((v - w) ^ 2 / al ^ 2) with (q ^ 2) by (unfold q; field; lra).
    replace (3 / al ^ 2 * (v - w) ^ 2) with (3 * q ^ 2) by (unfold q; field; lra).
    assert (((1 - al) * q) ^ 2 <= q ^ 2). { rewrite Rpow_mult_distr. rewrite <- (Rmult_1_l (q ^ 2)) at 2. apply Rmult_le_compat_r; [apply pow2_ge_0|]. nra. }
    pose proof (pow2_ge_0 (d - (1 - al) * q)). nra. }
  apply (Rmult_le_compat_r (/ m)) in Q; [|now apply Rlt_le, Rinv_0_lt_compat]. unfold Rdiv in *. lra.
Qed.
Lemma energy_lower : forall ms vs xs ws ys, Forall (fun m => 0 < m) ms ->
  length vs = length ms -> length xs = length ms -> length ws = length ms -> length ys = length ms ->
  scaled_dist2 ms xs ys <= 2 * energy ms vs xs ws ys.
Proof.
  intros ms vs xs ws ys H. revert vs xs ws ys.
  induction H as [|m ms Hm _ IH]; intros [|v vs] [|x xs] [|w ws] [|y ys] L1 L2 L3 L4; try discriminate; cbn [energy scaled_dist2]; [lra|].
  cbn in L1, L2, L3, L4. specialize (IH vs xs ws ys ltac:(lia) ltac:(lia) ltac:(lia) ltac:(lia)).
  assert (Q : (x - y) ^ 2 <= 2 * (((x - y) + (1 - al) / al * (v - w)) ^ 2 + (v - w) ^ 2 / al ^ 2)).
  { set (d := x - y). set (q := (v - w) / al).
    replace ((1 - al) / al * (v - w)) with ((1 - al) * q) by (unfold q; field; lra).
    replace ((v - w) ^ 2 / al ^ 2) with (q ^ 2) by (unfold q; field; lra).
    assert (((1 - al) * q) ^ 2 <= q ^ 2). { rewrite Rpow_mult_distr. rewrite <- (Rmult_1_l (q ^ 2)) at 2. apply Rmult_le_compat_r; [apply pow2_ge_0|]. nra. }
    pose proof (pow2_ge_0 (d + 2 * ((1 - al) * q))). nra. }
  apply (Rmult_le_compat_r (/ m)) in Q; [|now apply Rlt_le, Rinv_0_lt_compat]. unfold Rdiv in *. lra.
Qed.
Lemma energy_rest : forall ms vs xs ys, Forall (fun m => 0 < m) ms ->
  length vs = length ms -> length xs = length ms -> length ys = length ms ->
  energy ms vs xs vs ys = scaled_dist2 ms xs ys.
Proof.
  intros ms vs xs ys H. revert vs xs ys.
  induction H as [|m ms Hm _ IH]; intros [|v vs] [|x xs] [|y ys] L1 L2 L3; try discriminate; cbn [energy scaled_dist2]; [lra|].
  cbn in L1, L2, L3. rewrite IH by lia. field. lra.
Qed.

(** One step without noise: momentum, then position. *)
Fixpoint push (h : R) (ms gs vs : list R) : list R :=
  match ms, gs, vs with m :: ms, g :: gs, v :: vs => v - h * m * g - al * v :: push h ms gs vs | _, _, _ => [] end.
Lemma push_length : forall h ms gs vs, length ms = length vs -> length gs = length vs -> length (push h ms gs vs) = length vs.
Proof. induction ms as [|m ms IH]; intros [|g gs] [|x xs] H1 H2; cbn in *; try discriminate; auto. Qed.
Lemma energy_push : forall h ms gs hs vs xs ws ys, Forall (fun m => 0 < m) ms ->
  length gs = length ms -> length hs = length ms -> length vs = length ms -> length xs = length ms -> length ws = length ms -> length ys = length ms ->
  energy ms (push h ms gs vs) (plus xs (push h ms gs vs)) (push h ms hs ws) (plus ys (push h ms hs ws)) =
    energy ms vs xs ws ys - 2 * h / al * inner (minus gs hs) (minus xs ys)
      - 4 * h * (1 - al) / al ^ 2 * inner (minus gs hs) (minus vs ws)
      + 2 * h ^ 2 / al ^ 2 * scaled_up ms gs hs - (2 - al) / al * scaled_dist2 ms vs ws.
Proof.
  intros h ms gs hs vs xs ws ys H. revert gs hs vs xs ws ys.
  induction H as [|m ms Hm _ IH]; intros [|g gs] [|k hs] [|v vs] [|x xs] [|w ws] [|y ys] L1 L2 L3 L4 L5 L6; try discriminate; cbn [push plus energy scaled_dist2 minus inner scaled_up]; [ring|].
  cbn in L1, L2, L3, L4, L5, L6. rewrite IH by lia. field. lra.
Qed.
Lemma cross_bound : forall eta ms gs hs vs ws, 0 < eta -> Forall (fun m => 0 < m) ms ->
  length gs = length ms -> length hs = length ms -> length vs = length ms -> length ws = length ms ->
  - 2 * inner (minus gs hs) (minus vs ws) <= scaled_dist2 ms vs ws / eta + eta * scaled_up ms gs hs.
Proof.
  intros eta ms gs hs vs ws He H. revert gs hs vs ws.
  induction H as [|m ms Hm _ IH]; intros [|g gs] [|k hs] [|v vs] [|w ws] L1 L2 L3 L4; try discriminate; cbn [scaled_dist2 minus inner scaled_up]; [unfold Rdiv; lra|].
  cbn in L1, L2, L3, L4. specialize (IH gs hs vs ws ltac:(lia) ltac:(lia) ltac:(lia) ltac:(lia)).
  assert (Q : 0 <= ((v - w) + eta * m * (g - k)) ^ 2 / (eta * m)).
  { apply Rmult_le_pos; [apply pow2_ge_0|apply Rlt_le, Rinv_0_lt_compat]. now apply Rmult_lt_0_compat. }
  replace (((v - w) + eta * m * (g - k)) ^ 2 / (eta * m)) with ((v - w) ^ 2 / m / eta + 2 * ((g - k) * (v - w)) + eta * (m * (g - k) ^ 2)) in Q by (field; lra).
  unfold Rdiv in *. lra.
Qed.

(** The factor by which the energy shrinks. *)
Definition decay (h lo mu : R) : R := 1 - h * mu * lo / (2 * al).
Lemma energy_contracts : forall n h lo hi mu L U G ms vs xs ws ys,
  strongly_convex n mu U G -> lipschitz n L G -> (forall z, length z = n -> length (G z) = n) ->
  0 < mu -> 0 < L -> 0 < lo -> Forall (fun m => lo <= m <= hi) ms -> 0 < h -> h * hi * L <= al ^ 2 / 10 ->
  length ms = n -> length vs = n -> length xs = n -> length ws = n -> length ys = n ->
  energy ms (push h ms (G xs) vs) (plus xs (push h ms (G xs) vs)) (push h ms (G ys) ws) (plus ys (push h ms (G ys) ws))
    <= decay h lo mu * energy ms vs xs ws ys.
Proof.
  intros n h lo hi mu L U G ms vs xs ws ys HC HL HG Hmu HLp Hlo HM Hh Hb Lm Lv Lx Lw Ly.
  assert (P : Forall (fun m => 0 < m) ms) by (eapply Forall_impl; [|exact HM]; cbn; intros; lra).
  rewrite energy_push by (auto; rewrite ?HG; congruence).
  assert (He : 0 < 4 * h / al) by (apply Rdiv_lt_0_compat; lra).
  pose proof (cross_bound (4 * h / al) ms (G xs) (G ys) vs ws He P ltac:(rewrite HG; congruence) ltac:(rewrite HG; congruence) ltac:(congruence) ltac:(congruence)) as X.
  pose proof (monotone n mu U G xs ys HC HG Lx Ly) as M.
  pose proof (coercive n mu L U G HC HL HG ltac:(lra) HLp xs ys Lx Ly) as K.
  assert (SU : scaled_up ms (G xs) (G ys) <= hi * dist2 (G xs) (G ys)).
  { apply scaled_up_le; [|rewrite HG; congruence]. eapply Forall_impl; [|exact HM]. cbn. intros; lra. }
  assert (SLO : lo * scaled_dist2 ms xs ys <= dist2 xs ys).
  { apply scaled_lower; [exact Hlo| |congruence]. eapply Forall_impl; [|exact HM]. cbn. intros; lra. }
  pose proof (energy_upper ms vs xs ws ys P ltac:(congruence) ltac:(congruence) ltac:(congruence) ltac:(congruence)) as EU.
  pose proof (dist2_pos xs ys) as D0. pose proof (scaled_pos ms xs ys P) as D1. pose proof (scaled_pos ms vs ws P) as W0.
  assert (S0 : 0 <= scaled_up ms (G xs) (G ys)).
  { clear -P. generalize (G xs), (G ys). induction P as [|m ms Hm _ IH]; intros [|a as_] [|b bs]; cbn [scaled_up]; try lra.
    specialize (IH as_ bs). assert (0 <= m * (a - b) ^ 2) by (apply Rmult_le_pos; [lra|apply pow2_ge_0]). lra. }
  destruct ms as [|m ms].
  { cbn in Lm. subst n. destruct vs; [|discriminate Lv]. destruct xs; [|discriminate Lx]. destruct ws; [|discriminate Lw]. destruct ys; [|discriminate Ly].
    cbn [energy scaled_dist2 minus inner scaled_up]. destruct (minus (G []) (G [])); cbn [inner]; lra. }
  assert (LH : lo <= hi /\ 0 < hi) by (inversion HM; subst; lra). rename Lm into Lm'. clear HM P.
  set (E := energy (m :: ms) vs xs ws ys) in *. set (I := inner (minus (G xs) (G ys)) (minus xs ys)) in *.
  set (J := inner (minus (G xs) (G ys)) (minus vs ws)) in *. set (S := scaled_up (m :: ms) (G xs) (G ys)) in *.
  set (W := scaled_dist2 (m :: ms) vs ws) in *. set (D := scaled_dist2 (m :: ms) xs ys) in *.
  set (DD := dist2 xs ys) in *. set (DG := dist2 (G xs) (G ys)) in *.
  assert (ML : mu <= L) by (apply (mu_le_L n mu L U G); auto; cbn in Lm'; lia).
  clearbody E I J S W D DD DG. clear HC HL HG Lm' m ms U G vs xs ws ys Lv Lx Lw Ly.
  assert (I0 : 0 <= I) by (assert (0 <= mu * DD) by (apply Rmult_le_pos; lra); lra).
  assert (SI : S <= hi * L * I) by (apply Rle_trans with (1 := SU); rewrite Rmult_assoc; apply Rmult_le_compat_l; lra).
  (* the cross term *)
  set (q := 2 * h * (1 - al) / al ^ 2).
  assert (q0 : 0 <= q) by (unfold q; apply Rmult_le_pos; [nra|apply Rlt_le, Rinv_0_lt_compat, pow_lt; lra]).
  apply (Rmult_le_compat_l q) in X; [|exact q0].
  replace (4 * h * (1 - al) / al ^ 2 * J) with (2 * (q * J)) by (unfold q; field; lra).
  assert (qW : q * (W / (4 * h / al)) = (1 - al) / (2 * al) * W) by (unfold q; field; lra).
  assert (qS : q * (4 * h / al * S) = 8 * h ^ 2 * (1 - al) / al ^ 3 * S) by (unfold q; field; lra).
  rewrite Rmult_plus_distr_l, qW, qS in X.
  (* coefficients of S *)
  assert (T1 : 2 * h ^ 2 / al ^ 2 * S + 8 * h ^ 2 * (1 - al) / al ^ 3 * S <= 10 * h ^ 2 / al ^ 3 * S).
  { rewrite <- Rmult_plus_distr_r. apply Rmult_le_compat_r; [exact S0|].
    replace (2 * h ^ 2 / al ^ 2 + 8 * h ^ 2 * (1 - al) / al ^ 3) with ((8 - 6 * al) * h ^ 2 / al ^ 3) by (field; lra).
    unfold Rdiv. apply Rmult_le_compat_r; [apply Rlt_le, Rinv_0_lt_compat, pow_lt; lra|]. apply Rmult_le_compat_r; [apply pow2_ge_0|lra]. }
  assert (T2 : 10 * h ^ 2 / al ^ 3 * S <= h / al * I).
  { apply Rle_trans with (10 * h ^ 2 / al ^ 3 * (hi * L * I)).
    - apply Rmult_le_compat_l; [|exact SI]. apply Rmult_le_pos; [|apply Rlt_le, Rinv_0_lt_compat, pow_lt; lra]. pose proof (pow2_ge_0 h). lra.
    - replace (10 * h ^ 2 / al ^ 3 * (hi * L * I)) with (h / al * I * (10 * (h * hi * L) / al ^ 2)) by (field; lra).
      rewrite <- (Rmult_1_r (h / al * I)) at 2. apply Rmult_le_compat_l.
      + apply Rmult_le_pos; [|exact I0]. apply Rlt_le, Rdiv_lt_0_compat; lra.
      + apply Rmult_le_reg_r with (al ^ 2); [apply pow_lt; lra|]. unfold Rdiv. rewrite Rmult_assoc, Rinv_l by (apply pow_nonzero; lra). lra. }
  (* coefficient of W *)
  assert (T3 : (1 - al) / (2 * al) * W - (2 - al) / al * W <= - (1 / al) * W).
  { rewrite <- Rmult_minus_distr_r. apply Rmult_le_compat_r; [exact W0|].
    replace ((1 - al) / (2 * al) - (2 - al) / al) with (- (1 / al) + - ((1 - al) / (2 * al))) by (field; lra).
    assert (0 <= (1 - al) / (2 * al)); [|lra]. apply Rmult_le_pos; [lra|apply Rlt_le, Rinv_0_lt_compat; lra]. }
  assert (T4 : h / al * (mu * (lo * D)) <= h / al * I).
  { apply Rmult_le_compat_l; [apply Rlt_le, Rdiv_lt_0_compat; lra|]. apply Rle_trans with (2 := M). apply Rmult_le_compat_l; lra. }
  (* the rest of the energy *)
  set (kappa := h * mu * lo / (2 * al)).
  assert (k0 : 0 <= kappa) by (unfold kappa; apply Rmult_le_pos; [|apply Rlt_le, Rinv_0_lt_compat; lra]; apply Rmult_le_pos; [apply Rmult_le_pos|]; lra).
  apply (Rmult_le_compat_l kappa) in EU; [|exact k0].
  assert (EK : kappa * (2 * D + 3 / al ^ 2 * W) = h / al * (mu * (lo * D)) + kappa * (3 / al ^ 2) * W) by (unfold kappa; field; lra).
  rewrite EK in EU.
  assert (KW : kappa * (3 / al ^ 2) * W <= 1 / al * W).
  { apply Rmult_le_compat_r; [exact W0|].
    assert (Q : h * mu * lo <= h * hi * L).
    { rewrite !Rmult_assoc. apply Rmult_le_compat_l; [lra|]. rewrite (Rmult_comm hi). apply Rmult_le_compat; lra. }
    replace (kappa * (3 / al ^ 2)) with (h * mu * lo * (3 / (2 * al ^ 3))) by (unfold kappa; field; lra).
    apply Rle_trans with (al ^ 2 / 10 * (3 / (2 * al ^ 3))).
    - apply Rmult_le_compat_r; [apply Rlt_le, Rdiv_lt_0_compat; [lra|]; pose proof (pow_lt al 3 ltac:(lra)); lra|lra].
    - replace (al ^ 2 / 10 * (3 / (2 * al ^ 3))) with (3 / 20 * (1 / al)) by (field; lra).
      assert (0 < 1 / al) by (apply Rdiv_lt_0_compat; lra). lra. }
  unfold decay. fold kappa. lra.
Qed.
(** Noise: added to the momentum, and so to the position. *)
Lemma energy_same : forall ms ks vs xs ws ys,
  length ks = length ms -> length vs = length ms -> length xs = length ms -> length ws = length ms -> length ys = length ms ->
  energy ms (plus vs ks) (plus xs ks) (plus ws ks) (plus ys ks) = energy ms vs xs ws ys.
Proof.
  induction ms as [|m ms IH]; intros [|k ks] [|v vs] [|x xs] [|w ws] [|y ys] L1 L2 L3 L4 L5; try discriminate; auto.
  cbn in L1, L2, L3, L4, L5. cbn [plus energy]. rewrite IH by lia.
  replace (x + k - (y + k)) with (x - y) by ring. replace (v + k - (w + k)) with (v - w) by ring. reflexivity.
Qed.
Fixpoint weighted (ms ks : list R) : R := match ms, ks with m :: ms, k :: ks => k ^ 2 / m + weighted ms ks | _, _ => 0 end.
Fixpoint lean (ms ks vs xs ws ys : list R) : R :=
  match ms, ks, vs, xs, ws, ys with
  | m :: ms, k :: ks, v :: vs, x :: xs, w :: ws, y :: ys =>
      (((x - y) + (1 - al) / al * (v - w)) / al + (v - w) / al ^ 2) / m * k + lean ms ks vs xs ws ys
  | _, _, _, _, _, _ => 0
  end.
Lemma energy_expand : forall t ms ks vs xs ws ys, Forall (fun m => 0 < m) ms ->
  length ks = length ms -> length vs = length ms -> length xs = length ms -> length ws = length ms -> length ys = length ms ->
  energy ms (plus vs (times t ks)) (plus xs (times t ks)) ws ys =
    energy ms vs xs ws ys + 2 * t * lean ms ks vs xs ws ys + t ^ 2 * (2 / al ^ 2 * weighted ms ks).
Proof.
  intros t ms ks vs xs ws ys H. revert ks vs xs ws ys.
  induction H as [|m ms Hm _ IH]; intros [|k ks] [|v vs] [|x xs] [|w ws] [|y ys] L1 L2 L3 L4 L5; try discriminate; cbn [plus times energy lean weighted]; [ring|].
  cbn in L1, L2, L3, L4, L5. rewrite IH by lia. field. lra.
Qed.
Lemma times_one : forall ks, times 1 ks = ks.
Proof. induction ks as [|k ks IH]; cbn [times]; auto. rewrite IH. f_equal. ring. Qed.
Lemma weighted_pos : forall ms ks, Forall (fun m => 0 < m) ms -> 0 <= weighted ms ks.
Proof.
  intros ms ks H. revert ks. induction H as [|m ms Hm _ IH]; intros [|k ks]; cbn [weighted]; try lra. specialize (IH ks).
  assert (0 <= k ^ 2 / m); [|lra]. apply Rmult_le_pos; [apply pow2_ge_0|now apply Rlt_le, Rinv_0_lt_compat].
Qed.
Lemma energy_kick : forall ms ks vs xs ws ys, Forall (fun m => 0 < m) ms ->
  length ks = length ms -> length vs = length ms -> length xs = length ms -> length ws = length ms -> length ys = length ms ->
  sqrt (energy ms (plus vs ks) (plus xs ks) ws ys) <= sqrt (energy ms vs xs ws ys) + sqrt (2 / al ^ 2 * weighted ms ks).
Proof.
  intros ms ks vs xs ws ys HM L1 L2 L3 L4 L5.
  set (V := 2 / al ^ 2 * weighted ms ks).
  assert (HV : 0 <= V).
  { unfold V. apply Rmult_le_pos; [apply Rlt_le, Rdiv_lt_0_compat; [lra|apply pow_lt; lra]|now apply weighted_pos]. }
  assert (HW : 0 <= energy ms vs xs ws ys) by (now apply energy_pos).
  pose proof (quadratic_bound (energy ms vs xs ws ys) (lean ms ks vs xs ws ys) V HV) as Q.
  assert (QQ : forall t, 0 <= energy ms vs xs ws ys + 2 * t * lean ms ks vs xs ws ys + t ^ 2 * V).
  { intros t. unfold V. rewrite <- energy_expand by assumption. now apply energy_pos. }
  specialize (Q QQ). pose proof (energy_expand 1 ms ks vs xs ws ys HM L1 L2 L3 L4 L5) as K. rewrite times_one in K. fold V in K.
  set (a := sqrt (energy ms vs xs ws ys)) in *. set (b := sqrt V) in *.
  assert (Ha : 0 <= a) by apply sqrt_pos. assert (Hb : 0 <= b) by apply sqrt_pos.
  assert (Ea : a * a = energy ms vs xs ws ys) by (now apply sqrt_sqrt). assert (Eb : b * b = V) by (now apply sqrt_sqrt).
  rewrite <- (sqrt_pow2 (a + b)) by lra. apply sqrt_le_1_alt. rewrite K. nra.
Qed.
(** Rest in a point where the gradient vanishes. *)
Lemma push_rest : forall h ms gs n, length ms = n -> length gs = n -> Forall (fun g => g = 0) gs -> push h ms gs (repeat 0 n) = repeat 0 n.
Proof.
  intros h ms gs n Hm Hg H. revert ms n Hm Hg. induction H as [|g gs Hz _ IH]; intros [|m ms] [|n] Hm Hg; try discriminate; auto.
  cbn in *. rewrite IH by lia. f_equal. rewrite Hz. ring.
Qed.
Lemma plus_rest : forall z, plus z (repeat 0 (length z)) = z.
Proof. induction z as [|c z IH]; cbn; auto. rewrite IH. f_equal. ring. Qed.
Lemma restless_energy : forall ms before now z, length before = length ms -> length now = length ms -> length z = length ms ->
  restless al ms before now z = energy ms (minus now before) now (repeat 0 (length ms)) z.
Proof.
  induction ms as [|m ms IH]; intros [|p before] [|x now] [|c z] L1 L2 L3; try discriminate; auto.
  cbn in L1, L2, L3. cbn [restless length repeat minus energy]. rewrite IH by lia.
  replace (x - p - 0) with (x - p) by ring. reflexivity.
Qed.
End Energy.

(** *** The chain of SGHMC on all entries at once *)
Section Chain.
Variables (al s : R).
Variable variate : Z * Z -> nat -> R.
Variable reserve : nat -> nat.
Notation rule := (sghmc_entry al s).

Fixpoint jolts (sd : R -> R) (ms xis : list R) : list R :=
  match ms, xis with m :: ms, xi :: xis => sd m * xi :: jolts sd ms xis | _, _ => [] end.
Lemma jolts_length : forall sd ms xis, length xis = length ms -> length (jolts sd ms xis) = length ms.
Proof. induction ms as [|m ms IH]; intros [|x xis] H; try discriminate H; cbn in *; auto. Qed.
Definition spread (eps m : R) : R := sqrt (Rmax (sghmc_noise_var eps al s m) guard).
Definition momenta (ps : list parameter) : list R := concat (map (fun p => map momentum (entries p)) ps).
Lemma momenta_length : forall ps, length (momenta ps) = length (flat (map value ps)).
Proof. induction ps as [|p ps IH]; auto. cbn. rewrite !app_length, !map_length. unfold momenta in IH. now rewrite IH. Qed.

Lemma moved_momentum : forall eps b noise gs es i, length gs = length es ->
  map momentum (moved rule eps b noise i gs es) =
    plus (push al (eps ^ 2) (map (mass_of b) es) gs (map momentum es)) (jolts (spread eps) (map (mass_of b) es) (map noise (seq i (length es)))) /\
  map theta (moved rule eps b noise i gs es) =
    plus (plus (map theta es) (push al (eps ^ 2) (map (mass_of b) es) gs (map momentum es))) (jolts (spread eps) (map (mass_of b) es) (map noise (seq i (length es)))) /\
  map (mass_of false) (moved rule eps b noise i gs es) = map (mass_of b) es.
Proof.
  induction gs as [|g gs IH]; intros [|e es] i H; try discriminate H; auto.
  injection H as H. destruct (IH es (S i) H) as (I1 & I2 & I3).
  cbn [moved map length seq push plus jolts]. rewrite I1, I2, I3. split; [|split]; f_equal.
  cbn [sghmc_entry theta]. unfold sghmc_momentum, spread. ring.
Qed.
Lemma push_app : forall h m1 g1 x1 m2 g2 x2, length m1 = length x1 -> length g1 = length x1 ->
  push al h (m1 ++ m2) (g1 ++ g2) (x1 ++ x2) = push al h m1 g1 x1 ++ push al h m2 g2 x2.
Proof. induction m1 as [|m m1 IH]; intros [|g g1] [|x x1] m2 g2 x2 H1 H2; try discriminate; cbn; auto. cbn in H1, H2. now rewrite IH by lia. Qed.
Lemma jolts_app : forall sd m1 x1 m2 x2, length m1 = length x1 -> jolts sd (m1 ++ m2) (x1 ++ x2) = jolts sd m1 x1 ++ jolts sd m2 x2.
Proof. induction m1 as [|m m1 IH]; intros [|x x1] m2 x2 H1; try discriminate; cbn; auto. cbn in H1. now rewrite IH by lia. Qed.
Lemma plus_app : forall a b c d, length a = length b -> plus (a ++ c) (b ++ d) = plus a b ++ plus c d.
Proof. induction a as [|x a IH]; intros [|y b] c d H; try discriminate; cbn; auto. cbn in H. now rewrite IH by lia. Qed.

Lemma moves_momentum : forall eps b gss ps, map (@length R) gss = sizes_of ps ->
  exists ps', moves rule variate reserve eps b gss ps = Some ps' /\
    let kicks := jolts (spread eps) (masses b ps) (noises variate ps) in
    let pushed := push al (eps ^ 2) (masses b ps) (concat gss) (momenta ps) in
    momenta ps' = plus pushed kicks /\ flat (map value ps') = plus (plus (flat (map value ps)) pushed) kicks /\
    masses false ps' = masses b ps /\ sizes_of ps' = sizes_of ps /\
    map seeds ps' = map seeds ps /\ map used ps' = map (fun p => used p + reserve (length (entries p)))%nat ps.
Proof.
  induction gss as [|gs gss IH]; intros [|p ps] H; try discriminate H.
  - exists []. repeat split; reflexivity.
  - cbn in H. injection H as H1 H2. destruct (IH ps H2) as (ps' & E1 & E0 & E2 & E3 & E4 & E5 & E6).
    exists (move rule variate reserve eps b gs p :: ps'). cbn [moves]. rewrite H1, Nat.eqb_refl, E1. split; [reflexivity|].
    destruct (moved_momentum eps b (variate (seeds p)) gs (entries p) (used p) H1) as (M1 & M2 & M3).
    assert (NN : map (variate (seeds p)) (seq (used p) (length (entries p))) = noise_at variate p).
    { unfold noise_at. clear. generalize (length (entries p)) as n. intros n.
      assert (G : forall k j, map (variate (seeds p)) (seq (j + k) n) = map (fun i => variate (seeds p) (j + i)%nat) (seq k n)).
      { induction n as [|n IHn]; intros; auto. cbn. f_equal. replace (S (j + k)) with (j + S k)%nat by lia. apply IHn. }
      specialize (G 0%nat (used p)). now rewrite Nat.add_0_r in G. }
    rewrite NN in M1, M2.
    assert (LN : length (noise_at variate p) = length (entries p)) by (unfold noise_at; now rewrite map_length, seq_length).
    cbv zeta. unfold masses at 1 2 3 4, noises at 1 2, momenta at 2 3. cbn [map concat].
    fold (masses b ps) (noises variate ps) (momenta ps).
    rewrite push_app, jolts_app by (rewrite ?map_length, ?LN; auto).
    set (P := push al (eps ^ 2) (map (mass_of b) (entries p)) gs (map momentum (entries p))) in *.
    set (K := jolts (spread eps) (map (mass_of b) (entries p)) (noise_at variate p)) in *.
    assert (LP : length P = length (entries p)) by (unfold P; rewrite push_length; rewrite ?map_length; auto).
    assert (LK : length K = length (entries p)) by (unfold K; rewrite jolts_length; rewrite ?map_length; auto).
    cbv zeta in E0, E2. split; [|split; [|split; [|split; [|split]]]].
    + unfold momenta in *. cbn [map concat move entries]. rewrite M1, E0, plus_app by congruence. reflexivity.
    + unfold flat in E2 |- *. cbn [map concat move value data entries dims]. rewrite M2, E2, !plus_app by (rewrite ?plus_length; rewrite ?map_length; congruence). reflexivity.
    + unfold masses in *. cbn [map concat move entries]. now rewrite M3, E3.
    + unfold sizes_of in *. cbn [map move entries]. rewrite E4. f_equal.
      apply (f_equal (@length R)) in M3. now rewrite !map_length in M3.
    + cbn. now rewrite E5.
    + cbn. now rewrite E6.
Qed.

(** The noise per unit of mass. *)
Lemma spread_bound : forall eps lo m, 0 < al -> 0 < s -> 0 < lo -> lo <= m -> spread eps m ^ 2 / m <= 2 * eps ^ 2 * al / s + guard / lo.
Proof.
  intros eps lo m Ha Hs Hlo Hm. unfold spread. rewrite <- Rsqr_pow2, Rsqr_sqrt.
  2:{ apply Rle_trans with guard; [unfold guard; lra|apply Rmax_r]. }
  assert (I0 : 0 < / m) by (apply Rinv_0_lt_compat; lra).
  assert (A0 : 0 <= 2 * eps ^ 2 * al / s).
  { apply Rmult_le_pos; [|now apply Rlt_le, Rinv_0_lt_compat]. apply Rmult_le_pos; [|lra]. pose proof (pow2_ge_0 eps). lra. }
  assert (B0 : 0 <= guard / lo) by (apply Rlt_le, Rdiv_lt_0_compat; [unfold guard; lra|lra]).
  unfold Rmax. destruct (Rle_dec _ _) as [|].
  - assert (guard / m <= guard / lo); [|lra]. unfold Rdiv. apply Rmult_le_compat_l; [unfold guard; lra|]. apply Rinv_le_contravar; lra.
  - unfold sghmc_noise_var. replace ((2 * (eps ^ 2 / s) * al * m - (eps ^ 2 / s) ^ 2) / m) with (2 * eps ^ 2 * al / s - (eps ^ 2 / s) ^ 2 / m) by (field; lra).
    assert (0 <= (eps ^ 2 / s) ^ 2 / m) by (apply Rmult_le_pos; [apply pow2_ge_0|lra]). lra.
Qed.
Lemma weighted_bound : forall eps lo ms xis, 0 < al -> 0 < s -> 0 < lo -> Forall (fun m => lo <= m) ms -> length xis = length ms ->
  weighted ms (jolts (spread eps) ms xis) <= (2 * eps ^ 2 * al / s + guard / lo) * sum_squares xis.
Proof.
  intros eps lo ms xis Ha Hs Hlo H. revert xis. induction H as [|m ms Hm _ IH]; intros [|x xis] HL; try discriminate HL; cbn [jolts weighted sum_squares]; [lra|].
  injection HL as HL. specialize (IH xis HL). pose proof (spread_bound eps lo m Ha Hs Hlo Hm) as S.
  apply (Rmult_le_compat_r (x ^ 2)) in S; [|apply pow2_ge_0].
  replace ((spread eps m * x) ^ 2 / m) with (spread eps m ^ 2 / m * x ^ 2) by (field; lra). lra.
Qed.
End Chain.

(** *** Mean energies *)
Lemma minus_plus : forall a p k, length p = length a -> length k = length a -> minus (plus (plus a p) k) a = plus p k.
Proof. induction a as [|x a IH]; intros [|y p] [|z k] H1 H2; try discriminate; auto. cbn in *. rewrite IH by lia. f_equal. ring. Qed.
Lemma lean_sum : forall al sd ms xis vs xs ws ys, length xis = length ms -> length vs = length ms -> length xs = length ms -> length ws = length ms -> length ys = length ms ->
  lean al ms (jolts sd ms xis) vs xs ws ys = sumn (length ms) (fun i =>
    (((nth i xs 0 - nth i ys 0) + (1 - al) / al * (nth i vs 0 - nth i ws 0)) / al + (nth i vs 0 - nth i ws 0) / al ^ 2) / nth i ms 0 * sd (nth i ms 0) * nth i xis 0).
Proof.
  induction ms as [|m ms IH]; intros [|a xis] [|v vs] [|x xs] [|w ws] [|y ys] L1 L2 L3 L4 L5; try discriminate; auto.
  cbn [jolts lean length sumn nth]. rewrite IH by (cbn in *; lia). f_equal. ring.
Qed.

Section Mean.
Context {O : Type} (P : expectation O).
Hypothesis HP : forall f, (forall w, 0 <= f w) -> 0 <= ex P f.
Variables (al s eps : R) (n : nat) (lo hi mu L : R) (U : list R -> R) (G : list R -> list R) (ms z : list R).
Let h := eps ^ 2.
Let sd := spread al s eps.
Hypothesis Hal : 0 < al <= 1.
Hypothesis Hs : 0 < s.
Hypothesis HC : strongly_convex n mu U G.
Hypothesis HL : lipschitz n L G.
Hypothesis HG : forall x, length x = n -> length (G x) = n.
Hypothesis Hmu : 0 < mu.
Hypothesis HLp : 0 < L.
Hypothesis Hlo : 0 < lo.
Hypothesis HM : Forall (fun m => lo <= m <= hi) ms.
Hypothesis Hh : 0 < h.
Hypothesis Hb : h * hi * L <= al ^ 2 / 10.
Hypothesis Lm : length ms = n.
Hypothesis Lz : length z = n.
Hypothesis Gz : Forall (fun g => g = 0) (G z).
Variables (N : nat) (x xi : nat -> O -> list R).
Let vel t w := minus (x t w) (x (pred t) w).
Hypothesis Lx : forall w, length (x 0%nat w) = n.
Hypothesis Lxi : forall t w, (t < N)%nat -> length (xi t w) = n.
Hypothesis Step : forall t w, (t < N)%nat -> x (S t) w = plus (plus (x t w) (push al h ms (G (x t w)) (vel t w))) (jolts sd ms (xi t w)).
Hypothesis Var : forall t i, (t < N)%nat -> (i < n)%nat -> ex P (fun w => nth i (xi t w) 0 ^ 2) = 1.
Hypothesis Unc : forall t i (phi : list R -> list R -> R), (t < N)%nat -> (i < n)%nat ->
  ex P (fun w => phi (x t w) (x (pred t) w) * nth i (xi t w) 0) = 0.
Let rho := decay al h lo mu.
Let tau := 2 * eps ^ 2 * al / s + guard / lo.
Let B := 2 / al ^ 2 * (INR n * tau) / (h * mu * lo / (2 * al)).
Let zero := repeat 0 n.

Lemma mom_length : forall t w, (t <= N)%nat -> length (x t w) = n /\ length (vel t w) = n.
Proof.
  assert (A : forall t w, (t <= N)%nat -> length (x t w) = n /\ length (x (pred t) w) = n).
  { induction t as [|t IH]; intros w Ht; [split; apply Lx|]. destruct (IH w ltac:(lia)) as [I1 I2]. split; [|exact I1]. rewrite Step by lia.
    assert (length (vel t w) = n) by (unfold vel; rewrite minus_length; congruence).
    assert (length (push al h ms (G (x t w)) (vel t w)) = n) by (rewrite push_length; rewrite ?HG; congruence).
    assert (LJ : length (jolts sd ms (xi t w)) = n) by (rewrite jolts_length; rewrite ?Lxi by lia; congruence).
    assert (L1 : length (plus (x t w) (push al h ms (G (x t w)) (vel t w))) = n) by (rewrite plus_length; congruence).
    rewrite plus_length; congruence. }
  intros t w Ht. destruct (A t w Ht). split; [assumption|]. unfold vel. rewrite minus_length; congruence.
Qed.
Lemma vel_step : forall t w, (t < N)%nat -> vel (S t) w = plus (push al h ms (G (x t w)) (vel t w)) (jolts sd ms (xi t w)).
Proof.
  intros t w Ht. destruct (mom_length t w ltac:(lia)) as [L1 L2]. unfold vel at 1. cbn [pred]. rewrite Step by exact Ht. apply minus_plus.
  - rewrite push_length; rewrite ?HG; congruence.
  - rewrite jolts_length; rewrite ?Lxi by exact Ht; congruence.
Qed.
Let en t w := energy al ms (vel t w) (x t w) zero z.
Lemma mom_step : forall t, (t < N)%nat -> ex P (en (S t)) <= rho * ex P (en t) + 2 / al ^ 2 * (INR n * tau).
Proof.
  intros t Ht.
  assert (MP : Forall (fun m => 0 < m) ms) by (eapply Forall_impl; [|exact HM]; cbn; intros; lra).
  assert (LZ : length zero = n) by apply repeat_length.
  set (pv := fun w => push al h ms (G (x t w)) (vel t w)). set (px := fun w => plus (x t w) (pv w)).
  assert (Lpv : forall w, length (pv w) = n).
  { intros w. destruct (mom_length t w ltac:(lia)) as [L1 L2]. unfold pv. rewrite push_length; rewrite ?HG; congruence. }
  assert (Lpx : forall w, length (px w) = n).
  { intros w. destruct (mom_length t w ltac:(lia)) as [L1 L2]. unfold px. rewrite plus_length; rewrite ?Lpv; congruence. }
  set (co := fun i (a b : list R) => (((nth i a 0 - nth i z 0) + (1 - al) / al * (nth i b 0 - nth i zero 0)) / al + (nth i b 0 - nth i zero 0) / al ^ 2) / nth i ms 0 * sd (nth i ms 0)).
  assert (E1 : forall w, en (S t) w = (energy al ms (pv w) (px w) zero z + 2 * sumn n (fun i => co i (px w) (pv w) * nth i (xi t w) 0))
       + 2 / al ^ 2 * weighted ms (jolts sd ms (xi t w))).
  { intros w. unfold en. rewrite vel_step, Step by exact Ht. fold (pv w). fold (px w).
    rewrite <- (times_one (jolts sd ms (xi t w))) at 1 2.
    rewrite energy_expand by (auto; rewrite ?jolts_length; rewrite ?Lxi by exact Ht; rewrite ?Lpv, ?Lpx; congruence).
    rewrite lean_sum by (rewrite ?Lxi by exact Ht; rewrite ?Lpv, ?Lpx; congruence). rewrite Lm. unfold co. ring. }
  rewrite (ex_ext P _ _ E1).
  rewrite (ex_add P (fun w => energy al ms (pv w) (px w) zero z + 2 * sumn n (fun i => co i (px w) (pv w) * nth i (xi t w) 0))).
  rewrite (ex_add P (fun w => energy al ms (pv w) (px w) zero z)), !ex_scale.
  rewrite (ex_sumn O P n (fun i w => co i (px w) (pv w) * nth i (xi t w) 0)).
  rewrite (sumn_ext n (fun i => ex P (fun w => co i (px w) (pv w) * nth i (xi t w) 0)) (fun _ => 0)).
  2:{ intros i Hi. apply (Unc t i (fun a b => let v := push al h ms (G a) (minus a b) in co i (plus a v) v) Ht Hi). }
  rewrite sumn_zero.
  assert (mono : forall f g, (forall w, f w <= g w) -> ex P f <= ex P g).
  { intros f g H. assert (Q : 0 <= ex P (fun w => g w + (-1) * f w)) by (apply HP; intros w; specialize (H w); lra).
    rewrite ex_add, (ex_scale P (-1)) in Q. lra. }
  assert (K : ex P (fun w => energy al ms (pv w) (px w) zero z) <= ex P (fun w => rho * en t w)).
  { apply mono. intros w. destruct (mom_length t w ltac:(lia)) as [L1 L2].
    pose proof (energy_contracts al Hal n h lo hi mu L U G ms (vel t w) (x t w) zero z HC HL HG Hmu HLp Hlo HM Hh Hb Lm L2 L1 LZ Lz) as C.
    unfold zero in C at 1 2. rewrite (push_rest al h ms (G z) n Lm ltac:(rewrite HG; congruence) Gz) in C.
    replace (repeat 0 n) with (repeat 0 (length z)) in C at 2 by (now rewrite Lz). rewrite plus_rest in C. exact C. }
  rewrite ex_scale in K.
  assert (W : ex P (fun w => weighted ms (jolts sd ms (xi t w))) <= INR n * tau).
  { apply Rle_trans with (ex P (fun w => tau * sumn n (fun i => nth i (xi t w) 0 ^ 2))).
    - apply mono. intros w. rewrite <- (Lxi t w Ht) at 1. rewrite <- squares_sum. apply weighted_bound; try lra; [|rewrite Lxi by exact Ht; congruence].
      eapply Forall_impl; [|exact HM]. cbn. intros; lra.
    - rewrite ex_scale, (ex_sumn O P n (fun i w => nth i (xi t w) 0 ^ 2)).
      rewrite (sumn_ext n (fun i => ex P (fun w => nth i (xi t w) 0 ^ 2)) (fun _ => 1)) by (intros; now apply Var). rewrite sumn_one. lra. }
  assert (0 < 2 / al ^ 2) by (apply Rdiv_lt_0_compat; [lra|apply pow_lt; lra]).
  apply (Rmult_le_compat_l (2 / al ^ 2)) in W; [|lra]. lra.
Qed.
Lemma mom_bound : forall t, (t <= N)%nat -> ex P (en t) - B <= rho ^ t * (ex P (en 0%nat) - B).
Proof.
  induction t as [|t IH]; intros Ht; [cbn [pow]; lra|]. pose proof (mom_step t Ht) as S1. specialize (IH ltac:(lia)).
  destruct (Nat.eq_dec n 0) as [Hn|Hn].
  { assert (ms = []) by (destruct ms; [auto|cbn in Lm; lia]). unfold B, en. rewrite H, Hn. cbn [energy INR].
    rewrite (ex_ext P (fun _ => 0) (fun _ => 0 * 1)) by (intros; ring). rewrite (ex_scale P 0 (fun _ => 1)).
    unfold Rdiv. rewrite !Rmult_0_l, !Rmult_0_r, !Rmult_0_l. rewrite Rminus_0_r, Rmult_0_r. lra. }
  assert (K0 : 0 < h * mu * lo / (2 * al)) by (apply Rdiv_lt_0_compat; [apply Rmult_lt_0_compat; [apply Rmult_lt_0_compat|]|]; lra).
  assert (R0 : 0 <= rho).
  { unfold rho, decay. pose proof (mu_le_L n mu L U G HC HL HG HLp ltac:(lia)) as ML.
    assert (LH : lo <= hi) by (destruct ms as [|m ms']; [cbn in Lm; lia|]; inversion HM; subst; lra).
    assert (Q : h * mu * lo <= h * hi * L).
    { rewrite !Rmult_assoc. apply Rmult_le_compat_l; [lra|]. rewrite (Rmult_comm hi). apply Rmult_le_compat; lra. }
    assert (h * mu * lo / (2 * al) <= al ^ 2 / 10 / (2 * al)) by (apply Rmult_le_compat_r; [apply Rlt_le, Rinv_0_lt_compat; lra|lra]).
    replace (al ^ 2 / 10 / (2 * al)) with (al / 20) in H by (field; lra). lra. }
  assert (ED : rho * B + 2 / al ^ 2 * (INR n * tau) = B).
  { unfold B, rho, decay. field. repeat split; lra. }
  apply Rle_trans with (rho * (ex P (en t) - B)); [lra|].
  change (rho ^ S t) with (rho * rho ^ t). rewrite Rmult_assoc. now apply Rmult_le_compat_l.
Qed.
End Mean.
