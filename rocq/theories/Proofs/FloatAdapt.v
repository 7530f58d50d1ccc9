(** The burn-in adaptation of one entry with every operation rounded, for C93. *)
From Coq Require Import Reals ZArith Lra Lia Psatz.
Local Open Scope R_scope.

Lemma abs_inv : forall x y, Rabs x <= y -> - y <= x <= y.
Proof. intros x y H. pose proof (Rle_abs x). pose proof (Rle_abs (- x)) as H'. rewrite Rabs_Ropp in H'. lra. Qed.

(** *** Error analysis: any rounding with relative error [u] and absolute error [eta] *)
Section Error.
Variable rnd : R -> R.
Variables u eta : R.
Hypothesis err : forall x, Rabs (rnd x - x) <= u * Rabs x + eta.
Hypothesis u_pos : 0 < u.
Hypothesis u_small : 1024 * u <= 1.
Hypothesis eta_pos : 0 < eta.

Lemma err_le : forall x y, Rabs x <= y -> Rabs (rnd x - x) <= u * y + eta.
Proof. intros x y H. eapply Rle_trans; [apply err|]. apply Rplus_le_compat_r, Rmult_le_compat_l; lra. Qed.

(** a + (-r*a + r*x) *)
Definition lerp (r a x : R) : R := rnd (a + rnd (rnd (- r * a) + rnd (r * x))).

Lemma lerp_error : forall r a x, 0 <= r <= 1 ->
  Rabs (lerp r a x - ((1 - r) * a + r * x)) <= 5 * u * (Rabs a + r * Rabs x) + 5 * eta.
Proof.
  intros r a x Hr. unfold lerp. set (P := Rabs a + r * Rabs x).
  pose proof (Rabs_pos a) as Ha. pose proof (Rabs_pos x) as Hx.
  assert (HP : 0 <= P) by (unfold P; nra).
  set (b := rnd (- r * a)). set (d := rnd (r * x)). set (s := rnd (b + d)).
  assert (E1 : Rabs (b - - r * a) <= u * (r * Rabs a) + eta).
  { apply err_le. rewrite Rabs_mult, Rabs_Ropp, (Rabs_right r) by lra. lra. }
  assert (E2 : Rabs (d - r * x) <= u * (r * Rabs x) + eta).
  { apply err_le. rewrite Rabs_mult, (Rabs_right r) by lra. lra. }
  assert (A1 : Rabs (- r * a) <= Rabs a).
  { rewrite Rabs_mult, Rabs_Ropp, (Rabs_right r) by lra. nra. }
  assert (A2 : Rabs (r * x) = r * Rabs x) by (rewrite Rabs_mult, (Rabs_right r) by lra; lra).
  assert (Hra : u * (r * Rabs a) <= u * Rabs a) by (apply Rmult_le_compat_l; nra).
  assert (B1 : Rabs (b + d) <= P + (u * P + 2 * eta)).
  { replace (b + d) with ((b - - r * a) + (d - r * x) + (- r * a + r * x)) by lra.
    eapply Rle_trans; [apply Rabs_triang|].
    pose proof (Rabs_triang (b - - r * a) (d - r * x)). pose proof (Rabs_triang (- r * a) (r * x)).
    unfold P. lra. }
  pose proof (err_le _ _ B1) as E3. fold s in E3.
  assert (B2 : Rabs (a + s) <= 2 * P + (u * P + 2 * eta) + (u * (P + (u * P + 2 * eta)) + eta)).
  { replace (a + s) with (a + ((s - (b + d)) + (b + d))) by lra.
    eapply Rle_trans; [apply Rabs_triang|].
    pose proof (Rabs_triang (s - (b + d)) (b + d)). assert (Rabs a <= P) by (unfold P; nra). lra. }
  pose proof (err_le _ _ B2) as E4. set (z := rnd (a + s)) in *.
  replace (z - ((1 - r) * a + r * x))
    with ((z - (a + s)) + ((s - (b + d)) + ((b - - r * a) + (d - r * x)))) by ring.
  eapply Rle_trans; [apply Rabs_triang|].
  pose proof (Rabs_triang (s - (b + d)) ((b - - r * a) + (d - r * x))).
  pose proof (Rabs_triang (b - - r * a) (d - r * x)).
  assert (u * (r * Rabs x) + u * Rabs a = u * P) by (unfold P; ring).
  set (p := u * P) in *.
  assert (Hp : 0 <= p) by (unfold p; nra).
  assert (u * (P + (p + 2 * eta)) = p + u * p + 2 * (u * eta)) by (unfold p; ring).
  assert (u * (2 * P + (p + 2 * eta) + (u * (P + (p + 2 * eta)) + eta)) =
          2 * p + 2 * (u * p) + 3 * (u * eta) + u * (u * p) + 2 * (u * (u * eta))) by (unfold p; ring).
  assert (0 <= u * p <= p / 64) by nra. assert (0 <= u * eta <= eta / 64) by nra.
  assert (0 <= u * (u * p) <= u * p / 64) by nra. assert (0 <= u * (u * eta) <= u * eta / 64) by nra.
  replace (5 * u * P) with (5 * p) by (unfold p; ring). lra.
Qed.

(** Second moments: the square of the rounded average against the rounded average of the
    squares. *)
Lemma moments_step : forall r g v x X delta h,
  0 <= r <= 3 / 4 -> 0 <= v -> 0 <= delta <= 1 / 4 -> 0 <= h ->
  g ^ 2 <= (1 + delta) * v + h -> Rabs (X - x ^ 2) <= u * x ^ 2 + eta -> 0 <= X ->
  lerp r g x ^ 2 <= (1 + (delta + 200 * u)) * lerp r v X
                    + (h * (1 + 24 * u) + (75 * (eta * eta / u) + 14 * eta)).
Proof.
  intros r g v x X delta h Hr Hv Hd Hh HG HX X0.
  pose proof (lerp_error r g x ltac:(lra)) as Eg. pose proof (lerp_error r v X ltac:(lra)) as Ev.
  set (g' := lerp r g x) in *. set (v' := lerp r v X) in *.
  rewrite (Rabs_right v), (Rabs_right X) in Ev by lra.
  pose proof (pow2_ge_0 x) as Hx2. pose proof (pow2_ge_0 g) as Hg2.
  set (Y := x ^ 2) in *. set (M := (1 - r) * v + r * Y).
  assert (HrY : 0 <= r * Y) by nra. assert (Hrv : v / 4 <= (1 - r) * v) by nra.
  assert (HM : 0 <= M) by (unfold M; nra). assert (HrYM : r * Y <= M) by (unfold M; nra).
  assert (HvM : v + r * Y <= 4 * M) by (unfold M; lra).
  (* v' from below *)
  assert (HXe : Rabs (r * X - r * Y) <= u * M + eta).
  { replace (r * X - r * Y) with (r * (X - Y)) by ring. rewrite Rabs_mult, (Rabs_right r) by lra.
    apply Rle_trans with (r * (u * Y + eta)); [apply Rmult_le_compat_l; lra|].
    assert (u * (r * Y) <= u * M) by (apply Rmult_le_compat_l; lra). nra. }
  apply abs_inv in HXe. apply abs_inv in Ev.
  assert (HPv : v + r * X <= 5 * M + eta) by (assert (u * M <= M / 64) by nra; lra).
  assert (HVlow : M * (1 - 26 * u) - 7 * eta <= v').
  { assert (5 * u * (v + r * X) <= 25 * (u * M) + eta).
    { apply Rle_trans with (5 * u * (5 * M + eta)); [apply Rmult_le_compat_l; lra|]. nra. }
    replace ((1 - r) * v + r * X) with (M + (r * X - r * Y)) in Ev by (unfold M; ring). lra. }
  (* g'^2 from above *)
  set (a := (1 - r) * g + r * x) in *. set (P := Rabs g + r * Rabs x) in *.
  set (e := g' - a) in *. pose proof (Rabs_pos g) as Hga. pose proof (Rabs_pos x) as Hxa.
  assert (HP : 0 <= P) by (unfold P; nra).
  assert (HPa : Rabs a <= P).
  { unfold a, P. eapply Rle_trans; [apply Rabs_triang|]. rewrite !Rabs_mult, (Rabs_right r), (Rabs_right (1 - r)) by lra. nra. }
  set (H := g ^ 2 + r * Y).
  assert (HP2 : P * P <= 2 * H).
  { unfold H, Y, P. rewrite <- (pow2_abs g), <- (pow2_abs x).
    assert (r * r * Rabs x ^ 2 <= r * Rabs x ^ 2) by (apply Rmult_le_compat_r; [apply pow2_ge_0|nra]).
    assert (0 <= (Rabs g - r * Rabs x) ^ 2) by apply pow2_ge_0. nra. }
  assert (HH : H <= 5 * M + h).
  { unfold H. assert ((1 + delta) * v <= 5 / 4 * v) by nra. lra. }
  assert (HH0 : 0 <= H) by (unfold H; lra).
  assert (Ha2 : a ^ 2 <= (1 - r) * g ^ 2 + r * Y).
  { unfold a, Y. assert (0 <= r * (1 - r) * (g - x) ^ 2) by (apply Rmult_le_pos; [nra|apply pow2_ge_0]). nra. }
  assert (He2 : e ^ 2 <= 100 * (u * (u * H)) + 50 * (eta * eta)).
  { rewrite <- (pow2_abs e). apply Rle_trans with ((5 * u * P + 5 * eta) ^ 2).
    - apply pow_incr. split; [apply Rabs_pos|exact Eg].
    - assert (0 <= (5 * u * P - 5 * eta) ^ 2) by apply pow2_ge_0.
      assert (u * (u * (P * P)) <= u * (u * (2 * H))) by (repeat apply Rmult_le_compat_l; lra). nra. }
  assert (Hcross : 2 * a * e <= 22 * (u * H) + 25 * (eta * eta / u)).
  { apply Rle_trans with (2 * (Rabs a * Rabs e)).
    { rewrite <- Rabs_mult. pose proof (Rle_abs (a * e)). lra. }
    apply Rle_trans with (2 * (P * (5 * u * P + 5 * eta))).
    { apply Rmult_le_compat_l; [lra|]. apply Rmult_le_compat; auto using Rabs_pos. }
    assert (u * (P * P) <= u * (2 * H)) by (apply Rmult_le_compat_l; lra).
    assert (10 * P * eta <= u * (P * P) + 25 * (eta * eta / u)).
    { apply (Rmult_le_reg_l u); [lra|].
      replace (u * (u * (P * P) + 25 * (eta * eta / u))) with ((u * P) ^ 2 + (5 * eta) ^ 2) by (field; lra).
      assert (0 <= (u * P - 5 * eta) ^ 2) by apply pow2_ge_0. nra. }
    nra. }
  assert (Hu2 : 100 * (u * (u * H)) <= 2 * (u * H)).
  { assert (0 <= u * H) by nra. nra. }
  assert (Heta2 : eta * eta <= eta * eta / u).
  { apply (Rmult_le_reg_r u); [lra|]. replace (eta * eta / u * u) with (eta * eta) by (field; lra). nra. }
  set (Q := eta * eta / u) in *.
  assert (HQ : 0 <= Q) by nra.
  assert (Hg' : g' ^ 2 <= (1 - r) * g ^ 2 + r * Y + 24 * (u * H) + 75 * Q).
  { replace g' with (a + e) by (unfold e; ring).
    replace ((a + e) ^ 2) with (a ^ 2 + 2 * a * e + e ^ 2) by ring. nra. }
  assert (HuH : u * H <= 5 * (u * M) + u * h).
  { apply Rle_trans with (u * (5 * M + h)); [apply Rmult_le_compat_l; lra|]. lra. }
  assert (Hgv : (1 - r) * g ^ 2 + r * Y <= M * (1 + delta) + h).
  { apply Rle_trans with ((1 - r) * ((1 + delta) * v + h) + r * Y).
    - apply Rplus_le_compat_r, Rmult_le_compat_l; lra.
    - unfold M. assert (0 <= r * h) by nra. assert (0 <= delta * (r * Y)) by nra. nra. }
  assert (Hfin : M * (1 + delta + 120 * u) <= (1 + (delta + 200 * u)) * (v' + 7 * eta)).
  { apply Rle_trans with ((1 + (delta + 200 * u)) * (M * (1 - 26 * u))).
    - replace ((1 + (delta + 200 * u)) * (M * (1 - 26 * u)))
        with (M * ((1 + (delta + 200 * u)) * (1 - 26 * u))) by ring.
      apply Rmult_le_compat_l; [lra|]. nra.
    - apply Rmult_le_compat_l; [lra|]. lra. }
  assert (7 * eta * (delta + 200 * u) <= 7 * eta * 1) by (apply Rmult_le_compat_l; lra).
  nra.
Qed.

(** The window tau: [q] is the rounded quotient g*g*tau/D. *)
Hypothesis mono : forall x y, x <= y -> rnd x <= rnd y.
Hypothesis rnd_0 : rnd 0 = 0.

Lemma rnd_nonneg : forall x, 0 <= x -> 0 <= rnd x.
Proof. intros. rewrite <- rnd_0. now apply mono. Qed.
Lemma rnd_up : forall x, 0 <= x -> rnd x <= (1 + u) * x + eta.
Proof. intros x Hx. pose proof (abs_inv _ _ (err x)) as H. rewrite (Rabs_right x) in H by lra. lra. Qed.

Definition quotient (g tau D : R) : R := rnd (rnd (rnd (g * g) * tau) / D).

Lemma quotient_bounds : forall g v tau D c delta h,
  0 <= v -> 0 < c <= 1 -> v <= D -> c <= D -> eta <= u * c ->
  0 <= delta -> 0 <= h -> g ^ 2 <= (1 + delta) * v + h ->
  1 / 2 <= tau -> tau * delta <= 1 / 10 -> tau * h <= c / 11 -> 1024 * (tau * u) <= 1 ->
  0 <= quotient g tau D <= tau + 1 / 4.
Proof.
  intros g v tau D c delta h Hv Hc HvD HcD He Hd Hh HG Ht Htd Hth Htu. unfold quotient.
  pose proof (Rle_0_sqr g) as Hgg. unfold Rsqr in Hgg.
  assert (G0 : 0 <= rnd (g * g)) by now apply rnd_nonneg.
  pose proof (rnd_up _ Hgg) as G1. set (G := rnd (g * g)) in *.
  assert (GT : 0 <= G * tau) by nra.
  assert (Q0 : 0 <= rnd (G * tau)) by now apply rnd_nonneg.
  pose proof (rnd_up _ GT) as Q1. set (Q := rnd (G * tau)) in *.
  assert (HD : 0 < D) by lra. pose proof (Rinv_0_lt_compat _ HD) as HDi.
  assert (QD : 0 <= Q / D) by (apply Rmult_le_pos; lra).
  split; [now apply rnd_nonneg|]. eapply Rle_trans; [now apply rnd_up|].
  assert (Hcu : u * c <= u) by nra.
  assert (HQD : Q / D <= tau + 6 / 25).
  { apply (Rmult_le_reg_r D); [exact HD|]. replace (Q / D * D) with Q by (field; lra).
    (* G <= (1+u)((1+delta) D + h) + eta, with h tau <= D/11, eta <= u D *)
    assert (HeD : eta <= u * D) by (apply Rle_trans with (u * c); [lra|apply Rmult_le_compat_l; lra]).
    assert (G2 : G <= (1 + u) * ((1 + delta) * D + h) + u * D).
    { assert ((1 + delta) * v <= (1 + delta) * D) by (apply Rmult_le_compat_l; lra).
      assert (g * g <= (1 + delta) * D + h) by (replace (g * g) with (g ^ 2) by ring; lra).
      apply Rle_trans with ((1 + u) * (g * g) + eta); [exact G1|].
      apply Rplus_le_compat; [apply Rmult_le_compat_l; lra|lra]. }
    assert (GT2 : G * tau <= (1 + u) * ((tau + 1 / 10) * D + D / 11) + D / 1024).
    { apply Rle_trans with (((1 + u) * ((1 + delta) * D + h) + u * D) * tau); [apply Rmult_le_compat_r; lra|].
      replace (((1 + u) * ((1 + delta) * D + h) + u * D) * tau)
        with ((1 + u) * (tau * D + (tau * delta) * D + tau * h) + (tau * u) * D) by ring.
      assert (tau * delta * D <= 1 / 10 * D) by (apply Rmult_le_compat_r; lra).
      assert (tau * u * D <= 1 / 1024 * D) by (apply Rmult_le_compat_r; lra).
      assert ((1 + u) * (tau * D + tau * delta * D + tau * h) <= (1 + u) * ((tau + 1 / 10) * D + D / 11)).
      { apply Rmult_le_compat_l; [lra|]. lra. }
      lra. }
    assert (HuD : u * D <= D / 1024) by nra.
    assert (HtuD : tau * u * D <= 1 / 1024 * D) by (apply Rmult_le_compat_r; lra).
    assert (GT3 : G * tau <= tau * D + 1 / 5 * D) by nra.
    assert (u * (G * tau) <= u * (tau * D + 1 / 5 * D)) by (apply Rmult_le_compat_l; lra).
    nra. }
  assert (u * (Q / D) <= u * (tau + 6 / 25)) by (apply Rmult_le_compat_l; lra). nra.
Qed.

Hypothesis rnd_half : rnd (1 / 2) = 1 / 2.
Hypothesis rnd_1 : rnd 1 = 1.

Lemma tau_bounds : forall tau q T, 1 / 2 <= tau -> 0 <= q <= tau + 1 / 4 -> 1024 * (tau * u) <= 1 -> 1024 * eta <= 1 ->
  tau + 1 <= T -> rnd T = T -> 1 / 2 <= rnd (tau + rnd (- q + 1)) <= T.
Proof.
  intros tau q T Ht Hq Htu He HT FT. split.
  - rewrite <- rnd_half. apply mono. 
    assert (HA : Rabs (- q + 1) <= tau + 1) by (apply Rabs_le; lra).
    pose proof (err_le _ _ HA) as HE. apply abs_inv in HE. lra.
  - rewrite <- FT. apply mono. assert (rnd (- q + 1) <= 1) by (rewrite <- rnd_1 at 2; apply mono; lra). lra.
Qed.
End Error.
