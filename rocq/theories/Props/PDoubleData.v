(** C103, C104: normalization of data in double precision. *)
From Coq Require Import List Arith Lia ZArith Bool Reals Lra Permutation.
From Flocq Require Import Core.Core Plus_error.
From Flocq Require IEEE754.BinarySingleNaN.
From Verif.Proofs Require Import SafeFloat FloatCell FloatAdapt.
From Verif.Base Require Import Py Num Float64 Vec Lists.
From Verif.Model Require Import TensorUtils BaseModel.
From Verif.Props Require Import PMissing.
From Verif.Spec Require Import Doubles.
From Verif.Proofs Require Import DoubleCell DoubleRun.
Import ListNotations.
Local Open Scope R_scope.

Lemma rep_value : forall x, finite x -> rep x (value x). Proof. intros. now split. Qed.
Lemma isnan_finite : forall x, finite x -> np_isnan x = false.
Proof.
  intros x Fx. unfold np_isnan. rewrite (rep_ltb _ _ _ _ (rep_value x Fx) rep_1), (rep_ltb _ _ _ _ rep_0 (rep_value x Fx)). unfold Rltb.
  destruct (Rlt_dec (value x) 1); [reflexivity|]. destruct (Rlt_dec 0 (value x)); [reflexivity|lra].
Qed.
Lemma fold_min : forall l x, finite x -> Forall finite l -> let m := fold_left np_min2 l x in
  In m (x :: l) /\ Forall (fun y => value m <= value y) (x :: l).
Proof.
  induction l as [|y l IH]; intros x Fx Fl; cbn [fold_left]; cbn zeta.
  - split; [now left|]. constructor; [lra|constructor].
  - inversion Fl as [|? ? Fy Fl']; subst.
    assert (E : np_min2 x y = if Rltb (value y) (value x) then y else x).
    { unfold np_min2. rewrite !isnan_finite by auto. unfold nmin. now rewrite (rep_ltb _ _ _ _ (rep_value y Fy) (rep_value x Fx)). }
    rewrite E. unfold Rltb. destruct (Rlt_dec (value y) (value x)) as [L|L].
    + destruct (IH y Fy Fl') as [I1 I2]. split; [now right|]. inversion I2; subst. constructor; [lra|]. constructor; auto.
    + destruct (IH x Fx Fl') as [I1 I2]. split; [destruct I1; [now left|right; now right]|]. inversion I2; subst. constructor; auto. constructor; [lra|auto].
Qed.
Lemma fold_max : forall l x, finite x -> Forall finite l -> let m := fold_left np_max2 l x in
  In m (x :: l) /\ Forall (fun y => value y <= value m) (x :: l).
Proof.
  induction l as [|y l IH]; intros x Fx Fl; cbn [fold_left]; cbn zeta.
  - split; [now left|]. constructor; [lra|constructor].
  - inversion Fl as [|? ? Fy Fl']; subst.
    assert (E : np_max2 x y = if Rltb (value x) (value y) then y else x).
    { unfold np_max2. rewrite !isnan_finite by auto. unfold nmax. now rewrite (rep_ltb _ _ _ _ (rep_value x Fx) (rep_value y Fy)). }
    rewrite E. unfold Rltb. destruct (Rlt_dec (value x) (value y)) as [L|L].
    + destruct (IH y Fy Fl') as [I1 I2]. split; [now right|]. inversion I2; subst. constructor; [lra|]. constructor; auto.
    + destruct (IH x Fx Fl') as [I1 I2]. split; [destruct I1; [now left|right; now right]|]. inversion I2; subst. constructor; auto. constructor; [lra|auto].
Qed.

Lemma pair3_inj : forall A B C (a a' : A) (b b' : B) (c c' : C), (a, b, c) = (a', b', c') -> a = a' /\ b = b' /\ c = c'.
Proof. intros A B C a a' b b' c c' H. injection H. auto. Qed.

(** *** One entry *)
Lemma diff_neq : forall h l, value h <> value l -> rnd64 (value h - value l) <> 0.
Proof.
  intros h l Hne. unfold rnd64. unfold Rminus. apply (round_plus_neq_0 radix2 (FLT_exp (-1074) 53)); [auto with typeclass_instances|apply value_format|apply generic_format_opp, value_format|lra].
Qed.
Lemma rep_zero_sub : forall x l, finite x -> finite l -> value x = value l -> rep (nsub x l) 0.
Proof.
  intros x l Fx Fl E. rewrite <- rnd64_0. replace 0 with (value x - value l) by lra. apply rep_sub; auto using rep_value.
  replace (value x - value l) with 0 by lra. rewrite rnd64_0, Rabs_R0. apply bpow_gt_0.
Qed.

Section Entry.
Variables l h x : f64.
Hypothesis Hl : bounded64 1021 l.
Hypothesis Hh : bounded64 1021 h.
Hypothesis Hx : finite x.
Hypothesis Bx : value l <= value x <= value h.
Hypothesis Hne : value l < value h.
Let d := nsub h l.
Let y := ndiv (nsub x l) d.
Let D := rnd64 (value h - value l).
Let N := rnd64 (value x - value l).

Lemma range_bound : value h - value l <= p2 1022.
Proof.
  destruct Hl as [_ B1], Hh as [_ B2]. pose proof (p2_twice 1021 1022 ltac:(lia)). pose proof (Rle_abs (value h)). pose proof (Rle_abs (- value l)). rewrite Rabs_Ropp in *. unfold p2 in *. lra.
Qed.
Lemma rep_d : rep d D.
Proof.
  destruct Hl as [F1 _], Hh as [F2 _]. apply rep_sub; auto using rep_value. apply (below_huge 1022); [lia|]. pose proof range_bound. rewrite Rabs_right; [exact H|lra].
Qed.
Lemma rep_n : rep (nsub x l) N.
Proof.
  destruct Hl as [F1 _]. apply rep_sub; auto using rep_value. apply (below_huge 1022); [lia|]. pose proof range_bound. rewrite Rabs_right; unfold p2 in *; lra.
Qed.
Lemma pos_D : 0 < D.
Proof.
  assert (0 <= D) by (unfold D; rewrite <- rnd64_0; apply rnd64_mono; lra). pose proof (diff_neq h l ltac:(lra)). fold D in H0. lra.
Qed.
Lemma N_range : 0 <= N <= D.
Proof. unfold N, D. split; [rewrite <- rnd64_0|]; apply rnd64_mono; lra. Qed.
Lemma q_range : 0 <= N / D <= 1.
Proof.
  pose proof pos_D. pose proof N_range. split; [apply Rmult_le_pos; [lra|left; now apply Rinv_0_lt_compat]|]. apply (Rmult_le_reg_r D); [lra|]. field_simplify; lra.
Qed.
Lemma rep_y : rep y (rnd64 (N / D)).
Proof.
  apply rep_div; [apply rep_n|apply rep_d|pose proof pos_D; lra|]. apply (below_huge 0); [lia|]. pose proof q_range. cbn. rewrite Rabs_right; lra.
Qed.
Lemma y_range : between64 0 1 y.
Proof.
  destruct rep_y as [F V]. split; [exact F|]. rewrite V. pose proof q_range. split; [rewrite <- rnd64_0|rewrite <- (rnd64_Z 1) by reflexivity]; apply rnd64_mono; lra.
Qed.
Lemma y_low : value x = value l -> value y = 0.
Proof. intros E. destruct rep_y as [_ V]. rewrite V. unfold N. rewrite E. replace (value l - value l) with 0 by ring. rewrite rnd64_0. unfold Rdiv. now rewrite Rmult_0_l, rnd64_0. Qed.
Lemma y_high : value x = value h -> value y = 1.
Proof. intros E. destruct rep_y as [_ V]. rewrite V. unfold N. rewrite E. fold D. pose proof pos_D. replace (D / D) with 1 by (field; lra). apply (rnd64_Z 1). reflexivity. Qed.

Lemma err64 : forall z, Rabs (rnd64 z - z) <= p2 (-53) * Rabs z + p2 (-1075).
Proof. intros z. apply (rnd_err 53 (-1074)). Qed.
Lemma back : exists x', rep (nadd l (nmul d y)) x' /\ Rabs (x' - value x) <= p2 (-49) * Rmax (Rabs (value l)) (Rabs (value h)) + p2 (-1073).
Proof.
  destruct rep_y as [Fy Vy]. destruct y_range as [_ Ry]. rewrite Vy in Ry. set (Q := rnd64 (N / D)) in *. pose proof pos_D as PD. pose proof range_bound as RB.
  assert (D22 : D <= p2 1022) by (eapply Rle_trans; [apply Rle_abs|]; apply (rnd64_bound 1022); [lia|rewrite Rabs_right; unfold p2 in *; lra]).
  assert (RP : rep (nmul d y) (rnd64 (D * Q))).
  { apply rep_mul; [apply rep_d|now split|]. apply (below_huge 1022); [lia|]. rewrite Rabs_right by nra. change (bpow radix2 1022) with (p2 1022). nra. }
  set (P := rnd64 (D * Q)) in *.
  assert (P0 : 0 <= P) by (unfold P; rewrite <- rnd64_0; apply rnd64_mono; nra).
  assert (PD' : P <= D).
  { replace D with (rnd64 D) by (apply rnd64_id; destruct rep_d as [_ <-]; apply value_format). apply rnd64_mono. nra. }
  pose proof (proj2 Hl) as Bl. pose proof (proj1 Hl) as Fl.
  assert (LP : Rabs (value l + P) <= p2 1023).
  { eapply Rle_trans; [apply Rabs_triang|]. rewrite (Rabs_right P) by lra. pose proof (p2_twice 1022 1023 ltac:(lia)). pose proof (p2_le 1021 1022 ltac:(lia)). unfold p2 in *. lra. }
  exists (rnd64 (value l + P)). split; [apply rep_add; auto using rep_value; apply (below_huge 1023); [lia|exact LP]|].
  set (M := Rmax (Rabs (value l)) (Rabs (value h))).
  assert (M1 : Rabs (value l) <= M) by apply Rmax_l. assert (M2 : Rabs (value h) <= M) by apply Rmax_r.
  set (rel := p2 (-53)). set (tiny := p2 (-1075)). assert (Pu : 0 < rel) by apply p2_pos. assert (Pe : 0 < tiny) by apply p2_pos.
  assert (U1 : rel <= 1 / 8) by (unfold rel, p2; cbn; lra).
  assert (UE : 4 * tiny <= rel) by (pose proof (p2_twice (-1075) (-1074) ltac:(lia)) as T1; pose proof (p2_twice (-1074) (-53) ltac:(lia)) as T2; fold tiny in T1; fold rel in T2; lra).
  assert (M0 : 2 * tiny <= M).
  { destruct (Rle_dec (2 * tiny) M) as [|L]; [assumption|exfalso]. apply Rnot_le_lt in L.
    assert (Z0 : forall z : f64, Rabs (value z) < 2 * tiny -> value z = 0).
    { intros z Hz. destruct (Req_dec (value z) 0) as [|Nz]; [assumption|exfalso].
      pose proof (FLT_format_generic radix2 (-1074) 53 _ (value_format z)) as [fz E1 E2 E3].
      rewrite E1 in Hz, Nz. unfold F2R in Hz, Nz. rewrite Rabs_mult in Hz. rewrite (Rabs_right (bpow radix2 (Fexp fz))) in Hz by (apply Rle_ge, bpow_ge_0).
      assert (1 <= Rabs (IZR (Fnum fz))).
      { rewrite <- abs_IZR. apply IZR_le. assert (Fnum fz <> 0%Z) by (intros E0; rewrite E0 in Nz; lra). lia. }
      assert (B : p2 (-1074) <= bpow radix2 (Fexp fz)) by (apply bpow_le; exact E3). pose proof (p2_twice (-1075) (-1074) ltac:(lia)). fold tiny in H0. pose proof (p2_pos (-1074)). nra. }
    rewrite (Z0 l), (Z0 h) in Hne by lra. lra. }
  assert (DM : value h - value l <= 2 * M) by (pose proof (Rle_abs (value h)); pose proof (Rle_abs (- value l)); rewrite Rabs_Ropp in *; lra).
  pose proof (err64 (value h - value l)) as E1. fold D rel tiny in E1. rewrite (Rabs_right (value h - value l)) in E1 by lra. apply abs_inv in E1.
  assert (D3 : D <= 3 * M) by nra.
  pose proof (err64 (value x - value l)) as E2. fold N rel tiny in E2. rewrite (Rabs_right (value x - value l)) in E2 by lra.
  pose proof (err64 (N / D)) as E3. fold Q rel tiny in E3. pose proof q_range as QR. rewrite (Rabs_right (N / D)) in E3 by lra.
  pose proof (err64 (D * Q)) as E4. fold P rel tiny in E4. rewrite (Rabs_right (D * Q)) in E4 by nra.
  pose proof (err64 (value l + P)) as E5. fold rel tiny in E5.
  replace (rnd64 (value l + P) - value x) with ((rnd64 (value l + P) - (value l + P)) + ((P - D * Q) + (D * (Q - N / D) + (N - (value x - value l))))) by (field; lra).
  assert (E3' : Rabs (D * (Q - N / D)) <= D * (rel + tiny)).
  { rewrite Rabs_mult, (Rabs_right D) by lra. apply Rmult_le_compat_l; [lra|]. nra. }
  assert (E5' : Rabs (value l + P) <= 4 * M) by (eapply Rle_trans; [apply Rabs_triang|]; rewrite (Rabs_right P) by lra; lra).
  assert (K1 : rel * Rabs (value l + P) <= rel * (4 * M)) by (apply Rmult_le_compat_l; lra).
  assert (K2 : rel * (D * Q) <= rel * (3 * M)) by (apply Rmult_le_compat_l; [lra|nra]).
  assert (K3 : D * (rel + tiny) <= 3 * M * (rel + tiny)) by (apply Rmult_le_compat_r; lra).
  assert (K4 : rel * (value x - value l) <= rel * (2 * M)) by (apply Rmult_le_compat_l; lra).
  assert (K5 : 3 * M * tiny <= rel * M) by nra.
  pose proof (Rabs_triang (rnd64 (value l + P) - (value l + P)) ((P - D * Q) + (D * (Q - N / D) + (N - (value x - value l))))).
  pose proof (Rabs_triang (P - D * Q) (D * (Q - N / D) + (N - (value x - value l)))). pose proof (Rabs_triang (D * (Q - N / D)) (N - (value x - value l))).
  assert (F1 : p2 (-49) = 16 * rel) by (change (-49)%Z with (4 + -53)%Z; rewrite p2_plus; reflexivity).
  assert (F2 : p2 (-1073) = 4 * tiny) by (change (-1073)%Z with (2 + -1075)%Z; rewrite p2_plus; reflexivity).
  assert (0 <= rel * M) by (apply Rmult_le_pos; lra). rewrite F1, F2. lra.
Qed.
End Entry.

(** *** C103 *)
Lemma entry_col : forall A (X : list (list A)) d0 d i j, Forall (fun r => length r = d) X -> (j < d)%nat -> entry X i j = nth_error (col d0 X j) i.
Proof.
  intros A X d0 d i j HF Hj. unfold entry, col. rewrite nth_error_map. destruct (nth_error X i) as [r|] eqn:E; [|reflexivity]. cbn. apply nth_error_nth'.
  rewrite Forall_forall in HF. rewrite (HF r); [exact Hj|]. now apply nth_error_In in E.
Qed.
(** Without given bounds, those returned are the smallest and the largest entry of the column. *)
Theorem C103_bounds : forall X d j Xn lo up, rectangular d X -> (j < d)%nat -> (forall i x, entry X i j = Some x -> finite x) ->
  zero_one_normalization X None None = (Xn, lo, up) ->
  exists l h, nth_error lo j = Some l /\ nth_error up j = Some h /\ (exists i, entry X i j = Some l) /\ (exists i, entry X i j = Some h) /\
    forall i x, entry X i j = Some x -> value l <= value x <= value h.
Proof.
  intros X d j Xn lo up HR Hj HF E. pose proof (columns_nth X d j n0 np_min HR Hj) as H1. pose proof (columns_nth X d j n0 np_max HR Hj) as H2.
  unfold zero_one_normalization in E. cbn [default] in E. apply pair3_inj in E. destruct E as (_ & <- & <-). rewrite H1, H2.
  assert (EC : forall i, entry X i j = nth_error (col n0 X j) i) by (intros i; apply entry_col with (d := d); [apply HR|exact Hj]).
  assert (FC : Forall finite (col n0 X j)).
  { rewrite Forall_forall. intros x Hx. apply In_nth_error in Hx. destruct Hx as [i Hi]. apply (HF i). now rewrite EC. }
  assert (NC : col n0 X j <> []) by (destruct HR as [HX _]; unfold col; destruct X; [congruence|discriminate]).
  exists (np_min (col n0 X j)), (np_max (col n0 X j)). split; [reflexivity|]. split; [reflexivity|].
  destruct (col n0 X j) as [|c cs]; [congruence|]. cbn [np_min np_max]. inversion FC as [|? ? F1 F2]; subst.
  destruct (fold_min cs c F1 F2) as [I1 M1]. destruct (fold_max cs c F1 F2) as [I2 M2]. rewrite Forall_forall in M1, M2.
  split; [apply In_nth_error in I1; destruct I1 as [i Hi]; exists i; now rewrite EC|].
  split; [apply In_nth_error in I2; destruct I2 as [i Hi]; exists i; now rewrite EC|].
  intros i x Hx. rewrite EC in Hx. apply nth_error_In in Hx. split; auto.
Qed.

Lemma zero_one_entry : forall X lower upper Xn lo up j l h i x, zero_one_normalization X lower upper = (Xn, lo, up) ->
  nth_error lo j = Some l -> nth_error up j = Some h -> entry X i j = Some x -> entry Xn i j = Some (ndiv (nsub x l) (nsub h l)).
Proof.
  intros X lower upper Xn lo up j l h i x E Hl Hh Hx. unfold zero_one_normalization in E. apply pair3_inj in E. destruct E as (E & El & Eu).
  unfold entry in *. rewrite <- E, nth_error_map. destruct (nth_error X i) as [r|]; [|discriminate Hx]. cbn [option_map].
  rewrite El, Eu, !nth_error_vmap2, Hl, Hh, Hx. reflexivity.
Qed.
Lemma undo_entry : forall Xn lo up j l h i y, nth_error lo j = Some l -> nth_error up j = Some h -> entry Xn i j = Some y ->
  entry (zero_one_unnormalization Xn lo up) i j = Some (nadd l (nmul (nsub h l) y)).
Proof.
  intros Xn lo up j l h i y Hl Hh Hy. unfold zero_one_unnormalization, entry in *. rewrite nth_error_map. destruct (nth_error Xn i) as [r|]; [|discriminate Hy].
  cbn [option_map]. rewrite !nth_error_vmap2, Hl, Hh, Hy. reflexivity.
Qed.

(** Scaled entries lie in [0, 1], the bounds become exactly 0 and 1, the order is kept, and undoing the scaling gives the
    entry back up to 16 units of 2^-53 of the larger bound. *)
Theorem C103_scaling_in_doubles : forall X lower upper Xn lo up j l h, zero_one_normalization X lower upper = (Xn, lo, up) ->
  nth_error lo j = Some l -> nth_error up j = Some h -> bounded64 1021 l -> bounded64 1021 h -> value l < value h ->
  (forall i x, entry X i j = Some x -> finite x /\ value l <= value x <= value h) ->
  (forall i x, entry X i j = Some x -> exists y x', entry Xn i j = Some y /\ between64 0 1 y /\
     (value x = value l -> value y = 0) /\ (value x = value h -> value y = 1) /\
     entry (zero_one_unnormalization Xn lo up) i j = Some x' /\ finite x' /\
     Rabs (value x' - value x) <= bpow radix2 (-49) * Rmax (Rabs (value l)) (Rabs (value h)) + bpow radix2 (-1073)) /\
  (forall i i' x x' y y', entry X i j = Some x -> entry X i' j = Some x' -> entry Xn i j = Some y -> entry Xn i' j = Some y' ->
     value x <= value x' -> value y <= value y').
Proof.
  intros X lower upper Xn lo up j l h E El Eh Bl Bh Hlt HX. split.
  - intros i x Hx. pose proof (zero_one_entry _ _ _ _ _ _ _ _ _ _ _ E El Eh Hx) as HY. destruct (HX i x Hx) as [Fx Rx].
    pose proof (undo_entry _ _ _ _ _ _ _ _ El Eh HY) as HU. destruct (back l h x Bl Bh Fx Rx Hlt) as (x' & [F' <-] & HB).
    exists (ndiv (nsub x l) (nsub h l)), (nadd l (nmul (nsub h l) (ndiv (nsub x l) (nsub h l)))).
    split; [exact HY|]. split; [now apply y_range|]. split; [now apply y_low|]. split; [now apply y_high|]. split; [exact HU|]. split; [exact F'|exact HB].
  - intros i i' x x' y y' Hx Hx' Hy Hy' HL. rewrite (zero_one_entry _ _ _ _ _ _ _ _ _ _ _ E El Eh Hx) in Hy. rewrite (zero_one_entry _ _ _ _ _ _ _ _ _ _ _ E El Eh Hx') in Hy'.
    apply some_inj in Hy. apply some_inj in Hy'. subst y y'. destruct (HX i x Hx) as [Fx Rx]. destruct (HX i' x' Hx') as [Fx' Rx'].
    destruct (rep_y l h x Bl Bh Fx Rx Hlt) as [_ ->]. destruct (rep_y l h x' Bl Bh Fx' Rx' Hlt) as [_ ->].
    apply rnd64_mono. pose proof (pos_D l h Hlt). apply Rmult_le_compat_r; [left; now apply Rinv_0_lt_compat|]. apply rnd64_mono. lra.
Qed.

(** *** Columns wider than the largest double *)
Lemma sub_overflow : forall h l, finite h -> finite l -> huge <= value h - value l -> nsub h l = inf.
Proof.
  intros h l Fh Fl Hw. pose proof (BinarySingleNaN.Bminus_correct 53 1024 prec64 emax64 BinarySingleNaN.mode_NE h l Fh Fl) as C.
  rewrite Rlt_bool_false in C.
  - destruct C as [C1 C2]. assert (S0 : BinarySingleNaN.Bsign h = false).
    { assert (N : forall z : f64, finite z -> BinarySingleNaN.Bsign z = true -> value z <= 0).
      { intros [s|s| |[|] m e He] Fz Hz; try discriminate Fz; try discriminate Hz; unfold value; cbn; [lra|]. left. apply (F2R_lt_0 radix2 (Float radix2 (Z.neg m) e)). reflexivity. }
      assert (P : forall z : f64, finite z -> BinarySingleNaN.Bsign z = false -> 0 <= value z).
      { intros [s|s| |[|] m e He] Fz Hz; try discriminate Fz; try discriminate Hz; unfold value; cbn; [lra|]. left. apply (F2R_gt_0 radix2 (Float radix2 (Z.pos m) e)). reflexivity. }
      destruct (BinarySingleNaN.Bsign h) eqn:Sh; [exfalso|reflexivity]. pose proof (N h Fh Sh). symmetry in C2. apply Bool.negb_true_iff in C2. pose proof (P l Fl C2).
      assert (0 < huge) by apply bpow_gt_0. lra. }
    rewrite S0 in C1. change (@nsub f64 _ h l) with (BinarySingleNaN.Bminus BinarySingleNaN.mode_NE h l).
    destruct (BinarySingleNaN.Bminus BinarySingleNaN.mode_NE h l) as [[|]|[|]| |[|] ? ? ?]; try discriminate C1; reflexivity.
  - change (huge <= Rabs (rnd64 (value h - value l))). eapply Rle_trans; [|apply Rle_abs]. unfold huge in *.
    rewrite <- (rnd64_id _ (format64_bpow 1024 ltac:(lia))). now apply rnd64_mono.
Qed.
Lemma div_inf : forall x, finite x -> finite (ndiv x inf) /\ value (ndiv x inf) = 0.
Proof. intros [s|s| |s m e H] F; try discriminate F; split; reflexivity. Qed.
(** If the bounds are further apart than the largest double, the entries near the lower bound become 0 and those near the
    upper bound - the upper bound itself in particular - NaN. *)
Theorem C103_too_wide : forall X lower upper Xn lo up j l h, zero_one_normalization X lower upper = (Xn, lo, up) ->
  nth_error lo j = Some l -> nth_error up j = Some h -> finite l -> finite h -> huge <= value h - value l ->
  forall i x, entry X i j = Some x -> finite x -> value l <= value x ->
    (value x - value l <= bpow radix2 1023 -> exists y, entry Xn i j = Some y /\ finite y /\ value y = 0) /\
    (huge <= value x - value l -> entry Xn i j = Some not_a_number).
Proof.
  intros X lower upper Xn lo up j l h E El Eh Fl Fh Hw i x Hx Fx Rx.
  pose proof (zero_one_entry _ _ _ _ _ _ _ _ _ _ _ E El Eh Hx) as HY. rewrite (sub_overflow h l Fh Fl Hw) in HY. split; intros Hd.
  - exists (ndiv (nsub x l) inf). split; [exact HY|]. apply div_inf.
    destruct (rep_sub x l (value x) (value l)) as [F _]; auto using rep_value. apply (below_huge 1023); [lia|]. rewrite Rabs_right; [exact Hd|lra].
  - rewrite (sub_overflow x l Fx Fl Hd) in HY. exact HY.
Qed.

(** *** C104: sums of equal numbers *)
Lemma rel_err : forall z, p2 (-1022) <= Rabs z -> Rabs (rnd64 z - z) <= p2 (-52) * Rabs z.
Proof.
  intros z Hz. eapply Rle_trans; [apply err64|]. assert (E : p2 (-52) = p2 (-53) + p2 (-53)) by (change (-52)%Z with (1 + -53)%Z; rewrite p2_plus; change (p2 1) with 2; ring).
  rewrite E, Rmult_plus_distr_r. apply Rplus_le_compat_l. change (-1075)%Z with (-53 + -1022)%Z. rewrite p2_plus. apply Rmult_le_compat_l; [left; apply p2_pos|exact Hz].
Qed.
Lemma added_const : forall c l s, added l s -> Forall (eq c) l -> finite c -> p2 (-1020) <= Rabs (value c) -> Rabs (value c) <= p2 1000 ->
  INR (length l) <= p2 20 -> finite s /\ Rabs (value s - INR (length l) * value c) <= 2 * p2 (-52) * (INR (length l) * INR (length l)) * Rabs (value c).
Proof.
  intros c l s HA HF Fc Lc Uc. induction HA as [|x|l a b s t HP HA IHA HB IHB]; intros HL.
  - destruct rep_0 as [F V]. split; [exact F|]. cbn [length INR]. rewrite V. rewrite !Rmult_0_l, Rminus_0_r, Rabs_R0. lra.
  - apply Forall_inv in HF. rewrite <- HF. split; [exact Fc|]. cbn [length INR]. replace (value c - 1 * value c) with 0 by ring. rewrite Rabs_R0.
    pose proof (p2_pos (-52)). pose proof (Rabs_pos (value c)). nra.
  - assert (HFab : Forall (eq c) (a ++ b)) by (eapply Permutation.Permutation_Forall; eauto). apply Forall_app in HFab as [HFa HFb].
    assert (EL : INR (length l) = INR (length a) + INR (length b)) by (rewrite (Permutation.Permutation_length HP), app_length, plus_INR; reflexivity).
    rewrite EL in HL |- *. pose proof (pos_INR (length a)) as Pa. pose proof (pos_INR (length b)) as Pb.
    destruct (IHA HFa ltac:(lra)) as [Fs Es]. destruct (IHB HFb ltac:(lra)) as [Ft Et]. clear IHA IHB.
    set (w := 2 * p2 (-52)) in *. assert (Hw : w = p2 (-51)) by (unfold w; change (-51)%Z with (1 + -52)%Z; rewrite p2_plus; reflexivity).
    assert (Pw : 0 < w) by (rewrite Hw; apply p2_pos). set (C := value c) in *. set (ka := INR (length a)) in *. set (kb := INR (length b)) in *.
    pose proof (p2_pos (-1020)) as PC.
    assert (W20 : w * p2 20 <= / 4) by (rewrite Hw, <- p2_plus; unfold p2; cbn; lra).
    assert (Za : length a = 0%nat \/ 1 <= ka) by (unfold ka; destruct (length a) as [|k]; [now left|right; rewrite S_INR; pose proof (pos_INR k); lra]).
    assert (Zb : length b = 0%nat \/ 1 <= kb) by (unfold kb; destruct (length b) as [|k]; [now left|right; rewrite S_INR; pose proof (pos_INR k); lra]).
    assert (KC : forall k, 0 <= k <= p2 20 -> w * (k * k) * Rabs C <= / 4 * k * Rabs C).
    { intros k Hk. apply Rmult_le_compat_r; [apply Rabs_pos|]. replace (w * (k * k)) with (w * k * k) by ring. apply Rmult_le_compat_r; [lra|].
      apply Rle_trans with (w * p2 20); [apply Rmult_le_compat_l; lra|exact W20]. }
    assert (SB : forall k z, 0 <= k <= p2 20 -> Rabs (z - k * C) <= w * (k * k) * Rabs C -> Rabs z <= 5 / 4 * k * Rabs C).
    { intros k z Hk Hz. pose proof (KC k Hk). pose proof (Rabs_triang (z - k * C) (k * C)) as T. replace (z - k * C + k * C) with z in T by ring.
      rewrite (Rabs_mult k), (Rabs_right k) in T by lra. lra. }
    pose proof (SB ka (value s) ltac:(lra) Es) as Bs. pose proof (SB kb (value t) ltac:(lra) Et) as Bt.
    assert (SUM : Rabs (value s + value t) <= 5 / 4 * (ka + kb) * Rabs C) by (eapply Rle_trans; [apply Rabs_triang|]; lra).
    assert (HU : Rabs (value s + value t) <= p2 1021).
    { eapply Rle_trans; [exact SUM|]. apply Rle_trans with (2 * p2 20 * p2 1000); [apply Rmult_le_compat; lra|].
      change 2 with (p2 1). rewrite <- !p2_plus. apply p2_le. lia. }
    assert (RS : rep (nadd s t) (rnd64 (value s + value t))) by (apply rep_add; auto using rep_value; apply (below_huge 1021); [lia|exact HU]).
    destruct RS as [FS VS]. split; [exact FS|]. rewrite VS. clear VS FS HU.
    assert (ZERO : forall k z, k = 0 -> Rabs (z - k * C) <= w * (k * k) * Rabs C -> z = 0).
    { intros k z -> Hz. rewrite !Rmult_0_l, Rmult_0_r, Rmult_0_l, Rminus_0_r in Hz. destruct (Req_dec z 0); [assumption|]. pose proof (Rabs_pos_lt z H). lra. }
    destruct Za as [Za|Za].
    { assert (K0 : ka = 0) by (unfold ka; now rewrite Za). rewrite (ZERO ka (value s) K0 Es), K0, !Rplus_0_l, value_round. exact Et. }
    destruct Zb as [Zb|Zb].
    { assert (K0 : kb = 0) by (unfold kb; now rewrite Zb). rewrite (ZERO kb (value t) K0 Et), K0, !Rplus_0_r, value_round. exact Es. }
    pose proof (Rabs_pos C) as PA. pose proof (KC ka ltac:(lra)). pose proof (KC kb ltac:(lra)).
    assert (ER : Rabs (value s + value t - (ka + kb) * C) <= w * (ka * ka + kb * kb) * Rabs C).
    { replace (value s + value t - (ka + kb) * C) with ((value s - ka * C) + (value t - kb * C)) by ring. eapply Rle_trans; [apply Rabs_triang|]. lra. }
    assert (LOW : p2 (-1022) <= Rabs (value s + value t)).
    { pose proof (Rabs_triang_inv ((ka + kb) * C) ((ka + kb) * C - (value s + value t))) as T. rewrite (Rabs_minus_sym ((ka + kb) * C)) in T.
      replace ((ka + kb) * C - ((ka + kb) * C - (value s + value t))) with (value s + value t) in T by ring.
      rewrite (Rabs_mult (ka + kb)), (Rabs_right (ka + kb)) in T by lra. pose proof (p2_le (-1022) (-1020) ltac:(lia)).
      assert (Rabs C <= 3 / 4 * (ka + kb) * Rabs C) by nra. lra. }
    pose proof (rel_err _ LOW) as RE. replace (p2 (-52)) with (w / 2) in RE by (unfold w; field).
    replace (rnd64 (value s + value t) - (ka + kb) * C) with ((rnd64 (value s + value t) - (value s + value t)) + (value s + value t - (ka + kb) * C)) by ring.
    eapply Rle_trans; [apply Rabs_triang|]. eapply Rle_trans; [apply Rplus_le_compat; [exact RE|exact ER]|].
    apply Rle_trans with (w / 2 * (5 / 4 * (ka + kb) * Rabs C) + w * (ka * ka + kb * kb) * Rabs C); [apply Rplus_le_compat_r, Rmult_le_compat_l; [lra|exact SUM]|].
    replace (w / 2 * (5 / 4 * (ka + kb) * Rabs C) + w * (ka * ka + kb * kb) * Rabs C) with ((w * (5 / 8 * (ka + kb) + (ka * ka + kb * kb))) * Rabs C) by field.
    apply Rmult_le_compat_r; [lra|]. apply Rmult_le_compat_l; [lra|]. nra.
Qed.
Lemma added_zero : forall l s, added l s -> Forall (fun x => rep x 0) l -> rep s 0.
Proof.
  intros l s HA. induction HA as [|x|l a b s t HP HA IHA HB IHB]; intros HF.
  - apply rep_0.
  - now apply Forall_inv in HF.
  - assert (HFab : Forall (fun x => rep x 0) (a ++ b)) by (eapply Permutation_Forall; eauto). apply Forall_app in HFab as [HFa HFb].
    pose proof (rep_add s t 0 0 (IHA HFa) (IHB HFb)) as H. rewrite Rplus_0_l, rnd64_0, Rabs_R0 in H. apply H, bpow_gt_0.
Qed.
(** Any way of adding up equal numbers that are small multiples of a power of two is exact. *)
Theorem C104_exact_sums : forall c m e l s, finite c -> value c = IZR m * bpow radix2 e -> (-1074 <= e <= 970)%Z ->
  (Z.of_nat (length l) * Z.abs m < 2 ^ 53)%Z -> Forall (eq c) l -> added l s -> finite s /\ value s = INR (length l) * value c.
Proof.
  intros c m e l s Fc Vc He HL HF HA. revert HL HF. induction HA as [|x|l a b s t HP HA IHA HB IHB]; intros HL HF.
  - cbn [length INR]. rewrite Rmult_0_l. apply rep_0.
  - apply Forall_inv in HF. rewrite <- HF. cbn [length INR]. rewrite Rmult_1_l. now split.
  - assert (HFab : Forall (eq c) (a ++ b)) by (eapply Permutation_Forall; eauto). apply Forall_app in HFab as [HFa HFb].
    assert (EL : length l = (length a + length b)%nat) by (rewrite (Permutation_length HP), app_length; reflexivity).
    assert (GE : (0 <= Z.abs m)%Z) by lia.
    destruct (IHA ltac:(nia) HFa) as [Fs Vs]. destruct (IHB ltac:(nia) HFb) as [Ft Vt].
    assert (EV : value s + value t = IZR (Z.of_nat (length l) * m) * bpow radix2 e).
    { rewrite Vs, Vt, <- Rmult_plus_distr_r, <- plus_INR, <- EL, Vc, mult_IZR, <- INR_IZR_INZ. ring. }
    assert (FM : generic_format radix2 (FLT_exp (-1074) 53) (value s + value t)).
    { apply generic_format_FLT. exists (Float radix2 (Z.of_nat (length l) * m) e); [exact EV| |cbn; lia]. cbn [Fnum]. change (radix2 ^ 53)%Z with (2 ^ 53)%Z. rewrite Z.abs_mul. lia. }
    assert (BD : Rabs (value s + value t) <= p2 1023).
    { rewrite EV, Rabs_mult, <- abs_IZR, (Rabs_right (bpow radix2 e)) by (apply Rle_ge, bpow_ge_0). change (p2 1023) with (p2 (53 + 970)). rewrite p2_plus.
      apply Rmult_le_compat; [apply IZR_le; lia|apply bpow_ge_0| |apply bpow_le; lia]. change (p2 53) with (IZR (2 ^ 53)). apply IZR_le. rewrite Z.abs_mul. lia. }
    pose proof (rep_add s t (value s) (value t) (rep_value s Fs) (rep_value t Ft) (below_huge 1023 _ ltac:(lia) BD)) as [F V].
    split; [exact F|]. rewrite V, (rnd64_id _ FM), Vs, Vt, EL, plus_INR. ring.
Qed.

Lemma const_same : forall A (c : A) n l, l = repeat c n -> Forall (eq c) l.
Proof. intros A c n l ->. induction n; cbn; auto. Qed.
Lemma rep_count : forall n, (0 < n)%nat -> (Z.of_nat n < 2 ^ 53)%Z -> rep (nint (Z.of_nat n)) (INR n) /\ 1 <= INR n.
Proof.
  intros n Hn HB. pose proof (rep_int (Z.of_nat n) ltac:(lia)) as R. rewrite <- INR_IZR_INZ in R. split; [exact R|].
  change 1 with (INR 1). apply le_INR. lia.
Qed.
Lemma map_const : forall A B (f : A -> B) c n, map f (repeat c n) = repeat (f c) n.
Proof. intros A B f c n. induction n; cbn; congruence. Qed.
(** The entry is the computed mean: 0 / 0. *)
Lemma centred_nan : forall c m sd n, finite c -> finite m -> value m = value c -> (0 < n)%nat -> (Z.of_nat n < 2 ^ 53)%Z ->
  std_of (repeat c n) m sd -> ndiv (nsub c m) sd = not_a_number.
Proof.
  intros c m sd n Fc Fm E Hn HB (v & (s & HA & ->) & ->). rewrite map_const in HA. rewrite map_length, repeat_length.
  assert (D0 : rep (nsub c m) 0) by (apply rep_zero_sub; auto).
  assert (Q0 : rep (nmul (nsub c m) (nsub c m)) 0).
  { pose proof (rep_mul _ _ 0 0 D0 D0) as H. rewrite Rmult_0_l, rnd64_0, Rabs_R0 in H. apply H, bpow_gt_0. }
  assert (S0 : rep s 0).
  { apply (added_zero _ _ HA). eapply Forall_impl; [|apply const_same with (n := n); reflexivity]. cbn beta. now intros a <-. }
  destruct (rep_count n Hn HB) as [RN LN].
  assert (V0 : rep (ndiv s (nint (Z.of_nat n))) 0).
  { pose proof (rep_div _ _ 0 (INR n) S0 RN ltac:(lra)) as H. unfold Rdiv in H. rewrite Rmult_0_l, rnd64_0, Rabs_R0 in H. apply H, bpow_gt_0. }
  pose proof (rep_sqrt _ 0 V0 ltac:(lra)) as R0. rewrite sqrt_0, rnd64_0 in R0.
  assert (Z : forall z : f64, rep z 0 -> exists b, z = BinarySingleNaN.B754_zero b).
  { intros [b|b| |[|] mm e He] [F V]; try discriminate F; [now exists b| |]; unfold value in V; cbn in V; exfalso.
    - pose proof (F2R_lt_0 radix2 (Float radix2 (Z.neg mm) e) eq_refl). lra.
    - pose proof (F2R_gt_0 radix2 (Float radix2 (Z.pos mm) e) eq_refl). lra. }
  destruct (Z _ D0) as [b1 E1]. destruct (Z _ R0) as [b2 E2]. rewrite E1, E2. reflexivity.
Qed.

(** A constant column of such numbers: the mean is exact in every order of summation and all entries become NaN. *)
Theorem C104_exact_constants : forall c m e n yn, finite c -> value c = IZR m * bpow radix2 e -> (-1074 <= e <= 970)%Z ->
  (0 < n)%nat -> (Z.of_nat n * Z.max 1 (Z.abs m) < 2 ^ 53)%Z -> standardizes (repeat c n) yn -> yn = repeat not_a_number n.
Proof.
  intros c m e n yn Fc Vc He Hn HB (mu & sd & (s & HA & ->) & HS & ->). rewrite map_const. f_equal.
  assert (HN : (Z.of_nat n < 2 ^ 53)%Z) by nia.
  destruct (C104_exact_sums c m e (repeat c n) s Fc Vc He) as [Fs Vs]; [rewrite repeat_length; nia|now apply const_same with (n := n)|exact HA|].
  rewrite repeat_length in *. destruct (rep_count n Hn HN) as [RN LN].
  assert (RM : rep (ndiv s (nint (Z.of_nat n))) (value c)).
  { pose proof (rep_div s _ (INR n * value c) (INR n) (conj Fs Vs) RN ltac:(lra)) as H. replace (INR n * value c / INR n) with (value c) in H by (field; lra).
    rewrite value_round in H. apply H, value_bound. }
  destruct RM as [FM VM]. eapply centred_nan; eauto.
Qed.

Lemma rel_bounds : forall z, 0 < z -> p2 (-1022) <= z -> (1 - p2 (-52)) * z <= rnd64 z <= (1 + p2 (-52)) * z.
Proof. intros z P Hz. pose proof (rel_err z) as H. rewrite Rabs_right in H by lra. apply abs_inv in H; lra. Qed.
Lemma scaled_one : forall d n sd, finite d -> p2 (-453) <= Rabs (value d) -> Rabs (value d) <= p2 402 -> (0 < n)%nat -> INR n <= p2 20 ->
  (exists v, (exists s, added (repeat (nmul d d) n) s /\ v = ndiv s (nint (Z.of_nat n))) /\ sd = nsqrt v) ->
  finite (ndiv d sd) /\ 1 - p2 (-30) <= Rabs (value (ndiv d sd)) <= 1 + p2 (-30).
Proof.
  intros d n sd Fd Ld Ud Hn HN (v & (s & HA & ->) & ->). set (D := value d) in *.
  assert (HZ : (Z.of_nat n < 2 ^ 53)%Z).
  { apply lt_IZR. rewrite <- INR_IZR_INZ. eapply Rle_lt_trans; [exact HN|]. change (IZR (2 ^ 53)) with (p2 53). apply bpow_lt. lia. }
  destruct (rep_count n Hn HZ) as [RN LN].
  set (A := Rabs D) in *. assert (PA : 0 < A) by (pose proof (p2_pos (-453)); lra).
  assert (AA : D * D = A * A) by (unfold A; rewrite <- Rabs_mult, Rabs_right; [reflexivity|apply Rle_ge, Rle_0_sqr]).
  assert (L2 : p2 (-906) <= A * A) by (change (-906)%Z with (-453 + -453)%Z; rewrite p2_plus; pose proof (p2_pos (-453)); apply Rmult_le_compat; lra).
  assert (U2 : A * A <= p2 804) by (change 804%Z with (402 + 402)%Z; rewrite p2_plus; apply Rmult_le_compat; lra).
  set (t := p2 (-52)). assert (Pt : 0 < t) by apply p2_pos. assert (T1 : t <= / 1000000) by (unfold t, p2; cbn; lra).
  pose proof (p2_pos (-906)) as P906.
  assert (RQ : rep (nmul d d) (rnd64 (A * A))).
  { rewrite <- AA. apply rep_mul; [now split|now split|]. apply (below_huge 804); [lia|]. fold D. rewrite AA, Rabs_right by nra. exact U2. }
  destruct RQ as [FQ VQ]. set (Q := rnd64 (A * A)) in *.
  assert (BQ : (1 - t) * (A * A) <= Q <= (1 + t) * (A * A)) by (apply rel_bounds; [lra|pose proof (p2_le (-1022) (-906) ltac:(lia)); lra]).
  assert (PQ : 0 < Q) by nra.
  assert (LQ : p2 (-907) <= Q) by (pose proof (p2_twice (-907) (-906) ltac:(lia)); nra).
  assert (UQ : Q <= p2 805) by (pose proof (p2_twice 804 805 ltac:(lia)); nra).
  destruct (added_const (nmul d d) (repeat (nmul d d) n) s HA) as [Fs Es]; auto.
  { now apply const_same with (n := n). }
  { rewrite VQ, Rabs_right by lra. pose proof (p2_le (-1020) (-907) ltac:(lia)). lra. }
  { rewrite VQ, Rabs_right by lra. pose proof (p2_le 805 1000 ltac:(lia)). lra. }
  { now rewrite repeat_length. }
  rewrite repeat_length, VQ, (Rabs_right Q) in Es by lra. set (N := INR n) in *. set (Sv := value s) in *.
  set (g := p2 (-31)). assert (Pg : 0 < g) by apply p2_pos. assert (Gt : g = 2 * t * p2 20) by (unfold g, t; change 2 with (p2 1); rewrite <- !p2_plus; reflexivity).
  assert (Gs : g <= / 1000000) by (unfold g, p2; cbn; lra). assert (Gt2 : 1000 * t <= g) by (rewrite Gt; change (p2 20) with 1048576; lra).
  assert (BS : (1 - g) * Q <= Sv / N <= (1 + g) * Q).
  { assert (Es' : Rabs (Sv - N * Q) <= g * Q * N).
    { eapply Rle_trans; [exact Es|]. rewrite Gt. fold t. replace (2 * t * (N * N) * Q) with ((2 * t * Q * N) * N) by ring. replace (2 * t * p2 20 * Q * N) with ((2 * t * Q * N) * p2 20) by ring.
      apply Rmult_le_compat_l; [|exact HN]. apply Rmult_le_pos; [|lra]. apply Rmult_le_pos; lra. }
    apply abs_inv in Es'. split; apply (Rmult_le_reg_r N); try lra; replace (Sv / N * N) with Sv by (field; lra); lra. }
  assert (PV : 0 < Sv / N) by nra.
  assert (RV : rep (ndiv s (nint (Z.of_nat n))) (rnd64 (Sv / N))).
  { apply rep_div; [now split|exact RN|lra|]. apply (below_huge 806); [lia|]. rewrite Rabs_right by lra. pose proof (p2_twice 805 806 ltac:(lia)). unfold p2 in *. nra. }
  set (V := rnd64 (Sv / N)) in *.
  assert (BV : (1 - t) * (Sv / N) <= V <= (1 + t) * (Sv / N)).
  { apply rel_bounds; [exact PV|]. pose proof (p2_twice (-908) (-907) ltac:(lia)). pose proof (p2_le (-1022) (-908) ltac:(lia)). nra. }
  set (q := p2 (-30)). assert (Q2 : q = 2 * g) by (unfold q, g; change (-30)%Z with (1 + -31)%Z; rewrite p2_plus; reflexivity).
  (* V = A^2 up to a factor close to 1 *)
  assert (BV2 : (1 - 5 / 4 * g) * (A * A) <= V <= (1 + 5 / 4 * g) * (A * A)).
  { assert (X1 : (1 - t) * ((1 - g) * ((1 - t) * (A * A))) <= V).
    { apply Rle_trans with ((1 - t) * (Sv / N)); [|lra]. apply Rmult_le_compat_l; [lra|]. apply Rle_trans with ((1 - g) * Q); [|lra]. apply Rmult_le_compat_l; lra. }
    assert (X2 : V <= (1 + t) * ((1 + g) * ((1 + t) * (A * A)))).
    { apply Rle_trans with ((1 + t) * (Sv / N)); [lra|]. apply Rmult_le_compat_l; [lra|]. apply Rle_trans with ((1 + g) * Q); [lra|]. apply Rmult_le_compat_l; lra. }
    assert (Y1 : 1 - 5 / 4 * g <= (1 - t) * ((1 - g) * (1 - t))) by nra.
    assert (Y2 : (1 + t) * ((1 + g) * (1 + t)) <= 1 + 5 / 4 * g) by nra.
    split; [eapply Rle_trans; [|exact X1]|eapply Rle_trans; [exact X2|]].
    - replace ((1 - t) * ((1 - g) * ((1 - t) * (A * A)))) with ((1 - t) * ((1 - g) * (1 - t)) * (A * A)) by ring. apply Rmult_le_compat_r; [nra|exact Y1].
    - replace ((1 + t) * ((1 + g) * ((1 + t) * (A * A)))) with ((1 + t) * ((1 + g) * (1 + t)) * (A * A)) by ring. apply Rmult_le_compat_r; [nra|exact Y2]. }
  assert (PVV : 0 < V) by nra.
  pose proof (rep_sqrt _ V RV ltac:(lra)) as RSQ.
  assert (BR : (1 - 5 / 4 * g) * A <= sqrt V <= (1 + 5 / 4 * g) * A).
  { split.
    - rewrite <- (sqrt_square ((1 - 5 / 4 * g) * A)) by nra. apply sqrt_le_1_alt. eapply Rle_trans; [|apply BV2].
      replace ((1 - 5 / 4 * g) * A * ((1 - 5 / 4 * g) * A)) with ((1 - 5 / 4 * g) * (1 - 5 / 4 * g) * (A * A)) by ring. apply Rmult_le_compat_r; [nra|]. nra.
    - rewrite <- (sqrt_square ((1 + 5 / 4 * g) * A)) by nra. apply sqrt_le_1_alt. eapply Rle_trans; [apply BV2|].
      replace ((1 + 5 / 4 * g) * A * ((1 + 5 / 4 * g) * A)) with ((1 + 5 / 4 * g) * (1 + 5 / 4 * g) * (A * A)) by ring. apply Rmult_le_compat_r; [nra|]. nra. }
  set (W := rnd64 (sqrt V)) in *.
  assert (PR : 0 < sqrt V) by (apply sqrt_lt_R0; exact PVV).
  assert (BW : (1 - t) * sqrt V <= W <= (1 + t) * sqrt V).
  { apply rel_bounds; [exact PR|]. pose proof (p2_twice (-454) (-453) ltac:(lia)). pose proof (p2_le (-1022) (-454) ltac:(lia)). nra. }
  assert (BW2 : (1 - 3 / 2 * g) * A <= W <= (1 + 3 / 2 * g) * A).
  { assert (Y1 : 1 - 3 / 2 * g <= (1 - t) * (1 - 5 / 4 * g)) by nra. assert (Y2 : (1 + t) * (1 + 5 / 4 * g) <= 1 + 3 / 2 * g) by nra. split.
    - apply Rle_trans with ((1 - t) * ((1 - 5 / 4 * g) * A)); [rewrite <- Rmult_assoc; apply Rmult_le_compat_r; lra|]. eapply Rle_trans; [|apply BW]. apply Rmult_le_compat_l; lra.
    - eapply Rle_trans; [apply BW|]. apply Rle_trans with ((1 + t) * ((1 + 5 / 4 * g) * A)); [apply Rmult_le_compat_l; lra|]. rewrite <- Rmult_assoc. apply Rmult_le_compat_r; lra. }
  assert (PW : 0 < W) by nra.
  assert (AB : Rabs (D / W) = A / W) by (unfold Rdiv; rewrite Rabs_mult, Rabs_inv, (Rabs_right W) by lra; reflexivity).
  assert (BQ2 : 1 - 7 / 4 * g <= A / W <= 1 + 7 / 4 * g).
  { split; apply (Rmult_le_reg_r W); try lra; replace (A / W * W) with A by (field; lra).
    - apply Rle_trans with ((1 - 7 / 4 * g) * ((1 + 3 / 2 * g) * A)); [apply Rmult_le_compat_l; lra|]. rewrite <- Rmult_assoc. rewrite <- (Rmult_1_l A) at 2. apply Rmult_le_compat_r; nra.
    - apply Rle_trans with ((1 + 7 / 4 * g) * ((1 - 3 / 2 * g) * A)); [|apply Rmult_le_compat_l; lra]. rewrite <- Rmult_assoc. rewrite <- (Rmult_1_l A) at 1. apply Rmult_le_compat_r; nra. }
  assert (RY : rep (ndiv d (nsqrt (ndiv s (nint (Z.of_nat n))))) (rnd64 (D / W))).
  { apply rep_div; [now split|exact RSQ|lra|]. apply (below_huge 1); [lia|]. fold D. rewrite AB. change (bpow radix2 1) with 2. lra. }
  destruct RY as [FY ->]. split; [exact FY|].
  pose proof (rel_err (D / W)) as RE. rewrite AB in RE.
  assert (L0 : p2 (-1022) <= A / W) by (apply Rle_trans with (p2 (-1)); [apply p2_le; lia|]; change (p2 (-1)) with (/ 2); lra).
  specialize (RE L0). fold t in RE.
  pose proof (Rabs_triang (D / W) (rnd64 (D / W) - D / W)) as TR. replace (D / W + (rnd64 (D / W) - D / W)) with (rnd64 (D / W)) in TR by ring.
  pose proof (Rabs_triang_inv (D / W) (D / W - rnd64 (D / W))) as TI. rewrite (Rabs_minus_sym (D / W) (rnd64 (D / W))) in TI.
  replace (D / W - (D / W - rnd64 (D / W))) with (rnd64 (D / W)) in TI by ring. rewrite AB in TR, TI. rewrite Q2.
  assert (t * (A / W) <= t * 2) by (apply Rmult_le_compat_l; lra). lra.
Qed.

(** Doubles of size at least 2^e are multiples of 2^(e - 52). *)
Lemma format_multiple : forall x e, generic_format radix2 (FLT_exp (-1074) 53) x -> p2 e <= Rabs x -> (-1022 <= e)%Z -> exists k, x = IZR k * p2 (e - 52).
Proof.
  intros x e HF HL He. assert (HC : (e - 52 <= cexp radix2 (FLT_exp (-1074) 53) x)%Z).
  { unfold cexp, FLT_exp. assert (M : (e + 1 <= mag radix2 x)%Z).
    { apply mag_ge_bpow. replace (e + 1 - 1)%Z with e by lia. exact HL. }
    lia. }
  exists (Ztrunc (scaled_mantissa radix2 (FLT_exp (-1074) 53) x) * 2 ^ (cexp radix2 (FLT_exp (-1074) 53) x - (e - 52)))%Z.
  rewrite HF at 1. unfold F2R. cbn [Fnum Fexp]. rewrite mult_IZR. change (2 ^ ?z)%Z with (Zpower radix2 z). rewrite IZR_Zpower by lia.
  rewrite Rmult_assoc. unfold p2. rewrite <- bpow_plus. do 2 f_equal. lia.
Qed.

(** A constant column of numbers of usual size: either all entries become NaN, or - if the computed mean is not the constant -
    all become the same number, 1 or -1 up to 2^-30.  In whatever order the sums are taken. *)
Theorem C104_constant_columns : forall c n yn, finite c -> bpow radix2 (-400) <= Rabs (value c) -> Rabs (value c) <= bpow radix2 400 ->
  (0 < n)%nat -> (Z.of_nat n <= 2 ^ 20)%Z -> standardizes (repeat c n) yn ->
  yn = repeat not_a_number n \/
  exists y, yn = repeat y n /\ finite y /\ 1 - bpow radix2 (-30) <= Rabs (value y) <= 1 + bpow radix2 (-30).
Proof.
  intros c n yn Fc Lc Uc Hn HB (m & sd & (s & HA & Em) & HS & ->). rewrite map_const. fold (p2 (-400)) (p2 400) in *.
  assert (HN : INR n <= p2 20) by (rewrite INR_IZR_INZ; change (p2 20) with (IZR (2 ^ 20)); now apply IZR_le).
  assert (HZ : (Z.of_nat n < 2 ^ 53)%Z) by lia. destruct (rep_count n Hn HZ) as [RN LN].
  destruct (added_const c (repeat c n) s HA) as [Fs Es]; auto.
  { now apply const_same with (n := n). }
  { pose proof (p2_le (-1020) (-400) ltac:(lia)). lra. }
  { pose proof (p2_le 400 1000 ltac:(lia)). lra. }
  { now rewrite repeat_length. }
  rewrite repeat_length in Es, Em. set (N := INR n) in *. set (C := value c) in *. pose proof (p2_pos (-400)) as P400.
  assert (G20 : 2 * p2 (-52) * p2 20 <= / 1000) by (unfold p2; cbn; lra).
  assert (ES : Rabs (value s / N - C) <= / 1000 * Rabs C).
  { replace (value s / N - C) with ((value s - N * C) * / N) by (field; lra). rewrite Rabs_mult, Rabs_inv, (Rabs_right N) by lra.
    apply (Rmult_le_reg_r N); [lra|]. replace (Rabs (value s - N * C) * / N * N) with (Rabs (value s - N * C)) by (field; lra). eapply Rle_trans; [exact Es|].
    replace (2 * p2 (-52) * (N * N) * Rabs C) with (2 * p2 (-52) * N * (N * Rabs C)) by ring. replace (/ 1000 * Rabs C * N) with (/ 1000 * (N * Rabs C)) by ring.
    apply Rmult_le_compat_r; [apply Rmult_le_pos; [lra|apply Rabs_pos]|]. pose proof (p2_pos (-52)). nra. }
  set (Y := value s / N) in *.
  assert (BY : 999 / 1000 * Rabs C <= Rabs Y <= 1001 / 1000 * Rabs C).
  { pose proof (Rabs_triang (Y - C) C) as T1. replace (Y - C + C) with Y in T1 by ring. pose proof (Rabs_triang (C - Y) Y) as T2. replace (C - Y + Y) with C in T2 by ring.
    rewrite (Rabs_minus_sym C Y) in T2. lra. }
  assert (RM : rep m (rnd64 Y)).
  { rewrite Em. apply rep_div; [now split|exact RN|lra|]. apply (below_huge 401); [lia|]. fold Y. pose proof (p2_twice 400 401 ltac:(lia)). unfold p2 in *. lra. }
  destruct RM as [Fm Vm].
  assert (RE : Rabs (rnd64 Y - Y) <= p2 (-52) * Rabs Y).
  { apply rel_err. pose proof (p2_le (-1022) (-401) ltac:(lia)). pose proof (p2_twice (-401) (-400) ltac:(lia)). lra. }
  assert (BM : / 2 * Rabs C <= Rabs (value m) <= 2 * Rabs C).
  { rewrite Vm. pose proof (Rabs_triang (rnd64 Y - Y) Y) as T1. replace (rnd64 Y - Y + Y) with (rnd64 Y) in T1 by ring. pose proof (Rabs_triang (Y - rnd64 Y) (rnd64 Y)) as T2.
    replace (Y - rnd64 Y + rnd64 Y) with Y in T2 by ring. rewrite (Rabs_minus_sym Y) in T2.
    assert (p2 (-52) * Rabs Y <= / 1000 * Rabs Y) by (apply Rmult_le_compat_r; [apply Rabs_pos|unfold p2; cbn; lra]). lra. }
  destruct (Req_dec (value m) C) as [EQ|NE].
  - left. f_equal. eapply centred_nan; eauto.
  - right. exists (ndiv (nsub c m) sd). split; [reflexivity|].
    assert (U1 : Rabs (C - value m) <= p2 402).
    { unfold Rminus. eapply Rle_trans; [apply Rabs_triang|]. rewrite Rabs_Ropp. change (p2 402) with (p2 (2 + 400)). rewrite p2_plus. change (p2 2) with 4. lra. }
    assert (L1 : p2 (-453) <= Rabs (C - value m)).
    { pose proof (p2_twice (-401) (-400) ltac:(lia)) as TW.
      destruct (format_multiple C (-401) (value_format c) ltac:(lra) ltac:(lia)) as [k1 E1].
      destruct (format_multiple (value m) (-401) (value_format m) ltac:(lra) ltac:(lia)) as [k2 E2].
      change (-401 - 52)%Z with (-453)%Z in *. rewrite E1, E2 in NE |- *. rewrite <- Rmult_minus_distr_r, <- minus_IZR, Rabs_mult, (Rabs_right (p2 (-453))) by (apply Rle_ge; left; apply p2_pos).
      rewrite <- abs_IZR. assert (k1 <> k2) by (intros ->; apply NE; reflexivity). assert (1 <= IZR (Z.abs (k1 - k2))) by (apply IZR_le; lia). pose proof (p2_pos (-453)). nra. }
    assert (RD : rep (nsub c m) (rnd64 (C - value m))) by (apply rep_sub; [now split|now split|apply (below_huge 402); [lia|exact U1]]).
    destruct RD as [FD VD]. apply (scaled_one (nsub c m) n sd); auto.
    + rewrite VD. destruct (Rle_dec 0 (C - value m)) as [S|S].
      * rewrite Rabs_right in L1 by lra. eapply Rle_trans; [|apply Rle_abs]. unfold p2. rewrite <- (rnd64_id _ (format64_bpow (-453) ltac:(lia))). now apply rnd64_mono.
      * rewrite Rabs_left in L1 by lra. rewrite <- Rabs_Ropp. eapply Rle_trans; [|apply Rle_abs]. unfold p2. rewrite <- rnd64_opp, <- (rnd64_id _ (format64_bpow (-453) ltac:(lia))). now apply rnd64_mono.
    + rewrite VD. apply (rnd64_bound 402); [lia|exact U1].
    + destruct HS as (v & (s' & HA' & Ev) & Esd). rewrite map_const in HA'. rewrite map_length, repeat_length in Ev. exists v. split; [|exact Esd]. now exists s'.
Qed.

(** What the code computes is one such order. *)
Lemma added_nsum : forall l : list f64, added l (nsum l).
Proof. induction l as [|x l IH]; [constructor|]. change (nsum (x :: l)) with (nadd x (nsum l)). apply (added_two (x :: l) [x] l); auto using added_one. Qed.
Theorem C104_normalization_standardizes : forall X d j, rectangular d X -> (j < d)%nat ->
  standardizes (col not_a_number X j) (col not_a_number (fst (fst (zmuv_normalization X None None))) j).
Proof.
  intros X d j HR Hj. rewrite (zmuv_column X d j not_a_number HR Hj). generalize (col not_a_number X j). intros y. unfold zmuv_normalization1. cbn [default fst].
  exists (np_mean y), (np_std y). split; [exists (nsum y); split; [apply added_nsum|reflexivity]|]. split; [|reflexivity].
  unfold np_std. exists (np_mean (map (fun x => nmul (nsub x (np_mean y)) (nsub x (np_mean y))) y)). split; [|reflexivity].
  eexists. split; [apply added_nsum|reflexivity].
Qed.
Lemma rect3 : forall c : f64, rectangular 1 (repeat [c] 3).
Proof. intros c. split; [discriminate|]. cbn. auto. Qed.
Lemma standardizes3 : forall c, standardizes (repeat c 3) (fst (fst (zmuv_normalization1 (repeat c 3) None None))).
Proof.
  intros c. pose proof (C104_normalization_standardizes _ 1 0 (rect3 c) ltac:(lia)) as HS. now rewrite (zmuv_column _ 1 0 not_a_number (rect3 c) ltac:(lia)) in HS.
Qed.
(** Three labels 0.1 are standardized to -1: constant columns do not always become NaN. *)
Definition tenth : f64 := nfrac 1 10.
Lemma tenths : map BinarySingleNaN.B2SF (fst (fst (zmuv_normalization1 (repeat tenth 3) None None))) = repeat (BinarySingleNaN.B2SF (nopp (n1 : f64))) 3.
Proof. vm_compute. reflexivity. Qed.
Theorem C104_constant_columns_become_nan_refuted :
  ~ (forall c n yn, finite c -> (0 < n)%nat -> standardizes (repeat c n) yn -> yn = repeat not_a_number n).
Proof.
  intros H. pose proof (standardizes3 tenth) as HS.
  apply H in HS; [|vm_compute; reflexivity|lia]. apply (f_equal (map BinarySingleNaN.B2SF)) in HS. rewrite tenths in HS. vm_compute in HS. discriminate HS.
Qed.

(** *** Examples *)
Definition grades : list (list f64) := map (fun z => [f_of_Z z]) [49; 0; 1]%Z.
Lemma rep_small : forall z, (Z.abs z < 2 ^ 53)%Z -> rep (f_of_Z z) (IZR z).
Proof.
  intros z Hz. apply rep_Z; [apply (format_Z z 0); rewrite ?Z.div_1_r; cbn; lia|]. apply IZR_huge. assert (2 ^ 53 < 2 ^ 1024)%Z by reflexivity. lia.
Qed.
Lemma small_bounded64 : forall z, (Z.abs z < 2 ^ 53)%Z -> bounded64 1021 (f_of_Z z).
Proof.
  intros z Hz. destruct (rep_small z Hz) as [F V]. split; [exact F|]. rewrite V, <- abs_IZR. apply Rle_trans with (bpow radix2 53); [|apply bpow_le; lia].
  change (bpow radix2 53) with (IZR (2 ^ 53)). apply IZR_le. lia.
Qed.
Lemma grades_rect : rectangular 1 grades.
Proof. split; [discriminate|]. unfold grades. cbn [map]. do 3 (constructor; [reflexivity|]). constructor. Qed.
Lemma grades_entry : forall i x, entry grades i 0 = Some x -> exists z, (z = 49 \/ z = 0 \/ z = 1)%Z /\ x = f_of_Z z.
Proof.
  intros i x Hx. unfold entry, grades in Hx. cbn [map] in Hx.
  destruct i as [|[|[|i]]]; cbn [nth_error] in Hx; [| | |destruct i; discriminate Hx]; apply some_inj in Hx; subst x; eexists; (split; [|reflexivity]); auto.
Qed.
(** The hypotheses of [C103_scaling_in_doubles] on the column 49, 0, 1, whose bounds are 0 and 49. *)
Example C103_example : forall Xn lo up, zero_one_normalization grades None None = (Xn, lo, up) ->
  rectangular 1 grades /\ exists l h, nth_error lo 0 = Some l /\ nth_error up 0 = Some h /\ bounded64 1021 l /\ bounded64 1021 h /\
  value l = 0 /\ value h = 49 /\ forall i x, entry grades i 0 = Some x -> finite x /\ value l <= value x <= value h.
Proof.
  intros Xn lo up E. split; [apply grades_rect|].
  assert (HF : forall i x, entry grades i 0 = Some x -> exists z, (z = 49 \/ z = 0 \/ z = 1)%Z /\ finite x /\ value x = IZR z /\ bounded64 1021 x).
  { intros i x Hx. destruct (grades_entry i x Hx) as (z & HZ & ->). exists z. destruct (rep_small z ltac:(lia)) as [F V]. split; [exact HZ|]. split; [exact F|]. split; [exact V|]. apply small_bounded64. lia. }
  destruct (C103_bounds grades 1 0 Xn lo up grades_rect ltac:(lia)) with (2 := E) as (l & h & El & Eh & [i Hi] & [k Hk] & HB).
  { intros i x Hx. now destruct (HF i x Hx) as (z & _ & F & _). }
  exists l, h. destruct (HF i l Hi) as (zl & Zl & Fl & Vl & Bl). destruct (HF k h Hk) as (zh & Zh & Fh & Vh & Bh).
  split; [exact El|]. split; [exact Eh|]. split; [exact Bl|]. split; [exact Bh|].
  assert (B0 : value l <= 0) by (destruct (HB 1%nat (f_of_Z 0) eq_refl) as [L _]; destruct (rep_small 0 eq_refl) as [_ V]; rewrite V in L; exact L).
  assert (B49 : 49 <= value h) by (destruct (HB 0%nat (f_of_Z 49) eq_refl) as [_ L]; destruct (rep_small 49 eq_refl) as [_ V]; rewrite V in L; exact L).
  split; [rewrite Vl in *; destruct Zl as [-> | [-> | ->]]; lra|]. split; [rewrite Vh in *; destruct Zh as [-> | [-> | ->]]; lra|].
  intros i' x Hx. split; [now destruct (HF i' x Hx) as (z & _ & F & _)|now apply (HB i')].
Qed.
(** The round trip is not exact: 1 comes back as another number. *)
Theorem C103_exact_round_trip_refuted :
  ~ (forall X d Xn lo up, rectangular d X -> Forall (Forall finite) X -> zero_one_normalization X None None = (Xn, lo, up) ->
     zero_one_unnormalization Xn lo up = X).
Proof.
  intros H. assert (F : Forall (Forall finite) grades).
  { unfold grades. cbn [map]. constructor; [|constructor; [|constructor; [|constructor]]]; (constructor; [vm_compute; reflexivity|constructor]). }
  pose proof (H grades 1%nat _ _ _ grades_rect F eq_refl) as H'. clear H. rename H' into H. apply (f_equal (map (map BinarySingleNaN.B2SF))) in H. vm_compute in H. discriminate H.
Qed.
(** A column from -2^1023 to 2^1023: the middle becomes 0, the end NaN. *)
Definition wide : list (list f64) := [[f_of_Z (- 2 ^ 1023)]; [f_of_Z 0]; [f_of_Z (2 ^ 1023)]].
Example C103_example_wide : let '(Xn, lo, up) := zero_one_normalization wide None None in
  map BinarySingleNaN.B2SF lo = [BinarySingleNaN.B2SF (f_of_Z (- 2 ^ 1023))] /\ map BinarySingleNaN.B2SF up = [BinarySingleNaN.B2SF (f_of_Z (2 ^ 1023))] /\
  map (map BinarySingleNaN.B2SF) Xn = map (map BinarySingleNaN.B2SF) [[f_of_Z 0]; [f_of_Z 0]; [not_a_number]] /\
  huge <= value (f_of_Z (2 ^ 1023)) - value (f_of_Z (- 2 ^ 1023)) /\ value (f_of_Z 0) - value (f_of_Z (- 2 ^ 1023)) <= bpow radix2 1023.
Proof.
  cbn beta iota zeta delta [zero_one_normalization default]. split; [vm_compute; reflexivity|]. split; [vm_compute; reflexivity|]. split; [vm_compute; reflexivity|].
  assert (P : generic_format radix2 (FLT_exp (-1074) 53) (IZR (2 ^ 1023))) by (change 2%Z with (radix_val radix2); rewrite IZR_Zpower by lia; apply format64_bpow; lia).
  destruct (rep_Z (2 ^ 1023) P) as [_ V1]; [apply IZR_huge; reflexivity|]. destruct (rep_Z (- 2 ^ 1023)) as [_ V2]; [rewrite opp_IZR; now apply generic_format_opp|apply IZR_huge; reflexivity|].
  destruct (rep_small 0 eq_refl) as [_ V0]. rewrite V0, V1, V2, opp_IZR. assert (EP : IZR (2 ^ 1023) = bpow radix2 1023) by (change 2%Z with (radix_val radix2); now rewrite IZR_Zpower by lia).
  rewrite EP. unfold huge. split; [|lra]. change 1024%Z with (1 + 1023)%Z. rewrite bpow_plus. change (bpow radix2 1) with 2. lra.
Qed.
(** Hypotheses of the C104 theorems: three labels 5 become NaN, three labels 0.1 become -1. *)
Example C104_example : standardizes (repeat (f_of_Z 5) 3) (repeat not_a_number 3) /\ value (f_of_Z 5) = IZR 5 * bpow radix2 0 /\
  finite tenth /\ bpow radix2 (-400) <= Rabs (value tenth) <= bpow radix2 400 /\
  (exists yn, standardizes (repeat tenth 3) yn /\ map BinarySingleNaN.B2SF yn = repeat (BinarySingleNaN.B2SF (nopp (n1 : f64))) 3).
Proof.
  destruct (rep_small 5 eq_refl) as [F5 V5]. assert (E5 : value (f_of_Z 5) = IZR 5 * bpow radix2 0) by (rewrite V5; cbn; lra).
  split.
  { rewrite <- (C104_exact_constants (f_of_Z 5) 5 0 3 _ F5 E5 ltac:(lia) ltac:(lia) ltac:(cbn; lia) (standardizes3 _)). apply standardizes3. }
  split; [exact E5|]. assert (RT : rep tenth (rnd64 (Rfrac 1 10))) by (apply (rep_frac 1 10 0 0); first [reflexivity|lia]).
  destruct RT as [FT VT]. split; [exact FT|]. split.
  - rewrite VT. unfold Rfrac. assert (L : bpow radix2 (-4) <= rnd64 (1 / 10) <= bpow radix2 0).
    { rewrite <- (rnd64_id _ (format64_bpow (-4) ltac:(lia))), <- (rnd64_id _ (format64_bpow 0 ltac:(lia))). split; apply rnd64_mono; cbn; lra. }
    pose proof (bpow_gt_0 radix2 (-4)). rewrite Rabs_right by lra. split; [apply Rle_trans with (bpow radix2 (-4)); [apply bpow_le; lia|apply L]|apply Rle_trans with (bpow radix2 0); [apply L|apply bpow_le; lia]].
  - exists (fst (fst (zmuv_normalization1 (repeat tenth 3) None None))). split; [apply standardizes3|exact tenths].
Qed.
