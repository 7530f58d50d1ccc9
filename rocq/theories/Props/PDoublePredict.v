(** C107: predictions in double precision. *)
From Coq Require Import List Arith Lia ZArith Bool Reals Lra Permutation.
From Flocq Require Import Core.Core.
From Flocq Require IEEE754.BinarySingleNaN.
From Verif.Proofs Require Import SafeFloat FloatCell FloatAdapt.
From Verif.Base Require Import Py Num Float64 Vec Lists.
From Verif.Model Require Import BaseClasses TensorUtils BaseModel BNN.
From Verif.Spec Require Import Svgd Stats Doubles.
From Verif.Proofs Require Import Svgd DoubleCell DoubleRun DoubleMean.
From Verif.Props Require Import PMissing PDoubleData PDoubleTensor PBNNDemo.
Import ListNotations.
Local Open Scope R_scope.

(** *** Averages in any order of summation *)
Theorem C107_any_order : forall B l m v, l <> [] -> (Z.of_nat (length l) <= 2 ^ 20)%Z -> bpow radix2 (-400) <= B <= bpow radix2 490 ->
  (forall x, In x l -> finite x /\ Rabs (value x) <= B) -> mean_of l m -> variance_of l m v ->
  finite m /\ finite v /\ 0 <= value v /\
  Rabs (value m - mean (map value l)) <= (INR (length l) + 2) * bpow radix2 (-52) * B /\
  Rabs (value v - variance (map value l)) <= (INR (length l) + 3) * bpow radix2 (-47) * (B * B).
Proof.
  intros B l m v Hl HN HB HF Hm Hv. fold (p2 (-400)) (p2 490) (p2 (-52)) (p2 (-47)) in *.
  assert (HN' : INR (length l) <= p2 20) by (rewrite INR_IZR_INZ; change (p2 20) with (IZR (2 ^ 20)); now apply IZR_le).
  assert (HF' : Forall (within B) l) by (rewrite Forall_forall; exact HF).
  assert (HB' : p2 (-1000) <= B <= p2 1000) by (pose proof (p2_le (-1000) (-400) ltac:(lia)); pose proof (p2_le 490 1000 ltac:(lia)); lra).
  destruct (mean_err B l m Hm Hl HB' HF' HN') as [Fm Em]. destruct (variance_err B l m v Hm Hv Hl HB HF' HN') as (Fv & Pv & Ev). auto.
Qed.
(** Members that agree on a number with few digits: exact mean, no variance. *)
Theorem C107_unanimous_exact : forall x k e n m v, finite x -> value x = IZR k * bpow radix2 e -> (-1074 <= e <= 970)%Z ->
  (0 < n)%nat -> (Z.of_nat n * Z.max 1 (Z.abs k) < 2 ^ 53)%Z -> mean_of (repeat x n) m -> variance_of (repeat x n) m v ->
  finite m /\ value m = value x /\ finite v /\ value v = 0.
Proof.
  intros x k e n m v Fx Vx He Hn HB (s & HA & ->) Hv.
  assert (HN : (Z.of_nat n < 2 ^ 53)%Z) by nia.
  destruct (C104_exact_sums x k e (repeat x n) s Fx Vx He) as [Fs Vs]; [rewrite repeat_length; nia|now apply const_same with (n := n)|exact HA|].
  unfold variance_of in Hv. rewrite map_const in Hv. rewrite repeat_length in *. destruct (rep_count n Hn HN) as [RN LN].
  assert (RM : rep (ndiv s (nint (Z.of_nat n))) (value x)).
  { pose proof (rep_div s _ (INR n * value x) (INR n) (conj Fs Vs) RN ltac:(lra)) as H. replace (INR n * value x / INR n) with (value x) in H by (field; lra).
    rewrite value_round in H. apply H, value_bound. }
  destruct RM as [FM VM]. split; [exact FM|]. split; [exact VM|]. revert Hv FM VM. generalize (ndiv s (nint (Z.of_nat n))). clear - Fx Hn HN RN LN. intros m Hv FM VM.
  assert (D0 : rep (nsub x m) 0) by (apply rep_zero_sub; auto).
  assert (Q0 : rep (nmul (nsub x m) (nsub x m)) 0).
  { pose proof (rep_mul _ _ 0 0 D0 D0) as H. rewrite Rmult_0_l, rnd64_0, Rabs_R0 in H. apply H, bpow_gt_0. }
  destruct Hv as (s & HA & ->). rewrite repeat_length.
  assert (S0 : rep s 0).
  { apply (added_zero _ _ HA). eapply Forall_impl; [|apply const_same with (n := n); reflexivity]. cbn beta. now intros a <-. }
  pose proof (rep_div _ _ 0 (INR n) S0 RN ltac:(lra)) as H. unfold Rdiv in H. rewrite Rmult_0_l, rnd64_0, Rabs_R0 in H. apply H, bpow_gt_0.
Qed.

(** *** Predictions of a network *)
(** The same network, predicting on the scale of the normalized targets. *)
Definition unscaled (c : config) : config := {|
  c_method := c_method c; c_n_nets := c_n_nets c; c_n_iters := c_n_iters c; c_burn_in_steps := c_burn_in_steps c; c_sample_steps := c_sample_steps c;
  c_batch_size := c_batch_size c; c_seed := c_seed c; c_normalize_input := c_normalize_input c; c_normalize_output := false |}.

(** *** Back to the scale of the targets *)
Lemma half_ulp : p2 (-53) = p2 (-52) / 2.
Proof. change (-52)%Z with (1 + -53)%Z. rewrite p2_plus. change (p2 1) with 2. field. Qed.
Section Unscale.
Variables (B Sc Y n mu sigma2 : R) (m v my sy : f64).
Hypothesis HB : p2 (-400) <= B <= p2 400.
Hypothesis HSc : p2 (-100) <= Sc <= p2 80.
Hypothesis HY : 0 <= Y <= p2 500.
Hypothesis Hn : 1 <= n <= p2 20.
Hypothesis Hmy : within Y my.
Hypothesis Hsy : within Sc sy.
Hypothesis Fm : finite m.
Hypothesis Bmu : Rabs mu <= B.
Hypothesis Em : Rabs (value m - mu) <= (n + 2) * p2 (-52) * B.
Hypothesis Fv : finite v.
Hypothesis Pv : 0 <= value v.
Hypothesis Bs : 0 <= sigma2 <= 4 * (B * B).
Hypothesis Ev : Rabs (value v - sigma2) <= (n + 3) * p2 (-47) * (B * B).
Let w := p2 (-52).
Lemma w_small : 0 < w <= / 1000. Proof. split; [apply p2_pos|]. unfold w, p2. cbn. lra. Qed.
Lemma n_small : n * w <= / 1000.
Proof. apply Rle_trans with (p2 20 * w); [apply Rmult_le_compat_r; [apply Rlt_le, w_small|apply Hn]|]. unfold w. rewrite <- p2_plus. unfold p2. cbn. lra. Qed.
Lemma unscale_mean : finite (nadd (nmul m sy) my) /\ Rabs (value (nadd (nmul m sy) my) - (value sy * mu + value my)) <= (n + 8) * w * (Sc * B + Y).
Proof.
  pose proof w_small as Hw. pose proof n_small as Hnw. pose proof (p2_pos (-400)) as P1. pose proof (p2_pos (-100)) as P2.
  destruct Hsy as [Fsy Bsy]. destruct Hmy as [Fmy Bmy].
  assert (SB : 0 < Sc * B) by (apply Rmult_lt_0_compat; lra).
  assert (SBU : Sc * B <= p2 480) by (change 480%Z with (80 + 400)%Z; rewrite p2_plus; apply Rmult_le_compat; lra).
  assert (SBL : p2 (-500) <= Sc * B) by (change (-500)%Z with (-100 + -400)%Z; rewrite p2_plus; apply Rmult_le_compat; lra).
  fold w in Em. assert (KB : 0 <= (n + 2) * w * B <= / 100 * B) by (split; [apply Rmult_le_pos; [apply Rmult_le_pos; lra|lra]|apply Rmult_le_compat_r; lra]).
  assert (Bm : Rabs (value m) <= 2 * B) by (replace (value m) with ((value m - mu) + mu) by ring; pose proof (Rabs_triang (value m - mu) mu); lra).
  assert (BP : Rabs (value m * value sy) <= 2 * (Sc * B)) by (rewrite Rabs_mult; replace (2 * (Sc * B)) with (2 * B * Sc) by ring; apply Rmult_le_compat; auto using Rabs_pos).
  assert (R1 : rep (nmul m sy) (rnd64 (value m * value sy))).
  { apply rep_mul; [now split|now split|]. apply (below_huge 481); [lia|]. pose proof (p2_twice 480 481 ltac:(lia)). unfold p2 in *. lra. }
  pose proof (err64 (value m * value sy)) as E1. rewrite half_ulp in E1. fold w in E1.
  assert (T : p2 (-1075) <= w * (Sc * B)).
  { apply Rle_trans with (w * p2 (-500)); [unfold w; rewrite <- p2_plus; apply p2_le; lia|]. apply Rmult_le_compat_l; lra. }
  assert (W1 : w / 2 * Rabs (value m * value sy) <= w / 2 * (2 * (Sc * B))) by (apply Rmult_le_compat_l; lra).
  destruct R1 as [F1 V1]. set (p := rnd64 (value m * value sy)) in *.
  assert (WS : 0 < w * (Sc * B) <= / 1000 * (Sc * B)) by (split; [apply Rmult_lt_0_compat; lra|apply Rmult_le_compat_r; lra]).
  assert (E1' : Rabs (p - value m * value sy) <= 2 * (w * (Sc * B))) by lra.
  assert (Bp : Rabs p <= 3 * (Sc * B)) by (replace p with ((p - value m * value sy) + value m * value sy) by ring; pose proof (Rabs_triang (p - value m * value sy) (value m * value sy)); lra).
  assert (BS : Rabs (p + value my) <= 3 * (Sc * B) + Y) by (pose proof (Rabs_triang p (value my)); lra).
  assert (R2 : rep (nadd (nmul m sy) my) (rnd64 (p + value my))).
  { apply rep_add; [now split|now split|]. apply (below_huge 510); [lia|]. pose proof (p2_le 480 500 ltac:(lia)). change 510%Z with (10 + 500)%Z. rewrite bpow_plus. change (bpow radix2 10) with 1024. pose proof (p2_pos 500). unfold p2 in *. lra. }
  destruct R2 as [F2 V2]. split; [exact F2|]. rewrite V2.
  assert (FP : generic_format radix2 (FLT_exp (-1074) 53) p) by (rewrite <- V1; apply value_format).
  pose proof (add_rel p (value my) FP (value_format my)) as E2. rewrite half_ulp in E2. fold w in E2.
  assert (E2' : w / 2 * Rabs (p + value my) <= w / 2 * (3 * (Sc * B) + Y)) by (apply Rmult_le_compat_l; lra).
  assert (E3 : Rabs (value sy * (value m - mu)) <= (n + 2) * (w * (Sc * B))).
  { rewrite Rabs_mult. replace ((n + 2) * (w * (Sc * B))) with (Sc * ((n + 2) * w * B)) by ring. apply Rmult_le_compat; auto using Rabs_pos. }
  replace (rnd64 (p + value my) - (value sy * mu + value my)) with ((rnd64 (p + value my) - (p + value my)) + ((p - value m * value sy) + value sy * (value m - mu))) by ring.
  pose proof (Rabs_triang (rnd64 (p + value my) - (p + value my)) ((p - value m * value sy) + value sy * (value m - mu))).
  pose proof (Rabs_triang (p - value m * value sy) (value sy * (value m - mu))).
  assert (0 <= w * Y) by (apply Rmult_le_pos; lra). assert (0 <= n * (w * Y)) by (apply Rmult_le_pos; lra). lra.
Qed.
Lemma unscale_variance : finite (nmul v (nmul sy sy)) /\ 0 <= value (nmul v (nmul sy sy)) /\
  Rabs (value (nmul v (nmul sy sy)) - value sy ^ 2 * sigma2) <= (n + 4) * p2 (-47) * ((Sc * B) * (Sc * B)).
Proof.
  pose proof w_small as Hw. pose proof n_small as Hnw. pose proof (p2_pos (-400)) as P1. pose proof (p2_pos (-100)) as P2. destruct Hsy as [Fsy Bsy].
  assert (W47 : p2 (-47) = 32 * w) by (unfold w; change (-47)%Z with (5 + -52)%Z; rewrite p2_plus; reflexivity). rewrite W47 in *.
  assert (BB : 0 < B * B) by nra. assert (S2 : 0 < Sc * Sc) by nra.
  assert (BBU : B * B <= p2 800) by (change 800%Z with (400 + 400)%Z; rewrite p2_plus; apply Rmult_le_compat; lra).
  assert (BBL : p2 (-800) <= B * B) by (change (-800)%Z with (-400 + -400)%Z; rewrite p2_plus; apply Rmult_le_compat; lra).
  assert (SSU : Sc * Sc <= p2 160) by (change 160%Z with (80 + 80)%Z; rewrite p2_plus; apply Rmult_le_compat; lra).
  assert (SSL : p2 (-200) <= Sc * Sc) by (change (-200)%Z with (-100 + -100)%Z; rewrite p2_plus; apply Rmult_le_compat; lra).
  assert (QQ : 0 <= value sy * value sy <= Sc * Sc).
  { split; [nra|]. rewrite <- (Rabs_right (value sy * value sy)) by nra. rewrite Rabs_mult. apply Rmult_le_compat; auto using Rabs_pos. }
  assert (KB : 0 <= (n + 3) * (32 * w) * (B * B) <= / 2 * (B * B)) by (split; [apply Rmult_le_pos; [apply Rmult_le_pos; lra|lra]|apply Rmult_le_compat_r; lra]).
  assert (Bv : value v <= 5 * (B * B)) by (apply abs_inv in Ev; lra).
  assert (R1 : rep (nmul sy sy) (rnd64 (value sy * value sy))).
  { apply rep_mul; [now split|now split|]. apply (below_huge 160); [lia|]. rewrite Rabs_right by lra. unfold p2 in *. lra. }
  pose proof (err64 (value sy * value sy)) as E1. rewrite half_ulp in E1. fold w in E1. rewrite (Rabs_right (value sy * value sy)) in E1 by lra.
  assert (T1 : p2 (-1075) <= w / 2 * (Sc * Sc)).
  { apply Rle_trans with (p2 (-53) * p2 (-200)); [rewrite <- p2_plus; apply p2_le; lia|]. rewrite half_ulp. fold w. apply Rmult_le_compat_l; lra. }
  assert (W1 : w / 2 * (value sy * value sy) <= w / 2 * (Sc * Sc)) by (apply Rmult_le_compat_l; lra).
  destruct R1 as [F1 V1]. set (q := rnd64 (value sy * value sy)) in *.
  assert (E1' : Rabs (q - value sy * value sy) <= w * (Sc * Sc)) by lra.
  assert (Pq : 0 <= q) by (unfold q; rewrite <- rnd64_0; apply rnd64_mono; lra).
  assert (WS : 0 < w * (Sc * Sc) <= / 1000 * (Sc * Sc)) by (split; [apply Rmult_lt_0_compat; lra|apply Rmult_le_compat_r; lra]).
  assert (Bq : q <= 2 * (Sc * Sc)) by (apply abs_inv in E1'; lra).
  set (G := (B * B) * (Sc * Sc)). assert (PG : 0 < G) by (apply Rmult_lt_0_compat; lra).
  assert (GU : G <= p2 960) by (change 960%Z with (800 + 160)%Z; rewrite p2_plus; apply Rmult_le_compat; lra).
  assert (GL : p2 (-1000) <= G) by (change (-1000)%Z with (-800 + -200)%Z; rewrite p2_plus; apply Rmult_le_compat; try lra; left; apply p2_pos).
  assert (VQ : 0 <= value v * q <= 10 * G).
  { split; [apply Rmult_le_pos; lra|]. replace (10 * G) with ((5 * (B * B)) * (2 * (Sc * Sc))) by (unfold G; ring). apply Rmult_le_compat; lra. }
  assert (R2 : rep (nmul v (nmul sy sy)) (rnd64 (value v * q))).
  { apply rep_mul; [now split|now split|]. apply (below_huge 970); [lia|]. rewrite Rabs_right by lra. change 970%Z with (10 + 960)%Z. rewrite bpow_plus. change (bpow radix2 10) with 1024. unfold p2 in *. lra. }
  destruct R2 as [F2 V2]. split; [exact F2|]. rewrite V2. split; [rewrite <- rnd64_0; apply rnd64_mono; lra|].
  pose proof (err64 (value v * q)) as E2. rewrite half_ulp in E2. fold w in E2. rewrite (Rabs_right (value v * q)) in E2 by lra.
  assert (T2 : p2 (-1075) <= w * G).
  { apply Rle_trans with (w * p2 (-1000)); [unfold w; rewrite <- p2_plus; apply p2_le; lia|]. apply Rmult_le_compat_l; lra. }
  assert (W2 : w / 2 * (value v * q) <= w / 2 * (10 * G)) by (apply Rmult_le_compat_l; lra).
  assert (E3 : Rabs (value v * (q - value sy * value sy)) <= 5 * (w * G)).
  { rewrite Rabs_mult, (Rabs_right (value v)) by lra. replace (5 * (w * G)) with ((5 * (B * B)) * (w * (Sc * Sc))) by (unfold G; ring). apply Rmult_le_compat; auto using Rabs_pos. }
  assert (E4 : Rabs ((value v - sigma2) * (value sy * value sy)) <= (n + 3) * 32 * (w * G)).
  { rewrite Rabs_mult, (Rabs_right (value sy * value sy)) by lra. replace ((n + 3) * 32 * (w * G)) with ((n + 3) * (32 * w) * (B * B) * (Sc * Sc)) by (unfold G; ring). apply Rmult_le_compat; auto using Rabs_pos; lra. }
  replace (rnd64 (value v * q) - value sy ^ 2 * sigma2) with ((rnd64 (value v * q) - value v * q) + (value v * (q - value sy * value sy) + (value v - sigma2) * (value sy * value sy))) by ring.
  pose proof (Rabs_triang (rnd64 (value v * q) - value v * q) (value v * (q - value sy * value sy) + (value v - sigma2) * (value sy * value sy))).
  pose proof (Rabs_triang (value v * (q - value sy * value sy)) ((value v - sigma2) * (value sy * value sy))).
  assert (0 < w * G) by (apply Rmult_lt_0_compat; lra). replace ((n + 4) * (32 * w) * (Sc * B * (Sc * B))) with ((n + 4) * 32 * (w * G)) by (unfold G; ring). lra.
Qed.
End Unscale.
Lemma variance_range : forall B l, l <> [] -> Forall (fun x => Rabs x <= B) l -> 0 <= variance l <= 4 * (B * B).
Proof.
  intros B l Hl HF. pose proof (mean_bound B l Hl HF) as Hm. split.
  - unfold variance, mean at 1. apply Rmult_le_pos; [apply Rsum_nonneg; apply Forall_map; rewrite Forall_forall; intros; apply pow2_ge_0|].
    left. apply Rinv_0_lt_compat, lt_0_INR. rewrite map_length. destruct l; [congruence|cbn; lia].
  - unfold variance. eapply Rle_trans; [apply Rle_abs|]. apply mean_bound; [destruct l; [congruence|discriminate]|]. apply Forall_map. eapply Forall_impl; [|exact HF].
    cbn beta. intros x Hx. replace ((x - mean l) ^ 2) with ((x - mean l) * (x - mean l)) by ring. rewrite Rabs_mult. replace (4 * (B * B)) with ((2 * B) * (2 * B)) by ring.
    assert (Rabs (x - mean l) <= 2 * B) by (pose proof (Rabs_triang x (- mean l)); rewrite Rabs_Ropp in *; unfold Rminus; lra). apply Rmult_le_compat; auto using Rabs_pos.
Qed.

Section P.
Context {HT : NumT f64}.
Variable W : Type.
Variable value_of : W -> nat -> tensor f64.
Notation predict := (predict W value_of).

Definition mean_row (F : list (list f64)) : list f64 := map np_mean (columns F).
Definition var_row (F : list (list f64)) : list f64 :=
  map np_mean (columns (map (fun r => vmap2 (fun a m => nmul (nsub a m) (nsub a m)) r (mean_row F)) F)).
Lemma columns_length : forall F d, rectangular d F -> length (columns F) = d.
Proof. intros F d [Hn HF]. unfold columns. rewrite map_length, seq_length. destruct F; [congruence|]. cbn. now apply Forall_inv in HF. Qed.
Lemma rows_spec : forall F d, rectangular d F -> length (mean_row F) = d /\ length (var_row F) = d /\
  forall j, (j < d)%nat -> exists m v, nth_error (mean_row F) j = Some m /\ nth_error (var_row F) j = Some v /\ mean_of (members F j) m /\ variance_of (members F j) m v.
Proof.
  intros F d HR. assert (Lm : length (mean_row F) = d) by (unfold mean_row; rewrite map_length; now apply columns_length).
  set (g := fun r => vmap2 (fun a m : f64 => nmul (nsub a m) (nsub a m)) r (mean_row F)).
  assert (HG : rectangular d (map g F)).
  { destruct HR as [Hn HF]. split; [destruct F; [congruence|discriminate]|]. apply Forall_map. eapply Forall_impl; [|exact HF]. cbn beta. intros r Hr. unfold g. apply vmap2_length; congruence. }
  split; [exact Lm|]. split; [unfold var_row; fold g; rewrite map_length; now apply columns_length|]. intros j Hj.
  pose proof (columns_nth F d j not_a_number np_mean HR Hj) as E1. pose proof (columns_nth (map g F) d j not_a_number np_mean HG Hj) as E2.
  fold (mean_row F) in E1. change (map np_mean (columns (map g F))) with (var_row F) in E2. change (col not_a_number F j) with (members F j) in E1.
  exists (np_mean (members F j)), (np_mean (col not_a_number (map g F) j)). split; [exact E1|]. split; [exact E2|].
  split; [exists (nsum (members F j)); split; [apply added_nsum|reflexivity]|].
  assert (EC : col not_a_number (map g F) j = map (fun x => nmul (nsub x (np_mean (members F j))) (nsub x (np_mean (members F j)))) (members F j)).
  { unfold col. rewrite map_map. unfold members at 3. rewrite map_map. apply map_ext_in. intros r Hr. destruct HR as [_ HF]. rewrite Forall_forall in HF. specialize (HF r Hr).
    unfold g. apply nth_error_nth. rewrite nth_error_vmap2, E1. rewrite (nth_error_nth' r not_a_number) by lia. reflexivity. }
  rewrite EC. eexists. split; [apply added_nsum|reflexivity].
Qed.

(** Without target normalization: what [predict] returns are such means and variances of the individual predictions. *)
Lemma aggregates : forall c X b w F N d, c_normalize_output c = false -> predict c (Matrix X) true b w = Ok (Individual F N) -> rectangular d F ->
  predict c (Matrix X) false b w = Ok (Aggregate (mean_row F) (var_row F)).
Proof.
  intros c X b w F N d Hc HP HR. unfold BNN.predict in *. destruct (negb (b_trained b)); [discriminate|].
  destruct (if c_normalize_input c then _ else _) as [X1|]; [|discriminate]. cbn [bind] in *.
  destruct (outputs_of W value_of b w (b_samples b) X1) as [outs|]; [|discriminate]. cbn [bind] in *. rewrite Hc in *. cbn [bind] in *.
  assert (EF : map (map fst) outs = F) by congruence. rewrite EF. destruct F as [|r F]; [now destruct HR|reflexivity].
Qed.
Lemma aggregates_scaled : forall c X b w F N d my sy, c_normalize_output c = true -> b_y_stats b = Some (my, sy) ->
  predict (unscaled c) (Matrix X) true b w = Ok (Individual F N) -> rectangular d F ->
  predict c (Matrix X) false b w = Ok (Aggregate (map (fun m => nadd (nmul m sy) my) (mean_row F)) (map (fun v => nmul v (nmul sy sy)) (var_row F))).
Proof.
  intros c X b w F N d my sy Hc Hb HP HR. unfold BNN.predict in *. destruct (negb (b_trained b)); [discriminate|]. cbn [unscaled c_normalize_input c_normalize_output] in HP.
  destruct (if c_normalize_input c then _ else _) as [X1|]; [|discriminate]. cbn [bind] in *.
  destruct (outputs_of W value_of b w (b_samples b) X1) as [outs|]; [|discriminate]. cbn [bind] in *. rewrite Hc, Hb in *. cbn [bind] in *.
  assert (EF : map (map fst) outs = F) by congruence. rewrite EF. destruct F as [|r F]; [now destruct HR|reflexivity].
Qed.

(** The variance is never negative; mean and variance are finite and accurate where the individual predictions are at most
    [B] in size; and one individual prediction that is infinite or NaN turns the variance into NaN. *)
Theorem C107_predictions_in_doubles : forall c X b w F N d, c_normalize_output c = false ->
  predict c (Matrix X) true b w = Ok (Individual F N) -> rectangular d F -> (Z.of_nat (length F) <= 2 ^ 20)%Z ->
  exists M V, predict c (Matrix X) false b w = Ok (Aggregate M V) /\ length M = d /\ length V = d /\
  forall j, (j < d)%nat -> exists m v, nth_error M j = Some m /\ nth_error V j = Some v /\
    (forall B, bpow radix2 (-400) <= B <= bpow radix2 490 -> (forall i x, entry F i j = Some x -> finite x /\ Rabs (value x) <= B) ->
       finite m /\ finite v /\ 0 <= value v /\
       Rabs (value m - mean (map value (members F j))) <= (INR (length F) + 2) * bpow radix2 (-52) * B /\
       Rabs (value v - variance (map value (members F j))) <= (INR (length F) + 3) * bpow radix2 (-47) * (B * B)) /\
    (forall i x, entry F i j = Some x -> spoilt x -> spoilt m /\ v = not_a_number).
Proof.
  intros c X b w F N d Hc HP HR HN. exists (mean_row F), (var_row F). split; [eapply aggregates; eauto|].
  destruct (rows_spec F d HR) as (L1 & L2 & L3). split; [exact L1|]. split; [exact L2|]. intros j Hj. destruct (L3 j Hj) as (m & v & E1 & E2 & Hm & Hv).
  exists m, v. split; [exact E1|]. split; [exact E2|].
  assert (EJ : forall i, entry F i j = nth_error (members F j) i) by (intros i; unfold members; apply (entry_col _ F not_a_number d); [apply HR|exact Hj]).
  assert (LL : length (members F j) = length F) by apply map_length.
  assert (NE : members F j <> []) by (destruct HR as [HX _]; unfold members; destruct F; [congruence|discriminate]).
  split.
  - intros B HB HF. rewrite <- LL in HN |- *. apply C107_any_order; auto. intros x Hx. apply In_nth_error in Hx as [i Hi]. apply (HF i). now rewrite EJ.
  - intros i x Hx HS. rewrite EJ in Hx. apply nth_error_In in Hx.
    apply (variance_nan (members F j) m v x Hm Hv NE); auto. rewrite LL, INR_IZR_INZ. change (p2 20) with (IZR (2 ^ 20)). now apply IZR_le.
Qed.

(** With target normalization: mean * y_std + y_mean and variance * y_std^2, where [F] are the individual predictions on
    the scale of the normalized targets. *)
Theorem C107_normalized_predictions : forall c X b w F N d my sy, c_normalize_output c = true -> b_y_stats b = Some (my, sy) ->
  predict (unscaled c) (Matrix X) true b w = Ok (Individual F N) -> rectangular d F -> (Z.of_nat (length F) <= 2 ^ 20)%Z ->
  exists M V, predict c (Matrix X) false b w = Ok (Aggregate M V) /\ length M = d /\ length V = d /\
  forall j, (j < d)%nat -> exists m v, nth_error M j = Some m /\ nth_error V j = Some v /\
    (forall B S Y, bpow radix2 (-400) <= B <= bpow radix2 400 -> bpow radix2 (-100) <= S <= bpow radix2 80 -> Y <= bpow radix2 500 ->
       (forall i x, entry F i j = Some x -> finite x /\ Rabs (value x) <= B) ->
       finite sy -> Rabs (value sy) <= S -> finite my -> Rabs (value my) <= Y ->
       finite m /\ finite v /\ 0 <= value v /\
       Rabs (value m - (value sy * mean (map value (members F j)) + value my)) <= (INR (length F) + 8) * bpow radix2 (-52) * (S * B + Y) /\
       Rabs (value v - value sy ^ 2 * variance (map value (members F j))) <= (INR (length F) + 4) * bpow radix2 (-47) * ((S * B) * (S * B))) /\
    (forall i x, entry F i j = Some x -> spoilt x -> spoilt m /\ v = not_a_number).
Proof.
  intros c X b w F N d my sy Hc Hb HP HR HN. pose proof (aggregates_scaled c X b w F N d my sy Hc Hb HP HR) as HA.
  do 2 eexists. split; [exact HA|]. destruct (rows_spec F d HR) as (L1 & L2 & L3). rewrite !map_length. split; [exact L1|]. split; [exact L2|].
  intros j Hj. destruct (L3 j Hj) as (m & v & E1 & E2 & Hm & Hv). rewrite !nth_error_map, E1, E2. cbn [option_map].
  exists (nadd (nmul m sy) my), (nmul v (nmul sy sy)). split; [reflexivity|]. split; [reflexivity|].
  assert (EJ : forall i, entry F i j = nth_error (members F j) i) by (intros i; unfold members; apply (entry_col _ F not_a_number d); [apply HR|exact Hj]).
  assert (LL : length (members F j) = length F) by apply map_length.
  assert (NE : members F j <> []) by (destruct HR as [HX _]; unfold members; destruct F; [congruence|discriminate]).
  assert (HN' : INR (length F) <= p2 20) by (rewrite INR_IZR_INZ; change (p2 20) with (IZR (2 ^ 20)); now apply IZR_le).
  split.
  - intros B Sc Y HB HS HY HF Fsy Bsy Fmy Bmy. fold (p2 (-400)) (p2 400) (p2 (-100)) (p2 80) (p2 500) (p2 (-52)) (p2 (-47)) in *.
    assert (HI : forall x, In x (members F j) -> finite x /\ Rabs (value x) <= B) by (intros x Hx; apply In_nth_error in Hx as [i Hi]; apply (HF i); now rewrite EJ).
    assert (HB' : p2 (-400) <= B <= p2 490) by (pose proof (p2_le 400 490 ltac:(lia)); lra).
    rewrite <- LL in HN. destruct (C107_any_order B (members F j) m v NE HN HB' HI Hm Hv) as (Fm & Fv & Pv & Em & Ev). rewrite LL in *.
    assert (HV : Forall (fun x => Rabs x <= B) (map value (members F j))) by (apply Forall_map; rewrite Forall_forall; intros x Hx; now apply HI).
    assert (NV : map value (members F j) <> []) by (intros E; apply map_eq_nil in E; contradiction).
    assert (N1 : 1 <= INR (length F)) by (change 1 with (INR 1); apply le_INR; destruct HR as [HX _]; destruct F; [congruence|cbn; lia]).
    assert (Y0 : 0 <= Y) by (pose proof (Rabs_pos (value my)); lra).
    pose proof (mean_bound B _ NV HV) as MB. pose proof (variance_range B _ NV HV) as VB.
    destruct (unscale_mean B Sc Y (INR (length F)) _ m my sy HB HS (conj Y0 HY) (conj N1 HN') (conj Fmy Bmy) (conj Fsy Bsy) Fm MB Em) as [FM EM].
    destruct (unscale_variance B Sc (INR (length F)) _ v sy HB HS (conj N1 HN') (conj Fsy Bsy) Fv Pv VB Ev) as (FV & PV & EV). auto.
  - intros i x Hx HS. rewrite EJ in Hx. apply nth_error_In in Hx. rewrite <- LL in HN'.
    destruct (variance_nan (members F j) m v x Hm Hv NE HN' Hx HS) as [Sm ->]. split; [apply add_spoilt_l, mul_spoilt_l, Sm|]. destruct (nmul sy sy); reflexivity.
Qed.

(** *** Three networks *)
Definition ens_net : net f64 := {| net_input := 0; net_vars := [1%nat]; net_out := fun vs X => Ok (map (fun _ => (nth 0 (concat (map data vs)) n0, n0)) X) |}.
(** An ensemble of networks with constant outputs. *)
Definition ens (zs : list f64) : bnn f64 :=
  {| b_data := None; b_x_stats := None; b_y_stats := None; b_x_ph := Some (0%nat, 1%nat); b_net := Some ens_net; b_params := [(1%nat, [1%nat])];
     b_samples := map (fun z => SList [{| shape := [1%nat]; data := [z] |}]) zs; b_trained := true |}.
Definition ens_X : list (list f64) := [[n1]].
Definition ens_config : config := demo_config 3 9 1 2 false false.
Lemma ens_individual : forall w zs, predict ens_config (Matrix ens_X) true (ens zs) w = Ok (Individual (map (fun z => [z]) zs) (map (fun _ => [nexp n0]) zs)).
Proof.
  intros w zs. unfold BNN.predict. cbn [ens b_trained negb ens_config demo_config c_normalize_input c_normalize_output bind b_samples].
  assert (E : outputs_of W value_of (ens zs) w (map (fun z => SList [{| shape := [1%nat]; data := [z] |}]) zs) ens_X = Ok (map (fun z => [(z, n0)]) zs)).
  { generalize zs at 1. intros ys. induction zs as [|z zs IH]; [reflexivity|]. cbn [map outputs_of]. change (compute_network_output W value_of (ens ys) w _ ens_X) with (Ok [(z, n0 : f64)]). cbn [bind]. rewrite IH. reflexivity. }
  rewrite E. cbn [bind]. rewrite !map_map. reflexivity.
Qed.
Lemma ens_aggregate : forall w zs, zs <> [] -> predict ens_config (Matrix ens_X) false (ens zs) w = Ok (Aggregate [np_mean zs] [np_mean (map (dev (np_mean zs)) zs)]).
Proof.
  intros w zs Hz. erewrite aggregates; [|reflexivity|apply ens_individual|].
  2:{ instantiate (1 := 1%nat). split; [destruct zs; [congruence|discriminate]|]. apply Forall_map. rewrite Forall_forall. reflexivity. }
  assert (E : forall ys : list f64, ys <> [] -> map np_mean (columns (map (fun z => [z]) ys)) = [np_mean ys]).
  { intros [|y ys] Hy; [congruence|]. unfold columns. cbn [map width hd length seq]. rewrite map_map. cbn [nth]. now rewrite map_id. }
  unfold mean_row, var_row. rewrite E by exact Hz. unfold mean_row. rewrite E by exact Hz. rewrite map_map.
  match goal with |- context [columns ?l] => replace l with (map (fun z => [z]) (map (dev (np_mean zs)) zs)) by (rewrite map_map; reflexivity) end. rewrite E; [reflexivity|]. destruct zs; [congruence|discriminate].
Qed.
Lemma third_gap : value (np_mean (repeat tenth 3)) <> value tenth.
Proof.
  assert (F1 : finite (np_mean (repeat tenth 3))) by (vm_compute; reflexivity). assert (F2 : finite tenth) by (vm_compute; reflexivity).
  assert (L : nltb tenth (np_mean (repeat tenth 3)) = true) by (vm_compute; reflexivity).
  rewrite (rep_ltb _ _ _ _ (rep_value _ F2) (rep_value _ F1)) in L. apply Rltb_true in L. lra.
Qed.
(** Networks that agree exactly: the mean may differ from what all of them predict, and the variance from 0. *)
Theorem C107_unanimous_refuted : forall w : W, exists c X b F N M V x m v,
  predict c (Matrix X) true b w = Ok (Individual F N) /\ predict c (Matrix X) false b w = Ok (Aggregate M V) /\
  length F = 3%nat /\ (forall r, In r F -> r = [x]) /\ finite x /\ M = [m] /\ V = [v] /\ value m <> value x /\ 0 < value v.
Proof.
  intros w. exists ens_config, ens_X, (ens (repeat tenth 3)). do 4 eexists. exists tenth. do 2 eexists. split; [apply ens_individual|]. split; [apply ens_aggregate; discriminate|].
  split; [reflexivity|]. split; [cbn [repeat map]; intros r [<-|[<-|[<-|[]]]]; reflexivity|]. split; [vm_compute; reflexivity|]. split; [reflexivity|]. split; [reflexivity|].
  split; [apply third_gap|].
  set (v := np_mean (map _ _)). assert (F1 : finite v) by (vm_compute; reflexivity). assert (L : nltb n0 v = true) by (vm_compute; reflexivity).
  rewrite (rep_ltb _ _ _ _ rep_0 (rep_value _ F1)) in L. now apply Rltb_true in L.
Qed.
(** Finite individual predictions: the mean may overflow, and then so does the variance. *)
Theorem C107_finite_members_refuted : forall w : W, exists c X b F N M V m v,
  predict c (Matrix X) true b w = Ok (Individual F N) /\ predict c (Matrix X) false b w = Ok (Aggregate M V) /\
  (forall r x, In r F -> In x r -> finite x) /\ M = [m] /\ V = [v] /\ spoilt m /\ spoilt v.
Proof.
  intros w. exists ens_config, ens_X, (ens [f_of_Z (2 ^ 1023); f_of_Z (2 ^ 1023)]). do 6 eexists. split; [apply ens_individual|]. split; [apply ens_aggregate; discriminate|].
  split; [|split; [reflexivity|split; [reflexivity|]]].
  - intros r x Hr Hx. cbn [map] in Hr. destruct Hr as [<-|[<-|[]]]; destruct Hx as [<-|[]]; vm_compute; reflexivity.
  - split; vm_compute; reflexivity.
Qed.
(** Hypotheses of [C107_predictions_in_doubles]: networks predicting 1, 2 and 6. *)
Example C107_example : forall w : W, exists N, predict ens_config (Matrix ens_X) true (ens [f_of_Z 1; f_of_Z 2; f_of_Z 6]) w = Ok (Individual [[f_of_Z 1]; [f_of_Z 2]; [f_of_Z 6]] N) /\
  rectangular 1 [[f_of_Z 1]; [f_of_Z 2]; [f_of_Z 6]] /\ bpow radix2 (-400) <= 6 <= bpow radix2 490 /\
  forall i x, entry [[f_of_Z 1]; [f_of_Z 2]; [f_of_Z 6]] i 0 = Some x -> finite x /\ Rabs (value x) <= 6.
Proof.
  intros w. eexists. split; [apply ens_individual|]. split; [split; [discriminate|repeat constructor]|]. split.
  - split; [apply Rle_trans with (bpow radix2 0); [apply bpow_le; lia|cbn; lra]|apply Rle_trans with (bpow radix2 3); [cbn; lra|apply bpow_le; lia]].
  - assert (R : forall z x, (0 <= z <= 6)%Z -> Some (f_of_Z z) = Some x -> finite x /\ Rabs (value x) <= 6).
    { intros z x Hz E. apply some_inj in E. subst x. destruct (rep_small z ltac:(lia)) as [F V]. split; [exact F|]. rewrite V, <- abs_IZR. apply IZR_le. lia. }
    intros [|[|[|i]]] x Hx; unfold entry in Hx; cbn [nth_error] in Hx; [apply (R 1%Z)|apply (R 2%Z)|apply (R 6%Z)|destruct i; discriminate Hx]; auto; lia.
Qed.
End P.
