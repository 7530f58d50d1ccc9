(** Sums, means and variances of doubles, the sums being taken in any order. *)
From Coq Require Import List Arith Lia ZArith Bool Reals Lra Permutation.
From Flocq Require Import Core.Core Plus_error.
From Flocq Require IEEE754.BinarySingleNaN.
From Verif.Proofs Require Import SafeFloat FloatCell FloatAdapt.
From Verif.Base Require Import Py Num Float64 Vec Lists.
From Verif.Spec Require Import Svgd Stats Doubles.
From Verif.Proofs Require Import Svgd DoubleCell DoubleRun.
From Verif.Props Require Import PDoubleData PDoubleTensor.
Import ListNotations.
Local Open Scope R_scope.

Definition within (B : R) (x : f64) : Prop := finite x /\ Rabs (value x) <= B.
Lemma sum_app : forall l m, Rsum (l ++ m) = Rsum l + Rsum m.
Proof. induction l as [|x l IH]; intros m; cbn [Rsum app]; [lra|rewrite IH; lra]. Qed.
Lemma sum_bound : forall B l, Forall (fun x => Rabs x <= B) l -> Rabs (Rsum l) <= INR (length l) * B.
Proof.
  intros B l. induction l as [|x l IH]; intros HF; [cbn; rewrite Rabs_R0; lra|]. inversion HF; subst. cbn [Rsum length]. rewrite S_INR.
  pose proof (Rabs_triang x (Rsum l)). specialize (IH ltac:(assumption)). lra.
Qed.
Lemma within_sum : forall B l, Forall (within B) l -> Rabs (Rsum (map value l)) <= INR (length l) * B.
Proof. intros B l HF. rewrite <- (map_length value). apply sum_bound. apply Forall_map. eapply Forall_impl; [|exact HF]. now intros x [_ H]. Qed.

Lemma added_err : forall B l s, added l s -> 0 <= B <= p2 1000 -> Forall (within B) l -> INR (length l) <= p2 20 ->
  finite s /\ Rabs (value s - Rsum (map value l)) <= p2 (-52) * (INR (length l) * INR (length l)) * B.
Proof.
  intros B l s HA [PB UB]. induction HA as [|x|l a b s t HP HA IHA HB IHB]; intros HF HL.
  - destruct rep_0 as [F V]. split; [exact F|]. cbn [length INR map Rsum]. rewrite V, Rminus_0_r, Rabs_R0. lra.
  - apply Forall_inv in HF. destruct HF as [F V]. split; [exact F|]. cbn [length INR map Rsum]. replace (value x - (value x + 0)) with 0 by ring. rewrite Rabs_R0.
    pose proof (p2_pos (-52)). nra.
  - assert (HFab : Forall (within B) (a ++ b)) by (eapply Permutation_Forall; eauto). apply Forall_app in HFab as [HFa HFb].
    assert (EL : INR (length l) = INR (length a) + INR (length b)) by (rewrite (Permutation_length HP), app_length, plus_INR; reflexivity).
    assert (ES : Rsum (map value l) = Rsum (map value a) + Rsum (map value b)) by (rewrite (Rsum_perm _ _ (Permutation_map value HP)), map_app, sum_app; reflexivity).
    rewrite EL in HL |- *. rewrite ES. pose proof (pos_INR (length a)) as Pa. pose proof (pos_INR (length b)) as Pb.
    destruct (IHA HFa ltac:(lra)) as [Fs Es]. destruct (IHB HFb ltac:(lra)) as [Ft Et]. clear IHA IHB.
    pose proof (within_sum B a HFa) as Sa. pose proof (within_sum B b HFb) as Sb.
    assert (Za : length a = 0%nat \/ 1 <= INR (length a)) by (destruct (length a) as [|k]; [now left|right; rewrite S_INR; pose proof (pos_INR k); lra]).
    assert (Zb : length b = 0%nat \/ 1 <= INR (length b)) by (destruct (length b) as [|k]; [now left|right; rewrite S_INR; pose proof (pos_INR k); lra]).
    assert (Na : length a = 0%nat -> Rsum (map value a) = 0) by (destruct a; [reflexivity|discriminate]).
    assert (Nb : length b = 0%nat -> Rsum (map value b) = 0) by (destruct b; [reflexivity|discriminate]).
    set (ka := INR (length a)) in *. set (kb := INR (length b)) in *. set (SA := Rsum (map value a)) in *. set (SB := Rsum (map value b)) in *.
    set (w := p2 (-52)) in *. assert (Pw : 0 < w) by apply p2_pos.
    assert (W20 : w * p2 20 <= / 4) by (unfold w; rewrite <- p2_plus; unfold p2; cbn; lra).
    assert (KC : forall k, 0 <= k <= p2 20 -> 0 <= w * (k * k) * B <= / 4 * k * B).
    { intros k Hk. assert (0 <= k * B) by nra. split.
      - apply Rmult_le_pos; [|lra]. apply Rmult_le_pos; [lra|nra].
      - apply Rmult_le_compat_r; [lra|]. replace (w * (k * k)) with (w * k * k) by ring. apply Rmult_le_compat_r; [lra|].
        apply Rle_trans with (w * p2 20); [apply Rmult_le_compat_l; lra|exact W20]. }
    pose proof (KC ka ltac:(lra)) as Ka. pose proof (KC kb ltac:(lra)) as Kb.
    assert (kab : 0 <= ka * B /\ 0 <= kb * B) by (split; apply Rmult_le_pos; lra).
    assert (SUM : Rabs (value s + value t) <= 5 / 4 * ((ka + kb) * B)).
    { replace (value s + value t) with ((value s - SA) + (value t - SB) + (SA + SB)) by ring.
      pose proof (Rabs_triang ((value s - SA) + (value t - SB)) (SA + SB)). pose proof (Rabs_triang (value s - SA) (value t - SB)). pose proof (Rabs_triang SA SB). lra. }
    assert (HU : Rabs (value s + value t) <= p2 1021).
    { eapply Rle_trans; [exact SUM|]. apply Rle_trans with (2 * (p2 20 * p2 1000)).
      - assert ((ka + kb) * B <= p2 20 * p2 1000) by (apply Rmult_le_compat; lra). assert (0 <= (ka + kb) * B) by (apply Rmult_le_pos; lra). lra.
      - change 2 with (p2 1). rewrite <- !p2_plus. apply p2_le. lia. }
    assert (RS : rep (nadd s t) (rnd64 (value s + value t))) by (apply rep_add; [now split|now split|apply (below_huge 1021); [lia|exact HU]]).
    destruct RS as [FS VS]. split; [exact FS|]. rewrite VS. clear VS FS HU.
    assert (ZERO : forall z, Rabs z <= 0 -> z = 0).
    { intros z Hz. destruct (Req_dec z 0); [assumption|]. pose proof (Rabs_pos_lt z H). lra. }
    destruct Za as [Za|Za].
    { assert (K0 : ka = 0) by (unfold ka; now rewrite Za). specialize (Na Za). rewrite Na, K0 in *. assert (E0 : value s = 0) by (apply ZERO; replace (value s) with (value s - 0) by ring; lra).
      rewrite E0, !Rplus_0_l, value_round. exact Et. }
    destruct Zb as [Zb|Zb].
    { assert (K0 : kb = 0) by (unfold kb; now rewrite Zb). specialize (Nb Zb). rewrite Nb, K0 in *. assert (E0 : value t = 0) by (apply ZERO; replace (value t) with (value t - 0) by ring; lra).
      rewrite E0, !Rplus_0_r, value_round. exact Es. }
    pose proof (add_rel (value s) (value t) (value_format s) (value_format t)) as RE.
    replace (p2 (-53)) with (w / 2) in RE by (unfold w; change (-52)%Z with (1 + -53)%Z; rewrite p2_plus; change (p2 1) with 2; field).
    replace (rnd64 (value s + value t) - (SA + SB)) with ((rnd64 (value s + value t) - (value s + value t)) + ((value s - SA) + (value t - SB))) by ring.
    eapply Rle_trans; [apply Rabs_triang|]. pose proof (Rabs_triang (value s - SA) (value t - SB)).
    assert (w / 2 * Rabs (value s + value t) <= w / 2 * (5 / 4 * ((ka + kb) * B))) by (apply Rmult_le_compat_l; lra).
    apply Rle_trans with (w * B * (5 / 8 * (ka + kb) + ka * ka + kb * kb)); [lra|].
    replace (w * ((ka + kb) * (ka + kb)) * B) with (w * B * ((ka + kb) * (ka + kb))) by ring. apply Rmult_le_compat_l; [apply Rmult_le_pos; lra|]. nra.
Qed.
Lemma added_pos : forall l s, added l s -> Forall (fun x => finite x /\ 0 <= value x) l -> finite s -> 0 <= value s.
Proof.
  intros l s HA. induction HA as [|x|l a b s t HP HA IHA HB IHB]; intros HF Fs.
  - destruct rep_0 as [F V]. rewrite V. lra.
  - apply Forall_inv in HF. apply HF.
  - assert (HFab : Forall (fun x => finite x /\ 0 <= value x) (a ++ b)) by (eapply Permutation_Forall; eauto). apply Forall_app in HFab as [HFa HFb].
    assert (F1 : finite s) by (destruct (BinarySingleNaN.is_finite s) eqn:E; [exact E|exfalso; pose proof (add_spoilt_l s t E) as X; unfold spoilt, finite in *; congruence]).
    assert (F2 : finite t) by (destruct (BinarySingleNaN.is_finite t) eqn:E; [exact E|exfalso; pose proof (add_spoilt_r s t E) as X; unfold spoilt, finite in *; congruence]).
    specialize (IHA HFa F1). specialize (IHB HFb F2).
    pose proof (BinarySingleNaN.Bplus_correct 53 1024 prec64 emax64 BinarySingleNaN.mode_NE s t F1 F2) as C. destruct (Rlt_bool _ _).
    + destruct C as (C & _). unfold value at 1. cbn [nadd Num_f64]. rewrite C. rewrite <- rnd64_0. apply rnd64_mono. unfold value in *. lra.
    + exfalso. destruct C as (C & _). unfold finite in Fs. cbn [nadd Num_f64] in Fs. destruct (BinarySingleNaN.Bplus _ s t) as [| | |] eqn:E; cbn in C, Fs; try discriminate Fs.
      all: unfold BinarySingleNaN.binary_overflow in C; cbn in C; discriminate C.
Qed.

(** *** Means *)
Lemma count : forall A (l : list A), l <> [] -> INR (length l) <= p2 20 -> rep (nint (Z.of_nat (length l))) (INR (length l)) /\ 1 <= INR (length l).
Proof.
  intros A l Hl HN. apply rep_count; [destruct l; [congruence|cbn; lia]|]. apply lt_IZR. rewrite <- INR_IZR_INZ. eapply Rle_lt_trans; [exact HN|]. change (IZR (2 ^ 53)) with (p2 53). apply bpow_lt. lia.
Qed.
Lemma mean_bound : forall B l, l <> [] -> Forall (fun x => Rabs x <= B) l -> Rabs (mean l) <= B.
Proof.
  intros B l Hl HF. pose proof (sum_bound B l HF) as HS. unfold mean. assert (P : 0 < INR (length l)) by (apply lt_0_INR; destruct l; [congruence|cbn; lia]).
  unfold Rdiv. rewrite Rabs_mult, Rabs_inv, (Rabs_right (INR _)) by lra. apply (Rmult_le_reg_r (INR (length l))); [exact P|]. rewrite Rmult_assoc, Rinv_l by lra. lra.
Qed.
Lemma mean_diff : forall (f g : f64 -> R) d l, l <> [] -> (forall x, In x l -> Rabs (f x - g x) <= d) -> Rabs (mean (map f l) - mean (map g l)) <= d.
Proof.
  intros f g d l Hl HD. assert (P : 0 < INR (length l)) by (apply lt_0_INR; destruct l; [congruence|cbn; lia]).
  assert (E : mean (map f l) - mean (map g l) = mean (map (fun x => f x - g x) l)).
  { unfold mean. rewrite !map_length. replace (Rsum (map (fun x => f x - g x) l)) with (Rsum (map f l) - Rsum (map g l)); [field; lra|].
    clear. induction l as [|x l IH]; cbn [map Rsum]; [lra|]. rewrite <- IH. ring. }
  rewrite E. apply mean_bound; [destruct l; [congruence|discriminate]|]. apply Forall_map. rewrite Forall_forall. exact HD.
Qed.
Lemma mean_err : forall B l m, mean_of l m -> l <> [] -> p2 (-1000) <= B <= p2 1000 -> Forall (within B) l -> INR (length l) <= p2 20 ->
  finite m /\ Rabs (value m - mean (map value l)) <= (INR (length l) + 2) * p2 (-52) * B.
Proof.
  intros B l m (s & HA & ->) Hl [LB UB] HF HN. pose proof (p2_pos (-1000)) as P1000. destruct (added_err B l s HA ltac:(lra) HF HN) as [Fs Es]. destruct (count _ l Hl HN) as [RN LN].
  pose proof (within_sum B l HF) as HS. unfold mean. rewrite map_length. set (n := INR (length l)) in *. set (S := Rsum (map value l)) in *.
  set (w := p2 (-52)) in *. assert (Pw : 0 < w) by apply p2_pos. assert (W20 : w * p2 20 <= / 4) by (unfold w; rewrite <- p2_plus; unfold p2; cbn; lra).
  assert (Hnn : Rabs (value s - S) <= n * (w * n * B)) by (replace (n * (w * n * B)) with (w * (n * n) * B) by ring; exact Es).
  assert (ED : Rabs (value s / n - S / n) <= w * n * B).
  { replace (value s / n - S / n) with ((value s - S) / n) by (field; lra). unfold Rdiv. rewrite Rabs_mult, Rabs_inv, (Rabs_right n) by lra.
    apply (Rmult_le_reg_r n); [lra|]. rewrite Rmult_assoc, Rinv_l by lra. lra. }
  assert (SD : Rabs (S / n) <= B).
  { unfold Rdiv. rewrite Rabs_mult, Rabs_inv, (Rabs_right n) by lra. apply (Rmult_le_reg_r n); [lra|]. rewrite Rmult_assoc, Rinv_l by lra. lra. }
  assert (WN : 0 <= w * n * B <= / 4 * B).
  { split; [apply Rmult_le_pos; [|lra]; apply Rmult_le_pos; lra|]. apply Rmult_le_compat_r; [lra|]. apply Rle_trans with (w * p2 20); [apply Rmult_le_compat_l; lra|exact W20]. }
  assert (VD : Rabs (value s / n) <= 5 / 4 * B).
  { replace (value s / n) with ((value s / n - S / n) + S / n) by ring. pose proof (Rabs_triang (value s / n - S / n) (S / n)). lra. }
  assert (RD : rep (ndiv s (nint (Z.of_nat (length l)))) (rnd64 (value s / n))).
  { apply rep_div; [now split|exact RN|lra|]. apply (below_huge 1001); [lia|]. pose proof (p2_twice 1000 1001 ltac:(lia)). unfold p2 in *. lra. }
  destruct RD as [F V]. split; [exact F|]. rewrite V. pose proof (err64 (value s / n)) as RE.
  replace (p2 (-53)) with (w / 2) in RE by (unfold w; change (-52)%Z with (1 + -53)%Z; rewrite p2_plus; change (p2 1) with 2; field).
  assert (T : p2 (-1075) <= w / 4 * B).
  { apply Rle_trans with (p2 (-54) * p2 (-1000)); [rewrite <- p2_plus; apply p2_le; lia|]. replace (w / 4) with (p2 (-54)) by (unfold w; change (-52)%Z with (2 + -54)%Z; rewrite p2_plus; change (p2 2) with 4; field).
    apply Rmult_le_compat_l; [left; apply p2_pos|exact LB]. }
  assert (w / 2 * Rabs (value s / n) <= w / 2 * (5 / 4 * B)) by (apply Rmult_le_compat_l; lra).
  replace (rnd64 (value s / n) - S / n) with ((rnd64 (value s / n) - value s / n) + (value s / n - S / n)) by ring.
  pose proof (Rabs_triang (rnd64 (value s / n) - value s / n) (value s / n - S / n)). assert (0 <= w * B) by (apply Rmult_le_pos; lra). lra.
Qed.
Lemma mean_pos64 : forall l m, mean_of l m -> l <> [] -> INR (length l) <= p2 20 -> Forall (fun x => finite x /\ 0 <= value x) l -> finite m -> 0 <= value m.
Proof.
  intros l m (s & HA & ->) Hl HN HF Fm. destruct (count _ l Hl HN) as [RN LN].
  assert (Fs : finite s) by (destruct (BinarySingleNaN.is_finite s) eqn:E; [exact E|exfalso; pose proof (div_spoilt_l s (nint (Z.of_nat (length l))) E) as X; unfold spoilt, finite in *; congruence]).
  pose proof (added_pos l s HA HF Fs) as Ps.
  assert (H : rep (ndiv s (nint (Z.of_nat (length l)))) (rnd64 (value s / INR (length l)))).
  { apply rep_div; [now split|exact RN|lra|]. eapply Rle_lt_trans; [|apply (value_bound s)].
    assert (0 <= value s / INR (length l) <= value s).
    { split; [apply Rmult_le_pos; [lra|left; apply Rinv_0_lt_compat; lra]|]. apply (Rmult_le_reg_r (INR (length l))); [lra|]. unfold Rdiv. rewrite Rmult_assoc, Rinv_l by lra. nra. }
    rewrite (Rabs_right (value s)) by lra. rewrite Rabs_right by (apply Rle_ge; rewrite <- rnd64_0; apply rnd64_mono; lra). apply Rle_trans with (rnd64 (value s)); [apply rnd64_mono; lra|right; apply value_round]. }
  destruct H as [_ ->]. rewrite <- rnd64_0. apply rnd64_mono. apply Rmult_le_pos; [lra|left; apply Rinv_0_lt_compat; lra].
Qed.

(** *** Squared deviations *)
Definition dev (m x : f64) : f64 := nmul (nsub x m) (nsub x m).
Lemma dev_err : forall B k mu m x, p2 (-400) <= B <= p2 490 -> 0 <= k <= / 8 -> within B x -> finite m -> Rabs mu <= B -> Rabs (value m - mu) <= k * B ->
  within (17 * (B * B)) (dev m x) /\ 0 <= value (dev m x) /\ Rabs (value (dev m x) - (value x - mu) ^ 2) <= (35 * p2 (-52) + 6 * k) * (B * B).
Proof.
  intros B k mu m x [LB UB] Hk [Fx Bx] Fm Bmu Em. pose proof (p2_pos (-400)) as PB.
  set (w := p2 (-52)). assert (Pw : 0 < w) by apply p2_pos. assert (W1 : w <= / 1000) by (unfold w, p2; cbn; lra).
  assert (KB : 0 <= k * B <= / 8 * B) by (split; [apply Rmult_le_pos; lra|apply Rmult_le_compat_r; lra]).
  assert (Bm : Rabs (value m) <= 9 / 8 * B) by (replace (value m) with ((value m - mu) + mu) by ring; pose proof (Rabs_triang (value m - mu) mu); lra).
  assert (BD : Rabs (value x - value m) <= 5 / 2 * B) by (pose proof (Rabs_triang (value x) (- value m)); rewrite Rabs_Ropp in *; unfold Rminus; lra).
  assert (R1 : rep (nsub x m) (rnd64 (value x - value m))).
  { apply rep_sub; [now split|now split|]. apply (below_huge 493); [lia|]. change 493%Z with (3 + 490)%Z. rewrite bpow_plus. change (bpow radix2 3) with 8. unfold p2 in *. lra. }
  pose proof (add_rel (value x) (- value m) (value_format x) (generic_format_opp _ _ _ (value_format m))) as E1. change (value x + - value m) with (value x - value m) in E1.
  assert (W2 : p2 (-53) = w / 2) by (unfold w; change (-52)%Z with (1 + -53)%Z; rewrite p2_plus; change (p2 1) with 2; field). rewrite W2 in E1.
  set (d := rnd64 (value x - value m)) in *.
  assert (E1' : Rabs (d - (value x - value m)) <= 3 * w * B).
  { eapply Rle_trans; [exact E1|]. apply Rle_trans with (w / 2 * (5 / 2 * B)); [apply Rmult_le_compat_l; lra|]. assert (0 <= w * B) by (apply Rmult_le_pos; lra). lra. }
  assert (WB : w * B <= / 1000 * B) by (apply Rmult_le_compat_r; lra).
  assert (Bd : Rabs d <= 3 * B) by (replace d with ((d - (value x - value m)) + (value x - value m)) by ring; pose proof (Rabs_triang (d - (value x - value m)) (value x - value m)); lra).
  assert (E2 : Rabs (d - (value x - mu)) <= (3 * w + k) * B).
  { replace (d - (value x - mu)) with ((d - (value x - value m)) + - (value m - mu)) by ring. pose proof (Rabs_triang (d - (value x - value m)) (- (value m - mu))). rewrite Rabs_Ropp in *. lra. }
  assert (BX : Rabs (value x - mu) <= 2 * B) by (pose proof (Rabs_triang (value x) (- mu)); rewrite Rabs_Ropp in *; unfold Rminus; lra).
  assert (E3 : Rabs (d * d - (value x - mu) ^ 2) <= (3 * w + k) * B * (5 * B)).
  { replace (d * d - (value x - mu) ^ 2) with ((d - (value x - mu)) * (d + (value x - mu))) by ring. rewrite Rabs_mult. apply Rmult_le_compat; try apply Rabs_pos; [exact E2|].
    pose proof (Rabs_triang d (value x - mu)). lra. }
  assert (DD : 0 <= d * d <= 9 * (B * B)).
  { split; [nra|]. rewrite <- (Rabs_right (d * d)) by nra. rewrite Rabs_mult. replace (9 * (B * B)) with ((3 * B) * (3 * B)) by ring. apply Rmult_le_compat; auto using Rabs_pos. }
  assert (BB : B * B <= p2 980) by (change 980%Z with (490 + 490)%Z; rewrite p2_plus; apply Rmult_le_compat; lra).
  assert (B0 : 0 < B * B) by nra.
  assert (R2 : rep (dev m x) (rnd64 (d * d))).
  { apply rep_mul; [exact R1|exact R1|]. apply (below_huge 984); [lia|]. rewrite Rabs_right by lra. change 984%Z with (4 + 980)%Z. rewrite bpow_plus. change (bpow radix2 4) with 16. unfold p2 in *. lra. }
  destruct R2 as [F2 V2]. unfold within. rewrite V2. pose proof (err64 (d * d)) as E4. rewrite W2, (Rabs_right (d * d)) in E4 by lra.
  assert (T : p2 (-1075) <= w * (B * B)).
  { apply Rle_trans with (w * (p2 (-400) * p2 (-400))); [unfold w; rewrite <- !p2_plus; apply p2_le; lia|]. apply Rmult_le_compat_l; [lra|]. apply Rmult_le_compat; lra. }
  assert (W3 : w / 2 * (d * d) <= w / 2 * (9 * (B * B))) by (apply Rmult_le_compat_l; lra).
  assert (WBB : 0 <= w * (B * B) <= / 1000 * (B * B)) by (split; [apply Rmult_le_pos; lra|apply Rmult_le_compat_r; lra]).
  assert (PQ : 0 <= rnd64 (d * d)) by (rewrite <- rnd64_0; apply rnd64_mono; lra).
  assert (KBB : 0 <= k * (B * B)) by (apply Rmult_le_pos; lra).
  split; [split; [exact F2|]|split; [exact PQ|]].
  - replace (rnd64 (d * d)) with ((rnd64 (d * d) - d * d) + d * d) by ring. pose proof (Rabs_triang (rnd64 (d * d) - d * d) (d * d)). rewrite (Rabs_right (d * d)) in * by lra. lra.
  - replace (rnd64 (d * d) - (value x - mu) ^ 2) with ((rnd64 (d * d) - d * d) + (d * d - (value x - mu) ^ 2)) by ring.
    pose proof (Rabs_triang (rnd64 (d * d) - d * d) (d * d - (value x - mu) ^ 2)). replace ((3 * w + k) * B * (5 * B)) with (15 * (w * (B * B)) + 5 * (k * (B * B))) in E3 by ring. lra.
Qed.
Lemma variance_err : forall B l m v, mean_of l m -> mean_of (map (dev m) l) v -> l <> [] -> p2 (-400) <= B <= p2 490 -> Forall (within B) l -> INR (length l) <= p2 20 ->
  finite v /\ 0 <= value v /\ Rabs (value v - variance (map value l)) <= (INR (length l) + 3) * p2 (-47) * (B * B).
Proof.
  intros B l m v Hm Hv Hl HB HF HN. pose proof (p2_pos (-400)) as P4.
  assert (HB' : p2 (-1000) <= B <= p2 1000) by (pose proof (p2_le (-1000) (-400) ltac:(lia)); pose proof (p2_le 490 1000 ltac:(lia)); lra).
  destruct (mean_err B l m Hm Hl HB' HF HN) as [Fm Em]. destruct (count _ l Hl HN) as [_ LN]. set (n := INR (length l)) in *. set (mu := mean (map value l)) in *.
  assert (Lv : map value l <> []) by (destruct l; [congruence|discriminate]).
  assert (Bmu : Rabs mu <= B) by (apply mean_bound; [exact Lv|]; apply Forall_map; eapply Forall_impl; [|exact HF]; now intros x [_ H]).
  set (w := p2 (-52)) in *. assert (Pw : 0 < w) by apply p2_pos.
  assert (HK : 0 <= (n + 2) * w <= / 8).
  { split; [apply Rmult_le_pos; lra|]. apply Rle_trans with (4 * p2 20 * w); [apply Rmult_le_compat_r; lra|]. change 4 with (p2 2). unfold w. rewrite <- !p2_plus. unfold p2. cbn. lra. }
  assert (HD : forall x, In x l -> within (17 * (B * B)) (dev m x) /\ 0 <= value (dev m x) /\ Rabs (value (dev m x) - (value x - mu) ^ 2) <= (35 * w + 6 * ((n + 2) * w)) * (B * B)).
  { intros x Hx. rewrite Forall_forall in HF. apply dev_err; auto. }
  assert (BB : p2 (-800) <= B * B <= p2 980).
  { split; [change (-800)%Z with (-400 + -400)%Z|change 980%Z with (490 + 490)%Z]; rewrite p2_plus; apply Rmult_le_compat; lra. }
  pose proof (p2_pos (-800)) as P8.
  assert (Lm : map (dev m) l <> []) by (destruct l; [congruence|discriminate]).
  destruct (mean_err (17 * (B * B)) (map (dev m) l) v Hv Lm) as [Fv Ev].
  - pose proof (p2_le (-1000) (-800) ltac:(lia)). assert (17 * p2 980 <= p2 1000) by (change 1000%Z with (20 + 980)%Z; rewrite p2_plus; change (p2 20) with 1048576; pose proof (p2_pos 980); lra). lra.
  - apply Forall_map. rewrite Forall_forall. intros x Hx. now apply HD.
  - now rewrite map_length.
  - rewrite map_length in Ev. fold n w in Ev.
    split; [exact Fv|]. split.
    + apply (mean_pos64 _ _ Hv Lm); [now rewrite map_length| |exact Fv]. apply Forall_map. rewrite Forall_forall. intros x Hx. destruct (HD x Hx) as ([F _] & P & _). now split.
    + unfold variance. fold mu. rewrite !map_map in *.
      pose proof (mean_diff (fun x => value (dev m x)) (fun x => (value x - mu) ^ 2) _ l Hl (fun x Hx => proj2 (proj2 (HD x Hx)))) as DD.
      replace (value v - mean (map (fun x => (value x - mu) ^ 2) l)) with
        ((value v - mean (map (fun x => value (dev m x)) l)) + (mean (map (fun x => value (dev m x)) l) - mean (map (fun x => (value x - mu) ^ 2) l))) by ring.
      eapply Rle_trans; [apply Rabs_triang|].
      replace (p2 (-47)) with (32 * w) by (unfold w; change (-47)%Z with (5 + -52)%Z; rewrite p2_plus; reflexivity).
      assert (0 <= w * (B * B)) by (apply Rmult_le_pos; lra). assert (0 <= n * (w * (B * B))) by (apply Rmult_le_pos; lra). lra.
Qed.

(** *** Members that are not finite *)
Definition nan64 : f64 := BinarySingleNaN.B754_nan.
Definition takes_over (x s : f64) : Prop := match x with
  | BinarySingleNaN.B754_nan => s = nan64
  | BinarySingleNaN.B754_infinity b => s = BinarySingleNaN.B754_infinity b \/ s = nan64
  | _ => True
  end.
Lemma takes_over_add_l : forall x s t, takes_over x s -> takes_over x (nadd s t).
Proof. intros [b|b| |b m e He] s t H; cbn [takes_over] in *; auto; [destruct H as [->| ->]|subst s]; destruct t as [[|]|[|]| |[|] ? ? ?], b || idtac; cbn; auto. all: destruct b; cbn; auto. Qed.
Lemma takes_over_add_r : forall x s t, takes_over x t -> takes_over x (nadd s t).
Proof. intros [b|b| |b m e He] s t H; cbn [takes_over] in *; auto; [destruct H as [->| ->]|subst t]; destruct s as [[|]|[|]| |[|] ? ? ?]; cbn; auto. all: destruct b; cbn; auto. Qed.
Lemma added_takes_over : forall l s x, added l s -> In x l -> takes_over x s.
Proof.
  intros l s x HA. induction HA as [|y|l a b s t HP HA IHA HB IHB]; intros HI.
  - destruct HI.
  - destruct HI as [->|[]]. destruct x; cbn; auto.
  - apply (Permutation_in _ HP), in_app_or in HI as [HI|HI]; [apply takes_over_add_l|apply takes_over_add_r]; auto.
Qed.
Lemma mean_takes_over : forall l m x, mean_of l m -> l <> [] -> INR (length l) <= p2 20 -> In x l -> takes_over x m.
Proof.
  intros l m x (s & HA & ->) Hl HN HI. pose proof (added_takes_over l s x HA HI) as HT. destruct (count _ l Hl HN) as [[F V] LN].
  revert F V. generalize (nint (Z.of_nat (length l)) : f64). intros k F V. assert (P : 0 < value k) by lra. clear V LN HN HA HI Hl.
  assert (K : exists m' e' He', k = BinarySingleNaN.B754_finite false m' e' He').
  { destruct k as [b'|b'| |[|] m' e' He']; try discriminate F; [unfold value in P; cbn in P; lra| |now exists m', e', He'].
    exfalso. pose proof (F2R_lt_0 radix2 (Float radix2 (Z.neg m') e') eq_refl). unfold value in P. cbn in P. lra. }
  destruct K as (m' & e' & He' & ->). destruct x as [b|b| |b mm e He]; cbn [takes_over] in *; auto; [destruct HT as [->| ->]|subst s]; [left; now destruct b|now right|reflexivity].
Qed.
Lemma variance_nan : forall l m v x, mean_of l m -> mean_of (map (dev m) l) v -> l <> [] -> INR (length l) <= p2 20 -> In x l -> spoilt x ->
  spoilt m /\ v = nan64.
Proof.
  intros l m v x Hm Hv Hl HN HI HS. pose proof (mean_takes_over l m x Hm Hl HN HI) as T1.
  assert (E : dev m x = nan64).
  { unfold dev. destruct x as [b|b| |b mm e He]; try discriminate HS; cbn [takes_over] in T1; [destruct T1 as [->| ->]|subst m]; [now destruct b|now destruct b|reflexivity]. }
  split; [destruct x as [b|b| |b mm e He]; try discriminate HS; cbn [takes_over] in T1; [destruct T1 as [->| ->]|subst m]; reflexivity|].
  assert (T2 : takes_over (dev m x) v) by (apply (mean_takes_over (map (dev m) l)); [exact Hv|destruct l; [congruence|discriminate]|now rewrite map_length|now apply in_map]).
  now rewrite E in T2.
Qed.
