(** C99: SGLD with minibatch gradients. *)
From Coq Require Import List Arith Lia ZArith Bool Reals Lra Psatz.
From Verif.Base Require Import Py Num Vec Lists.
From Verif.Model Require Import DataBatches TensorUtils BurnIn SGHMC SGLD Stepsize BaseClasses Session BNN.
From Verif.Spec Require Import Batches Sampler Dynamics Trajectory Chain Convex.
From Verif.Proofs Require Import Sampler SamplerHistory Dynamics Convex.
From Verif.Props Require Import PBatches PSampler PSession PChain PErgodic PConvex.
Import ListNotations.
Local Open Scope R_scope.

(** *** Distances *)
Fixpoint scaled_cross (ms xs ys zs : list R) : R :=
  match ms, xs, ys, zs with
  | m :: ms, x :: xs, y :: ys, z :: zs => (x - y) * (y - z) / m + scaled_cross ms xs ys zs
  | _, _, _, _ => 0
  end.
Fixpoint lerp (t : R) (ys zs : list R) : list R :=
  match ys, zs with y :: ys, z :: zs => y - t * (y - z) :: lerp t ys zs | _, _ => [] end.
Lemma lerp_expand : forall t ms xs ys zs, Forall (fun m => 0 < m) ms -> length xs = length ms -> length ys = length ms -> length zs = length ms ->
  scaled_dist2 ms xs (lerp t ys zs) = scaled_dist2 ms xs ys + 2 * t * scaled_cross ms xs ys zs + t ^ 2 * scaled_dist2 ms ys zs.
Proof.
  intros t ms xs ys zs H. revert xs ys zs.
  induction H as [|m ms Hm _ IH]; intros [|x xs] [|y ys] [|z zs] L1 L2 L3; try discriminate; cbn [lerp scaled_dist2 scaled_cross]; [ring|].
  cbn in L1, L2, L3. rewrite IH by lia. field. lra.
Qed.
Lemma lerp_one : forall ys zs, length ys = length zs -> lerp 1 ys zs = zs.
Proof. induction ys as [|y ys IH]; intros [|z zs] H; try discriminate H; auto. cbn in *. rewrite IH by lia. f_equal. ring. Qed.
Lemma scaled_triangle : forall ms xs ys zs, Forall (fun m => 0 < m) ms -> length xs = length ms -> length ys = length ms -> length zs = length ms ->
  sqrt (scaled_dist2 ms xs zs) <= sqrt (scaled_dist2 ms xs ys) + sqrt (scaled_dist2 ms ys zs).
Proof.
  intros ms xs ys zs HM L1 L2 L3.
  assert (HW := scaled_pos ms xs ys HM). assert (HV := scaled_pos ms ys zs HM).
  pose proof (quadratic_bound (scaled_dist2 ms xs ys) (scaled_cross ms xs ys zs) (scaled_dist2 ms ys zs) HV) as Q.
  assert (QQ : forall t, 0 <= scaled_dist2 ms xs ys + 2 * t * scaled_cross ms xs ys zs + t ^ 2 * scaled_dist2 ms ys zs).
  { intros t. rewrite <- lerp_expand by assumption. now apply scaled_pos. }
  specialize (Q QQ). pose proof (lerp_expand 1 ms xs ys zs HM L1 L2 L3) as K. rewrite lerp_one in K by congruence.
  set (a := sqrt (scaled_dist2 ms xs ys)) in *. set (b := sqrt (scaled_dist2 ms ys zs)) in *.
  assert (Ha : 0 <= a) by apply sqrt_pos. assert (Hb : 0 <= b) by apply sqrt_pos.
  assert (Ea : a * a = scaled_dist2 ms xs ys) by (now apply sqrt_sqrt). assert (Eb : b * b = scaled_dist2 ms ys zs) by (now apply sqrt_sqrt).
  rewrite <- (sqrt_pow2 (a + b)) by lra. apply sqrt_le_1_alt. rewrite K. nra.
Qed.
Lemma scaled_sym : forall ms xs ys, scaled_dist2 ms xs ys = scaled_dist2 ms ys xs.
Proof. induction ms as [|m ms IH]; intros [|x xs] [|y ys]; cbn [scaled_dist2]; auto. rewrite IH. unfold Rdiv. ring. Qed.
Lemma inner_same : forall gs xs, inner gs (minus xs xs) = 0.
Proof. induction gs as [|g gs IH]; intros [|x xs]; cbn [minus inner]; auto. rewrite IH. ring. Qed.

(** The effect of an error of the gradient on one step. *)
Lemma descend_error : forall h hi delta ms gs hs xs, 0 <= h -> 0 <= delta -> Forall (fun m => 0 < m) ms -> Forall (fun m => m <= hi) ms ->
  length gs = length ms -> length hs = length ms -> length xs = length ms -> dist2 gs hs <= delta ^ 2 ->
  sqrt (scaled_dist2 ms (descend h ms gs xs) (descend h ms hs xs)) <= h * sqrt hi * delta.
Proof.
  intros h hi delta ms gs hs xs Hh Hd HM HH L1 L2 L3 HD.
  rewrite descend_dist by auto. rewrite inner_same.
  assert (Z : scaled_dist2 ms xs xs = 0).
  { clear. revert xs. induction ms as [|m ms IH]; intros [|x xs]; cbn [scaled_dist2]; auto. rewrite IH. unfold Rdiv. ring. }
  rewrite Z. assert (K := scaled_up_le hi ms gs hs HH L1).
  destruct ms as [|m ms].
  { cbn [scaled_up]. replace (0 - 2 * h * 0 + h ^ 2 * 0) with 0 by ring. rewrite sqrt_0.
    apply Rmult_le_pos; auto. apply Rmult_le_pos; auto. apply sqrt_pos. }
  assert (Hhi : 0 <= hi) by (inversion HM; inversion HH; subst; lra).
  assert (Hs := sqrt_pos hi). assert (Es := sqrt_sqrt hi Hhi).
  rewrite <- (sqrt_pow2 (h * sqrt hi * delta)) by (apply Rmult_le_pos; auto; apply Rmult_le_pos; auto).
  apply sqrt_le_1_alt. replace ((h * sqrt hi * delta) ^ 2) with (h ^ 2 * (sqrt hi * sqrt hi * delta ^ 2)) by ring. rewrite Es.
  replace (0 - 2 * h * 0 + h ^ 2 * scaled_up (m :: ms) gs hs) with (h ^ 2 * scaled_up (m :: ms) gs hs) by ring.
  apply Rmult_le_compat_l; [apply pow2_ge_0|]. apply Rle_trans with (1 := K). now apply Rmult_le_compat_l.
Qed.
Lemma contraction_root : forall n h lo hi mu L U G ms x y,
  strongly_convex n mu U G -> lipschitz n L G -> (forall z, length z = n -> length (G z) = n) ->
  0 < lo -> Forall (fun m => lo <= m <= hi) ms -> 0 <= h -> h * hi * L ^ 2 <= 2 * mu ->
  length ms = n -> length x = n -> length y = n ->
  sqrt (scaled_dist2 ms (descend h ms (G x) x) (descend h ms (G y) y)) <= sqrt (factor h lo hi mu L) * sqrt (scaled_dist2 ms x y).
Proof.
  intros n h lo hi mu L U G ms x y HC HL HG Hlo HM Hh Hb Lm Lx Ly.
  assert (P : Forall (fun m => 0 < m) ms) by (eapply Forall_impl; [|exact HM]; cbn; intros; lra).
  pose proof (contraction n h lo hi mu L U G ms x y HC HL HG Hlo HM Hh Hb Lm Lx Ly) as K.
  assert (P0 := scaled_pos ms x y P).
  destruct (Rle_or_lt 0 (factor h lo hi mu L)) as [F|F].
  - rewrite <- sqrt_mult by assumption. now apply sqrt_le_1_alt.
  - assert (P1 := scaled_pos ms (descend h ms (G x) x) (descend h ms (G y) y) P).
    assert (Q : scaled_dist2 ms (descend h ms (G x) x) (descend h ms (G y) y) = 0) by nra. rewrite Q, sqrt_0.
    apply Rmult_le_pos; apply sqrt_pos.
Qed.

(** *** Paths with inexact gradients *)
Section Rough.
Variable rule : R -> bool -> R -> R -> entry -> entry.
Variables (eps : R) (variate : Z * Z -> nat -> R) (reserve : nat -> nat).
Variable target : list (tensor R) -> (nat -> option (tensor R)) -> res (R * list (list R)).
Variables (sizes : list nat) (batches : list (nat * tensor R) -> Prop) (G : list R -> list R) (delta : R).
Hypothesis Hest : estimates sizes target batches G delta.
Variable burn : Z.
Variable E : env (tensor R).
Notation pl := (burn_in_plan burn).

Fixpoint rough (t : nat) (ps : list parameter) (xs : list (list R)) : Prop :=
  match xs with
  | [] => True
  | x :: xs => exists gss ps', map (@length R) gss = sizes /\ dist2 (concat gss) (G (flat (map value ps))) <= delta ^ 2 /\
      moves rule variate reserve eps (adapts pl t) gss ps = Some ps' /\ x = flat (map value ps') /\ rough (S t) ps' xs
  end.
Lemma follows_rough : forall t ps rs, bg_next E <> None -> follows rule variate reserve target pl E t ps rs -> steady eps E rs ->
  given_batches batches E rs -> sizes_of ps = sizes -> rough t ps (points E rs).
Proof.
  intros t ps rs HBG.
  assert (BE : forall evb b rest, batch_events E evb b -> Forall (fun r => forall b, r = Ok b -> batches b) (batch_results (evb ++ rest)) -> batches b).
  { intros evb b rest HB HF. unfold batch_events in HB. destruct (bg_next E); [|now destruct HBG]. subst evb. cbn in HF.
    inversion HF as [|? ? Q _]; subst. now apply Q. }
  assert (PU : forall t c b user, placeholders pl E t c b user -> forall n v, assoc b n = Some v -> user n = Some v).
  { intros t' c b user HP n v Ha. rewrite (HP n), Ha. reflexivity. }
  induction 1 as [t ps|t ps c rest e Hr Hn HF IH|t ps c rest e b evb eps' f user Hr Hb He Hp Ht HF IH
    |t ps c rest e b evb eps' f o user cost ps' Hr Hb Ht He Hp HF IH|t ps c rest b evb eps' f o user cost ps' Hb Ht Hr He Hp HF IH];
    intros HS HGB HL; [exact I| | | |]; inversion HS as [|? ? [HS1 HS2] HS3]; subst; inversion HGB as [|? ? HG1 HG2]; subst.
  - unfold points. cbn [flat_map]. rewrite Hr. now apply IH.
  - exfalso. rewrite He in HG1. apply BE with (1 := Hb) in HG1.
    unfold transition in Ht. destruct (Hest (map value ps) user b (eq_trans (value_sizes ps) HL) HG1 (PU _ _ _ _ Hp)) as (co & gss & E1 & E2 & E3).
    rewrite E1 in Ht. destruct (moves_some variate reserve rule (hd 0 (data eps')) (adapts pl t) gss ps (eq_trans E2 (eq_sym HL))) as (ps' & E4 & _).
    rewrite E4 in Ht. discriminate Ht.
  - exfalso. rewrite He in HS2. unfold updates in HS2. rewrite flat_map_app in HS2. apply Forall_app in HS2 as [_ HS2].
    cbn in HS2. inversion HS2 as [|? ? Q _]; subst. discriminate Q.
  - unfold points. cbn [flat_map]. rewrite Hr. cbn [app rough]. rewrite point_looks.
    rewrite He in HG1. apply BE with (1 := Hb) in HG1.
    assert (Heps : eps' = number eps).
    { rewrite He in HS1. unfold stepsize_results in HS1. rewrite flat_map_app in HS1. apply Forall_app in HS1 as [_ HS1].
      cbn in HS1. inversion HS1 as [|? ? Q _]; subst. now injection Q. }
    rewrite Heps in Ht. unfold number in Ht. cbn [data hd] in Ht.
    unfold transition in Ht. destruct (Hest (map value ps) user b (eq_trans (value_sizes ps) HL) HG1 (PU _ _ _ _ Hp)) as (co & gss & E1 & E2 & E3).
    rewrite E1 in Ht. destruct (moves_some variate reserve rule eps (adapts pl t) gss ps (eq_trans E2 (eq_sym HL))) as (ps2 & E4 & E5 & _).
    rewrite E4 in Ht. cbn in Ht. injection Ht as <- <-.
    exists gss, ps2. split; [exact E2|]. split; [exact E3|]. split; [exact E4|]. split; [reflexivity|]. apply IH; auto; congruence.
Qed.
Lemma follows_all : forall t ps rs, bg_next E <> None -> follows rule variate reserve target pl E t ps rs -> steady eps E rs ->
  given_batches batches E rs -> Forall (fun c => Forall (fun r => is_ok r = true) (batch_results (cr_events E c))) rs ->
  Forall (fun c => exists base fmt, step_outcome E base fmt (cr_res E c) (cr_events E c)) rs ->
  sizes_of ps = sizes -> length (points E rs) = length rs.
Proof.
  intros t ps rs HBG.
  assert (BE : forall evb b rest, batch_events E evb b -> Forall (fun r => forall b, r = Ok b -> batches b) (batch_results (evb ++ rest)) -> batches b).
  { intros evb b rest HB HF. unfold batch_events in HB. destruct (bg_next E); [|now destruct HBG]. subst evb. cbn in HF.
    inversion HF as [|? ? Q _]; subst. now apply Q. }
  assert (PU : forall t c b user, placeholders pl E t c b user -> forall n v, assoc b n = Some v -> user n = Some v).
  { intros t' c b user HP n v Ha. rewrite (HP n), Ha. reflexivity. }
  induction 1 as [t ps|t ps c rest e Hr Hn HF IH|t ps c rest e b evb eps' f user Hr Hb He Hp Ht HF IH
    |t ps c rest e b evb eps' f o user cost ps' Hr Hb Ht He Hp HF IH|t ps c rest b evb eps' f o user cost ps' Hb Ht Hr He Hp HF IH];
    intros HS HGB HOK OUT HL; [reflexivity| | | |]; pose proof (Forall_inv HS) as [HS1 HS2]; apply Forall_inv_tail in HS;
    pose proof (Forall_inv HGB) as HG1; apply Forall_inv_tail in HGB; pose proof (Forall_inv HOK) as HO1; apply Forall_inv_tail in HOK;
    pose proof (Forall_inv OUT) as (base & fmt & SO); apply Forall_inv_tail in OUT; cbv beta in HG1, HO1.
  - exfalso. rewrite Hr in SO. inversion SO as [e' HB E1 E2|evb b e' HB E1 E2|evb b eps' f e' HB HF' E1 E2|evb b eps' f o e' HB HF' E1 E2|]; subst.
    + rewrite <- E2 in HO1. cbn in HO1. inversion HO1 as [|? ? Q _]; subst. discriminate Q.
    + rewrite <- E2 in HS1. unfold stepsize_results in HS1. rewrite flat_map_app in HS1. apply Forall_app in HS1 as [_ HS1].
      cbn in HS1. inversion HS1 as [|? ? Q _]; subst. discriminate Q.
    + rewrite <- E2 in Hn. unfold runs in Hn. rewrite flat_map_app in Hn. apply app_eq_nil in Hn as [_ Hn]. discriminate Hn.
    + rewrite <- E2 in Hn. unfold runs in Hn. rewrite flat_map_app in Hn. apply app_eq_nil in Hn as [_ Hn]. discriminate Hn.
  - exfalso. rewrite He in HG1. apply BE with (1 := Hb) in HG1.
    unfold transition in Ht. destruct (Hest (map value ps) user b (eq_trans (value_sizes ps) HL) HG1 (PU _ _ _ _ Hp)) as (co & gss & E1 & E2 & E3).
    rewrite E1 in Ht. destruct (moves_some variate reserve rule (hd 0 (data eps')) (adapts pl t) gss ps (eq_trans E2 (eq_sym HL))) as (ps' & E4 & _).
    rewrite E4 in Ht. discriminate Ht.
  - exfalso. rewrite He in HS2. unfold updates in HS2. rewrite flat_map_app in HS2. apply Forall_app in HS2 as [_ HS2].
    cbn in HS2. inversion HS2 as [|? ? Q _]; subst. discriminate Q.
  - unfold points in *. cbn [flat_map]. rewrite Hr. cbn [app length]. f_equal. apply IH; auto.
    rewrite He in HG1. apply BE with (1 := Hb) in HG1.
    unfold transition in Ht. destruct (Hest (map value ps) user b (eq_trans (value_sizes ps) HL) HG1 (PU _ _ _ _ Hp)) as (co & gss & E1 & E2 & E3).
    rewrite E1 in Ht. destruct (moves_some variate reserve rule (hd 0 (data eps')) (adapts pl t) gss ps (eq_trans E2 (eq_sym HL))) as (ps2 & E4 & E5 & _).
    rewrite E4 in Ht. cbn in Ht. injection Ht as <- <-. congruence.
Qed.
Lemma rough_states : forall xs t ps, rough t ps xs -> exists Q : nat -> list parameter, Q O = ps /\
  forall k x, nth_error xs k = Some x -> exists gss, map (@length R) gss = sizes /\ dist2 (concat gss) (G (flat (map value (Q k)))) <= delta ^ 2 /\
    moves rule variate reserve eps (adapts pl (t + k)) gss (Q k) = Some (Q (S k)) /\ x = flat (map value (Q (S k))).
Proof.
  induction xs as [|x xs IH]; intros t ps HP.
  - exists (fun _ => ps). split; auto. intros [|]; discriminate.
  - destruct HP as (gss & ps' & P1 & P2 & P3 & P4 & P5). destruct (IH _ _ P5) as (Q & Q0 & QS).
    exists (fun k => match k with O => ps | S k => Q k end). split; auto. intros [|k] y Hy; cbn in Hy.
    + injection Hy as <-. exists gss. rewrite Nat.add_0_r, Q0. auto.
    + destruct (QS k y Hy) as (g & R1 & R2 & R3 & R4). exists g. replace (t + S k)%nat with (S t + k)%nat by lia. auto.
Qed.
End Rough.

Section Apart.
Variables (A s eps : R) (variate : Z * Z -> nat -> R) (reserve : nat -> nat).
Variables (sizes : list nat) (U : list R -> R) (G : list R -> list R) (mu L lo hi delta delta' : R) (burn : Z).
Let n := list_sum sizes.
Hypothesis HG : forall z, length z = n -> length (G z) = n.
Hypothesis HC : strongly_convex n mu U G.
Hypothesis HL : lipschitz n L G.
Hypothesis Hlo : 0 < lo.
Hypothesis Hh : 0 < eps * A.
Hypothesis Hb : eps * A * hi * L ^ 2 < 2 * mu.
Hypothesis Hd : 0 <= delta.
Hypothesis Hd' : 0 <= delta'.
Let r := sqrt (factor (eps * A) lo hi mu L).
Let e := eps * A * sqrt hi * (delta + delta').
Lemma root_below_1 : r < 1.
Proof.
  unfold r. destruct (Rle_or_lt 0 (factor (eps * A) lo hi mu L)) as [F|F].
  - rewrite <- sqrt_1. apply sqrt_lt_1_alt. split; [exact F|]. unfold factor.
    assert (0 < lo * (eps * A) * (2 * mu - eps * A * hi * L ^ 2)); [|lra].
    apply Rmult_lt_0_compat; [now apply Rmult_lt_0_compat|lra].
  - rewrite sqrt_neg_0 by lra. lra.
Qed.
Notation rough := (rough (sgld_entry A s) eps variate reserve sizes G).
Lemma rough_step : forall b ps qs gss hss ps' qs', twins b ps qs -> sizes_of ps = sizes -> Forall (fun m => lo <= m <= hi) (masses b ps) ->
  map (@length R) gss = sizes -> map (@length R) hss = sizes ->
  dist2 (concat gss) (G (flat (map value ps))) <= delta ^ 2 -> dist2 (concat hss) (G (flat (map value qs))) <= delta' ^ 2 ->
  moves (sgld_entry A s) variate reserve eps b gss ps = Some ps' -> moves (sgld_entry A s) variate reserve eps b hss qs = Some qs' ->
  twins false ps' qs' /\ sizes_of ps' = sizes /\ masses false ps' = masses b ps /\
  sqrt (scaled_dist2 (masses b ps) (flat (map value ps')) (flat (map value qs'))) <=
    r * sqrt (scaled_dist2 (masses b ps) (flat (map value ps)) (flat (map value qs))) + e.
Proof.
  intros b ps qs gss hss ps' qs' HT HS HM X1 Y1 X2 Y2 X3 Y3. pose proof (twins_noise variate b ps qs HT) as TN. destruct HT as (T1 & T2 & T3 & T4).
  destruct (moves_flat A s variate reserve eps b gss ps) as (ps2 & E1 & E2 & E3 & E4 & E5 & E6); [congruence|].
  destruct (moves_flat A s variate reserve eps b hss qs) as (qs2 & F1 & F2 & F3 & F4 & F5 & F6); [congruence|].
  assert (ps2 = ps') by congruence. assert (qs2 = qs') by congruence. subst ps2 qs2.
  assert (Lp : length (flat (map value ps)) = n) by (rewrite sizes_flat; unfold n; congruence).
  assert (Lq : length (flat (map value qs)) = n) by (rewrite sizes_flat; unfold n; congruence).
  assert (Lm : length (masses b ps) = n) by (rewrite flat_length; exact Lp).
  assert (CL : forall l : list (list R), map (@length R) l = sizes -> length (concat l) = n).
  { intros l Hl. unfold n. rewrite <- Hl. clear. induction l as [|g l IH]; auto. cbn. now rewrite app_length, IH. }
  split; [|split; [congruence|split; [congruence|]]].
  { split; [congruence|]. split; [congruence|]. split; [congruence|]. rewrite E6, F6. clear -T2 T4. revert qs T2 T4.
    induction ps as [|p ps IHp]; intros [|q qs] T2 T4; try discriminate T2; auto.
    cbn in T2, T4 |- *. injection T2 as A1 A2. injection T4 as B1 B2. rewrite A1, B1. f_equal. now apply IHp. }
  rewrite E2, F2, <- T1, <- TN. set (ms := masses b ps) in *. set (x := flat (map value ps)) in *. set (y := flat (map value qs)) in *.
  assert (Ln : length (noises variate ps) = n) by (rewrite noises_length; exact Lp).
  assert (Lg := CL _ X1). assert (Lh := CL _ Y1).
  rewrite kick_dist by (rewrite ?descend_length; congruence).
  assert (MP : Forall (fun m => 0 < m) ms) by (eapply Forall_impl; [|exact HM]; cbn; intros; lra).
  assert (MH : Forall (fun m => m <= hi) ms) by (eapply Forall_impl; [|exact HM]; cbn; intros; lra).
  assert (D1 := descend_error (eps * A) hi delta ms (concat gss) (G x) x (Rlt_le _ _ Hh) Hd MP MH ltac:(congruence) ltac:(rewrite HG; congruence) ltac:(congruence) X2).
  assert (D2 := descend_error (eps * A) hi delta' ms (concat hss) (G y) y (Rlt_le _ _ Hh) Hd' MP MH ltac:(congruence) ltac:(rewrite HG; congruence) ltac:(congruence) Y2).
  rewrite scaled_sym in D2.
  assert (D3 := contraction_root n (eps * A) lo hi mu L U G ms x y HC HL HG Hlo HM (Rlt_le _ _ Hh) (Rlt_le _ _ Hb) Lm Lp Lq). fold r in D3.
  assert (T5 := scaled_triangle ms (descend (eps * A) ms (concat gss) x) (descend (eps * A) ms (G x) x) (descend (eps * A) ms (concat hss) y) MP
    ltac:(rewrite descend_length; congruence) ltac:(rewrite descend_length; rewrite ?HG; congruence) ltac:(rewrite descend_length; congruence)).
  assert (T6 := scaled_triangle ms (descend (eps * A) ms (G x) x) (descend (eps * A) ms (G y) y) (descend (eps * A) ms (concat hss) y) MP
    ltac:(rewrite descend_length; rewrite ?HG; congruence) ltac:(rewrite descend_length; rewrite ?HG; congruence) ltac:(rewrite descend_length; congruence)).
  unfold e. rewrite Rmult_plus_distr_l. lra.
Qed.
Lemma rough_apart : forall xs ys t ps qs, twins (adapts (burn_in_plan burn) t) ps qs -> sizes_of ps = sizes ->
  (forall t', (t <= t')%nat -> adapts (burn_in_plan burn) (S t') = false) ->
  let ms := masses (adapts (burn_in_plan burn) t) ps in
  Forall (fun m => lo <= m <= hi) ms -> rough delta burn t ps xs -> rough delta' burn t qs ys ->
  forall k x y, nth_error xs k = Some x -> nth_error ys k = Some y -> length x = n /\ length y = n /\
  sqrt (scaled_dist2 ms x y) - e / (1 - r) <= r ^ S k * (sqrt (scaled_dist2 ms (flat (map value ps)) (flat (map value qs))) - e / (1 - r)).
Proof.
  pose proof root_below_1 as R1. assert (R0 : 0 <= r) by apply sqrt_pos.
  assert (RE : r * (e / (1 - r)) + e = e / (1 - r)) by (field; lra).
  induction xs as [|x0 xs IH]; intros ys t ps qs HT HS HB ms HM HX HY k x y Hx Hy; [destruct k; discriminate Hx|].
  destruct ys as [|y0 ys]; [destruct k; discriminate Hy|].
  destruct HX as (gss & ps' & X1 & X2 & X3 & X4 & X5). destruct HY as (hss & qs' & Y1 & Y2 & Y3 & Y4 & Y5).
  destruct (rough_step _ ps qs gss hss ps' qs' HT HS HM X1 Y1 X2 Y2 X3 Y3) as (TW & SZ & MS & ST). fold ms in ST, MS. rewrite <- X4, <- Y4 in ST.
  assert (L0 : length x0 = n /\ length y0 = n) by (subst x0 y0; rewrite !sizes_flat; destruct TW as (_ & T & _); unfold n; split; congruence).
  set (d0 := sqrt (scaled_dist2 ms (flat (map value ps)) (flat (map value qs)))) in *.
  destruct k as [|k]; cbn [nth_error] in Hx, Hy.
  - injection Hx as <-. injection Hy as <-. split; [apply L0|]. split; [apply L0|]. cbn [pow]. lra.
  - rewrite <- (HB t (le_n t)) in TW, MS.
    pose proof (IH ys (S t) ps' qs' TW SZ ltac:(intros; apply HB; lia)) as IH'. cbv zeta in IH'. rewrite MS in IH'.
    specialize (IH' HM X5 Y5 k x y Hx Hy). rewrite <- X4, <- Y4 in IH'. destruct IH' as (I1 & I2 & I3).
    split; [exact I1|]. split; [exact I2|]. apply Rle_trans with (1 := I3).
    change (r ^ S (S k)) with (r * r ^ S k). rewrite (Rmult_comm r (r ^ S k)), Rmult_assoc.
    apply Rmult_le_compat_l; [now apply pow_le|]. lra.
Qed.
End Apart.

(** Two complete seeded runs of SGLD with one step of burn-in and a constant stepsize, fed with different minibatches (or
    with cost functions that subsample differently): whatever the noise, the batches and the starts, the distance of their
    k-th samples is at most a multiple of the errors of the gradients, plus what is left of the distance of the starts. *)
Theorem C99_minibatches_keep_samples_close :
  forall variate reserve A s target batches delta target' batches' delta' U G mu L eps B nx us rs s1 b0 e0 params B' nx' us' rs' s1' b0' e0' params' gseed sd ids entropy ids' entropy',
  let sizes := map (fun v => length (data v)) params in let n := list_sum sizes in
  (forall z, length z = n -> length (G z) = n) -> strongly_convex n mu U G -> lipschitz n L G ->
  0 <= delta -> estimates sizes target batches G delta -> 0 <= delta' -> estimates sizes target' batches' G delta' ->
  map (fun v => length (data v)) params' = sizes ->
  0 < s -> 0 < eps * A -> let h := eps * A * inverse_mass 1 in h * L ^ 2 < 2 * mu ->
  Forall no_fed_mass us -> Forall no_fed_mass us' ->
  let sc := constant_schedule (tensor R) (sample (tensor R) * tensor R) in
  let E := sampler_env variate reserve (kernel_of (Sgld (LConfig A s))) target B (Some nx) sc in
  let E' := sampler_env variate reserve (kernel_of (Sgld (LConfig A s))) target' B' (Some nx') sc in
  drive E (burnin_next E 1 (length params)) us (initial_state E b0 (number eps)
     (session_of (Sgld (LConfig A s)) e0 params (noise_ops gseed (Some sd) ids entropy (length params)))) = (rs, s1) ->
  drive E' (burnin_next E' 1 (length params')) us' (initial_state E' b0' (number eps)
     (session_of (Sgld (LConfig A s)) e0' params' (noise_ops gseed (Some sd) ids' entropy' (length params')))) = (rs', s1') ->
  given_batches batches E rs -> given_batches batches' E' rs' ->
  let r := sqrt (1 - 2 * h * mu + h ^ 2 * L ^ 2) in
  let radius := h * (delta + delta') / (1 - r) in
  r < 1 /\
  forall k x y, nth_error (points E rs) k = Some x -> nth_error (points E' rs') k = Some y ->
  sqrt (dist2 x y) - radius <= r ^ S k * (sqrt (dist2 (flat params) (flat params')) - radius).
Proof.
  intros variate reserve A s target batches delta target' batches' delta' U G mu L eps B nx us rs s1 b0 e0 params B' nx' us' rs' s1' b0' e0' params' gseed sd ids entropy ids' entropy'
    sizes n HG HC HL Hd HT Hd' HT' HS' Hs Hh h Hb HU HU' sc E E' HD HD' HB HB' r radius.
  pose proof (constant_steady variate reserve (Sgld (LConfig A s)) target B (Some nx) 1 (length params) us rs s1 b0 eps _ HD) as HY.
  pose proof (constant_steady variate reserve (Sgld (LConfig A s)) target' B' (Some nx') 1 (length params') us' rs' s1' b0' eps _ HD') as HY'.
  apply C86_published_chain in HD; [|exact Hs|exact HU]. apply C86_published_chain in HD'; [|exact Hs|exact HU'].
  cbn [rule_of l_A l_scale_grad] in HD, HD'. set (key := (_, sd)) in HD, HD'.
  apply (follows_rough (sgld_entry A s) eps variate reserve target sizes batches G delta HT) in HD; [|discriminate|exact HY|exact HB|apply fresh_sizes].
  apply (follows_rough (sgld_entry A s) eps variate reserve target' sizes batches' G delta' HT') in HD'; [|discriminate|exact HY'|exact HB'|rewrite fresh_sizes; exact HS'].
  set (m := inverse_mass 1) in *. pose proof inverse_mass_1 as Hm. fold m in Hm.
  assert (ER : r = sqrt (factor (eps * A) m m mu L)) by (unfold r, factor, h; fold m; f_equal; ring).
  assert (R1 : r < 1) by (rewrite ER; apply root_below_1; auto).
  split; [exact R1|]. intros k x y Hx Hy.
  assert (FL : length (flat params) = list_sum sizes) by (unfold sizes, flat; clear; induction params; cbn; auto; now rewrite app_length, IHparams).
  assert (FL' : length (flat params') = list_sum sizes) by (rewrite <- HS'; unfold flat; clear; induction params'; cbn; auto; now rewrite app_length, IHparams').
  assert (MM : Forall (fun q => q = m) (repeat m (length (flat params)))) by (apply Forall_forall; intros q Hq; apply repeat_spec in Hq; exact Hq).
  assert (LP : length params' = length params) by (rewrite <- (map_length (fun v => length (data v)) params'), HS'; apply map_length).
  assert (TW : twins (adapts (burn_in_plan 1) 0) (map (fun v => fresh 0 v key) params) (map (fun v => fresh 0 v key) params')).
  { change (adapts (burn_in_plan 1) 0) with true. split; [|split; [|split]].
    - rewrite !fresh_masses. congruence.
    - rewrite !fresh_sizes. symmetry. exact HS'.
    - rewrite !map_map. cbn. clear -LP. revert params' LP. induction params; intros [|] HH; try discriminate HH; cbn; auto. f_equal. apply IHparams. now injection HH.
    - rewrite !map_map. cbn. clear -LP. revert params' LP. induction params; intros [|] HH; try discriminate HH; cbn; auto. f_equal. apply IHparams. now injection HH. }
  destruct (rough_apart A s eps variate reserve sizes U G mu L m m delta delta' 1) with (5 := Hh) (9 := TW) (13 := HD) (14 := HD') (k := k) (x := x) (y := y)
    as (L1 & L2 & Q); auto.
  - apply fresh_sizes.
  - intros t' _. cbn [adapts burn_in_plan]. apply orb_false_iff. split; [apply Z.ltb_ge; lia|reflexivity].
  - change (adapts (burn_in_plan 1) 0) with true. rewrite fresh_masses. fold m. eapply Forall_impl; [|exact MM]. cbn. intros; lra.
  - change (adapts (burn_in_plan 1) 0) with true in Q. rewrite fresh_masses, !fresh_flat in Q. fold m in Q.
    rewrite !(scaled_const m) in Q by (auto; rewrite repeat_length; congruence). rewrite <- ER in Q.
    assert (Sm : 0 < sqrt m) by (now apply sqrt_lt_R0). assert (Em : sqrt m * sqrt m = m) by (apply sqrt_sqrt; lra).
    rewrite !sqrt_div in Q by (try assumption; apply dist2_pos).
    apply (Rmult_le_compat_l (sqrt m)) in Q; [|lra].
    replace (sqrt m * (sqrt (dist2 x y) / sqrt m - eps * A * sqrt m * (delta + delta') / (1 - r))) with (sqrt (dist2 x y) - radius) in Q.
    2:{ unfold radius, h. fold m. rewrite <- Em at 1. field. split; lra. }
    replace (sqrt m * (r ^ S k * (sqrt (dist2 (flat params) (flat params')) / sqrt m - eps * A * sqrt m * (delta + delta') / (1 - r))))
      with (r ^ S k * (sqrt (dist2 (flat params) (flat params')) - radius)) in Q; [exact Q|].
    unfold radius, h. fold m. rewrite <- Em at 1. field. split; lra.
Qed.

(** Every complete run of SGLD with burn-in and minibatches: after the burn-in each sample is closer to the minimiser
    than the one before it by a fixed factor, up to the noise of that call and the error of the gradient. *)
Theorem C99_minibatch_sgld_returns_to_the_minimiser :
  forall variate reserve A s target batches delta U G mu L z eps burn B nx us rs s1 b0 e0 params gseed seed ids entropy,
  let sizes := map (fun v => length (data v)) params in let n := list_sum sizes in
  (forall z, length z = n -> length (G z) = n) -> strongly_convex n mu U G -> lipschitz n L G ->
  0 <= delta -> estimates sizes target batches G delta ->
  length z = n -> Forall (fun g => g = 0) (G z) ->
  0 < s -> 0 <= eps * A -> (0 < burn)%Z -> Forall no_fed_mass us ->
  let E := sampler_env variate reserve (kernel_of (Sgld (LConfig A s))) target B (Some nx)
             (constant_schedule (tensor R) (sample (tensor R) * tensor R)) in
  let ops := noise_ops gseed seed ids entropy (length params) in
  drive E (burnin_next E burn (length params)) us (initial_state E b0 (number eps)
     (session_of (Sgld (LConfig A s)) e0 params ops)) = (rs, s1) ->
  given_batches batches E rs ->
  exists ms, length ms = n /\ Forall (fun m => 0 < m) ms /\
  forall lo hi, 0 < lo -> Forall (fun m => lo <= m <= hi) ms -> eps * A * hi * L ^ 2 <= 2 * mu ->
  forall k x x', (burn <= Z.of_nat (S k))%Z ->
  nth_error (points E rs) k = Some x -> nth_error (points E rs) (S k) = Some x' ->
  sqrt (scaled_dist2 ms x' z) <=
    sqrt (1 - lo * (eps * A) * (2 * mu - eps * A * hi * L ^ 2)) * sqrt (scaled_dist2 ms x z) +
    eps * A * sqrt hi * delta +
    sqrt (2 * (eps * A) / (s + 3 / 10000000000000000)) * sqrt (sum_squares (normals variate reserve (map op_key ops) sizes (S k))).
Proof.
  intros variate reserve A s target batches delta U G mu L z eps burn B nx us rs s1 b0 e0 params gseed seed ids entropy sizes n HG HC HL Hd HT Hz Hgz Hs Hh Hburn HU E ops HD HB.
  pose proof (constant_steady variate reserve (Sgld (LConfig A s)) target B (Some nx) burn (length params) us rs s1 b0 eps _ HD) as HY.
  assert (LO : length ops = length params) by (unfold ops, noise_ops; now rewrite map_length, seq_length).
  assert (HP : Forall (fun o => op_pos o = 0%nat) ops).
  { apply Forall_forall. intros o Ho. unfold ops, noise_ops in Ho. now apply in_map_iff in Ho as (i & <- & _). }
  apply (chain_of_ops variate reserve (Sgld (LConfig A s))) in HD; [|exact Hs|exact LO|exact HU|exact HP].
  cbn [rule_of l_A l_scale_grad] in HD. set (ps0 := map _ (combine params ops)) in HD.
  assert (CK : clock reserve sizes (map op_key ops) 0 ps0).
  { unfold ps0, clock, sizes, sizes_of. clear -LO. clearbody ops. revert ops LO. induction params as [|v params IH]; intros [|o ops] LO; try discriminate LO.
    - auto.
    - cbn in LO. destruct (IH ops ltac:(lia)) as (I1 & I2 & I3). cbn. rewrite I1, I2, I3, map_length. auto. }
  apply (follows_rough (sgld_entry A s) eps variate reserve target sizes batches G delta HT) in HD; [|discriminate|exact HY|exact HB|apply CK].
  fold E in HD. set (pts := points E rs) in *. clearbody pts. clear HY HU HB. clearbody ps0. clear rs E B nx us b0 s1 e0.
  destruct (rough_states (sgld_entry A s) eps variate reserve sizes G delta burn pts 0 ps0 HD) as (Q & Q0 & QS). cbn [plus] in QS.
  assert (CL : forall k, (k <= length pts)%nat -> clock reserve sizes (map op_key ops) k (Q k)).
  { induction k as [|k IH]; intros Hk; [now rewrite Q0|].
    destruct (nth_error pts k) as [x|] eqn:Ex; [|apply nth_error_None in Ex; lia].
    destruct (QS k x Ex) as (gss & R1 & R2 & R3 & R4). eapply (clock_step eps variate); [apply IH; lia|exact R1|exact R3]. }
  assert (SL : forall k, (k <= length pts)%nat -> length (flat (map value (Q k))) = n).
  { intros k Hk. rewrite sizes_flat. destruct (CL k Hk) as (-> & _). reflexivity. }
  set (bn := Z.to_nat burn).
  destruct (le_lt_dec bn (length pts)) as [Hbn|Hbn].
  2:{ exists (repeat 1 n). split; [apply repeat_length|]. split; [apply Forall_forall; intros m Hm; apply repeat_spec in Hm; lra|].
      intros lo hi _ _ _ k x x' Hk Hx Hx'. exfalso. assert (nth_error pts (S k) <> None) as Hx2 by congruence. apply nth_error_Some in Hx2.
      unfold bn in Hbn. lia. }
  exists (masses false (Q bn)). split; [rewrite flat_length; now apply SL|].
  assert (MF : forall k, (bn <= k <= length pts)%nat -> masses false (Q k) = masses false (Q bn)).
  { intros k [H1 H2]. revert H2. induction H1 as [|k H1 IH]; intros H2; auto. rewrite <- IH by lia.
    destruct (nth_error pts k) as [x|] eqn:Ex; [|apply nth_error_None in Ex; lia].
    destruct (QS k x Ex) as (gss & R1 & R2 & R3 & R4).
    destruct (clock_step eps variate reserve sizes A s _ k _ _ _ _ (CL k ltac:(lia)) R1 R3) as (_ & -> & _).
    replace (adapts (burn_in_plan burn) k) with false; auto. symmetry. cbn [adapts burn_in_plan].
    apply orb_false_iff. split; [apply Z.ltb_ge; lia|apply Z.leb_gt; lia]. }
  assert (MP : Forall (fun m => 0 < m) (masses false (Q bn))).
  { assert (exists k, bn = S k) as [k Ek] by (exists (bn - 1)%nat; unfold bn; lia). rewrite Ek.
    destruct (nth_error pts k) as [x|] eqn:Ex; [|apply nth_error_None in Ex; lia].
    destruct (QS k x Ex) as (gss & R1 & R2 & R3 & R4).
    destruct (clock_step eps variate reserve sizes A s _ k _ _ _ _ (CL k ltac:(lia)) R1 R3) as (_ & -> & _).
    replace (adapts (burn_in_plan burn) k) with true; [apply masses_adapting|]. symmetry. cbn [adapts burn_in_plan].
    apply orb_true_iff. left. apply Z.ltb_lt. lia. }
  split; [exact MP|]. intros lo hi Hlo HM Hb k x x' Hk Hx Hx'. set (ms := masses false (Q bn)) in *.
  assert (Hlt : (S k < length pts)%nat) by (apply nth_error_Some; congruence).
  destruct (QS k x Hx) as (_ & _ & _ & _ & Ex). destruct (QS (S k) x' Hx') as (gss & R1 & R2 & R3 & R4).
  destruct (clock_step eps variate reserve sizes A s _ (S k) _ _ _ _ (CL (S k) ltac:(lia)) R1 R3) as (_ & _ & FE).
  replace (adapts (burn_in_plan burn) (S k)) with false in FE.
  2:{ symmetry. cbn [adapts burn_in_plan]. apply orb_false_iff. split; [apply Z.ltb_ge; lia|apply Z.leb_gt; lia]. }
  rewrite MF in FE by (unfold bn; lia). fold ms in FE. rewrite <- R4, <- Ex in FE. rewrite <- Ex in R2. rewrite FE.
  assert (Lx : length x = n) by (rewrite Ex; apply SL; lia).
  assert (Lm : length ms = n) by (unfold ms; rewrite flat_length; now apply SL).
  assert (Lg : length (concat gss) = n).
  { unfold n. rewrite <- R1. clear. induction gss as [|g l IH]; auto. cbn. now rewrite app_length, IH. }
  assert (Ln : length (normals variate reserve (map op_key ops) sizes (S k)) = n).
  { rewrite <- (clock_noise variate reserve sizes _ _ _ (CL (S k) ltac:(lia))), noises_length. apply SL. lia. }
  assert (Hst : 0 < s + 3 * guard) by (pose proof guard_pos; lra).
  replace (s + 3 / 10000000000000000) with (s + 3 * guard) by (unfold guard; lra).
  eapply Rle_trans; [apply kick_norm; auto; rewrite ?descend_length; congruence|].
  apply Rplus_le_compat_r.
  assert (MH : Forall (fun m => m <= hi) ms) by (eapply Forall_impl; [|exact HM]; cbn; intros; lra).
  assert (D1 := descend_error (eps * A) hi delta ms (concat gss) (G x) x Hh Hd MP MH ltac:(congruence) ltac:(rewrite HG; congruence) ltac:(congruence) R2).
  assert (D3 := contraction_root n (eps * A) lo hi mu L U G ms x z HC HL HG Hlo HM Hh Hb Lm Lx Hz).
  rewrite (descend_zero _ _ (G z) z) in D3 by (auto; rewrite ?HG; congruence).
  assert (T5 := scaled_triangle ms (descend (eps * A) ms (concat gss) x) (descend (eps * A) ms (G x) x) z MP
    ltac:(rewrite descend_length; congruence) ltac:(rewrite descend_length; rewrite ?HG; congruence) ltac:(congruence)).
  fold (factor (eps * A) lo hi mu L). lra.
Qed.

(** *** Minibatches of generate_batches *)
Lemma jensen : forall l c, l <> [] -> (mean_of l - c) ^ 2 <= mean_of (map (fun a => (a - c) ^ 2) l).
Proof.
  intros l c Hl. unfold mean_of. rewrite map_length. set (k := INR (length l)).
  assert (Hk : 0 < k) by (unfold k; apply lt_0_INR; destruct l; [congruence|cbn; lia]).
  assert (Q : forall t, 0 <= sum_of (map (fun a => (a - c) ^ 2) l) - 2 * t * (sum_of l - k * c) + t ^ 2 * k).
  { intros t. unfold k. clear. induction l as [|a l IH]; [cbn; lra|].
    change (length (a :: l)) with (S (length l)). rewrite S_INR. cbn [map sum_of]. pose proof (pow2_ge_0 (a - c - t)). lra. }
  specialize (Q ((sum_of l - k * c) / k)). set (V := sum_of (map (fun a => (a - c) ^ 2) l)) in *.
  apply Rmult_le_reg_r with k; [exact Hk|]. unfold Rdiv at 2. rewrite Rmult_assoc, Rinv_l, Rmult_1_r by lra.
  replace (V - 2 * ((sum_of l - k * c) / k) * (sum_of l - k * c) + ((sum_of l - k * c) / k) ^ 2 * k)
    with (V - (sum_of l / k - c) ^ 2 * k) in Q by (field; lra). lra.
Qed.
Lemma dist2_sumn : forall n xs ys, length xs = n -> length ys = n -> dist2 xs ys = sumn n (fun i => (nth i xs 0 - nth i ys 0) ^ 2).
Proof. induction n as [|n IH]; intros [|x xs] [|y ys] H1 H2; try discriminate; auto. cbn [dist2 sumn nth]. rewrite (IH xs ys) by (cbn in *; lia). reflexivity. Qed.
Lemma sumn_le : forall n f g, (forall i, (i < n)%nat -> f i <= g i) -> sumn n f <= sumn n g.
Proof. induction n as [|n IH]; intros f g H; cbn [sumn]; [lra|]. apply Rplus_le_compat; [apply H; lia|]. apply IH. intros; apply H; lia. Qed.
Lemma sumn_mean : forall n (a : list R -> nat -> R) rows, sumn n (fun i => mean_of (map (fun r => a r i) rows)) = mean_of (map (fun r => sumn n (a r)) rows).
Proof.
  intros n a rows. unfold mean_of. rewrite map_length.
  rewrite (sumn_ext n _ (fun i => sum_of (map (fun r => a r i) rows) / INR (length rows))) by (intros; now rewrite map_length).
  assert (K : forall f c, sumn n (fun i => f i / c) = sumn n f / c).
  { clear. induction n as [|n IH]; intros f c; cbn [sumn]; [unfold Rdiv; ring|]. rewrite IH. unfold Rdiv. ring. }
  rewrite K. f_equal. clear K. induction rows as [|r rows IH]; cbn [map sum_of]; [apply sumn_zero|]. rewrite <- IH.
  assert (K : forall f g, sumn n (fun i => f i + g i) = sumn n f + sumn n g).
  { clear. induction n as [|n IH]; intros f g; cbn [sumn]; [ring|]. rewrite IH. ring. }
  apply (K (a r)).
Qed.
Lemma mean_near : forall n rows g d, rows <> [] -> Forall (fun r => length r = n /\ dist2 r g <= d) rows -> length g = n ->
  dist2 (mean_vector n rows) g <= d.
Proof.
  intros n rows g d Hr HF Hg. rewrite (dist2_sumn n); [|unfold mean_vector; now rewrite map_length, seq_length|exact Hg].
  apply Rle_trans with (mean_of (map (fun r => sumn n (fun i => (nth i r 0 - nth i g 0) ^ 2)) rows)).
  - rewrite <- (sumn_mean n (fun r i => (nth i r 0 - nth i g 0) ^ 2)). apply sumn_le. intros i Hi. unfold mean_vector.
    rewrite (nth_indep _ 0 (mean_of (map (fun r => nth 0 r 0) rows))) by (now rewrite map_length, seq_length).
    rewrite (map_nth (fun i => mean_of (map (fun r => nth i r 0) rows)) (seq 0 n) 0%nat i), seq_nth by exact Hi. cbn [plus].
    eapply Rle_trans; [apply jensen; destruct rows; [congruence|discriminate]|]. rewrite map_map. apply Rle_refl.
  - unfold mean_of. rewrite map_length. assert (Hk : 0 < INR (length rows)) by (apply lt_0_INR; destruct rows; [congruence|cbn; lia]).
    apply Rmult_le_reg_r with (INR (length rows)); [exact Hk|]. unfold Rdiv. rewrite Rmult_assoc, Rinv_l, Rmult_1_r by lra.
    clear Hr Hk. induction HF as [|r rows [H1 H2] HF IH]; [cbn; lra|].
    change (length (r :: rows)) with (S (length rows)). rewrite S_INR. cbn [map sum_of]. rewrite <- (dist2_sumn n r g H1 Hg). lra.
Qed.
Lemma averages_estimate : forall sizes target px py gradient D G delta, let n := list_sum sizes in
  averages_batch sizes target px py gradient -> (forall p z, In p D -> length z = n -> length (gradient p z) = n) ->
  (forall z, length z = n -> length (G z) = n) ->
  (forall p z, In p D -> length z = n -> dist2 (gradient p z) (G z) <= delta ^ 2) ->
  estimates sizes target (fun b => exists w, w <> [] /\ incl w D /\ b = batch_of px py w) G delta.
Proof.
  intros sizes target px py gradient D G delta n HA HL HG HD vs user b HS (w & W1 & W2 & ->) HU.
  destruct (HA vs user w HS W1 HU) as (cost & gss & E1 & E2 & E3). exists cost, gss. split; [exact E1|]. split; [exact E2|].
  assert (LV : length (flat vs) = n).
  { unfold n. rewrite <- HS. unfold flat. clear. induction vs; cbn; auto. now rewrite app_length, IHvs. }
  rewrite E3. apply mean_near; [destruct w; [congruence|discriminate]| |now apply HG].
  apply Forall_forall. intros r Hr. apply in_map_iff in Hr as (p & <- & Hp). split; [apply HL|apply HD]; auto.
Qed.

(** The batch generator of a sampler that is fed with generate_batches(X, y, X_placeholder, y_placeholder, ..). *)
Definition feeding (B : batch_source R) (px py : nat) (sh : bs_state B * heap (list R) R)
  : res (list (nat * tensor R)) * (bs_state B * heap (list R) R) :=
  let '(s, h) := sh in let '(r, s', h') := bs_next B s h in (do (bx, by_) <- r; Ok [(px, bx); (py, by_)], (s', h')).
Lemma feeding_stream : forall rg Gl (D : list (list R * R)) g px py k gs g', stream (feeding (gb_source rg Gl g) px py) ((gs, g'), arrays_of D) k =
    map (fun r => do b <- r; Ok [(px, fst (batch_arrays (arrays_of D) b)); (py, snd (batch_arrays (arrays_of D) b))]) (fst (fst (gb_run rg Gl k gs g' (arrays_of D)))).
Proof.
  induction k as [|k IH]; intros gs g'; [reflexivity|]. cbn [stream gb_run feeding gb_source bs_next].
  destruct (gb_next rg Gl gs g' (arrays_of D)) as [[r gs1] g1]. rewrite IH. destruct (gb_run rg Gl k gs1 g1 (arrays_of D)) as [[rs gs2] g2].
  cbn [fst map]. f_equal. destruct r; reflexivity.
Qed.
Lemma generated_windows : forall rg Gl (D : list (list R * R)) a bsize g k px py,
  D <> [] -> valid_args a (arrays_of D) -> valid_batch_size (ga_batch_size a) bsize ->
  Forall (fun r => forall b, r = Ok b -> exists w, w <> [] /\ incl w D /\ b = batch_of px py w)
    (stream (feeding (gb_source rg Gl g) px py) ((GNew a, g), arrays_of D) k).
Proof.
  intros rg Gl D a bsize g k px py HD HV HB.
  rewrite feeding_stream. destruct (gb_run rg Gl k (GNew a) g (arrays_of D)) as [[rs gs'] g'] eqn:E. cbn [fst].
  destruct (C01_batches_are_aligned_windows _ _ rg Gl D a bsize g k rs gs' g' HV HB E) as [_ HF].
  apply Forall_forall. intros r Hr. apply in_map_iff in Hr as (r0 & <- & Hr). rewrite Forall_forall in HF.
  destruct (HF _ Hr) as (b & -> & pre & w & post & W1 & W2 & W3 & W4). intros b' Hb. cbn in Hb. injection Hb as <-.
  exists w. split; [|split].
  - intros ->. cbn in W2. destruct HB as (z & _ & Hz & ->). destruct D; [congruence|]. cbn in W2. lia.
  - intros p Hp. rewrite W1. apply in_or_app. right. apply in_or_app. now left.
  - unfold batch_of, batch_arrays. rewrite W3, W4, !map_length. reflexivity.
Qed.
Lemma stream_results : forall (E : env (tensor R)) k us rs s' b0 c0 z0 nx (P : res (list (nat * tensor R)) -> Prop),
  drive E (next_of E k) us (initial_state E b0 c0 z0) = (rs, s') -> bg_next E = Some nx ->
  (forall j, Forall P (stream nx b0 j)) -> Forall (fun c => Forall P (batch_results (cr_events E c))) rs.
Proof.
  intros E k us rs s' b0 c0 z0 nx P HD HN HF. destruct (C09_batches_in_order _ E k us rs s' b0 c0 z0 nx HD HN) as [HB _].
  specialize (HF (length rs)). rewrite <- HB in HF. clear -HF. unfold all_events in *.
  induction rs as [|c rs IH]; constructor; unfold batch_results in *; cbn [flat_map] in HF; rewrite flat_map_app in HF; apply Forall_app in HF as [H1 H2]; auto.
Qed.
Lemma stream_given : forall (E : env (tensor R)) k us rs s' b0 c0 z0 nx (batches : list (nat * tensor R) -> Prop),
  drive E (next_of E k) us (initial_state E b0 c0 z0) = (rs, s') -> bg_next E = Some nx ->
  (forall j, Forall (fun r => forall b, r = Ok b -> batches b) (stream nx b0 j)) -> given_batches batches E rs.
Proof. intros E k us rs s' b0 c0 z0 nx batches. apply stream_results. Qed.
Lemma drive_length : forall (E : env (tensor R)) nxt us rs st s1, drive E nxt us st = (rs, s1) -> length rs = length us.
Proof.
  induction us as [|u us IH]; intros rs st s1 H; cbn [drive] in H; [injection H as <- _; reflexivity|].
  destruct (call E nxt u st) as [[r s2] ev]. destruct (drive E nxt us s2) as [rs2 s3] eqn:Ed. injection H as <- _. cbn. f_equal. eapply IH; eauto.
Qed.
Lemma generated_ok : forall rg Gl (D : list (list R * R)) a bsize g k px py,
  valid_args a (arrays_of D) -> valid_batch_size (ga_batch_size a) bsize ->
  Forall (fun r => is_ok r = true) (stream (feeding (gb_source rg Gl g) px py) ((GNew a, g), arrays_of D) k).
Proof.
  intros rg Gl D a bsize g k px py HV HB. rewrite feeding_stream.
  destruct (gb_run rg Gl k (GNew a) g (arrays_of D)) as [[rs gs'] g'] eqn:E. cbn [fst].
  destruct (C01_batches_are_aligned_windows _ _ rg Gl D a bsize g k rs gs' g' HV HB E) as [_ HF].
  apply Forall_forall. intros r Hr. apply in_map_iff in Hr as (r0 & <- & Hr). rewrite Forall_forall in HF.
  destruct (HF _ Hr) as (b & -> & _). reflexivity.
Qed.
Lemma generated_all : forall variate reserve A s target px py delta (D : list (list R * R)) eps burn
    rg Gl g a bsize us rs s1 e0 params gseed seed ids entropy (G : list R -> list R),
  let sizes := map (fun v => length (data v)) params in let n := list_sum sizes in
  estimates sizes target (fun b => exists w, w <> [] /\ incl w D /\ b = batch_of px py w) G delta ->
  D <> [] -> valid_args a (arrays_of D) -> valid_batch_size (ga_batch_size a) bsize -> 0 < s -> Forall no_fed_mass us ->
  let E := sampler_env variate reserve (kernel_of (Sgld (LConfig A s))) target _ (Some (feeding (gb_source rg Gl g) px py)) (constant_schedule (tensor R) (sample (tensor R) * tensor R)) in
  drive E (burnin_next E burn (length params)) us (initial_state E ((GNew a, g), arrays_of D) (number eps)
     (session_of (Sgld (LConfig A s)) e0 params (noise_ops gseed seed ids entropy (length params)))) = (rs, s1) ->
  length (points E rs) = length us.
Proof.
  intros variate reserve A s target px py delta D eps burn rg Gl g a bsize us rs s1 e0 params gseed seed ids entropy G sizes n HE HN HV HB Hs HU E HD.
  pose proof (constant_steady variate reserve (Sgld (LConfig A s)) target _ (Some (feeding (gb_source rg Gl g) px py)) burn (length params) us rs s1 _ eps _ HD) as HY. fold E in HY.
  assert (OUT : Forall (fun c => exists base fmt, step_outcome E base fmt (cr_res E c) (cr_events E c)) rs).
  { apply Forall_forall. intros c Hc. apply in_split in Hc as (pre & post & ->).
    destruct (outcome_of _ E (BurnIn burn (length params)) _ _ _ _ _ _ _ _ HD) as (base & fmt & SS & _).
    exists base, fmt. exact (ss_outcome E _ _ _ _ _ _ SS). }
  pose proof (drive_length _ _ _ _ _ _ HD) as LR.
  rewrite <- LR.
  assert (GB : given_batches (fun b => exists w, w <> [] /\ incl w D /\ b = batch_of px py w) E rs).
  { refine (stream_given E (BurnIn burn (length params)) us rs s1 _ _ _ (feeding (gb_source rg Gl g) px py) _ HD eq_refl _). intros j. now apply (generated_windows rg Gl D a bsize). }
  assert (GO : Forall (fun c => Forall (fun r => is_ok r = true) (batch_results (cr_events E c))) rs).
  { refine (stream_results E (BurnIn burn (length params)) us rs s1 _ _ _ (feeding (gb_source rg Gl g) px py) _ HD eq_refl _). intros j. now apply (generated_ok rg Gl D a bsize). }
  set (ops := noise_ops gseed seed ids entropy (length params)) in *.
  assert (LO : length ops = length params) by (unfold ops, noise_ops; now rewrite map_length, seq_length).
  assert (HP : Forall (fun o => op_pos o = 0%nat) ops).
  { apply Forall_forall. intros o Ho. unfold ops, noise_ops in Ho. now apply in_map_iff in Ho as (i & <- & _). }
  apply (chain_of_ops variate reserve (Sgld (LConfig A s))) in HD; [|exact Hs|exact LO|exact HU|exact HP].
  fold E in HD. apply (follows_all _ eps _ _ _ _ _ G delta HE) in HD; auto; [discriminate|].
  unfold sizes, sizes_of. clear -LO. clearbody ops. revert ops LO. induction params as [|v params IH]; intros [|o ops] LO; try discriminate LO; auto.
  cbn in *. rewrite map_length. f_equal. apply IH. lia.
Qed.
Lemma radius_form : forall h d r p, r < 1 -> 2 * h * d * (1 - p) / (1 - r) = h * (d + d) / (1 - r) + p * (0 - h * (d + d) / (1 - r)).
Proof. intros. field. lra. Qed.

(** Runs on the same data with different batch sizes and batch seeds: if the gradients of single datapoints differ from
    the gradient over all of them by at most delta, then so close stay the samples. *)
Theorem C99_generated_batches_keep_samples_close :
  forall variate reserve A s target U mu L eps px py gradient delta (D : list (list R * R))
    rg Gl g a bsize us rs s1 e0 rg' Gl' g' a' bsize' us' rs' s1' e0' params gseed sd ids entropy ids' entropy',
  let sizes := map (fun v => length (data v)) params in let n := list_sum sizes in
  let G z := mean_vector n (map (fun p => gradient p z) D) in
  averages_batch sizes target px py gradient -> (forall p z, In p D -> length z = n -> length (gradient p z) = n) ->
  strongly_convex n mu U G -> lipschitz n L G ->
  0 <= delta -> (forall p z, In p D -> length z = n -> dist2 (gradient p z) (G z) <= delta ^ 2) ->
  D <> [] -> valid_args a (arrays_of D) -> valid_batch_size (ga_batch_size a) bsize ->
  valid_args a' (arrays_of D) -> valid_batch_size (ga_batch_size a') bsize' ->
  0 < s -> 0 < eps * A -> let h := eps * A * inverse_mass 1 in h * L ^ 2 < 2 * mu ->
  Forall no_fed_mass us -> Forall no_fed_mass us' ->
  let sc := constant_schedule (tensor R) (sample (tensor R) * tensor R) in
  let E := sampler_env variate reserve (kernel_of (Sgld (LConfig A s))) target _ (Some (feeding (gb_source rg Gl g) px py)) sc in
  let E' := sampler_env variate reserve (kernel_of (Sgld (LConfig A s))) target _ (Some (feeding (gb_source rg' Gl' g') px py)) sc in
  drive E (burnin_next E 1 (length params)) us (initial_state E ((GNew a, g), arrays_of D) (number eps)
     (session_of (Sgld (LConfig A s)) e0 params (noise_ops gseed (Some sd) ids entropy (length params)))) = (rs, s1) ->
  drive E' (burnin_next E' 1 (length params)) us' (initial_state E' ((GNew a', g'), arrays_of D) (number eps)
     (session_of (Sgld (LConfig A s)) e0' params (noise_ops gseed (Some sd) ids' entropy' (length params)))) = (rs', s1') ->
  let r := sqrt (1 - 2 * h * mu + h ^ 2 * L ^ 2) in
  length (points E rs) = length us /\ length (points E' rs') = length us' /\ r < 1 /\
  forall k x y, nth_error (points E rs) k = Some x -> nth_error (points E' rs') k = Some y ->
  sqrt (dist2 x y) <= 2 * h * delta * (1 - r ^ S k) / (1 - r).
Proof.
  intros variate reserve A s target U mu L eps px py gradient delta D rg Gl g a bsize us rs s1 e0 rg' Gl' g' a' bsize' us' rs' s1' e0' params gseed sd ids entropy ids' entropy'
    sizes n G HA HL HC HLi Hd HD HN HV HB HV' HB' Hs Hh h Hb HU HU' sc E E' HR HR' r.
  assert (HG : forall z, length z = n -> length (G z) = n) by (intros; unfold G, mean_vector; now rewrite map_length, seq_length).
  pose proof (averages_estimate sizes target px py gradient D G delta HA HL HG HD) as HE.
  destruct (C99_minibatches_keep_samples_close variate reserve A s target _ delta target _ delta U G mu L eps _ (feeding (gb_source rg Gl g) px py) us rs s1
    ((GNew a, g), arrays_of D) e0 params _ (feeding (gb_source rg' Gl' g') px py) us' rs' s1' ((GNew a', g'), arrays_of D) e0' params gseed sd ids entropy ids' entropy'
    HG HC HLi Hd HE Hd HE eq_refl Hs Hh Hb HU HU' HR HR') as [R1 Q].
  1: refine (stream_given E (BurnIn 1 (length params)) us rs s1 _ _ _ (feeding (gb_source rg Gl g) px py) _ HR eq_refl _). intros j. now apply (generated_windows rg Gl D a bsize).
  1: refine (stream_given E' (BurnIn 1 (length params)) us' rs' s1' _ _ _ (feeding (gb_source rg' Gl' g') px py) _ HR' eq_refl _). intros j. now apply (generated_windows rg' Gl' D a' bsize').
  split; [now apply (generated_all variate reserve A s target px py delta D eps 1 rg Gl g a bsize us rs s1 e0 params gseed (Some sd) ids entropy G)|].
  split; [now apply (generated_all variate reserve A s target px py delta D eps 1 rg' Gl' g' a' bsize' us' rs' s1' e0' params gseed (Some sd) ids' entropy' G)|].
  split; [exact R1|]. intros k x y Hx Hy. specialize (Q k x y Hx Hy). fold h in Q. fold r in Q, R1.
    assert (Z : dist2 (flat params) (flat params) = 0) by (clear; induction (flat params) as [|x l IH]; cbn [dist2]; [auto|rewrite IH; ring]).
    rewrite Z, sqrt_0 in Q.
    rewrite radius_form by exact R1. lra.
Qed.

(** *** x^2 + x y + y^2 plus l (x - y) for each of four datapoints with label l *)
Definition tilted (p : list R * R) (z : list R) : list R := match z with [x; y] => [2 * x + y + snd p; x + 2 * y - snd p] | _ => [] end.
Definition tilted_target : @objective R := fun vs user =>
  match vs, user 1%nat with
  | [v], Some t => match data v with
      | [x; y] => Ok (bowl [x; y] + mean_of (data t) * (x - y), [[2 * x + y + mean_of (data t); x + 2 * y - mean_of (data t)]])
      | _ => Raise ValueError end
  | _, _ => Raise ValueError end.
Definition four : list (list R * R) := [([1], 1); ([2], -1); ([3], 1); ([4], -1)].
Lemma mean_affine : forall (c b : R) (w : list (list R * R)), w <> [] -> mean_of (map (fun p => c + b * snd p) w) = c + b * mean_of (map snd w).
Proof.
  intros c b w Hw. unfold mean_of. rewrite !map_length.
  assert (Hk : 0 < INR (length w)) by (apply lt_0_INR; destruct w; [congruence|cbn; lia]).
  assert (Q : sum_of (map (fun p => c + b * snd p) w) = INR (length w) * c + b * sum_of (map snd w)).
  { clear. induction w as [|p w IH]; [cbn; ring|]. change (length (p :: w)) with (S (length w)). rewrite S_INR. cbn [map sum_of]. rewrite IH. ring. }
  rewrite Q. field. lra.
Qed.
Lemma tilted_averages : averages_batch [2%nat] tilted_target 0 1 tilted.
Proof.
  intros vs user w HS Hw HU. destruct vs as [|v [|]]; try discriminate HS. injection HS as Hv.
  destruct v as [sh [|x [|y [|]]]]; try discriminate Hv. unfold tilted_target. rewrite (HU 1%nat _ eq_refl). cbn [data].
  eexists; eexists. split; [reflexivity|]. split; [reflexivity|]. cbn [concat app].
  unfold mean_vector, list_sum, flat. cbn [fold_right Nat.add seq map data concat app]. rewrite !map_map. cbn [tilted nth].
  f_equal; [|f_equal].
  - rewrite <- (Rmult_1_l (mean_of (map snd w))), <- mean_affine by exact Hw. f_equal. apply map_ext. intros; ring.
  - replace (x + 2 * y - mean_of (map snd w)) with (x + 2 * y + (-1) * mean_of (map snd w)) by ring. rewrite <- mean_affine by exact Hw.
    f_equal. apply map_ext. intros; ring.
Qed.
Lemma tilted_mean : forall z, length z = 2%nat -> mean_vector 2 (map (fun p => tilted p z) four) = bowl_gradient z.
Proof.
  intros [|x [|y [|]]] Hz; try discriminate Hz. unfold four, mean_vector, mean_of. cbn [map seq tilted nth sum_of length snd bowl_gradient].
  replace (INR 4) with 4 by (cbn; ring). f_equal; [|f_equal]; field.
Qed.
Lemma tilted_convex : strongly_convex 2 1 bowl (fun z => mean_vector 2 (map (fun p => tilted p z) four)).
Proof. intros a b Ha Hb. rewrite tilted_mean by assumption. now apply bowl_convex. Qed.
Lemma tilted_lipschitz : lipschitz 2 3 (fun z => mean_vector 2 (map (fun p => tilted p z) four)).
Proof. intros a b Ha Hb. rewrite !tilted_mean by assumption. now apply bowl_lipschitz. Qed.
Lemma tilted_length : forall p z, In p four -> length z = 2%nat -> length (tilted p z) = 2%nat.
Proof. intros p [|x [|y [|]]] _ Hz; try discriminate Hz. reflexivity. Qed.
Lemma tilted_near : forall p z, In p four -> length z = 2%nat -> dist2 (tilted p z) (mean_vector 2 (map (fun p => tilted p z) four)) <= (3 / 2) ^ 2.
Proof.
  intros p z Hp Hz. rewrite tilted_mean by exact Hz. destruct z as [|x [|y [|]]]; try discriminate Hz. cbn [tilted bowl_gradient dist2].
  destruct Hp as [<-|[<-|[<-|[<-|[]]]]]; cbn [snd]; lra.
Qed.
Lemma tilted_estimates : estimates [2%nat] tilted_target (fun b => exists w, w <> [] /\ incl w four /\ b = batch_of 0 1 w)
  (fun z => mean_vector 2 (map (fun p => tilted p z) four)) (3 / 2).
Proof.
  apply (averages_estimate [2%nat] tilted_target 0 1 tilted four); [apply tilted_averages|apply tilted_length| |apply tilted_near].
  intros z _. unfold mean_vector. now rewrite map_length, seq_length.
Qed.

Section Example.
Variables (rg : rng_ops) (Gl : global_ops) (g : glob_state Gl) (variate : Z * Z -> nat -> R).
Definition tilted_env := sampler_env variate (fun n => n) (kernel_of (Sgld (LConfig 1 1))) tilted_target _ (Some (feeding (gb_source rg Gl g) 0 1))
  (constant_schedule (tensor R) (sample (tensor R) * tensor R)).
Definition tilted_drive (burn size seed : Z) (N : nat) :=
  drive tilted_env (burnin_next tilted_env burn 1) (repeat None N)
    (initial_state tilted_env ((GNew {| ga_batch_size := PInt size; ga_seed := PInt seed |}, g), arrays_of four) (number (1 / 10))
       (session_of (Sgld (LConfig 1 1)) 0 [Tensor [2%nat] [3; -1]] (noise_ops None (Some 7%Z) [0%nat] (fun _ => (0, 0)%Z) 1))).
Definition tilted_points (burn size seed : Z) (N : nat) := points tilted_env (fst (tilted_drive burn size seed N)).
Lemma tilted_valid : forall seed size, (0 < size)%Z -> (0 <= seed <= 4294967295)%Z -> valid_args {| ga_batch_size := PInt size; ga_seed := PInt seed |} (arrays_of four) /\
  valid_batch_size (PInt size) (Z.to_nat size).
Proof.
  intros seed size H H'. assert (V : valid_batch_size (PInt size) (Z.to_nat size)) by (exists size; repeat split; try lia; now left).
  split; [|exact V]. split; [eexists; exact V|]. split; [|reflexivity]. right. exists seed. split; [now left|exact H'].
Qed.

(** One run with batches of one datapoint, another one with batches of three: both yield N samples, close to each other. *)
Example C99_example_batch_sizes : forall N,
  let X := tilted_points 1 1 5 N in let Y := tilted_points 1 3 8 N in
  let h := 1 / 10 * 1 * inverse_mass 1 in let r := sqrt (1 - 2 * h * 1 + h ^ 2 * 3 ^ 2) in
  length X = N /\ length Y = N /\ r < 1 /\
  forall k, (k < N)%nat -> sqrt (dist2 (nth k X []) (nth k Y [])) <= 2 * h * (3 / 2) * (1 - r ^ S k) / (1 - r).
Proof.
  intros N X Y h r. unfold X, Y, tilted_points. destruct (tilted_drive 1 1 5 N) as [rs s1] eqn:HD. destruct (tilted_drive 1 3 8 N) as [rs' s1'] eqn:HD'. cbn [fst].
  pose proof bowl_step as HB. destruct (tilted_valid 5 1) as [V1 V2]; [lia|lia|]. destruct (tilted_valid 8 3) as [V3 V4]; [lia|lia|].
  destruct (C99_generated_batches_keep_samples_close variate (fun n => n) 1 1 tilted_target bowl 1 3 (1 / 10) 0 1 tilted (3 / 2) four
    rg Gl g _ 1%nat (repeat None N) rs s1 0 rg Gl g _ 3%nat (repeat None N) rs' s1' 0 [Tensor [2%nat] [3; -1]] None 7%Z [0%nat] (fun _ => (0, 0)%Z) [0%nat] (fun _ => (0, 0)%Z)
    tilted_averages tilted_length tilted_convex tilted_lipschitz ltac:(lra) tilted_near ltac:(discriminate) V1 V2 V3 V4 ltac:(lra) ltac:(lra) HB (no_feeds N) (no_feeds N) HD HD')
    as (L1 & L2 & R1 & Q). rewrite repeat_length in L1, L2.
  split; [exact L1|]. split; [exact L2|]. split; [exact R1|]. intros k Hk. apply Q; apply nth_error_nth'; (eapply Nat.lt_le_trans; [exact Hk|]); [rewrite <- L1 at 1|rewrite <- L2 at 1]; apply le_n.
Qed.
(** With three steps of burn-in. *)
Example C99_example_burn_in : forall N,
  let X := tilted_points 3 2 5 N in length X = N /\
  exists ms, length ms = 2%nat /\ Forall (fun m => 0 < m) ms /\
  forall lo hi, 0 < lo -> Forall (fun m => lo <= m <= hi) ms -> 1 / 10 * 1 * hi * 3 ^ 2 <= 2 * 1 ->
  forall k, (2 <= k)%nat -> (S k < N)%nat ->
  sqrt (scaled_dist2 ms (nth (S k) X []) [0; 0]) <=
    sqrt (1 - lo * (1 / 10 * 1) * (2 * 1 - 1 / 10 * 1 * hi * 3 ^ 2)) * sqrt (scaled_dist2 ms (nth k X []) [0; 0]) +
    1 / 10 * 1 * sqrt hi * (3 / 2) +
    sqrt (2 * (1 / 10 * 1) / (1 + 3 / 10000000000000000)) * sqrt (sum_squares
      (normals variate (fun n => n) (map op_key (noise_ops None (Some 7%Z) [0%nat] (fun _ => (0, 0)%Z) 1)) [2%nat] (S k))).
Proof.
  intros N X. unfold X, tilted_points. destruct (tilted_drive 3 2 5 N) as [rs s1] eqn:HD. cbn [fst].
  destruct (tilted_valid 5 2) as [V1 V2]; [lia|lia|].
  assert (LX : length (points tilted_env rs) = N).
  { etransitivity; [|apply (repeat_length (@None (feed (tensor R))) N)].
    apply (generated_all variate (fun n => n) 1 1 tilted_target 0 1 (3 / 2) four (1 / 10) 3 rg Gl g _ 2 (repeat None N) rs s1 0 [Tensor [2%nat] [3; -1]] None (Some 7%Z) [0%nat] (fun _ => (0, 0)%Z)
      _ tilted_estimates ltac:(discriminate) V1 V2 ltac:(lra) (no_feeds N) HD). }
  split; [exact LX|].
  destruct (C99_minibatch_sgld_returns_to_the_minimiser variate (fun n => n) 1 1 tilted_target _ (3 / 2) bowl _ 1 3 [0; 0] (1 / 10) 3 _ (feeding (gb_source rg Gl g) 0 1) (repeat None N) rs s1
    ((GNew {| ga_batch_size := PInt 2; ga_seed := PInt 5 |}, g), arrays_of four) 0 [Tensor [2%nat] [3; -1]] None (Some 7%Z) [0%nat] (fun _ => (0, 0)%Z)
    ltac:(intros; unfold mean_vector; now rewrite map_length, seq_length) tilted_convex tilted_lipschitz ltac:(lra) tilted_estimates eq_refl) as (ms & M1 & M2 & Q); auto; try lra; try lia.
  - change (Forall (fun g => g = 0) (mean_vector 2 (map (fun p => tilted p [0; 0]) four))). rewrite (tilted_mean [0; 0] eq_refl). cbn [bowl_gradient]. repeat constructor; ring.
  - apply no_feeds.
  - refine (stream_given tilted_env (BurnIn 3 1) (repeat None N) rs s1 _ _ _ (feeding (gb_source rg Gl g) 0 1) _ HD eq_refl _). intros j. now apply (generated_windows rg Gl four _ 2).
  - exists ms. split; [exact M1|]. split; [exact M2|]. intros lo hi H1 H2 H3 k Hk HN. apply Q; auto; [lia| |]; apply nth_error_nth'; (eapply Nat.lt_le_trans; [|apply Nat.eq_le_incl; symmetry; exact LX]); lia.
Qed.
End Example.
Print Assumptions C99_minibatches_keep_samples_close.
Print Assumptions C99_minibatch_sgld_returns_to_the_minimiser.
Print Assumptions C99_generated_batches_keep_samples_close.
