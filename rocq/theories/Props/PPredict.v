(** C53, C54, C56, C57, C61: predictions, the training cost and the default network,
    over the reals. *)
From Coq Require Import String List Arith Lia ZArith Bool Reals Lra.
From Verif.Base Require Import Py Num Vec.
From Verif.Model Require Import BaseClasses TensorUtils BaseModel BNN.
From Verif.Spec Require Import Dynamics Svgd.
From Verif.Proofs Require Import Svgd Dynamics.
From Verif.Spec Require Import Stats.
From Verif.Props Require Import PBaseModel.
Import ListNotations.
Local Open Scope R_scope.
Local Open Scope list_scope.

(** ** Statistics *)
Lemma variance_zero_iff : forall l, l <> [] -> (variance l = 0 <-> forall a b, In a l -> In b l -> a = b).
Proof.
  intros l Hl. split.
  - intros Hv a b Ha Hb. destruct (Req_dec a b) as [|Hab]; auto. exfalso.
    pose proof (variance_pos l ltac:(exists a, b; auto)). lra.
  - intros Hc. destruct l as [|x l]; [congruence|].
    assert (Hm : mean (x :: l) = x).
    { replace (x :: l) with (map (fun y => 0 * y + x) (x :: l)) at 1.
      - rewrite mean_affine by discriminate. ring.
      - rewrite <- (map_id (x :: l)) at 2. apply map_ext_in. intros y Hy. rewrite (Hc x y) by (cbn; auto; now left). ring. }
    unfold variance. rewrite Hm.
    rewrite (map_ext_in (fun x0 => (x0 - x) ^ 2) (fun x0 => 0 * x0 + 0)).
    + rewrite mean_affine by discriminate. ring.
    + intros y Hy. rewrite (Hc x y) by (cbn; auto; now left). ring.
Qed.
Lemma mean_plus : forall A (f g : A -> R) l, l <> [] -> mean (map (fun a => f a + g a) l) = mean (map f l) + mean (map g l).
Proof.
  intros A f g l Hl. unfold mean. rewrite !map_length, Rsum_plus. pose proof (INR_len_pos _ l Hl). field. lra.
Qed.
Lemma mean_nonneg : forall l, Forall (fun x => 0 <= x) l -> 0 <= mean l.
Proof.
  intros [|x l] HF; [unfold mean; cbn; lra|]. unfold mean. apply Rmult_le_pos; [now apply Rsum_nonneg|].
  left. apply Rinv_0_lt_compat, INR_len_pos. discriminate.
Qed.
Lemma mean_pos : forall l, l <> [] -> Forall (fun x => 0 < x) l -> 0 < mean l.
Proof.
  intros [|x l] Hl HF; [congruence|]. unfold mean. apply Rmult_lt_0_compat.
  - apply Rsum_pos; [eapply Forall_impl; [|exact HF]; cbn; intros; lra|]. left. now inversion HF.
  - apply Rinv_0_lt_compat, INR_len_pos. discriminate.
Qed.
Lemma variance_moments : forall l, l <> [] -> variance l = mean (map (fun x => x ^ 2) l) - mean l ^ 2.
Proof.
  intros l Hl. unfold variance. set (m := mean l).
  rewrite (map_ext (fun x => (x - m) ^ 2) (fun x => x ^ 2 + (- (2 * m) * x + m ^ 2))) by (intros; ring).
  rewrite (mean_plus _ (fun x => x ^ 2) (fun x => - (2 * m) * x + m ^ 2)) by auto. rewrite mean_affine by auto. fold m. ring.
Qed.

(** ** C53, C54 *)
Definition aggregate_mean (F : list (list R)) : list R := map np_mean (columns F).
Definition aggregate_variance (F : list (list R)) : list R :=
  map np_mean (columns (map (fun r => vmap2 (fun a m => nmul (nsub a m) (nsub a m)) r (aggregate_mean F)) F)).
Lemma aggregate_spec : forall d F, matrix d F ->
  length (aggregate_mean F) = d /\ length (aggregate_variance F) = d /\
  forall j, (j < d)%nat -> nth j (aggregate_mean F) 0 = mean (column F j) /\ nth j (aggregate_variance F) 0 = variance (column F j).
Proof.
  intros d F HF.
  assert (Lm : length (aggregate_mean F) = d) by (unfold aggregate_mean; rewrite (columns_R d F HF), !map_length; apply seq_length).
  assert (Nm : forall j, (j < d)%nat -> nth j (aggregate_mean F) 0 = mean (column F j)).
  { intros j Hj. unfold aggregate_mean. rewrite (columns_R d F HF), map_map, nth_map_seq by auto. apply np_mean_R. }
  set (g := fun r => vmap2 (fun a m => nmul (nsub a m) (nsub a m)) r (aggregate_mean F)).
  assert (Hg : forall r, length r = d -> length (g r) = d) by (intros; unfold g; now apply vmap2_length).
  assert (Hn : forall r j, length r = d -> (j < d)%nat -> nth j (g r) 0 = (fun j x => (x - mean (column F j)) ^ 2) j (nth j r 0)).
  { intros r j Hr Hj. unfold g. rewrite nth_vmap2 by lia. rewrite Nm by auto. cbn. ring. }
  pose proof (matrix_map d g Hg F HF) as HG.
  split; [exact Lm|]. split; [unfold aggregate_variance; fold g; rewrite (columns_R d _ HG), !map_length; apply seq_length|].
  intros j Hj. split; [auto|]. unfold aggregate_variance. fold g. rewrite (columns_R d _ HG), map_map, nth_map_seq by auto.
  rewrite np_mean_R. rewrite (column_map d g _ Hn F j HF Hj). reflexivity.
Qed.

Section P.
Variable W : Type.
Variable value_of : W -> nat -> tensor R.
Notation predict := (predict W value_of).

Lemma matrix_rows : forall d (g : list R -> list R) F, (forall r, length (g r) = length r) -> matrix d (map g F) -> matrix d F.
Proof.
  intros d g F Hg [Hn HF]. split; [now destruct F|]. apply Forall_map in HF. eapply Forall_impl; [|exact HF].
  cbn. intros r Hr. now rewrite Hg in Hr.
Qed.

(** The aggregate prediction consists of the means and population variances, point by
    point, of the individual predictions. *)
Theorem C53_aggregate_of_individual : forall c X b w d F N, predict c (Matrix X) true b w = Ok (Individual F N) -> matrix d F ->
  exists m v, predict c (Matrix X) false b w = Ok (Aggregate m v) /\ length m = d /\ length v = d /\
  forall j, (j < d)%nat -> nth j m 0 = mean (column F j) /\ nth j v 0 = variance (column F j) /\ 0 <= nth j v 0 /\
    (nth j v 0 = 0 <-> forall r r', In r F -> In r' F -> nth j r 0 = nth j r' 0).
Proof.
  intros c X b w d F N HP HM.
  assert (G : exists m v, predict c (Matrix X) false b w = Ok (Aggregate m v) /\ length m = d /\ length v = d /\
    forall j, (j < d)%nat -> nth j m 0 = mean (column F j) /\ nth j v 0 = variance (column F j)).
  { unfold BNN.predict in *. destruct (negb (b_trained b)); [discriminate|].
    destruct (if c_normalize_input c then _ else _) as [X1|]; [|discriminate]. cbn [bind] in *.
    destruct (outputs_of W value_of b w (b_samples b) X1) as [outs|]; [|discriminate]. cbn [bind] in *.
    set (f := map (map fst) outs) in *. set (n := map (map (fun o : R * R => nexp (snd o))) outs) in *. clearbody f n.
    destruct (if c_normalize_output c then _ else _) as [[[my sy]|]|]; [| |discriminate]; cbn [bind] in *; injection HP as <- <-.
    - set (g := fun r : list R => zmuv_unnormalization1 r my sy) in *.
      assert (Hg : forall r, length (g r) = length r) by (intros; apply map_length).
      pose proof (matrix_rows d g f Hg HM) as Hf. destruct f as [|r0 f'] eqn:Ef; [now destruct Hf|]. rewrite <- Ef in *.
      fold (aggregate_mean f) (aggregate_variance f). destruct (aggregate_spec d f Hf) as (L1 & L2 & L3).
      do 2 eexists. split; [reflexivity|]. unfold zmuv_unnormalization1. rewrite !map_length. split; [exact L1|]. split; [exact L2|].
      intros j Hj. destruct (L3 j Hj) as [M1 M2].
      rewrite (column_map d g (fun _ x => sy * x + my)); [| |exact Hf|exact Hj].
      2:{ intros r i Hr Hi. unfold g, zmuv_unnormalization1. rewrite nth_indep with (d' := nadd (nmul 0 sy) my) by (rewrite map_length; lia).
          rewrite (map_nth (fun v => nadd (nmul v sy) my)). cbn. ring. }
      rewrite mean_affine, variance_affine by (eapply column_nonempty; eauto). rewrite <- M1, <- M2. split.
      + rewrite nth_indep with (d' := nadd (nmul 0 sy) my) by (rewrite map_length; lia).
        rewrite (map_nth (fun v => nadd (nmul v sy) my)). cbn. ring.
      + rewrite nth_indep with (d' := nmul 0 (nmul sy sy)) by (rewrite map_length; lia).
        rewrite (map_nth (fun v => nmul v (nmul sy sy))). cbn. ring.
    - destruct f as [|r0 f'] eqn:Ef; [now destruct HM|]. rewrite <- Ef in *.
      fold (aggregate_mean f) (aggregate_variance f). destruct (aggregate_spec d f HM) as (L1 & L2 & L3).
      do 2 eexists. split; [reflexivity|]. auto. }
  destruct G as (m & v & G1 & G2 & G3 & G4). exists m, v. split; [exact G1|]. split; [exact G2|]. split; [exact G3|].
  intros j Hj. destruct (G4 j Hj) as [G5 G6]. pose proof (column_nonempty d F j HM) as Hne.
  split; [exact G5|]. split; [exact G6|]. rewrite G6. split; [now apply variance_nonneg|]. rewrite variance_zero_iff by auto.
  unfold column. split.
  - intros Ha r r' Hr Hr'. apply Ha; apply in_map_iff; eauto.
  - intros Ha a b' Ia Ib. apply in_map_iff in Ia as (r & <- & Hr), Ib as (r' & <- & Hr'). auto.
Qed.

(** Both kinds of prediction fail together. *)
Theorem C53_same_failures : forall c x b w e, predict c x true b w = Raise e <-> predict c x false b w = Raise e.
Proof.
  intros c [X|] b w e; [|reflexivity]. unfold BNN.predict. destruct (negb (b_trained b)); [reflexivity|].
  destruct (if c_normalize_input c then _ else _) as [X1|]; cbn [bind]; [|reflexivity].
  destruct (outputs_of _ _ _ _ _ _) as [outs|]; cbn [bind]; [|reflexivity].
  destruct (if c_normalize_output c then _ else _) as [ys|]; cbn [bind]; [|reflexivity].
  split; intros Hx; [destruct ys as [[]|]; discriminate|]. destruct (map (map fst) outs); destruct ys as [[]|]; discriminate.
Qed.

(** Drawing one of the nets uniformly and then an observation with the net's mean
    and noise variance: the variance of the observation, from its moments. *)
Definition total_variance (F N : list (list R)) (j : nat) : R :=
  mean (map (fun '(f, s) => nth j s 0 + nth j f 0 ^ 2) (combine F N)) - mean (column F j) ^ 2.

Lemma column_fst : forall (F N : list (list R)) (g : list R -> R), length F = length N -> map (fun p => g (fst p)) (combine F N) = map g F.
Proof. induction F as [|f F IH]; intros [|n N] g Hl; try discriminate; auto. cbn. f_equal. apply IH. now injection Hl. Qed.
Lemma column_snd : forall (F N : list (list R)) (g : list R -> R), length F = length N -> map (fun p => g (snd p)) (combine F N) = map g N.
Proof. induction F as [|f F IH]; intros [|n N] g Hl; try discriminate; auto. cbn. f_equal. apply IH. now injection Hl. Qed.

Theorem C54_noise_omitted : forall c X b w d F N m v, predict c (Matrix X) true b w = Ok (Individual F N) -> matrix d F ->
  predict c (Matrix X) false b w = Ok (Aggregate m v) ->
  forall j, (j < d)%nat ->
    nth j v 0 = total_variance F N j - mean (column N j) /\ nth j v 0 <= total_variance F N j /\
    ((c_normalize_output c = true -> forall my sy, b_y_stats b = Some (my, sy) -> sy <> 0) -> nth j v 0 < total_variance F N j).
Proof.
  intros c X b w d F N m v HP HM HA j Hj.
  destruct (C53_aggregate_of_individual c X b w d F N HP HM) as (m' & v' & HA' & _ & _ & HJ). rewrite HA in HA'. injection HA' as <- <-.
  destruct (HJ j Hj) as (_ & HV & _). rewrite HV.
  assert (S : exists (outs : list (list (R * R))) k (h : list R -> list R), N = map (map (fun o => exp (snd o) * k)) outs /\ F = map (fun o => h (map fst o)) outs /\ 0 <= k /\
    (forall r, length (h r) = length r) /\
    ((c_normalize_output c = true -> forall my sy, b_y_stats b = Some (my, sy) -> sy <> 0) -> 0 < k)).
  { unfold BNN.predict in HP. destruct (negb (b_trained b)); [discriminate|].
    destruct (if c_normalize_input c then _ else _) as [X1|]; [|discriminate]. cbn [bind] in *.
    destruct (outputs_of W value_of b w (b_samples b) X1) as [outs|]; [|discriminate]. cbn [bind] in *. exists outs.
    destruct (c_normalize_output c).
    - destruct (b_y_stats b) as [[my sy]|]; [|discriminate]. cbn [bind] in HP. injection HP as <- <-.
      exists (sy * sy), (fun r => zmuv_unnormalization1 r my sy). rewrite !map_map. split; [apply map_ext; intros; now rewrite map_map|].
      split; [apply map_ext; intros; reflexivity|]. split; [nra|]. split; [intros; apply map_length|].
      intros Hs. specialize (Hs eq_refl my sy eq_refl). nra.
    - cbn [bind] in HP. injection HP as <- <-. exists 1, (fun r => r).
      split. { apply map_ext. intros. apply map_ext. intros. cbn. ring. }
      split; [reflexivity|]. split; [lra|]. split; [reflexivity|]. intros; lra. }
  destruct S as (outs & k & h & HN & HF & Hk & Hh & Hk').
  assert (HL : length F = length N) by (rewrite HN, HF, !map_length; reflexivity).
  assert (Hne : F <> []) by apply HM.
  assert (HT : total_variance F N j = variance (column F j) + mean (column N j)).
  { unfold total_variance. rewrite variance_moments by (eapply column_nonempty; eauto).
    replace (map (fun '(f, s) => nth j s 0 + nth j f 0 ^ 2) (combine F N)) with
      (map (fun p => (fun p => nth j (snd p) 0) p + (fun p => nth j (fst p) 0 ^ 2) p) (combine F N)) by (apply map_ext; intros []; reflexivity).
    rewrite (mean_plus (list R * list R)). 2:{ destruct F, N; try discriminate. congruence. }
    rewrite (column_fst F N (fun r => nth j r 0 ^ 2)), (column_snd F N (fun r => nth j r 0)) by auto.
    unfold column. rewrite map_map. ring. }
  assert (HNj : forall x, In x (column N j) -> exists e, 0 < e /\ x = e * k).
  { intros x Hx. unfold column in Hx. apply in_map_iff in Hx as (r & <- & Hr). rewrite HN in Hr. apply in_map_iff in Hr as (o & <- & Ho).
    assert (Lo : length o = d).
    { destruct HM as [_ HM]. rewrite HF, Forall_forall in HM. rewrite <- (HM (h (map fst o))) by (apply in_map_iff; eauto).
      now rewrite Hh, map_length. }
    rewrite nth_indep with (d' := exp (snd (0, 0)) * k) by (rewrite map_length; lia). rewrite (map_nth (fun o => exp (snd o) * k)).
    eexists. split; [|reflexivity]. apply exp_pos. }
  rewrite HT. split; [ring|]. split.
  - assert (0 <= mean (column N j)); [|lra]. apply mean_nonneg. apply Forall_forall. intros x Hx. destruct (HNj x Hx) as (e & He & ->). nra.
  - intros Hs. specialize (Hk' Hs). assert (0 < mean (column N j)); [|lra]. apply mean_pos.
    + unfold column. destruct N; [destruct F; [congruence|discriminate]|discriminate].
    + apply Forall_forall. intros x Hx. destruct (HNj x Hx) as (e & He & ->). nra.
Qed.
End P.

(** ** C56 *)
(** Negative log density of N(m, v) at y. *)
Definition gaussian_nll (y m v : R) : R := (y - m) ^ 2 / (2 * v) + ln v / 2 + ln (2 * PI) / 2.
Notation row := (R * (R * R))%type.       (* label, predicted mean, predicted log variance *)
Definition row_nll (r : row) : R := let '(y, (m, lv)) := r in gaussian_nll y m (exp lv).
(** What the term 1e-16 added to the variance removes. *)
Definition defect (r : row) : R :=
  let '(y, (m, lv)) := r in (y - m) ^ 2 / (2 * exp lv) - (y - m) ^ 2 / (2 * (exp lv + guard)).
(** The two priors of a network. *)
Definition log_prior (params : list (tensor R)) (rows : list row) : R :=
  log_variance_prior_log_like (map (fun '(_, (_, lv)) => [lv]) rows) (/ 1000000) (/ 100) + weight_prior_log_like params 1.
Definition batch_nll (rows : list row) : R := mean (map (fun r => row_nll r - defect r) rows) - ln (2 * PI) / 2.

Lemma defect_small : forall y m lv, 0 <= defect (y, (m, lv)) <= guard * ((y - m) ^ 2 / (2 * exp lv ^ 2)).
Proof.
  intros y m lv. unfold defect. pose proof (exp_pos lv) as He. pose proof guard_pos as Hg. pose proof (pow2_ge_0 (y - m)) as Hs.
  set (e := exp lv) in *. set (s := (y - m) ^ 2) in *. clearbody e s.
  assert (E : s / (2 * e) - s / (2 * (e + guard)) = guard * (s / (2 * (e * (e + guard))))) by (field; lra).
  rewrite E. assert (0 < e * (e + guard)) by nra. assert (0 < e ^ 2 <= e * (e + guard)) by nra.
  assert (0 <= s / (2 * (e * (e + guard)))) by (apply Rmult_le_pos; [auto|left; apply Rinv_0_lt_compat; lra]). split; [nra|].
  apply Rmult_le_compat_l; [lra|]. apply Rmult_le_compat_l; [auto|]. apply Rinv_le_contravar; lra.
Qed.

Lemma fst_nll : forall bs n params rows,
  fst (negative_log_likelihood bs n params rows) =
  - (Rsum (map (fun r => - (row_nll r - defect r - ln (2 * PI) / 2)) rows) / INR bs + log_prior params rows / INR n).
Proof.
  intros bs n params rows. unfold negative_log_likelihood. cbn [fst]. rewrite !nint_nat_R, nsum_R.
  unfold log_prior, mean_prior, var_prior. rewrite n1_R. cbn [nadd ndiv nopp Num_R].
  replace (nfrac 1 1000000) with (/ 1000000) by (cbn; unfold Rfrac; lra).
  replace (nfrac 1 100) with (/ 100) by (cbn; unfold Rfrac; lra).
  match goal with |- context [Rsum (map ?f rows)] => rewrite (Rsum_map_ext _ f (fun r => - (row_nll r - defect r - ln (2 * PI) / 2))) end.
  - unfold Rdiv. ring.
  - intros [y [m lv]] _. unfold row_nll, defect, gaussian_nll. rewrite ln_exp.
    pose proof (exp_pos lv). pose proof guard_pos. cbn [nadd nmul nsub ndiv nopp nexp nfrac Num_R NumT_R]. unfold Rfrac.
    replace (IZR 1 / IZR (Zpos 10000000000000000)) with guard by (unfold guard; lra).
    set (e := exp lv) in *. clearbody e. unfold guard in *. field. lra.
Qed.

Theorem C56_cost : forall bs n params rows, (0 < bs)%nat -> rows <> [] ->
  fst (negative_log_likelihood bs n params rows) =
    INR (length rows) / INR bs * batch_nll rows - log_prior params rows / INR n /\
  snd (negative_log_likelihood bs n params rows) = mean (map (fun '(y, (m, _)) => (y - m) ^ 2) rows) /\
  (forall r, In r rows -> 0 <= defect r <= guard * (let '(y, (m, lv)) := r in (y - m) ^ 2 / (2 * exp lv ^ 2))).
Proof.
  intros bs n params rows Hbs Hr. assert (Hb : 0 < INR bs) by (now apply lt_0_INR). pose proof (INR_len_pos _ rows Hr) as Hl.
  split; [|split].
  - rewrite fst_nll. unfold batch_nll.
    set (f := fun r => row_nll r - defect r) in *.
    rewrite (Rsum_map_ext _ (fun r => - (f r - ln (2 * PI) / 2)) (fun r => (fun r => -1 * f r) r + (fun _ => ln (2 * PI) / 2) r)) by (intros; ring).
    rewrite Rsum_plus. rewrite <- (map_map f (Rmult (-1))), Rsum_scale.
    replace (Rsum (map (fun _ : row => ln (2 * PI) / 2) rows)) with (INR (length rows) * (ln (2 * PI) / 2)).
    + unfold mean. rewrite map_length. generalize (ln (2 * PI)), (Rsum (map f rows)), (log_prior params rows / INR n); intros; field; lra.
    + clear. induction rows as [|r rows IH]; [cbn; ring|]. cbn [map Rsum length]. rewrite S_INR, <- IH. ring.
  - unfold negative_log_likelihood. cbn [snd]. rewrite np_mean_R. f_equal. apply map_ext. intros [y [m lv]]. cbn. ring.
  - intros [y [m lv]] _. apply defect_small.
Qed.
(** With the batch size of the configuration the cost is the mean. *)
Corollary C56_full_batch : forall n params rows, rows <> [] ->
  fst (negative_log_likelihood (length rows) n params rows) = batch_nll rows - log_prior params rows / INR n.
Proof.
  intros n params rows Hr. destruct (C56_cost (length rows) n params rows) as [-> _]; auto.
  - destruct rows; [congruence|cbn; lia].
  - pose proof (INR_len_pos _ rows Hr). unfold Rdiv at 1. rewrite Rinv_r by lra. ring.
Qed.

(** The batches of the generators have [min batch_size n] rows.  The contract is the
    mean, whatever the batch size. *)
Definition mean_cost : Prop := forall bs n params (rows : list row), (0 < bs)%nat -> (0 < n)%nat -> length rows = Nat.min bs n ->
  fst (negative_log_likelihood bs n params rows) = batch_nll rows - log_prior params rows / INR n.
Theorem C56_mean_cost_refuted : ~ mean_cost.
Proof.
  intros C. specialize (C 2%nat 1%nat [] [(1, (0, 0))] ltac:(lia) ltac:(lia) eq_refl).
  destruct (C56_cost 2 1 [] [(1, (0, 0))] ltac:(lia) ltac:(discriminate)) as [E _]. rewrite E in C.
  assert (B : batch_nll [(1, (0, 0))] <> 0).
  { unfold batch_nll, mean, row_nll, defect, gaussian_nll. cbn [map Rsum length INR]. rewrite exp_0, ln_1.
    pose proof guard_pos. assert (0 < 1 / (2 * (1 + guard))) by (apply Rmult_lt_0_compat; [lra|apply Rinv_0_lt_compat; lra]).
    intros Z. unfold Rdiv in *. lra. }
  cbn [length INR] in C. apply B. lra.
Qed.
(** What holds instead: the likelihood term of oversized batches is shrunk. *)
Corollary C56_oversized_batch : forall bs n params rows, (0 < n)%nat -> (n <= bs)%nat -> length rows = Nat.min bs n ->
  fst (negative_log_likelihood bs n params rows) = INR n / INR bs * batch_nll rows - log_prior params rows / INR n.
Proof.
  intros bs n params rows Hn Hb Hl. rewrite Nat.min_r in Hl by auto.
  assert (rows <> []) by (destruct rows; [cbn in Hl; lia|discriminate]).
  destruct (C56_cost bs n params rows) as [-> _]; auto; [lia|]. now rewrite Hl.
Qed.

(** Two rows in batches of four, network output (0, 0), label 1: the mean squared error is
    1; the cost has half the mean likelihood term. *)
Example C56_example :
  snd (negative_log_likelihood 4 2 [] [(1, (0, 0)); (1, (0, 0))]) = 1 /\
  fst (negative_log_likelihood 4 2 [] [(1, (0, 0)); (1, (0, 0))]) =
    / 2 * batch_nll [(1, (0, 0)); (1, (0, 0))] - log_prior [] [(1, (0, 0)); (1, (0, 0))] / 2.
Proof.
  split.
  - destruct (C56_cost 4 2 [] [(1, (0, 0)); (1, (0, 0))] ltac:(lia) ltac:(discriminate)) as (_ & -> & _).
    unfold mean. cbn [map Rsum length INR]. lra.
  - rewrite C56_oversized_batch by (cbn; lia). cbn [INR]. lra.
Qed.

(** ** C57 *)
Lemma Rsum_opp : forall A (f : A -> R) l, Rsum (map (fun a => - f a) l) = - Rsum (map f l).
Proof. induction l as [|a l IH]; cbn; [ring|]. rewrite IH. ring. Qed.
Lemma Rsum_const : forall A (c : R) (l : list A), Rsum (map (fun _ => c) l) = INR (length l) * c.
Proof. induction l as [|a l IH]; [cbn; ring|]. cbn [map Rsum length]. rewrite S_INR, IH. ring. Qed.
Lemma Rsum_zero_iff : forall l, Forall (fun x => 0 <= x) l -> (Rsum l = 0 <-> Forall (fun x => x = 0) l).
Proof.
  intros l HF. induction HF as [|x l Hx HF IH]; cbn; [split; auto|]. pose proof (Rsum_nonneg l HF). split.
  - intros E. constructor; [lra|]. apply IH. lra.
  - intros E. inversion E; subst. rewrite (proj2 IH); auto. lra.
Qed.

(** The log variances should lie around [ln m] with variance [v]; [k] per row. *)
Definition squares (m : R) (rows : list (list R)) : R := mean (map (fun r => Rsum (map (fun lv => (lv - ln m) ^ 2) r)) rows).
Lemma log_variance_prior_R : forall rows m v k, 0 < v -> rows <> [] -> Forall (fun r => length r = k) rows ->
  log_variance_prior_log_like rows m v = - INR k / 2 * ln v - squares m rows / (2 * v + 3 * guard).
Proof.
  intros rows m v k Hv Hr Hk. unfold log_variance_prior_log_like, squares. rewrite np_mean_R. pose proof guard_pos.
  set (q := fun r => Rsum (map (fun lv => (lv - ln m) ^ 2) r)).
  rewrite (map_ext_in _ (fun r => (- / (2 * v + 3 * guard)) * q r + (- INR k / 2 * ln v))).
  - rewrite <- (map_map q (fun x => (- / (2 * v + 3 * guard)) * x + (- INR k / 2 * ln v))), mean_affine by (now destruct rows).
    unfold Rdiv. ring.
  - intros r Hin. rewrite Forall_forall in Hk. rewrite <- (Hk r Hin). rewrite nsum_R.
    rewrite (Rsum_map_ext _ _ (fun lv => (fun lv => (- / (2 * v + 3 * guard)) * (lv - ln m) ^ 2) lv + (fun _ => - / 2 * ln v) lv)).
    + rewrite Rsum_plus, Rsum_const. rewrite <- (map_map (fun lv => (lv - ln m) ^ 2) (Rmult (- / (2 * v + 3 * guard)))), Rsum_scale.
      unfold q. field. lra.
    + intros lv _. rewrite n2_R. cbn [nmul nsub nopp nln nfrac Num_R NumT_R]. rewrite safe_divide_R_pos by lra. unfold Rfrac. field. lra.
Qed.
Theorem C57_log_variance_prior : forall rows m v k, 0 < m -> 0 < v -> rows <> [] -> Forall (fun r => length r = k) rows ->
  log_variance_prior_log_like rows m v <= - INR k / 2 * ln v /\
  (log_variance_prior_log_like rows m v = - INR k / 2 * ln v <-> Forall (Forall (fun lv => exp lv = m)) rows).
Proof.
  intros rows m v k Hm Hv Hr Hk. rewrite (log_variance_prior_R rows m v k Hv Hr Hk). pose proof guard_pos as Hg.
  assert (Q : forall r, 0 <= Rsum (map (fun lv => (lv - ln m) ^ 2) r)).
  { intros r. apply Rsum_nonneg. apply Forall_forall. intros x Hx. apply in_map_iff in Hx as (y & <- & _). apply pow2_ge_0. }
  assert (S : 0 <= squares m rows).
  { apply mean_nonneg. apply Forall_forall. intros x Hx. apply in_map_iff in Hx as (r & <- & _). apply Q. }
  assert (D : 0 < / (2 * v + 3 * guard)) by (apply Rinv_0_lt_compat; lra).
  split; [unfold Rdiv at 2; nra|].
  assert (Z : squares m rows = 0 <-> Forall (Forall (fun lv => exp lv = m)) rows).
  { unfold squares, mean. rewrite map_length. pose proof (INR_len_pos _ rows Hr) as Hl.
    assert (E0 : forall x, x / INR (length rows) = 0 <-> x = 0).
    { intros x. split; intros E; [|rewrite E; unfold Rdiv; ring].
      assert (x = x / INR (length rows) * INR (length rows)) by (field; lra). rewrite E in H. lra. }
    rewrite E0, Rsum_zero_iff. 2:{ apply Forall_forall. intros x Hx. apply in_map_iff in Hx as (r & <- & _). apply Q. }
    rewrite !Forall_forall. split.
    - intros A r Hin. rewrite Forall_forall. intros lv Hlv.
      specialize (A _ (in_map (fun r => Rsum (map (fun lv => (lv - ln m) ^ 2) r)) _ _ Hin)). cbn beta in A.
      apply Rsum_zero_iff in A. 2:{ apply Forall_forall. intros x Hx. apply in_map_iff in Hx as (y & <- & _). apply pow2_ge_0. }
      rewrite Forall_forall in A. specialize (A _ (in_map (fun lv => (lv - ln m) ^ 2) _ _ Hlv)). cbn beta in A.
      replace lv with (ln m) by nra. now apply exp_ln.
    - intros A x Hx. apply in_map_iff in Hx as (r & <- & Hin). specialize (A r Hin). rewrite Forall_forall in A.
      apply Rsum_zero_iff. { apply Forall_forall. intros x Hx. apply in_map_iff in Hx as (y & <- & _). apply pow2_ge_0. }
      apply Forall_forall. intros x Hx. apply in_map_iff in Hx as (lv & <- & Hlv). rewrite <- (A lv Hlv), ln_exp. ring. }
  rewrite <- Z. split; intros E; [|rewrite E; unfold Rdiv; ring]. unfold Rdiv at 2 in E. nra.
Qed.

(** All entries of all weights. *)
Definition entries (params : list (tensor R)) : list R := concat (map (fun p => data p) params).
Lemma Rsum_app : forall l m, Rsum (l ++ m) = Rsum l + Rsum m.
Proof. induction l as [|x l IH]; intros m; cbn; [ring|]. rewrite IH. ring. Qed.
Lemma weight_prior_R : forall params wd, Forall (fun p => length (data p) = prod (shape p)) params -> (0 < length (entries params))%nat ->
  weight_prior_log_like params wd = - (wd / 2) * Rsum (map (fun x => x ^ 2) (entries params)) / (INR (length (entries params)) + 3 * guard).
Proof.
  intros params wd Hwf Hn. unfold weight_prior_log_like.
  assert (A : forall l a, fold_left (fun ll (p : tensor R) => (ll + nsum (map (fun v => - wd * nfrac 5 10 * (v * v)) (data p)))%num) l a
    = a + - (wd / 2) * Rsum (map (fun x => x ^ 2) (entries l))).
  { induction l as [|p l IH]; intros a; cbn [fold_left entries map concat].
    - cbn. ring.
    - rewrite IH. unfold entries. cbn [map concat]. rewrite map_app, Rsum_app, nsum_R. cbn [nadd Num_R].
      rewrite (Rsum_map_ext _ _ (fun v => - (wd / 2) * v ^ 2)) by (intros; cbn; unfold Rfrac; field).
      rewrite <- (map_map (fun v => v ^ 2) (Rmult (- (wd / 2)))), Rsum_scale. ring. }
  assert (B : forall l a, Forall (fun p => length (data p) = prod (shape p)) l ->
    fold_left (fun n (p : tensor R) => (n + nint (Z.of_nat (prod (shape p))))%num) l a = a + INR (length (entries l))).
  { induction l as [|p l IH]; intros a Hl; cbn [fold_left entries map concat].
    - cbn. ring.
    - inversion Hl; subst. rewrite IH by auto. unfold entries. cbn [map concat]. rewrite app_length, plus_INR, nint_nat_R, H1. cbn [nadd Num_R]. ring. }
  rewrite A, B by auto. rewrite !n0_R, !Rplus_0_l. rewrite safe_divide_R_pos; [reflexivity|]. apply lt_0_INR. exact Hn.
Qed.
Theorem C57_weight_prior : forall params wd, Forall (fun p => length (data p) = prod (shape p)) params -> (0 < length (entries params))%nat -> 0 <= wd ->
  weight_prior_log_like params wd <= 0 /\
  (0 < wd -> (weight_prior_log_like params wd = 0 <-> Forall (fun x => x = 0) (entries params))) /\
  weight_prior_log_like params wd * (INR (length (entries params)) + 3 * guard) = - (wd / 2) * Rsum (map (fun x => x ^ 2) (entries params)).
Proof.
  intros params wd Hwf Hn Hw. rewrite weight_prior_R by auto. pose proof guard_pos as Hg.
  assert (Hl : 0 < INR (length (entries params))) by (now apply lt_0_INR).
  assert (D : 0 < / (INR (length (entries params)) + 3 * guard)) by (apply Rinv_0_lt_compat; lra).
  assert (F : Forall (fun x => 0 <= x) (map (fun x => x ^ 2) (entries params))).
  { apply Forall_forall. intros x Hx. apply in_map_iff in Hx as (y & <- & _). apply pow2_ge_0. }
  pose proof (Rsum_nonneg _ F) as S.
  split; [|split; [|field; lra]].
  - unfold Rdiv at 2. assert (0 <= wd / 2 * Rsum (map (fun x => x ^ 2) (entries params))) by (apply Rmult_le_pos; lra). nra.
  - intros Hw'. transitivity (Rsum (map (fun x => x ^ 2) (entries params)) = 0).
    + unfold Rdiv at 1. split; intros E; [|rewrite E; ring].
      assert (0 < wd / 2) by lra. assert (P : 0 < wd / 2 * / (INR (length (entries params)) + 3 * guard)) by (now apply Rmult_lt_0_compat).
      set (u := wd / 2) in *. set (i := / _) in *. set (q := Rsum _) in *. clearbody u i q. assert (E' : (u * i) * q = 0) by (transitivity (- (- u * q * i)); [ring|rewrite E; ring]).
      apply Rmult_integral in E' as [E'|E']; lra.
    + rewrite Rsum_zero_iff by auto. rewrite Forall_map. split; intros A; (eapply Forall_impl; [|exact A]); cbn beta; intros x Hx; [nra|rewrite Hx; ring].
Qed.

(** ** C61 *)
Lemma tanh_bound : forall x : R, Rabs (tanh x) < 1.
Proof.
  intros x. unfold tanh. cbn. pose proof (exp_pos x). pose proof (exp_pos (- x)).
  apply Rabs_def1.
  - apply (Rmult_lt_reg_r (exp x + exp (- x))); [lra|]. field_simplify; lra.
  - apply (Rmult_lt_reg_r (exp x + exp (- x))); [lra|]. field_simplify; lra.
Qed.
Lemma dot_bound : forall xs ws : list R, Forall (fun x => Rabs x <= 1) xs ->
  Rabs (Rsum (vmap2 Rmult xs ws)) <= Rsum (map Rabs ws).
Proof.
  induction xs as [|x xs IH]; intros [|v ws] HF; cbn.
  - rewrite Rabs_R0. lra.
  - rewrite Rabs_R0. assert (0 <= Rsum (map Rabs (v :: ws))); [|cbn in *; lra]. apply Rsum_nonneg, Forall_map, Forall_forall. intros; apply Rabs_pos.
  - rewrite Rabs_R0. lra.
  - inversion HF; subst. eapply Rle_trans; [apply Rabs_triang|]. apply Rplus_le_compat; [|now apply IH].
    rewrite Rabs_mult. pose proof (Rabs_pos v). nra.
Qed.
(** Whatever the weights: every output row is a mean bounded by the weights of the last
    layer, computed from the input row alone, and one common log variance. *)
Theorem C61_default_net : forall k1 b1 k2 b2 k3 b3 k4 b4 output_bias, exists f : list R -> R,
  (forall X, default_net k1 b1 k2 b2 k3 b3 k4 [b4] output_bias X = map (fun x => [f x; output_bias]) X) /\
  (forall x, Rabs (f x) <= Rsum (map (fun r => Rabs (nth 0 r 0)) k4) + Rabs b4).
Proof.
  intros k1 b1 k2 b2 k3 b3 k4 b4 ob.
  exists (fun x => Rsum (vmap2 Rmult (dense tanh k3 b3 (dense tanh k2 b2 (dense tanh k1 b1 x))) (map (fun r => nth 0 r 0) k4)) + b4).
  split.
  - intros X. unfold default_net. apply map_ext. intros x. unfold dense at 1. cbn [length seq combine map app].
    rewrite n1_R, n0_R, nsum_R. f_equal. cbn [nmul Num_R]. now rewrite Rmult_1_l.
  - intros x. eapply Rle_trans; [apply Rabs_triang|]. apply Rplus_le_compat_r. rewrite <- (map_map (fun r => nth 0 r 0) Rabs). apply dot_bound.
    unfold dense at 1. apply Forall_map, Forall_forall. intros [j b] _. left. apply tanh_bound.
Qed.
