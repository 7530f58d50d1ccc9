(** C92: the burn-in estimates are weighted averages of what was observed; they forget
    their initial value 1 at least as fast as 1/(t+1). *)
From Coq Require Import List Arith Lia ZArith Reals Lra Bool.
From Verif.Base Require Import Py Num Vec Lists.
From Verif.Model Require Import TensorUtils BurnIn SGHMC SGLD.
From Verif.Spec Require Import Dynamics Trajectory Averages.
From Verif.Proofs Require Import Dynamics Trajectory Finite.
Import ListNotations.
Local Open Scope R_scope.

(** *** Weights *)
Lemma total_app : forall a b, total (a ++ b) = total a + total b.
Proof. induction a as [|x a IH]; intros b; cbn; [lra|]. rewrite IH. lra. Qed.
Lemma total_scale : forall c a, total (map (Rmult c) a) = c * total a.
Proof. intros c. induction a as [|x a IH]; cbn; [lra|]. rewrite IH. lra. Qed.
Lemma weighted_app : forall a xs b ys, length a = length xs ->
  weighted (a ++ b) (xs ++ ys) = weighted a xs + weighted b ys.
Proof.
  induction a as [|w a IH]; intros [|x xs] b ys HL; cbn in *; try discriminate HL; [lra|].
  rewrite IH by (now injection HL). lra.
Qed.
Lemma weighted_scale : forall c a xs, weighted (map (Rmult c) a) xs = c * weighted a xs.
Proof. intros c. induction a as [|w a IH]; intros [|x xs]; cbn; try lra. rewrite IH. lra. Qed.

(** *** The scalar recursion *)
Lemma half_pow_pos : forall n, 0 < (1 / 2) ^ n.
Proof. intros. apply pow_lt. lra. Qed.

Lemma rate_lower : forall gs, 1 / (INR (length gs) + 2) <= rate (scalar_run gs).
Proof.
  intros gs. pose proof (scalar_run_tau gs) as H1. pose proof (well_posed_run gs) as (H2 & _).
  unfold rate. apply Rmult_le_compat_l; [lra|]. apply Rinv_le_contravar; lra.
Qed.

Lemma scalar_weights : forall gs, exists w0 ws,
  average_of w0 ws 1 gs (s_g (scalar_run gs)) /\
  average_of w0 ws 1 (map (fun g => g ^ 2) gs) (s_v (scalar_run gs)) /\
  (1 / 2) ^ length gs <= w0 <= 1 / (INR (length gs) + 1) /\
  Forall (fun w => 0 < w <= 1 / 2) ws /\
  (forall x xs, gs = xs ++ [x] -> exists ws' w, ws = ws' ++ [w] /\ 1 / (INR (length gs) + 1) <= w).
Proof.
  intros gs. induction gs as [|g gs IH] using rev_ind.
  - exists 1, []. unfold average_of. cbn. repeat split; try lra; try constructor.
    intros x xs E. now destruct xs.
  - destruct IH as (w0 & ws & (L1 & T1 & A1) & (L2 & _ & A2) & B & F & _).
    pose proof (rate_bounds _ (well_posed_run gs)) as Hr. pose proof (rate_lower gs) as Hl.
    set (r := rate (scalar_run gs)) in *.
    exists ((1 - r) * w0), (map (Rmult (1 - r)) ws ++ [r]).
    assert (HN : INR (length (gs ++ [g])) = INR (length gs) + 1).
    { rewrite app_length, plus_INR. cbn. lra. }
    pose proof (pos_INR (length gs)) as Hp.
    rewrite map_app, scalar_run_snoc. unfold adapt_scalar; cbn [s_g s_v map]. fold r.
    split; [|split; [|split; [|split]]].
    + split; [|split].
      * rewrite !app_length, map_length. now rewrite L1.
      * rewrite total_app, total_scale. cbn. nra.
      * rewrite weighted_app by (now rewrite map_length). rewrite weighted_scale, A1. cbn. lra.
    + split; [|split].
      * rewrite !app_length, !map_length in *. now rewrite L2.
      * rewrite total_app, total_scale. cbn. nra.
      * rewrite weighted_app by (now rewrite map_length). rewrite weighted_scale, A2. cbn. lra.
    + rewrite HN, app_length. cbn [length]. rewrite Nat.add_1_r. cbn [pow].
      pose proof (half_pow_pos (length gs)). split; [nra|].
      apply Rle_trans with ((1 - 1 / (INR (length gs) + 2)) * (1 / (INR (length gs) + 1))).
      * apply Rmult_le_compat; lra.
      * right. field. lra.
    + apply Forall_app. split; [|constructor; [lra|constructor]].
      apply Forall_map. eapply Forall_impl; [|exact F]. cbn. intros w Hw. nra.
    + intros x xs _. exists (map (Rmult (1 - r)) ws), r. split; [reflexivity|]. rewrite HN.
      replace (INR (length gs) + 1 + 1) with (INR (length gs) + 2) by lra. exact Hl.
Qed.

(** *** C92 *)

(** What entry [k] of the burn-in variables is after the history [ins]: one set of
    weights for the gradients and their squares, at most 1/(t+1) of it on the initial
    values 1, and at least 1/(t+1) on the last gradient. *)
Definition averages (k : nat) (ins : list (step_input R)) (a : adapt R) : Prop :=
  exists gs g v w0 ws,
    map (fun i => nth_error (i_grad i) k) ins = map Some gs /\
    nth_error (a_g a) k = Some g /\ nth_error (a_vhat a) k = Some v /\
    average_of w0 ws 1 gs g /\ average_of w0 ws 1 (map (fun x => x ^ 2) gs) v /\
    (1 / 2) ^ length ins <= w0 <= 1 / (INR (length ins) + 1) /\
    Forall (fun w => 0 < w <= 1 / 2) ws /\
    (ins <> [] -> 1 / (INR (length ins) + 1) <= last ws 0).

Lemma column_observed : forall n k (ins : list (step_input R)), Forall (sized n) ins -> (k < n)%nat ->
  map (fun i => nth_error (i_grad i) k) ins = map Some (column k (map i_grad ins)).
Proof.
  intros n k ins HF Hk. unfold column. rewrite !map_map. apply map_ext_in. intros i Hi.
  pose proof (proj1 (Forall_forall _ _) HF i Hi) as [Hl _].
  apply nth_error_nth'. lia.
Qed.

Lemma averages_run : forall n k ins, Forall (sized n) ins -> (k < n)%nat ->
  averages k ins (adapt_fold (map i_grad ins) (adapt_init n)).
Proof.
  intros n k ins HF Hk. pose proof (sized_grads _ _ HF) as HG.
  destruct (adapt_run_cell n _ k HG Hk) as (c & (_ & _ & E3 & E4 & _) & Hs).
  set (gs := column k (map i_grad ins)) in *.
  assert (HL : length gs = length ins) by (unfold gs, column; now rewrite !map_length).
  destruct (scalar_weights gs) as (w0 & ws & A1 & A2 & B & F & Hlast). rewrite HL in B, Hlast.
  exists gs, (c_g c), (c_vhat c), w0, ws.
  split; [now apply (column_observed n)|]. split; [exact E3|]. split; [exact E4|].
  split; [now rewrite <- Hs in A1|]. split; [now rewrite <- Hs in A2|].
  split; [exact B|]. split; [exact F|].
  intros HN. destruct (exists_last (l := gs)) as (xs & x & E).
  { intros E. rewrite E in HL. cbn in HL. destruct ins; [now apply HN|discriminate HL]. }
  destruct (Hlast x xs E) as (ws' & w & -> & Hw). now rewrite last_last.
Qed.

Theorem C92_sghmc_averages :
  forall (c : config R) v ins k,
  Forall (sized (length (data v))) ins -> (k < length (data v))%nat ->
  averages k ins (p_adapt (sghmc_run c ins (pinit v))).
Proof. intros. rewrite sghmc_run_adapt. now apply averages_run. Qed.

Theorem C92_sgld_averages :
  forall (c : lconfig R) v ins k,
  Forall (sized (length (data v))) ins -> (k < length (data v))%nat ->
  averages k ins (l_adapt (sgld_run c ins (linit v))).
Proof. intros. rewrite sgld_run_adapt. now apply averages_run. Qed.

(** Hence: squared gradients within [d] of [q] give an estimate within [d] of [q] but for
    the initial value, whose part vanishes like 1/(t+1). *)
Lemma weighted_near : forall q d ws xs, length ws = length xs -> Forall (fun w => 0 <= w) ws ->
  Forall (fun x => Rabs (x - q) <= d) xs -> Rabs (weighted ws xs - total ws * q) <= total ws * d.
Proof.
  intros q d. induction ws as [|w ws IH]; intros [|x xs] HL HW HX; cbn in *; try discriminate HL.
  - replace (0 - 0 * q) with 0 by lra. rewrite Rabs_R0. lra.
  - inversion HW; inversion HX; subst. specialize (IH xs (eq_add_S _ _ HL) H2 H6).
    replace (w * x + weighted ws xs - (w + total ws) * q)
      with (w * (x - q) + (weighted ws xs - total ws * q)) by lra.
    eapply Rle_trans; [apply Rabs_triang|]. rewrite Rabs_mult, (Rabs_right w) by lra. nra.
Qed.

Lemma total_nonneg : forall ws, Forall (fun w => 0 <= w) ws -> 0 <= total ws.
Proof. induction 1; cbn; lra. Qed.

Lemma average_near : forall q d w0 ws xs a,
  average_of w0 ws 1 xs a -> 0 <= w0 -> Forall (fun w => 0 <= w) ws ->
  Forall (fun x => Rabs (x - q) <= d) xs -> 0 <= d -> Rabs (a - q) <= d + w0 * Rabs (1 - q).
Proof.
  intros q d w0 ws xs a (HL & HT & ->) H0 HW HX Hd.
  pose proof (weighted_near q d ws xs HL HW HX) as HN. pose proof (total_nonneg _ HW).
  replace (w0 * 1 + weighted ws xs - q) with ((weighted ws xs - total ws * q) + w0 * (1 - q)) by nra.
  eapply Rle_trans; [apply Rabs_triang|]. rewrite Rabs_mult, (Rabs_right w0) by lra. nra.
Qed.

Definition forgotten (k : nat) (ins : list (step_input R)) (a : adapt R) : Prop :=
  forall q d, 0 <= d ->
  (forall i g, In i ins -> nth_error (i_grad i) k = Some g -> Rabs (g ^ 2 - q) <= d) ->
  exists v, nth_error (a_vhat a) k = Some v /\ Rabs (v - q) <= d + Rabs (1 - q) / (INR (length ins) + 1).

Lemma forgotten_of_averages : forall k ins a, averages k ins a -> forgotten k ins a.
Proof.
  intros k ins a (gs & g & v & w0 & ws & HG & _ & Hv & _ & A & B & F & _) q d Hd HX.
  exists v. split; [exact Hv|]. pose proof (half_pow_pos (length ins)).
  assert (HN : Rabs (v - q) <= d + w0 * Rabs (1 - q)).
  { apply (average_near q d w0 ws (map (fun x => x ^ 2) gs)); auto; [lra|eapply Forall_impl; [|exact F]; cbn; intros; lra|].
    apply Forall_map, Forall_forall. intros x Hx.
    assert (HS : In (Some x) (map Some gs)) by now apply in_map.
    rewrite <- HG in HS. apply in_map_iff in HS as (i & Ei & Hi). now apply (HX i). }
  eapply Rle_trans; [exact HN|]. apply Rplus_le_compat_l.
  replace (Rabs (1 - q) / (INR (length ins) + 1)) with (1 / (INR (length ins) + 1) * Rabs (1 - q)) by (unfold Rdiv; lra).
  apply Rmult_le_compat_r; [apply Rabs_pos|lra].
Qed.

Theorem C92_initial_values_are_forgotten :
  forall (c : config R) (lc : lconfig R) v ins k,
  Forall (sized (length (data v))) ins -> (k < length (data v))%nat ->
  forgotten k ins (p_adapt (sghmc_run c ins (pinit v))) /\
  forgotten k ins (l_adapt (sgld_run lc ins (linit v))).
Proof.
  intros c lc v ins k HF Hk. split; apply forgotten_of_averages.
  - now apply C92_sghmc_averages.
  - now apply C92_sgld_averages.
Qed.

(** A parameter the cost does not depend on: nothing is observed, so the estimate is the
    weight of the initial value. It lies between 2/((t+1)(t+2)) and 1/(t+1): the inverse
    mass grows without bound with the length of the burn-in. *)
Lemma idle_run : forall n, let s := scalar_run (repeat 0 n) in
  s_g s = s_v s /\ (INR n + 1) / 2 <= s_tau s /\
  2 / ((INR n + 1) * (INR n + 2)) <= s_v s <= 1 / (INR n + 1).
Proof.
  induction n as [|n IH]; cbn zeta.
  - cbn. lra.
  - cbn zeta in IH. cbn [repeat]. rewrite repeat_cons, scalar_run_snoc. set (s := scalar_run (repeat 0 n)) in *.
    destruct IH as (E & HT & HV). pose proof (well_posed_run (repeat 0 n)) as HW. fold s in HW.
    pose proof (rate_lower (repeat 0 n)) as HR. rewrite repeat_length in HR. fold s in HR.
    destruct HW as (W1 & W2 & W3). pose proof guard_pos as HG. pose proof (pos_INR n) as Hn.
    rewrite S_INR. unfold adapt_scalar; cbn [s_g s_v s_tau].
    assert (HQ : s_g s ^ 2 / (s_v s + 3 * guard) <= 1 / (INR n + 1)).
    { rewrite E. apply Rle_trans with (s_v s); [|lra].
      apply (Rmult_le_reg_r (s_v s + 3 * guard)); [lra|]. unfold Rdiv. rewrite Rmult_assoc, Rinv_l by lra. nra. }
    split; [rewrite E; ring|]. split.
    + apply Rle_trans with (s_tau s * (1 - 1 / (INR n + 1)) + 1); [|nra].
      replace (1 - 1 / (INR n + 1)) with (INR n / (INR n + 1)) by (field; lra).
      apply Rle_trans with ((INR n + 1) / 2 * (INR n / (INR n + 1)) + 1).
      * right. field. lra.
      * apply Rplus_le_compat_r, Rmult_le_compat_r; [|exact HT].
        apply Rmult_le_pos; [lra|]. apply Rlt_le, Rinv_0_lt_compat. lra.
    + split.
      * apply Rle_trans with ((1 - 2 / (INR n + 3)) * (2 / ((INR n + 1) * (INR n + 2)))).
        { right. field. lra. }
        rewrite pow_ne_zero, Rmult_0_r, Rplus_0_r by lia.
        assert (rate s <= 2 / (INR n + 3)).
        { unfold rate. apply (Rmult_le_reg_r ((s_tau s + 1) * (INR n + 3))); [nra|]. field_simplify; lra. }
        assert (0 < 2 / ((INR n + 1) * (INR n + 2))) by (apply Rdiv_lt_0_compat; nra).
        assert (2 / (INR n + 3) <= 1).
        { apply (Rmult_le_reg_r (INR n + 3)); [lra|]. field_simplify; lra. }
        apply Rmult_le_compat; lra.
      * rewrite pow_ne_zero, Rmult_0_r, Rplus_0_r by lia.
        apply Rle_trans with ((1 - 1 / (INR n + 2)) * (1 / (INR n + 1))).
        { apply Rmult_le_compat; try lra. apply Rlt_le, Rlt_le_trans with (1 - 1 / 2); [lra|].
          pose proof (rate_bounds s (conj W1 (conj W2 W3))). lra. }
        right. field. lra.
Qed.

Lemma column_idle : forall n k (ins : list (step_input R)), Forall (sized n) ins -> (k < n)%nat ->
  (forall i, In i ins -> nth_error (i_grad i) k = Some 0) ->
  column k (map i_grad ins) = repeat 0 (length ins).
Proof.
  intros n k ins HF Hk HZ. unfold column. rewrite map_map. induction ins as [|i ins IH]; [reflexivity|].
  cbn. f_equal.
  - apply nth_error_nth, HZ. now left.
  - apply IH; [now inversion HF|]. intros j Hj. apply HZ. now right.
Qed.

Lemma sqrt_between : forall a v b, 0 < a -> a <= v <= b -> sqrt a <= sqrt v <= sqrt b.
Proof. intros a v b Ha Hv. split; apply sqrt_le_1_alt; lra. Qed.

Lemma idle_mass : forall n k ins g, Forall (sized n) ins -> length g = n -> (k < n)%nat ->
  (forall i, In i ins -> nth_error (i_grad i) k = Some 0) ->
  exists m, nth_error (a_minv (adapt_step g (adapt_fold (map i_grad ins) (adapt_init n)))) k = Some m /\
    1 / (1 / sqrt (INR (length ins) + 1) + 3 * guard) <= m <=
    sqrt ((INR (length ins) + 1) * (INR (length ins) + 2) / 2).
Proof.
  intros n k ins g HF Hg Hk HZ. pose proof (sized_grads _ _ HF) as HG.
  change (adapt_fold (map i_grad ins) (adapt_init n)) with (adapt_run n (map i_grad ins)).
  rewrite (adapt_run_minv n (map i_grad ins) g k HG Hg Hk), (column_idle n k ins HF Hk HZ).
  destruct (idle_run (length ins)) as (_ & _ & HV). set (v := s_v _) in *. set (t := INR (length ins)) in *.
  assert (Ht : 0 <= t) by apply pos_INR. pose proof guard_pos as HC.
  assert (Ha : 0 < 2 / ((t + 1) * (t + 2))) by (apply Rdiv_lt_0_compat; nra).
  destruct (sqrt_between _ _ _ Ha HV) as [S1 S2]. pose proof (sqrt_lt_R0 _ Ha) as S0.
  exists (inverse_mass v). split; [reflexivity|]. unfold inverse_mass.
  assert (E2 : sqrt (1 / (t + 1)) = 1 / sqrt (t + 1)) by (rewrite sqrt_div, sqrt_1; lra).
  assert (E1 : 1 / sqrt (2 / ((t + 1) * (t + 2))) = sqrt ((t + 1) * (t + 2) / 2)).
  { rewrite <- sqrt_1 at 1. rewrite <- sqrt_div by lra. f_equal. field. lra. }
  split.
  - rewrite <- E2. apply Rmult_le_compat_l; [lra|]. apply Rinv_le_contravar; lra.
  - rewrite <- E1. apply Rmult_le_compat_l; [lra|]. apply Rinv_le_contravar; lra.
Qed.

Theorem C92_idle_parameter :
  forall (c : config R) (lc : lconfig R) v ins i k,
  Forall (sized (length (data v))) ins -> sized (length (data v)) i -> (k < length (data v))%nat ->
  (forall j, In j ins -> nth_error (i_grad j) k = Some 0) ->
  let bounded (m : R) := 1 / (1 / sqrt (INR (length ins) + 1) + 3 * guard) <= m <=
    sqrt ((INR (length ins) + 1) * (INR (length ins) + 2) / 2) in
  (exists m, nth_error (a_minv (p_adapt (sghmc_run c (ins ++ [i]) (pinit v)))) k = Some m /\ bounded m) /\
  (exists m, nth_error (a_minv (l_adapt (sgld_run lc (ins ++ [i]) (linit v)))) k = Some m /\ bounded m).
Proof.
  intros c lc v ins i k HF Hi Hk HZ bounded.
  rewrite sghmc_run_adapt, sgld_run_adapt, map_app. unfold adapt_fold. rewrite !fold_left_app. cbn [map fold_left].
  fold (adapt_fold (map i_grad ins) (p_adapt (pinit v))). fold (adapt_fold (map i_grad ins) (l_adapt (linit v))).
  destruct Hi as [Hi _]. split; now apply idle_mass.
Qed.

(** Three steps of a parameter with two entries: the second entry is idle, the squared
    gradients of the first are within 1/10 of 4. *)
Definition three_steps : list (step_input R) :=
  [StepInput (1/100) [2; 0] [1/2; 1] None; StepInput (1/100) [-2; 0] [-1; 0] None;
   StepInput (1/100) [201/100; 0] [0; 0] (Some [1; 1])].
Example C92_nontrivial :
  Forall (sized (length (data (Tensor [2%nat] [7; 8])))) three_steps /\
  (forall i g, In i three_steps -> nth_error (i_grad i) 0 = Some g -> Rabs (g ^ 2 - 4) <= 1 / 10) /\
  (forall i, In i three_steps -> nth_error (i_grad i) 1 = Some 0).
Proof.
  split; [repeat constructor|]. split.
  - intros i g [<-|[<-|[<-|[]]]]; cbn; intros [= <-]; apply Rabs_le; lra.
  - intros i [<-|[<-|[<-|[]]]]; reflexivity.
Qed.
