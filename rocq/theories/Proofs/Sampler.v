(** Lemmas for C09-C14. *)
From Coq Require Import List Arith Lia ZArith Bool.
From Verif.Base Require Import Py Lists.
From Verif.Model Require Import Stepsize BaseClasses.
From Verif.Spec Require Import Sampler.
Import ListNotations.

Section P.
Context {V : Type}.
Variable E : env V.

Lemma key_eqb_spec : forall a b, reflect (a = b) (key_eqb a b).
Proof.
  intros [n| |i] [m| |j]; simpl; try (constructor; congruence);
    destruct (Nat.eqb_spec n m) || destruct (Nat.eqb_spec i j); constructor; congruence.
Qed.

Lemma lookup_app : forall (f g : feed V) k,
  lookup (f ++ g) k = match lookup f k with Some v => Some v | None => lookup g k end.
Proof.
  induction f as [|[k' v] f IH]; intros; simpl; auto.
  destruct (key_eqb k k'); auto.
Qed.

Lemma lookup_batch_user : forall b n, lookup (@batch_feed V b) (KUser n) = assoc b n.
Proof.
  induction b as [|[m v] b IH]; intros; simpl; auto.
  destruct (n =? m); auto.
Qed.
Lemma lookup_batch_other : forall b k, (forall n, k <> KUser n) -> lookup (@batch_feed V b) k = None.
Proof.
  induction b as [|[m v] b IH]; intros; simpl; auto.
  destruct (key_eqb_spec k (KUser m)); [exfalso; eapply H; eauto|auto].
Qed.

Lemma feed_ok_update : forall (base : feed V) b eps,
  feed_ok base b eps (update (update base (batch_feed b)) [(KEps, eps)]).
Proof.
  intros. unfold feed_ok, update. split; [reflexivity|]. split.
  - intros n. simpl. rewrite lookup_app, lookup_batch_user. reflexivity.
  - intros i. simpl. rewrite lookup_app, lookup_batch_other by discriminate. reflexivity.
Qed.

(** Content of the dictionary a step starts with. *)
Definition base_of (d : dict_ref) (s : state E) : feed V :=
  match d with UserDict => s_user E s | FreshDict f => f end.

Ltac inj H := injection H; clear H; intros; subst.

(** Outcomes of the shared part. *)
Inductive pre_outcome (base : feed V) : res (outputs V) -> list (event V) -> Prop :=
| PO_batch : forall e, bg_next E <> None -> pre_outcome base (Raise e) [EvBatch (Raise e)]
| PO_step : forall evb b e, batch_events E evb b ->
    pre_outcome base (Raise e) (evb ++ [EvStepsize (Raise e)])
| PO_run : forall evb b eps f r, batch_events E evb b -> feed_ok base b eps f ->
    pre_outcome base r (evb ++ [EvStepsize (Ok eps); EvRun f r]).

(** Effect on everything except the dictionary and the iteration count. *)
Definition bg_effect (s s' : state E) (ev : list (event V)) : Prop :=
  match bg_next E with
  | Some nx =>
      s_bg E s' = snd (nx (s_bg E s)) /\
      (exists rest, ev = EvBatch (fst (nx (s_bg E s))) :: rest /\ batch_results rest = [])
  | None => s_bg E s' = s_bg E s /\ batch_results ev = []
  end.

Lemma next_batch_spec : forall s r s' ev,
  next_batch E s = (r, s', ev) ->
  bg_effect s s' ev /\
  n_iterations E s' = n_iterations E s /\ minv E s' = minv E s /\
  s_user E s' = s_user E s /\ s_sched E s' = s_sched E s /\ s_sess E s' = s_sess E s /\
  ((exists e, r = Raise e /\ ev = [EvBatch (Raise e)] /\ bg_next E <> None) \/
   (exists b, r = Ok (batch_feed b) /\ batch_events E ev b)).
Proof.
  intros s r s' ev H. unfold next_batch, bg_effect, batch_events in *.
  destruct (bg_next E) as [nx|] eqn:Eb.
  - destruct (nx (s_bg E s)) as [rb bg'] eqn:En. inj H. cbn.
    repeat split; auto.
    + eexists; split; reflexivity.
    + destruct rb as [b|e]; cbn; [right; eauto|left].
      exists e; repeat split; congruence.
  - inj H. cbn. repeat split; auto. right. now exists [].
Qed.

Lemma feed_and_run_spec : forall d s r s' ev,
  feed_and_run E d s = (r, s', ev) ->
  pre_outcome (base_of d s) r ev /\ bg_effect s s' ev /\
  n_iterations E s' = n_iterations E s /\ minv E s' = minv E s /\
  (forall f, d = FreshDict f -> s_user E s' = s_user E s) /\
  sch_drive (sched E) (sched_calls ev) (s_sched E s) = (sched_results ev, s_sched E s') /\
  run_all E (map fst (runs ev)) (s_sess E s) = (map snd (runs ev), s_sess E s').
Proof.
  intros d s r s' ev H. unfold feed_and_run in H. unfold mbind at 1 in H.
  destruct (next_batch E s) as [[rb s1] e1] eqn:E1.
  destruct (next_batch_spec _ _ _ _ E1) as (Hbg & Hn & Hm & Hu & Hsc & Hse & Hr).
  destruct Hr as [(e & -> & -> & Hne)|(b & -> & Hbe)].
  { inj H. split; [now apply PO_batch|]. repeat split; auto; cbn; congruence. }
  assert (HB : forall s2 evs, s_bg E s2 = s_bg E s1 -> batch_results evs = [] ->
                bg_effect s s2 (e1 ++ evs)).
  { intros s2 evs Hs2 Hevs. unfold bg_effect in *. destruct (bg_next E) as [nx|].
    - destruct Hbg as [A (rest & -> & B)]. split; [congruence|].
      exists (rest ++ evs). split; [reflexivity|].
      unfold batch_results in *. rewrite flat_map_app, B, Hevs. reflexivity.
    - destruct Hbg as [A B]. split; [congruence|].
      unfold batch_results in *. rewrite flat_map_app, B, Hevs. reflexivity. }
  assert (HE : sched_calls e1 = [] /\ sched_results e1 = [] /\ runs e1 = []).
  { unfold batch_events in Hbe. destruct (bg_next E); [subst|destruct Hbe; subst]; auto. }
  destruct HE as (HE1 & HE2 & HE3).
  assert (HSC : forall evs, sched_calls (e1 ++ evs) = sched_calls evs).
  { intros. unfold sched_calls in *. now rewrite flat_map_app, HE1. }
  assert (HSR : forall evs, sched_results (e1 ++ evs) = sched_results evs).
  { intros. unfold sched_results in *. now rewrite flat_map_app, HE2. }
  assert (HRU : forall evs, runs (e1 ++ evs) = runs evs).
  { intros. unfold runs in *. now rewrite flat_map_app, HE3. }
  destruct d as [|f0]; cbn [base_of];
    unfold mbind, dict_update, dict_get, next_stepsize, session_run in H; cbn -[update] in H;
    destruct (sch_next (sched E) (s_sched E s1)) as [[eps|e] sc'] eqn:Es; cbn -[update] in H.
  - destruct (run E (update (update (s_user E s1) (batch_feed b)) [(KEps, eps)]) (s_sess E s1))
      as [r2 ss'] eqn:Er.
    inj H. rewrite Hu.
    split; [apply PO_run with (b := b); [auto|apply feed_ok_update]|].
    split; [apply HB; reflexivity|]. rewrite HSC, HSR, HRU. cbn -[update].
    rewrite <- Hsc, <- Hse, Es. unfold update in Er |- *. cbn [app] in Er |- *.
    rewrite Hu in Er. rewrite Er. repeat split; auto; discriminate.
  - inj H. split; [now apply PO_step with (b := b)|].
    split; [apply HB; reflexivity|]. rewrite HSC, HSR, HRU. cbn.
    rewrite <- Hsc, Es. repeat split; auto; try discriminate. now rewrite Hse.
  - destruct (run E (update (update f0 (batch_feed b)) [(KEps, eps)]) (s_sess E s1))
      as [r2 ss'] eqn:Er.
    inj H.
    split; [apply PO_run with (b := b); [auto|apply feed_ok_update]|].
    split; [apply HB; reflexivity|]. rewrite HSC, HSR, HRU. cbn -[update].
    rewrite <- Hsc, <- Hse, Es. unfold update in Er |- *. cbn [app] in Er |- *.
    rewrite Er. repeat split; auto.
  - inj H. split; [now apply PO_step with (b := b)|].
    split; [apply HB; reflexivity|]. rewrite HSC, HSR, HRU. cbn.
    rewrite <- Hsc, Es. repeat split; auto. now rewrite Hse.
Qed.

(** Joint description of one call. *)
Record step_spec (base : feed V) (fmt : list V -> sample V) (s s' : state E)
    (r : res (sample V * V)) (ev : list (event V)) : Prop := {
  ss_outcome : step_outcome E base fmt r ev;
  ss_bg : bg_effect s s' ev;
  ss_count : n_iterations E s' = if is_ok r then S (n_iterations E s) else n_iterations E s;
  ss_sched : sch_drive (sched E) (sched_calls ev) (s_sched E s) = (sched_results ev, s_sched E s');
  ss_sess : run_all E (map fst (runs ev)) (s_sess E s) = (map snd (runs ev), s_sess E s')
}.

Lemma bg_effect_app : forall s s1 s' ev evs,
  bg_effect s s1 ev -> s_bg E s' = s_bg E s1 -> batch_results evs = [] ->
  bg_effect s s' (ev ++ evs).
Proof.
  intros s s1 s' ev evs H Hs Hev. unfold bg_effect in *.
  destruct (bg_next E) as [nx|].
  - destruct H as [A (rest & -> & B)]. split; [congruence|].
    exists (rest ++ evs). split; [reflexivity|].
    unfold batch_results in *. rewrite flat_map_app, B, Hev. reflexivity.
  - destruct H as [A B]. split; [congruence|].
    unfold batch_results in *. rewrite flat_map_app, B, Hev. reflexivity.
Qed.

Lemma pre_raise : forall base fmt e ev,
  pre_outcome base (Raise e) ev -> step_outcome E base fmt (Raise e) ev.
Proof.
  intros base fmt e ev H. inversion H; subst.
  - now apply SO_batch_fails.
  - now apply SO_stepsize_fails with (b := b).
  - now apply SO_run_fails with (b := b).
Qed.

Lemma pre_ok : forall base fmt o ev ru,
  pre_outcome base (Ok o) ev ->
  step_outcome E base fmt
    (match ru with Ok _ => Ok (fmt (o_theta o), o_cost o) | Raise e => Raise e end)
    (ev ++ [EvUpdate (fmt (o_theta o)) (o_cost o) ru]).
Proof.
  intros base fmt o ev ru H. inversion H; subst. rewrite <- app_assoc. cbn [app].
  destruct ru as [[]|e].
  - now apply SO_ok with (b := b).
  - now apply SO_update_fails with (b := b).
Qed.

Lemma sch_drive_app : forall cs ds s rs s1 rs2 s2,
  sch_drive (sched E) cs s = (rs, s1) -> sch_drive (sched E) ds s1 = (rs2, s2) ->
  sch_drive (sched E) (cs ++ ds) s = (rs ++ rs2, s2).
Proof.
  induction cs as [|c cs IH]; intros ds s rs s1 rs2 s2 H1 H2.
  - cbn in H1. inj H1. exact H2.
  - cbn in H1. cbn. destruct c as [|a].
    + destruct (sch_next (sched E) s) as [r s3].
      destruct (sch_drive (sched E) cs s3) as [rs3 s4] eqn:E3. inj H1.
      rewrite (IH _ _ _ _ _ _ E3 H2). reflexivity.
    + destruct (sch_update (sched E) a s) as [r s3].
      destruct (sch_drive (sched E) cs s3) as [rs3 s4] eqn:E3. inj H1.
      rewrite (IH _ _ _ _ _ _ E3 H2). reflexivity.
Qed.

Lemma run_all_app : forall fs gs z rs z1 rs2 z2,
  run_all E fs z = (rs, z1) -> run_all E gs z1 = (rs2, z2) ->
  run_all E (fs ++ gs) z = (rs ++ rs2, z2).
Proof.
  induction fs as [|f fs IH]; intros gs z rs z1 rs2 z2 H1 H2.
  - cbn in H1. inj H1. exact H2.
  - cbn in H1. cbn. destruct (run E f z) as [r z3].
    destruct (run_all E fs z3) as [rs3 z4] eqn:E3. inj H1.
    rewrite (IH _ _ _ _ _ _ E3 H2). reflexivity.
Qed.

Lemma sched_update_replay : forall s s1 ev p c ru sc',
  sch_drive (sched E) (sched_calls ev) s = (sched_results ev, s1) ->
  sch_update (sched E) (p, c) s1 = (ru, sc') ->
  sch_drive (sched E) (sched_calls (ev ++ [EvUpdate p c ru])) s =
    (sched_results (ev ++ [EvUpdate p c ru]), sc').
Proof.
  intros. unfold sched_calls, sched_results. rewrite !flat_map_app.
  eapply sch_drive_app; [exact H|]. cbn. now rewrite H0.
Qed.

Lemma runs_update : forall ev p c (ru : res unit), runs (ev ++ [@EvUpdate V p c ru]) = runs ev.
Proof. intros. unfold runs. rewrite flat_map_app. cbn. apply app_nil_r. Qed.

Lemma mcmc_next_spec : forall d s r s' ev,
  mcmc_next E d s = (r, s', ev) ->
  step_spec (base_of d s) unravel s s' r ev /\
  minv E s' = minv E s /\ (forall f, d = FreshDict f -> s_user E s' = s_user E s).
Proof.
  intros d s r s' ev H. unfold mcmc_next in H. unfold mbind at 1 in H.
  destruct (feed_and_run E d s) as [[[o|e] s1] e1] eqn:E1;
    destruct (feed_and_run_spec _ _ _ _ _ E1) as (Hp & Hbg & Hn & Hm & Hu & Hsc & Hse).
  2:{ inj H. split; [|auto]. constructor; auto. now apply pre_raise. }
  assert (Eq : (match o_theta o with [v] => SBare v | l => SList l end) = unravel (o_theta o))
    by (destruct (o_theta o) as [|v [|]]; reflexivity).
  cbv zeta in H. rewrite Eq in H.
  unfold mbind, schedule_update, count_iteration, ret in H.
  destruct (sch_update (sched E) (unravel (o_theta o), o_cost o) (s_sched E s1)) as [ru sc'] eqn:Eu.
  pose proof (pre_ok _ unravel _ _ ru Hp) as HO.
  pose proof (sched_update_replay _ _ _ _ _ _ _ Hsc Eu) as HSR.
  destruct ru as [u|e]; cbn in H; inj H.
  - split; [|cbn; auto]. constructor; auto.
    + apply bg_effect_app with (s1 := s1); auto.
    + cbn. now rewrite Hn.
    + rewrite runs_update. exact Hse.
  - split; [|cbn; auto]. constructor; auto.
    + apply bg_effect_app with (s1 := s1); auto.
    + rewrite runs_update. exact Hse.
Qed.

Variable burn_in_steps : Z.
Variable n_params : nat.

(** The mass matrix recorded by a step during burn-in. *)
Definition minv_effect (s s' : state E) (ev : list (event V)) : Prop :=
  match runs ev with
  | [(_, Ok o)] => minv E s' = Some (o_minv o)
  | _ => minv E s' = minv E s
  end.

Lemma runs_pre : forall base r ev, pre_outcome base r ev ->
  match r with
  | Ok o => exists f, runs ev = [(f, Ok o)]
  | Raise e => runs ev = [] \/ exists f, runs ev = [(f, Raise e)]
  end.
Proof.
  intros base r ev H. inversion H; subst; auto.
  - left. unfold runs. rewrite flat_map_app. cbn.
    unfold batch_events in H0. destruct (bg_next E); [subst; reflexivity|destruct H0; subst; reflexivity].
  - assert (runs (evb ++ [EvStepsize (Ok eps); EvRun f r]) = [(f, r)]).
    { unfold runs. rewrite flat_map_app. cbn.
      unfold batch_events in H0. destruct (bg_next E); [subst; reflexivity|destruct H0; subst; reflexivity]. }
    rewrite H2. destruct r; eauto.
Qed.

Lemma burnin_next_burning : forall d s r s' ev,
  is_burning_in E burn_in_steps s = true ->
  burnin_next E burn_in_steps n_params d s = (r, s', ev) ->
  step_spec (base_of d s) as_list s s' r ev /\ minv_effect s s' ev.
Proof.
  intros d s r s' ev Hb H. unfold burnin_next in H. rewrite Hb in H. unfold mbind at 1 in H.
  destruct (feed_and_run E d s) as [[[o|e] s1] e1] eqn:E1;
    destruct (feed_and_run_spec _ _ _ _ _ E1) as (Hp & Hbg & Hn & Hm & Hu & Hsc & Hse);
    pose proof (runs_pre _ _ _ Hp) as Hruns.
  2:{ inj H. split; [constructor; auto; now apply pre_raise|].
      unfold minv_effect. destruct Hruns as [->|[f ->]]; auto. }
  unfold mbind, set_minv, schedule_update, count_iteration, ret in H. cbn in H.
  change (SList (o_theta o)) with (as_list (o_theta o)) in H.
  destruct (sch_update (sched E) (as_list (o_theta o), o_cost o) (s_sched E s1)) as [ru sc'] eqn:Eu.
  pose proof (pre_ok _ as_list _ _ ru Hp) as HO.
  pose proof (sched_update_replay _ _ _ _ _ _ _ Hsc Eu) as HSR.
  destruct Hruns as [f Hf].
  destruct ru as [u|e]; cbn in H; inj H.
  - split; [constructor; auto|].
    + apply bg_effect_app with (s1 := s1); auto.
    + cbn. now rewrite Hn.
    + rewrite runs_update. exact Hse.
    + unfold minv_effect. rewrite runs_update, Hf. reflexivity.
  - split; [constructor; auto|].
    + apply bg_effect_app with (s1 := s1); auto.
    + rewrite runs_update. exact Hse.
    + unfold minv_effect. rewrite runs_update, Hf. reflexivity.
Qed.

Lemma lookup_minv_feed : forall (m : list V) i,
  lookup (minv_feed n_params m) (KMinv i) = if i <? n_params then nth_error m i else None.
Proof.
  intros m i. unfold minv_feed.
  assert (G : forall n o (m : list V) j, lookup (combine (map KMinv (seq o n)) m) (KMinv (o + j)) =
            if j <? n then nth_error m j else None).
  { clear. induction n; intros; simpl; auto.
    destruct m; simpl.
    - destruct (j <? S n); [destruct j|]; reflexivity.
    - destruct (Nat.eqb_spec (o + j) o) as [Ho|Ho].
      + assert (j = 0) by lia. subst. reflexivity.
      + destruct j; [lia|]. replace (o + S j) with (S o + j) by lia. rewrite IHn. reflexivity. }
  apply (G n_params 0 m i).
Qed.
Lemma lookup_minv_feed_other : forall (m : list V) k, (forall i, k <> KMinv i) ->
  lookup (minv_feed n_params m) k = @None V.
Proof.
  intros m k H. unfold minv_feed. generalize (seq 0 n_params). intros l. revert m.
  induction l; intros; simpl; auto. destruct m; simpl; auto.
  destruct (key_eqb_spec k (KMinv a)); [exfalso; eapply H; eauto|auto].
Qed.

Lemma burnin_next_post : forall d s r s' ev m,
  is_burning_in E burn_in_steps s = false -> (0 < burn_in_steps)%Z -> minv E s = Some m ->
  burnin_next E burn_in_steps n_params d s = (r, s', ev) ->
  step_spec (minv_feed n_params m) unravel s s' r ev /\ minv E s' = minv E s /\
  s_user E s' = s_user E s.
Proof.
  intros d s r s' ev m Hb Hp Hm H. unfold burnin_next in H. rewrite Hb in H.
  replace (0 <? burn_in_steps)%Z with true in H by (symmetry; now apply Z.ltb_lt).
  rewrite Hm in H. destruct (mcmc_next_spec _ _ _ _ _ H) as (A & B & C).
  split; [exact A|]. split; [exact B|]. eapply C. reflexivity.
Qed.

Lemma burnin_next_none : forall d s r s' ev,
  (burn_in_steps <= 0)%Z ->
  burnin_next E burn_in_steps n_params d s = (r, s', ev) ->
  step_spec (base_of d s) unravel s s' r ev /\ minv E s' = minv E s.
Proof.
  intros d s r s' ev Hb H. unfold burnin_next, is_burning_in in H.
  replace (Z.of_nat (n_iterations E s) <? burn_in_steps)%Z with false in H
    by (symmetry; apply Z.ltb_ge; lia).
  replace (0 <? burn_in_steps)%Z with false in H by (symmetry; apply Z.ltb_ge; lia).
  destruct (mcmc_next_spec _ _ _ _ _ H) as (A & B & C). auto.
Qed.

End P.
