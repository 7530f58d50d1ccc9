(** Properties C08-C14: stepsize schedules and the sampler loop. *)
From Coq Require Import List Arith Lia ZArith Bool.
From Verif.Base Require Import Py Lists.
From Verif.Model Require Import Stepsize BaseClasses.
From Verif.Spec Require Import Sampler.
From Verif.Proofs Require Import Sampler SamplerHistory.
Import ListNotations.

(** *** C08 *)
Theorem C08_constant_schedule_is_constant :
  forall (V A : Type) (v : V) (cs : list (sch_call A)) rs s',
  sch_drive (constant_schedule V A) cs v = (rs, s') ->
  sch_initial (constant_schedule V A) s' = v /\
  rs = map (fun c => match c with CallNext => Ok (Some v) | CallUpdate _ => Ok None end) cs.
Proof.
  intros V A v cs. induction cs as [|c cs IH]; intros rs s' H.
  - cbn in H. injection H as <- <-. auto.
  - cbn in H. destruct c; destruct (sch_drive (constant_schedule V A) cs v) as [rs1 s1] eqn:E;
      injection H as <- <-; destruct (IH _ _ eq_refl) as [-> ->]; auto.
Qed.

Example C08_example :
  fst (sch_drive (constant_schedule nat nat) [CallNext; CallUpdate 3; CallNext; CallNext] 5)
  = [Ok (Some 5); Ok None; Ok (Some 5); Ok (Some 5)].
Proof. reflexivity. Qed.

(** The samplers of the library: plain (MCMCSampler: relativistic SGHMC, SVGD)
    or with burn-in (BurnInMCMCSampler: SGHMC, SGLD). *)
Inductive kind := Plain | BurnIn (burn_in_steps : Z) (n_params : nat).
Definition next_of {V} (E : env V) (k : kind) :=
  match k with
  | Plain => mcmc_next E
  | BurnIn b n => burnin_next E b n
  end.

Lemma hist_of : forall V (E : env V) k us rs s' b0 c0 z0,
  drive E (next_of E k) us (initial_state E b0 c0 z0) = (rs, s') -> hist_inv E b0 c0 z0 rs s'.
Proof.
  intros V E [|b n] us rs s' b0 c0 z0 H.
  - eapply mcmc_hist; eauto.
  - eapply burnin_hist; eauto.
Qed.

(** Each call follows one of the outcomes of [step_outcome]. *)
Lemma outcome_of : forall V (E : env V) k us s' b0 c0 z0 pre c post,
  drive E (next_of E k) us (initial_state E b0 c0 z0) = (pre ++ c :: post, s') ->
  exists base fmt, step_spec E base fmt (cr_pre E c) (cr_post E c) (cr_res E c) (cr_events E c) /\
    (fmt = as_list \/ fmt = unravel).
Proof.
  intros V E k us s' b0 c0 z0 pre c post H.
  destruct (drive_split E _ _ _ _ _ _ _ H) as (Hc & us1 & H1 & _).
  destruct k as [|b n].
  - exists (user_content (cr_user E c)), unravel. split; [|auto]. eapply mcmc_call; eauto.
  - pose proof (burnin_hist E b n _ _ _ _ _ _ H1) as HI.
    destruct (burnin_call E b n _ _ _ _ _ _ _ _ _ HI Hc)
      as [(_ & HS & _)|[(_ & HS)|(_ & _ & m & _ & _ & _ & HS)]]; eauto 6.
Qed.

(** *** C09 *)
Theorem C09_step_protocol :
  forall (V : Type) (E : env V) k us rs s' b0 c0 z0,
  drive E (next_of E k) us (initial_state E b0 c0 z0) = (rs, s') ->
  n_iterations E s' = successes E rs /\
  forall c smp cost, In c rs -> cr_res E c = Ok (smp, cost) ->
  exists evb b eps f o,
    cr_events E c = evb ++ [EvStepsize (Ok eps); EvRun f (Ok o); EvUpdate smp cost (Ok tt)] /\
    batch_events E evb b /\
    lookup f KEps = Some eps /\
    (forall n v, assoc b n = Some v -> lookup f (KUser n) = Some v) /\
    cost = o_cost o /\
    (smp = SList (o_theta o) \/ exists v, o_theta o = [v] /\ smp = SBare v).
Proof.
  intros V E k us rs s' b0 c0 z0 H.
  split; [exact (hi_count E _ _ _ _ _ (hist_of _ _ _ _ _ _ _ _ _ H))|].
  intros c smp cost Hin Hr. apply in_split in Hin as (pre & post & ->).
  destruct (outcome_of _ _ _ _ _ _ _ _ _ _ _ H) as (base & fmt & HS & Hf).
  pose proof (ss_outcome E _ _ _ _ _ _ HS) as HO. rewrite Hr in HO.
  inversion HO as [| | | |evb b eps f o Hb Hfeed Hres Hev]; subst.
  exists evb, b, eps, f, o. destruct Hfeed as (F1 & F2 & F3).
  split; [reflexivity|]. split; [exact Hb|]. split; [exact F1|]. split.
  - intros n v Hn. rewrite F2, Hn. reflexivity.
  - split; [reflexivity|]. destruct Hf as [->| ->]; [now left|].
    unfold unravel. destruct (o_theta o) as [|v [|]]; eauto.
Qed.

(** Counting: in a history without failures there are exactly as many batches,
    stepsizes, runs and updates as calls. *)
Theorem C09_counts :
  forall (V : Type) (E : env V) k us rs s' b0 c0 z0,
  drive E (next_of E k) us (initial_state E b0 c0 z0) = (rs, s') ->
  (forall c, In c rs -> succeeded E c = true) ->
  length rs = length us /\
  n_iterations E s' = length us /\
  length (stepsize_results (all_events E rs)) = length us /\
  length (runs (all_events E rs)) = length us /\
  length (updates (all_events E rs)) = length us /\
  length (batch_results (all_events E rs)) = match bg_next E with Some _ => length us | None => 0 end.
Proof.
  intros V E k us rs s' b0 c0 z0 H Hall.
  assert (Hlen : length rs = length us).
  { clear Hall. revert H. generalize (initial_state E b0 c0 z0). revert rs s'.
    induction us as [|u us IH]; intros rs s' s H; cbn in H.
    - injection H as <- _. reflexivity.
    - destruct (call E (next_of E k) u s) as [[r s1] ev].
      destruct (drive E (next_of E k) us s1) as [rs1 s2] eqn:Ed. injection H as <- _.
      cbn. f_equal. eapply IH; eauto. }
  destruct (C09_step_protocol _ _ _ _ _ _ _ _ _ H) as [Hn Hp].
  assert (Hs : successes E rs = length rs).
  { unfold successes. f_equal. clear - Hall. induction rs; cbn; auto.
    rewrite (Hall a (or_introl eq_refl)). f_equal. apply IHrs. intros; apply Hall; now right. }
  assert (Hcount : length (stepsize_results (all_events E rs)) = length rs /\
                   length (runs (all_events E rs)) = length rs /\
                   length (updates (all_events E rs)) = length rs /\
                   length (batch_results (all_events E rs)) =
                     match bg_next E with Some _ => length rs | None => 0 end).
  { clear - Hp Hall. induction rs as [|c rs IH].
    - cbn. destruct (bg_next E); auto.
    - destruct IH as (I1 & I2 & I3 & I4).
      { intros; apply Hall; now right. }
      { intros; eapply Hp; eauto. now right. }
      pose proof (Hall c (or_introl eq_refl)) as Hok. unfold succeeded in Hok.
      destruct (cr_res E c) as [[smp cost]|] eqn:Er; [|discriminate].
      destruct (Hp c smp cost (or_introl eq_refl) Er) as (evb & b & eps & f & o & Hev & Hb & _).
      unfold all_events in *. cbn [flat_map]. rewrite Hev.
      unfold stepsize_results, runs, updates, batch_results, batch_events in *.
      destruct (bg_next E); [subst evb|destruct Hb; subst evb]; cbn; auto. }
  destruct Hcount as (K1 & K2 & K3 & K4).
  rewrite K1, K2, K3, K4, Hn, Hs, Hlen. repeat split.
Qed.

(** The [t]-th call uses the [t]-th batch of the generator: the batches drawn in a history are
    the generator's first elements in order, one per call (failed or not). *)
Theorem C09_batches_in_order :
  forall (V : Type) (E : env V) k us rs s' b0 c0 z0 nx,
  drive E (next_of E k) us (initial_state E b0 c0 z0) = (rs, s') ->
  bg_next E = Some nx ->
  batch_results (all_events E rs) = stream nx b0 (length rs) /\
  forall pre c post, rs = pre ++ c :: post ->
    exists rest, cr_events E c =
      EvBatch (fst (nx (Nat.iter (length pre) (fun b => snd (nx b)) b0))) :: rest /\
      batch_results rest = [].
Proof.
  intros V E k us rs s' b0 c0 z0 nx H Hb.
  pose proof (hi_bg E _ _ _ _ _ (hist_of _ _ _ _ _ _ _ _ _ H)) as HB. rewrite Hb in HB.
  split; [tauto|]. intros pre c post ->.
  destruct (drive_split E _ _ _ _ _ _ _ H) as (Hc & us1 & H1 & _).
  pose proof (hi_bg E _ _ _ _ _ (hist_of _ _ _ _ _ _ _ _ _ H1)) as HB1. rewrite Hb in HB1.
  destruct (outcome_of _ _ _ _ _ _ _ _ _ _ _ H) as (base & fmt & HS & _).
  pose proof (ss_bg E _ _ _ _ _ _ HS) as HE. unfold bg_effect in HE. rewrite Hb in HE.
  destruct HE as (_ & rest & He & Hr). exists rest. destruct HB1 as [_ HB1]. rewrite HB1 in He. auto.
Qed.

(** The schedule object sees exactly the [next] and [update] calls recorded,
    in order, and the session exactly the runs: nothing else touches them. *)
Theorem C09_schedule_and_session_replay :
  forall (V : Type) (E : env V) k us rs s' b0 c0 z0,
  drive E (next_of E k) us (initial_state E b0 c0 z0) = (rs, s') ->
  sch_drive (sched E) (sched_calls (all_events E rs)) c0 =
    (sched_results (all_events E rs), s_sched E s') /\
  run_all E (map fst (runs (all_events E rs))) z0 = (map snd (runs (all_events E rs)), s_sess E s').
Proof.
  intros V E k us rs s' b0 c0 z0 H.
  pose proof (hist_of _ _ _ _ _ _ _ _ _ H) as [_ _ A B]. auto.
Qed.

(** *** C10 *)
Theorem C10_burn_in_boundary_and_frozen_mass :
  forall (V : Type) (E : env V) b n us rs s' b0 c0 z0,
  (0 < b)%Z ->
  drive E (burnin_next E b n) us (initial_state E b0 c0 z0) = (rs, s') ->
  forall pre c post, rs = pre ++ c :: post ->
  (is_burning_in E b (cr_pre E c) = true <-> (Z.of_nat (successes E pre) < b)%Z) /\
  ((b <= Z.of_nat (successes E pre))%Z ->
   exists pre0 c0' post0 f0 o0,
     pre = pre0 ++ c0' :: post0 /\
     Z.of_nat (successes E pre0) = (b - 1)%Z /\ succeeded E c0' = true /\
     runs (cr_events E c0') = [(f0, Ok o0)] /\
     (forall f r, In (f, r) (runs (cr_events E c)) ->
        forall i, i < n -> lookup f (KMinv i) = nth_error (o_minv o0) i)).
Proof.
  intros V E b n us rs s' b0 c0 z0 Hb H pre c post ->.
  destruct (drive_split E _ _ _ _ _ _ _ H) as (Hc & us1 & H1 & _).
  pose proof (burnin_hist E b n _ _ _ _ _ _ H1) as HI. split.
  - unfold is_burning_in. destruct HI as [HI _]. rewrite (hi_count E _ _ _ _ _ HI). apply Z.ltb_lt.
  - intros Hge.
    destruct (burnin_call E b n _ _ _ _ _ _ _ _ _ HI Hc)
      as [(Hlt & _)|[(Hle & _)|(_ & _ & m & _ & Hbw & _ & HS)]]; [lia|lia|].
    destruct Hbw as (pre0 & c0' & post0 & f0 & o0 & E1 & E2 & E3 & E4 & ->).
    exists pre0, c0', post0, f0, o0. split; [exact E1|]. split; [exact E2|]. split; [exact E3|].
    split; [exact E4|]. intros f r Hin i Hi.
    pose proof (ss_outcome E _ _ _ _ _ _ HS) as HO.
    assert (HF : exists bb eps, feed_ok (minv_feed n (o_minv o0)) bb eps f).
    { inversion HO as [e Hne Hr He|evb bb e Hbe Hr He|evb bb eps ff e Hbe Hfe Hr He
                      |evb bb eps ff o e Hbe Hfe Hr He|evb bb eps ff o Hbe Hfe Hr He]; subst;
        rewrite <- He in Hin; unfold runs in Hin.
      - cbn in Hin. contradiction.
      - rewrite flat_map_app in Hin. apply in_app_or in Hin as [Hin|Hin]; [|cbn in Hin; tauto].
        unfold batch_events in Hbe. destruct (bg_next E); [|destruct Hbe as [Hbe _]]; subst evb; cbn in Hin; tauto.
      - exists bb, eps.
        rewrite flat_map_app in Hin. apply in_app_or in Hin as [Hin|Hin].
        + unfold batch_events in Hbe. destruct (bg_next E); [|destruct Hbe as [Hbe _]]; subst evb; cbn in Hin; tauto.
        + cbn in Hin. destruct Hin as [[= <- _]|[]]. exact Hfe.
      - exists bb, eps.
        rewrite flat_map_app in Hin. apply in_app_or in Hin as [Hin|Hin].
        + unfold batch_events in Hbe. destruct (bg_next E); [|destruct Hbe as [Hbe _]]; subst evb; cbn in Hin; tauto.
        + cbn in Hin. destruct Hin as [[= <- _]|[]]. exact Hfe.
      - exists bb, eps.
        rewrite flat_map_app in Hin. apply in_app_or in Hin as [Hin|Hin].
        + unfold batch_events in Hbe. destruct (bg_next E); [|destruct Hbe as [Hbe _]]; subst evb; cbn in Hin; tauto.
        + cbn in Hin. destruct Hin as [[= <- _]|[]]. exact Hfe. }
    destruct HF as (bb & eps & _ & _ & F3). rewrite F3, lookup_minv_feed.
    replace (i <? n) with true by (symmetry; now apply Nat.ltb_lt). reflexivity.
Qed.

(** The feed of every run of a call, given the outcome of the call. *)
Lemma outcome_runs : forall V (E : env V) base fmt r ev f ro,
  step_outcome E base fmt r ev -> In (f, ro) (runs ev) ->
  exists b eps evb rest, feed_ok base b eps f /\ ev = evb ++ rest /\ batch_events E evb b.
Proof.
  intros V E base fmt r ev f ro HO Hin.
  assert (K : forall evb b rest, batch_events E evb b ->
    In (f, ro) (runs (evb ++ rest)) -> In (f, ro) (runs rest)).
  { intros evb b rest Hb H. unfold runs in *. rewrite flat_map_app in H.
    apply in_app_or in H as [H|H]; auto.
    unfold batch_events in Hb. destruct (bg_next E); [|destruct Hb as [Hb _]]; subst evb; cbn in H; tauto. }
  inversion HO as [e Hne Hr He|evb bb e Hbe Hr He|evb bb eps ff e Hbe Hfe Hr He
                  |evb bb eps ff o e Hbe Hfe Hr He|evb bb eps ff o Hbe Hfe Hr He]; subst.
  - cbn in Hin. contradiction.
  - apply (K _ _ _ Hbe) in Hin. cbn in Hin. tauto.
  - apply (K _ _ _ Hbe) in Hin. cbn in Hin. destruct Hin as [[= <- _]|[]]. eauto 8.
  - apply (K _ _ _ Hbe) in Hin. cbn in Hin. destruct Hin as [[= <- _]|[]]. eauto 8.
  - apply (K _ _ _ Hbe) in Hin. cbn in Hin. destruct Hin as [[= <- _]|[]]. eauto 8.
Qed.

(** *** C11, first half: without burn-in no mass matrix is ever fed, so every
    run uses whatever the graph computes (the second half, that this value
    changes from step to step, is in PMass.v). *)
Theorem C11_no_burn_in_never_feeds_mass :
  forall (V : Type) (E : env V) b n us rs s' b0 c0 z0,
  (b <= 0)%Z ->
  drive E (burnin_next E b n) us (initial_state E b0 c0 z0) = (rs, s') ->
  forall c f ro, In c rs -> In (f, ro) (runs (cr_events E c)) ->
  is_burning_in E b (cr_pre E c) = false /\
  forall i, lookup f (KMinv i) = lookup (user_content (cr_user E c)) (KMinv i).
Proof.
  intros V E b n us rs s' b0 c0 z0 Hb H c f ro Hin Hrun.
  split; [unfold is_burning_in; apply Z.ltb_ge; lia|].
  apply in_split in Hin as (pre & post & ->).
  destruct (drive_split E _ _ _ _ _ _ _ H) as (Hc & us1 & H1 & _).
  pose proof (burnin_hist E b n _ _ _ _ _ _ H1) as HI.
  destruct (burnin_call E b n _ _ _ _ _ _ _ _ _ HI Hc)
    as [(Hlt & _)|[(Hle & HS)|(Hp & _)]]; [lia| |lia].
  destruct (outcome_runs _ _ _ _ _ _ _ _ (ss_outcome E _ _ _ _ _ _ HS) Hrun)
    as (bb & eps & evb & rest & (_ & _ & F3) & _). exact F3.
Qed.

(** *** C12 *)
(** During burn-in, for burn_in_steps <= 0, and for plain samplers, the caller's
    feed reaches the session except where the batch or stepsize overrides it. *)
Theorem C12_user_feed_reaches_session :
  forall (V : Type) (E : env V) k us rs s' b0 c0 z0,
  drive E (next_of E k) us (initial_state E b0 c0 z0) = (rs, s') ->
  forall pre c post f ro, rs = pre ++ c :: post -> In (f, ro) (runs (cr_events E c)) ->
  match k with
  | Plain => True
  | BurnIn b _ => (Z.of_nat (successes E pre) < b \/ b <= 0)%Z
  end ->
  exists b evb rest, cr_events E c = evb ++ rest /\ batch_events E evb b /\
    forall nm, assoc b nm = None ->
      lookup f (KUser nm) = lookup (user_content (cr_user E c)) (KUser nm).
Proof.
  intros V E k us rs s' b0 c0 z0 H pre c post f ro -> Hrun Hk.
  destruct (drive_split E _ _ _ _ _ _ _ H) as (Hc & us1 & H1 & _).
  assert (HS : exists fmt, step_spec E (user_content (cr_user E c)) fmt
                 (cr_pre E c) (cr_post E c) (cr_res E c) (cr_events E c)).
  { destruct k as [|b n].
    - exists unravel. eapply mcmc_call; eauto.
    - pose proof (burnin_hist E b n _ _ _ _ _ _ H1) as HI.
      destruct (burnin_call E b n _ _ _ _ _ _ _ _ _ HI Hc)
        as [(_ & HS & _)|[(_ & HS)|(? & ? & _)]]; eauto. lia. }
  destruct HS as (fmt & HS).
  destruct (outcome_runs _ _ _ _ _ _ _ _ (ss_outcome E _ _ _ _ _ _ HS) Hrun)
    as (bb & eps & evb & rest & (_ & F2 & _) & He & Hbe).
  exists bb, evb, rest. split; [exact He|]. split; [exact Hbe|].
  intros nm Hn. rewrite F2, Hn. reflexivity.
Qed.

(** After burn-in the caller's dictionary has no influence whatsoever: result,
    events and all other state are the same for any two dictionaries. *)
Theorem C12_user_feed_ignored_after_burn_in :
  forall (V : Type) (E : env V) b n (s : state E) u1 u2 r1 s1 ev1 r2 s2 ev2,
  (0 < b)%Z -> (b <= Z.of_nat (n_iterations E s))%Z ->
  call E (burnin_next E b n) u1 s = (r1, s1, ev1) ->
  call E (burnin_next E b n) u2 s = (r2, s2, ev2) ->
  r1 = r2 /\ ev1 = ev2 /\ n_iterations E s1 = n_iterations E s2 /\ minv E s1 = minv E s2 /\
  s_bg E s1 = s_bg E s2 /\ s_sched E s1 = s_sched E s2 /\ s_sess E s1 = s_sess E s2.
Proof.
  intros V E b n s u1 u2 r1 s1 ev1 r2 s2 ev2 Hb Hge H1 H2.
  rewrite call_enter in H1, H2. unfold burnin_next, is_burning_in in H1, H2.
  destruct (enter_fields E u1 s) as (A1 & A2 & A3 & A4 & A5).
  destruct (enter_fields E u2 s) as (B1 & B2 & B3 & B4 & B5).
  rewrite A1 in H1. rewrite B1 in H2.
  replace (Z.of_nat (n_iterations E s) <? b)%Z with false in * by (symmetry; apply Z.ltb_ge; lia).
  replace (0 <? b)%Z with true in * by (symmetry; apply Z.ltb_lt; lia).
  rewrite A2 in H1. rewrite B2 in H2.
  destruct (minv E s) as [m|].
  2:{ unfold mraise in *. injection H1 as <- <- <-. injection H2 as <- <- <-.
      rewrite A1, A2, A3, A4, A5, B1, B2, B3, B4, B5. repeat split; auto. }
  assert (K : forall (x y : state E), n_iterations E x = n_iterations E y -> minv E x = minv E y ->
     s_bg E x = s_bg E y -> s_sched E x = s_sched E y -> s_sess E x = s_sess E y ->
     let '(rx, x', ex) := mcmc_next E (FreshDict (minv_feed n m)) x in
     let '(ry, y', ey) := mcmc_next E (FreshDict (minv_feed n m)) y in
     rx = ry /\ ex = ey /\ n_iterations E x' = n_iterations E y' /\ minv E x' = minv E y' /\
     s_bg E x' = s_bg E y' /\ s_sched E x' = s_sched E y' /\ s_sess E x' = s_sess E y').
  { intros x y X1 X2 X3 X4 X5.
    unfold mcmc_next, feed_and_run, mbind, next_batch, dict_update, dict_get, next_stepsize,
      session_run, schedule_update, count_iteration, ret.
    rewrite <- X3. destruct (bg_next E) as [nx|].
    - destruct (nx (s_bg E x)) as [[bb|e] bg']; cbn; [|repeat split; auto].
      rewrite <- X4. destruct (sch_next (sched E) (s_sched E x)) as [[eps|e] sc']; cbn; [|repeat split; auto].
      rewrite <- X5. destruct (run E _ (s_sess E x)) as [[o|e] z']; cbn; [|repeat split; auto].
      destruct (sch_update (sched E) _ sc') as [[u|e] sc'']; cbn; repeat split; auto.
    - cbn. rewrite <- X4. destruct (sch_next (sched E) (s_sched E x)) as [[eps|e] sc']; cbn; [|repeat split; auto].
      rewrite <- X5. destruct (run E _ (s_sess E x)) as [[o|e] z']; cbn; [|repeat split; auto].
      destruct (sch_update (sched E) _ sc') as [[u|e] sc'']; cbn; repeat split; auto. }
  specialize (K (enter E u1 s) (enter E u2 s)).
  rewrite H1, H2 in K. apply K; congruence.
Qed.

(** Expected contract: an entry of the caller's feed that the batch does not
    override is fed in every run.  Refuted by a two-step run. *)
Definition user_feed_always_fed (V : Type) : Prop :=
  forall (E : env V) b n us rs s' b0 c0 z0,
  drive E (burnin_next E b n) us (initial_state E b0 c0 z0) = (rs, s') ->
  bg_next E = None ->
  forall c f ro nm, In c rs -> In (f, ro) (runs (cr_events E c)) ->
    lookup f (KUser nm) = lookup (user_content (cr_user E c)) (KUser nm).

(** A small concrete environment: parameters, cost and mass matrix are
    integers; the session state counts runs; the mass matrix is that count. *)
Definition toy (gen : bool) (n : nat) : env Z :=
  {| bg_state := nat;
     bg_next := if gen then Some (fun k => (Ok [(0, Z.of_nat (100 + k))], S k)) else None;
     sched := constant_schedule Z _;
     sess_state := nat;
     run := fun f k => (Ok {| o_theta := repeat (Z.of_nat k) n; o_cost := 7%Z;
                              o_minv := repeat (Z.of_nat (10 + k)) n |}, S k) |}.

Theorem C12_user_feed_always_fed_refuted : ~ user_feed_always_fed Z.
Proof.
  intros H.
  destruct (drive (toy false 1) (burnin_next (toy false 1) 1 1) [None; Some [(KUser 5, 42%Z)]]
              (initial_state (toy false 1) 0 3%Z 0)) as [rs s'] eqn:Ed.
  specialize (H (toy false 1) 1%Z 1 _ rs s' 0 3%Z 0 Ed eq_refl).
  cbv in Ed. injection Ed as <- <-.
  specialize (H _ [(KEps, 3%Z); (KMinv 0, 10%Z)] (Ok {| o_theta := [1%Z]; o_cost := 7%Z; o_minv := [11%Z] |})
                5 (or_intror (or_introl eq_refl)) (or_introl eq_refl)).
  discriminate H.
Qed.

(** *** C13 *)
Theorem C13_sample_format :
  forall (V : Type) (E : env V) k us rs s' b0 c0 z0,
  drive E (next_of E k) us (initial_state E b0 c0 z0) = (rs, s') ->
  forall pre c post smp cost f o, rs = pre ++ c :: post -> cr_res E c = Ok (smp, cost) ->
  runs (cr_events E c) = [(f, Ok o)] ->
  smp = match k with
        | Plain => unravel (o_theta o)
        | BurnIn b _ => if (Z.of_nat (successes E pre) <? b)%Z
                        then SList (o_theta o) else unravel (o_theta o)
        end /\
  (length (o_theta o) <> 1 -> smp = SList (o_theta o)).
Proof.
  intros V E k us rs s' b0 c0 z0 H pre c post smp cost f o -> Hr Hrun.
  destruct (drive_split E _ _ _ _ _ _ _ H) as (Hc & us1 & H1 & _).
  assert (K : forall base fmt, step_outcome E base fmt (Ok (smp, cost)) (cr_events E c) ->
                smp = fmt (o_theta o)).
  { intros base fmt HO. inversion HO as [| | | |evb bb eps ff o' Hbe Hfe Hr' He]; subst.
    rewrite <- He in Hrun. unfold runs in Hrun. rewrite flat_map_app in Hrun.
    unfold batch_events in Hbe. destruct (bg_next E); [|destruct Hbe as [Hbe _]]; subst evb;
      cbn in Hrun; injection Hrun as _ ->; reflexivity. }
  assert (U : length (o_theta o) <> 1 -> unravel (o_theta o) = SList (o_theta o)).
  { unfold unravel. destruct (o_theta o) as [|v [|]]; cbn; auto; lia. }
  destruct k as [|b n].
  - pose proof (ss_outcome E _ _ _ _ _ _ (mcmc_call E _ _ _ _ _ Hc)) as HO. rewrite Hr in HO.
    rewrite (K _ _ HO). auto.
  - pose proof (burnin_hist E b n _ _ _ _ _ _ H1) as HI.
    destruct (burnin_call E b n _ _ _ _ _ _ _ _ _ HI Hc)
      as [(Hlt & HS & _)|[(Hle & HS)|(Hp & Hge & m & _ & _ & _ & HS)]];
      pose proof (ss_outcome E _ _ _ _ _ _ HS) as HO; rewrite Hr in HO; rewrite (K _ _ HO).
    + replace (Z.of_nat (successes E pre) <? b)%Z with true by (symmetry; apply Z.ltb_lt; lia). auto.
    + replace (Z.of_nat (successes E pre) <? b)%Z with false by (symmetry; apply Z.ltb_ge; lia). auto.
    + replace (Z.of_nat (successes E pre) <? b)%Z with false by (symmetry; apply Z.ltb_ge; lia). auto.
Qed.

(** Expected: one format for all samples of a sampler.  Refuted for one
    parameter and burn_in_steps = 1. *)
Definition is_list_sample {V} (s : sample V) : bool :=
  match s with SList _ => true | SBare _ => false end.
Definition uniform_format (V : Type) : Prop :=
  forall (E : env V) k us rs s' b0 c0 z0,
  drive E (next_of E k) us (initial_state E b0 c0 z0) = (rs, s') ->
  forall c1 c2 s1 s2 x1 x2, In c1 rs -> In c2 rs ->
  cr_res E c1 = Ok (s1, x1) -> cr_res E c2 = Ok (s2, x2) ->
  is_list_sample s1 = is_list_sample s2.

Theorem C13_uniform_format_refuted : ~ uniform_format Z.
Proof.
  intros H.
  destruct (drive (toy false 1) (next_of (toy false 1) (BurnIn 1 1)) [None; None]
              (initial_state (toy false 1) 0 3%Z 0)) as [rs s'] eqn:Ed.
  specialize (H (toy false 1) (BurnIn 1 1) _ rs s' 0 3%Z 0 Ed).
  cbv in Ed. injection Ed as <- <-.
  specialize (H _ _ (SList [0%Z]) (SBare 1%Z) 7%Z 7%Z (or_introl eq_refl)
                (or_intror (or_introl eq_refl)) eq_refl eq_refl).
  discriminate H.
Qed.

(** *** C14 *)
Theorem C14_failed_step :
  forall (V : Type) (E : env V) k us rs s' b0 c0 z0,
  drive E (next_of E k) us (initial_state E b0 c0 z0) = (rs, s') ->
  forall pre c post e, rs = pre ++ c :: post -> cr_res E c = Raise e ->
  (* not counted; the count goes on from there *)
  n_iterations E (cr_post E c) = n_iterations E (cr_pre E c) /\
  n_iterations E (cr_pre E c) = successes E pre /\
  (* the exception is one raised by the environment, and determines what was consumed *)
  ((* batch generator failed: schedule and session untouched *)
   (cr_events E c = [EvBatch (Raise e)] /\
    s_sched E (cr_post E c) = s_sched E (cr_pre E c) /\
    s_sess E (cr_post E c) = s_sess E (cr_pre E c)) \/
   (* schedule failed: one batch consumed, session untouched *)
   (exists evb b, cr_events E c = evb ++ [EvStepsize (Raise e)] /\ batch_events E evb b /\
    s_sess E (cr_post E c) = s_sess E (cr_pre E c)) \/
   (* session failed: one batch and one stepsize consumed, no update *)
   (exists evb b eps f, cr_events E c = evb ++ [EvStepsize (Ok eps); EvRun f (Raise e)] /\
    batch_events E evb b) \/
   (* update failed: the step was executed, but is not counted *)
   (exists evb b eps f o smp,
      cr_events E c = evb ++ [EvStepsize (Ok eps); EvRun f (Ok o); EvUpdate smp (o_cost o) (Raise e)] /\
      batch_events E evb b)).
Proof.
  intros V E k us rs s' b0 c0 z0 H pre c post e -> Hr.
  destruct (drive_split E _ _ _ _ _ _ _ H) as (Hc & us1 & H1 & _).
  destruct (outcome_of _ _ _ _ _ _ _ _ _ _ _ H) as (base & fmt & [O1 O2 O3 O4 O5] & _).
  rewrite Hr in *. cbn [is_ok] in O3. split; [exact O3|].
  split; [exact (hi_count E _ _ _ _ _ (hist_of _ _ _ _ _ _ _ _ _ H1))|].
  inversion O1 as [e' Hne Hr' He|evb bb e' Hbe Hr' He|evb bb eps ff e' Hbe Hfe Hr' He
                  |evb bb eps ff o e' Hbe Hfe Hr' He|]; subst; rewrite <- He in *.
  - left. split; [reflexivity|]. cbn in O4, O5. injection O4 as O4. injection O5 as O5. auto.
  - right; left. exists evb, bb. split; [reflexivity|]. split; [exact Hbe|].
    assert (runs (evb ++ [EvStepsize (Raise e)]) = []).
    { unfold runs. rewrite flat_map_app. unfold batch_events in Hbe.
      destruct (bg_next E); [|destruct Hbe as [Hbe _]]; subst evb; reflexivity. }
    rewrite H0 in O5. cbn in O5. injection O5 as O5. auto.
  - right; right; left. exists evb, bb, eps, ff. auto.
  - right; right; right. exists evb, bb, eps, ff, o, (fmt (o_theta o)). auto.
Qed.

(** Expected by a user: a failed step has no effect on the chain.  Refuted when
    the schedule's [update] raises: the session has been run. *)
Theorem C14_failed_update_still_moves_chain_refuted :
  ~ (forall (V : Type) (E : env V) us rs s' b0 c0 z0 c e,
       drive E (mcmc_next E) us (initial_state E b0 c0 z0) = (rs, s') ->
       In c rs -> cr_res E c = Raise e -> s_sess E (cr_post E c) = s_sess E (cr_pre E c)).
Proof.
  intros H.
  set (E := {| bg_state := unit; bg_next := None;
               sched := {| sch_state := unit; sch_initial := fun _ => 3%Z;
                           sch_next := fun _ => (Ok 3%Z, tt);
                           sch_update := fun _ _ => (Raise ValueError, tt) |};
               sess_state := nat;
               run := fun f k => (Ok {| o_theta := [Z.of_nat k]; o_cost := 7%Z; o_minv := [] |}, S k) |}
           : env Z).
  destruct (drive E (mcmc_next E) [None] (initial_state E tt tt 0)) as [rs s'] eqn:Ed.
  specialize (H Z E [None] rs s' tt tt 0).
  cbv in Ed. injection Ed as <- <-.
  specialize (H _ ValueError eq_refl (or_introl eq_refl) eq_refl). discriminate H.
Qed.

(** *** A concrete run: burn-in 2, two parameters, a batch generator. *)
Example ex_sampler_run :
  let '(rs, s) := drive (toy true 2) (burnin_next (toy true 2) 2 2) [None; None; None; None]
                    (initial_state (toy true 2) 0 3%Z 0) in
  map (fun c => (cr_res _ c, runs (cr_events _ c))) rs =
  [ (Ok (SList [0; 0]%Z, 7%Z), [([(KEps, 3%Z); (KUser 0, 100%Z)],
       Ok {| o_theta := [0; 0]%Z; o_cost := 7%Z; o_minv := [10; 10]%Z |})]);
    (Ok (SList [1; 1]%Z, 7%Z), [([(KEps, 3%Z); (KUser 0, 101%Z)],
       Ok {| o_theta := [1; 1]%Z; o_cost := 7%Z; o_minv := [11; 11]%Z |})]);
    (Ok (SList [2; 2]%Z, 7%Z), [([(KEps, 3%Z); (KUser 0, 102%Z); (KMinv 0, 11%Z); (KMinv 1, 11%Z)],
       Ok {| o_theta := [2; 2]%Z; o_cost := 7%Z; o_minv := [12; 12]%Z |})]);
    (Ok (SList [3; 3]%Z, 7%Z), [([(KEps, 3%Z); (KUser 0, 103%Z); (KMinv 0, 11%Z); (KMinv 1, 11%Z)],
       Ok {| o_theta := [3; 3]%Z; o_cost := 7%Z; o_minv := [13; 13]%Z |})]) ]
  /\ n_iterations _ s = 4.
Proof. vm_compute. split; reflexivity. Qed.

Print Assumptions C08_constant_schedule_is_constant.
Print Assumptions C09_step_protocol.
Print Assumptions C09_counts.
Print Assumptions C09_batches_in_order.
Print Assumptions C09_schedule_and_session_replay.
Print Assumptions C10_burn_in_boundary_and_frozen_mass.
Print Assumptions C11_no_burn_in_never_feeds_mass.
Print Assumptions C12_user_feed_reaches_session.
Print Assumptions C12_user_feed_ignored_after_burn_in.
Print Assumptions C12_user_feed_always_fed_refuted.
Print Assumptions C13_sample_format.
Print Assumptions C13_uniform_format_refuted.
Print Assumptions C14_failed_step.
Print Assumptions C14_failed_update_still_moves_chain_refuted.
