(** C82: what happens to the dictionary a caller passes to a sampler step. *)
From Coq Require Import List Arith ZArith Bool Lia.
From Verif.Base Require Import Py.
From Verif.Model Require Import Stepsize BaseClasses.
From Verif.Spec Require Import Sampler.
From Verif.Props Require Import PSampler.
Import ListNotations.

Section Feed.
Context {V : Type}.
Variable E : env V.

(** The feeds a call passed to the session. *)
Fixpoint fed_of (evs : list (event V)) : list (feed V) :=
  match evs with
  | [] => []
  | EvRun f _ :: l => f :: fed_of l
  | _ :: l => fed_of l
  end.
(** The batch and the stepsize a call obtained. *)
Fixpoint batches_of (evs : list (event V)) : list (list (nat * V)) :=
  match evs with
  | [] => []
  | EvBatch (Ok b) :: l => b :: batches_of l
  | _ :: l => batches_of l
  end.
Fixpoint stepsizes_of (evs : list (event V)) : list V :=
  match evs with
  | [] => []
  | EvStepsize (Ok e) :: l => e :: stepsizes_of l
  | _ :: l => stepsizes_of l
  end.
(** A dictionary [f] after [update] with a batch and with a stepsize. *)
Definition written (f : feed V) (b : list (list (nat * V))) (e : list V) (g : feed V) : Prop :=
  (forall n, lookup g (KUser n) = match assoc (concat b) n with Some v => Some v | None => lookup f (KUser n) end) /\
  lookup g KEps = match e with v :: _ => Some v | [] => lookup f KEps end /\
  (forall i, lookup g (KMinv i) = lookup f (KMinv i)).

Lemma lookup_batch : forall (b : list (nat * V)) f n,
  lookup (update f (batch_feed b)) (KUser n) = match assoc b n with Some v => Some v | None => lookup f (KUser n) end.
Proof.
  intros b f n. unfold update. induction b as [|[m v] b IH]; [reflexivity|]. cbn. destruct (n =? m); [reflexivity|exact IH].
Qed.
Lemma lookup_batch_eps : forall (b : list (nat * V)) f, lookup (update f (batch_feed b)) KEps = lookup f KEps.
Proof. intros b f. unfold update. induction b as [|[m v] b IH]; [reflexivity|exact IH]. Qed.
Lemma lookup_batch_minv : forall (b : list (nat * V)) f i, lookup (update f (batch_feed b)) (KMinv i) = lookup f (KMinv i).
Proof. intros b f i. unfold update. induction b as [|[m v] b IH]; [reflexivity|exact IH]. Qed.

Ltac split_calls Hc :=
  destruct (bg_next E); cbn in Hc;
  repeat (match type of Hc with context [match ?x with (_, _) => _ end] =>
    lazymatch type of x with (res _ * _)%type => destruct x as [[?|?] ?] end end; cbn in Hc).

(** A burn-in sampler that has finished its burn-in. *)
Definition burnt_in (k : kind) (s : state E) : Prop :=
  match k with Plain => False | BurnIn b _ => (0 < b)%Z /\ (b <= Z.of_nat (n_iterations E s))%Z end.

Lemma dictionary_after_plain : forall f s r s' ev, call E (mcmc_next E) (Some f) s = (r, s', ev) ->
  written f (batches_of ev) (stepsizes_of ev) (s_user E s') /\ (forall g, In g (fed_of ev) -> g = s_user E s').
Proof.
  intros f s r s' ev Hc.
  unfold call, mcmc_next, mbind, feed_and_run, mbind, next_batch, dict_update, dict_get, next_stepsize, session_run, schedule_update, count_iteration, ret in Hc.
  cbn in Hc. split_calls Hc; injection Hc as <- <- <-; cbn; (split; [|intros g Hg; cbn in Hg; intuition]);
  (split; [intros; cbn; try rewrite !app_nil_r; try rewrite lookup_batch; reflexivity|]);
  (split; [cbn; try rewrite lookup_batch_eps; reflexivity|intros; cbn; try rewrite lookup_batch_minv; reflexivity]).
Qed.

(** The caller's dictionary after a call.  After burn-in it is left alone; otherwise it has been
    updated with the batch and the stepsize the call obtained, and if the session was run, it was
    run with exactly this dictionary. *)
Theorem C82_dictionary_after_a_call : forall k f s r s' ev,
  call E (next_of E k) (Some f) s = (r, s', ev) ->
  (burnt_in k s -> s_user E s' = f) /\
  (~ burnt_in k s ->
     written f (batches_of ev) (stepsizes_of ev) (s_user E s') /\ (forall g, In g (fed_of ev) -> g = s_user E s')).
Proof.
  intros [|b n] f s r s' ev Hc; [split; [intros []|intros _; eapply dictionary_after_plain; exact Hc]|].
  cbn [next_of burnt_in] in *. unfold call, burnin_next, is_burning_in in Hc. cbn [n_iterations minv] in Hc.
  destruct (Z.ltb_spec (Z.of_nat (n_iterations E s)) b) as [Hlt|Hge].
  - split; [lia|]. intros _.
    unfold mbind, feed_and_run, mbind, next_batch, dict_update, dict_get, next_stepsize, session_run, schedule_update, count_iteration, set_minv, ret in Hc.
    cbn in Hc. split_calls Hc; injection Hc as <- <- <-; cbn; (split; [|intros g Hg; cbn in Hg; intuition]);
      (split; [intros; cbn; try rewrite !app_nil_r; try rewrite lookup_batch; reflexivity|]);
      (split; [cbn; try rewrite lookup_batch_eps; reflexivity|intros; cbn; try rewrite lookup_batch_minv; reflexivity]).
  - destruct (Z.ltb_spec 0 b) as [Hb|Hb].
    + split; [|lia]. intros _. destruct (minv E s) as [m|]; [|unfold mraise in Hc; injection Hc as <- <- <-; reflexivity].
      unfold mcmc_next, mbind, feed_and_run, mbind, next_batch, dict_update, dict_get, next_stepsize, session_run, schedule_update, count_iteration, ret in Hc.
      cbn in Hc. split_calls Hc; injection Hc as <- <- <-; reflexivity.
    + split; [lia|]. intros _. apply (dictionary_after_plain f s r s' ev). exact Hc.
Qed.

(** *** One dictionary object for all calls *)

(** [drive] with one dictionary object: each call gets what the previous one left in it. *)
Fixpoint drive_shared (k : kind) (n : nat) (s : state E) : list (res (sample V * V) * list (event V)) * state E :=
  match n with
  | 0 => ([], s)
  | S n' =>
      let '(r, s1, ev) := call E (next_of E k) (Some (s_user E s)) s in
      let '(rs, s2) := drive_shared k n' s1 in ((r, ev) :: rs, s2)
  end.
(** ... and with a fresh copy of [f] for every call. *)
Fixpoint drive_copies (k : kind) (f : feed V) (n : nat) (s : state E) : list (res (sample V * V) * list (event V)) * state E :=
  match n with
  | 0 => ([], s)
  | S n' =>
      let '(r, s1, ev) := call E (next_of E k) (Some f) s in
      let '(rs, s2) := drive_copies k f n' s1 in ((r, ev) :: rs, s2)
  end.

(** The same dictionary for every lookup. *)
Definition same_dict (f g : feed V) : Prop := forall k, lookup f k = lookup g k.
(** The session does not distinguish such dictionaries. *)
Definition extensional : Prop := forall f g z, same_dict f g -> run E f z = run E g z.
(** Every batch assigns the same placeholders. *)
Definition same_placeholders (D : list nat) : Prop :=
  (bg_next E = None -> D = []) /\
  forall nx g b g', bg_next E = Some nx -> nx g = (Ok b, g') -> forall n, assoc b n <> None <-> In n D.

Definition others (s s' : state E) : Prop :=
  n_iterations E s = n_iterations E s' /\ minv E s = minv E s' /\ s_bg E s = s_bg E s' /\ s_sched E s = s_sched E s' /\ s_sess E s = s_sess E s'.
(** Equal but for placeholders of the batch and the stepsize. *)
Definition leftover (D : list nat) (f g : feed V) : Prop :=
  (forall n, ~ In n D -> lookup g (KUser n) = lookup f (KUser n)) /\ (forall i, lookup g (KMinv i) = lookup f (KMinv i)).

Lemma call_others : forall nx u s s', others s s' -> call E nx (Some u) s = call E nx (Some u) s'.
Proof. intros nx u [] [] (H1 & H2 & H3 & H4 & H5). cbn in *. now subst. Qed.
Lemma feed_shared : forall D f u s, extensional -> same_placeholders D -> leftover D f u ->
  forall r s1 ev r' s1' ev',
  feed_and_run E UserDict {| n_iterations := n_iterations E s; minv := minv E s; s_bg := s_bg E s; s_sched := s_sched E s; s_sess := s_sess E s; s_user := u |} = (r, s1, ev) ->
  feed_and_run E UserDict {| n_iterations := n_iterations E s; minv := minv E s; s_bg := s_bg E s; s_sched := s_sched E s; s_sess := s_sess E s; s_user := f |} = (r', s1', ev') ->
  r = r' /\ others s1 s1' /\ leftover D f (s_user E s1).
Proof.
  intros D f u s Hx [HD0 HD] [HL HLm] r s1 ev r' s1' ev' H1 H2.
  unfold feed_and_run, mbind, next_batch, dict_update, dict_get, next_stepsize, session_run in H1, H2. cbn in H1, H2.
  assert (LB : forall b, (forall n, assoc b n <> None <-> In n D) ->
    leftover D f (update u (batch_feed b)) /\ forall e, same_dict ((KEps, e) :: update u (batch_feed b)) ((KEps, e) :: update f (batch_feed b))).
  { intros b Hb. split; [split|].
    - intros n Hn. rewrite lookup_batch, <- HL by exact Hn. destruct (assoc b n) eqn:Ea; [|reflexivity].
      exfalso. apply Hn, Hb. congruence.
    - intros i. now rewrite lookup_batch_minv, HLm.
    - intros e [n| |i]; cbn [lookup key_eqb]; [|reflexivity|now rewrite !lookup_batch_minv].
      rewrite !lookup_batch. destruct (assoc b n) eqn:Ea; [reflexivity|]. apply HL. rewrite <- Hb. congruence. }
  destruct (bg_next E) as [nx|] eqn:EB; cbn in H1, H2.
  - destruct (nx (s_bg E s)) as [[b|er] bg'] eqn:EN; cbn in H1, H2.
    2:{ injection H1 as <- <- <-. injection H2 as <- <- <-. repeat split; auto. }
    destruct (LB b (HD nx _ _ _ eq_refl EN)) as [L1 L2].
    destruct (sch_next (sched E) (s_sched E s)) as [[e|er] sc']; cbn in H1, H2.
    2:{ injection H1 as <- <- <-. injection H2 as <- <- <-. repeat split; try reflexivity; apply L1. }
    rewrite (Hx _ _ _ (L2 e)) in H1. destruct (run E _ (s_sess E s)) as [r0 z]. cbn in H1, H2.
    injection H1 as <- <- <-. injection H2 as <- <- <-. repeat split; try reflexivity; cbn; apply L1.
  - destruct (sch_next (sched E) (s_sched E s)) as [[e|er] sc']; cbn in H1, H2.
    2:{ injection H1 as <- <- <-. injection H2 as <- <- <-. repeat split; auto. }
    assert (L : same_dict ((KEps, e) :: u) ((KEps, e) :: f)).
    { rewrite (HD0 eq_refl) in HL. intros [n| |i]; cbn; auto. }
    rewrite (Hx _ _ _ L) in H1. destruct (run E _ (s_sess E s)) as [r0 z]. cbn in H1, H2.
    injection H1 as <- <- <-. injection H2 as <- <- <-. repeat split; try reflexivity; cbn; auto.
Qed.
Lemma update_others : forall p c s s', others s s' ->
  fst (fst (schedule_update E p c s)) = fst (fst (schedule_update E p c s')) /\
  others (snd (fst (schedule_update E p c s))) (snd (fst (schedule_update E p c s'))) /\
  s_user E (snd (fst (schedule_update E p c s))) = s_user E s.
Proof.
  intros p c s s' (H1 & H2 & H3 & H4 & H5). unfold schedule_update. rewrite H4.
  destruct (sch_update (sched E) (p, c) (s_sched E s')) as [r sc]. cbn. repeat split; auto.
Qed.
Lemma step_shared : forall D k f u s, extensional -> same_placeholders D -> leftover D f u ->
  forall r s1 ev r' s1' ev',
  call E (next_of E k) (Some u) s = (r, s1, ev) -> call E (next_of E k) (Some f) s = (r', s1', ev') ->
  r = r' /\ others s1 s1' /\ leftover D f (s_user E s1).
Proof.
  intros D k f u s Hx HD HL.
  assert (PL : forall r s1 ev r' s1' ev',
    call E (mcmc_next E) (Some u) s = (r, s1, ev) -> call E (mcmc_next E) (Some f) s = (r', s1', ev') ->
    r = r' /\ others s1 s1' /\ leftover D f (s_user E s1)).
  { intros r s1 ev r' s1' ev' H1 H2. unfold call, mcmc_next, mbind in H1, H2.
    destruct (feed_and_run E UserDict {| n_iterations := n_iterations E s; minv := minv E s; s_bg := s_bg E s; s_sched := s_sched E s; s_sess := s_sess E s; s_user := u |}) as [[ra sa] ea] eqn:Ea.
    destruct (feed_and_run E UserDict {| n_iterations := n_iterations E s; minv := minv E s; s_bg := s_bg E s; s_sched := s_sched E s; s_sess := s_sess E s; s_user := f |}) as [[rb sb] eb] eqn:Eb.
    destruct (feed_shared D f u s Hx HD HL _ _ _ _ _ _ Ea Eb) as (<- & Ho & Hl).
    destruct ra as [o|er]; [|injection H1 as <- <- <-; injection H2 as <- <- <-; auto].
    set (p := match o_theta o with [v] => SBare v | l => SList l end) in *.
    destruct (update_others p (o_cost o) sa sb Ho) as (U1 & U2 & U3).
    destruct (schedule_update E p (o_cost o) sa) as [[[]  sa'] ea'], (schedule_update E p (o_cost o) sb) as [[rb' sb'] eb']. 
    all: cbn in U1, U2, U3; subst rb'; unfold count_iteration, ret in H1, H2; injection H1 as <- <- <-; injection H2 as <- <- <-.
    - split; [reflexivity|]. destruct U2 as (A1 & A2 & A3 & A4 & A5). cbn. rewrite U3. unfold others. cbn. rewrite A1. auto 10.
    - rewrite U3. auto. }
  destruct k as [|b n]; [exact PL|]. intros r s1 ev r' s1' ev' H1 H2. cbn [next_of] in H1, H2.
  destruct (Z.ltb_spec (Z.of_nat (n_iterations E s)) b) as [Hlt|Hge].
  - unfold call, burnin_next, is_burning_in in H1, H2. cbn [n_iterations] in H1, H2.
    apply Z.ltb_lt in Hlt. rewrite Hlt in H1, H2. unfold mbind in H1, H2.
    destruct (feed_and_run E UserDict {| n_iterations := n_iterations E s; minv := minv E s; s_bg := s_bg E s; s_sched := s_sched E s; s_sess := s_sess E s; s_user := u |}) as [[ra sa] ea] eqn:Ea.
    destruct (feed_and_run E UserDict {| n_iterations := n_iterations E s; minv := minv E s; s_bg := s_bg E s; s_sched := s_sched E s; s_sess := s_sess E s; s_user := f |}) as [[rb sb] eb] eqn:Eb.
    destruct (feed_shared D f u s Hx HD HL _ _ _ _ _ _ Ea Eb) as (<- & Ho & Hl).
    destruct ra as [o|er]; [|injection H1 as <- <- <-; injection H2 as <- <- <-; auto].
    unfold set_minv at 1 in H1. unfold set_minv at 1 in H2.
    match type of H1 with context [schedule_update E ?p ?c ?x] => set (xa := x) in H1 end.
    match type of H2 with context [schedule_update E ?p ?c ?x] => set (xb := x) in H2 end.
    assert (Hx' : others xa xb) by (destruct Ho as (A1 & A2 & A3 & A4 & A5); unfold others, xa, xb; cbn; auto 10).
    destruct (update_others (SList (o_theta o)) (o_cost o) xa xb Hx') as (U1 & U2 & U3).
    destruct (schedule_update E (SList (o_theta o)) (o_cost o) xa) as [[[] sa'] ea'], (schedule_update E (SList (o_theta o)) (o_cost o) xb) as [[rb' sb'] eb'].
    all: cbn in U1, U2, U3; subst rb'; unfold count_iteration, ret in H1, H2; injection H1 as <- <- <-; injection H2 as <- <- <-.
    + split; [reflexivity|]. destruct U2 as (A1 & A2 & A3 & A4 & A5). cbn. rewrite U3. unfold others. cbn. rewrite A1. auto 10.
    + rewrite U3. auto.
  - destruct (Z.ltb_spec 0 b) as [Hb|Hb].
    + destruct (C12_user_feed_ignored_after_burn_in V E b n s (Some u) (Some f) _ _ _ _ _ _ Hb Hge H1 H2) as (R1 & _ & R2).
      split; [exact R1|]. split; [exact R2|].
      destruct (C82_dictionary_after_a_call (BurnIn b n) u s r s1 ev H1) as [K _]. rewrite K; [exact HL|]. now split.
    + apply (PL r s1 ev r' s1' ev').
      * unfold call, burnin_next, is_burning_in in H1. cbn [n_iterations] in H1.
        apply Z.ltb_ge in Hge. apply Z.ltb_ge in Hb. rewrite Hge, Hb in H1. exact H1.
      * unfold call, burnin_next, is_burning_in in H2. cbn [n_iterations] in H2.
        apply Z.ltb_ge in Hge. apply Z.ltb_ge in Hb. rewrite Hge, Hb in H2. exact H2.
Qed.

(** For one sampler whose batches always fill the same placeholders, what is left in the dictionary
    is harmless: passing one dictionary object to all calls gives the same results as passing copies
    of its original content. *)
Theorem C82_one_sampler_may_share : forall D k n f s, extensional -> same_placeholders D ->
  let shared := drive_shared k n {| n_iterations := n_iterations E s; minv := minv E s; s_bg := s_bg E s; s_sched := s_sched E s; s_sess := s_sess E s; s_user := f |} in
  let copies := drive_copies k f n s in
  map fst (fst shared) = map fst (fst copies) /\ others (snd shared) (snd copies).
Proof.
  intros D k n f s Hx HD. cbv zeta.
  assert (G : forall u s1 s2, leftover D f (s_user E s1) -> others s1 s2 -> u = s_user E s1 ->
    map fst (fst (drive_shared k n s1)) = map fst (fst (drive_copies k f n s2)) /\ others (snd (drive_shared k n s1)) (snd (drive_copies k f n s2))).
  { induction n as [|n IH]; intros u s1 s2 HL Ho _; [split; [reflexivity|exact Ho]|]. cbn [drive_shared drive_copies].
    rewrite (call_others (next_of E k) f s2 s1) by (unfold others in *; intuition).
    destruct (call E (next_of E k) (Some (s_user E s1)) s1) as [[r a] ev] eqn:E1.
    destruct (call E (next_of E k) (Some f) s1) as [[r' a'] ev'] eqn:E2.
    destruct (step_shared D k f (s_user E s1) s1 Hx HD HL _ _ _ _ _ _ E1 E2) as (-> & Ho' & HL').
    specialize (IH _ a a' HL' Ho' eq_refl).
    destruct (drive_shared k n a), (drive_copies k f n a'). cbn in *. destruct IH as [-> IH]. auto. }
  eapply G; [|unfold others; cbn; auto 10|reflexivity]. split; auto.
Qed.
End Feed.

(** Expected contract: a sampler step does not change the caller's dictionary - so that one dictionary
    may be passed to several samplers.  Refuted: a sampler without batch generator is fed the batch of
    another sampler. *)
Definition samplers_may_share (V : Type) : Prop :=
  forall (A B : env V) sa sb f n,
  let sa' := snd (fst (call A (mcmc_next A) (Some f) sa)) in
  map (fun g => lookup g (KUser n)) (fed_of (snd (call B (mcmc_next B) (Some (s_user A sa')) sb))) =
            map (fun g => lookup g (KUser n)) (fed_of (snd (call B (mcmc_next B) (Some f) sb))).
Theorem C82_samplers_may_share_refuted : ~ samplers_may_share Z.
Proof.
  intros C. specialize (C (toy true 1) (toy false 1) (initial_state (toy true 1) 0 1%Z 0) (initial_state (toy false 1) 0 1%Z 0) [] 0).
  vm_compute in C. discriminate C.
Qed.
(** The dictionary after a step of a sampler with batches, and after burn-in. *)
Example C82_example :
  (let '(_, s1, _) := call (toy true 1) (burnin_next (toy true 1) 1 1) (Some [(KUser 3, 5%Z)]) (initial_state (toy true 1) 0 1%Z 0) in
   s_user (toy true 1) s1 = [(KEps, 1%Z); (KUser 0, 100%Z); (KUser 3, 5%Z)] /\
   let '(_, s2, _) := call (toy true 1) (burnin_next (toy true 1) 1 1) (Some [(KUser 3, 5%Z)]) s1 in
   s_user (toy true 1) s2 = [(KUser 3, 5%Z)]) /\
  extensional (toy true 1) /\ same_placeholders (toy true 1) [0].
Proof.
  split; [vm_compute; split; reflexivity|]. split; [intros f g z H; reflexivity|]. split; [discriminate|].
  intros nx g b g' Hn He n. apply (f_equal (fun o => match o with Some x => x g | None => nx g end)) in Hn. rewrite He in Hn.
  apply (f_equal (fun p => match fst p with Ok l => l | Raise _ => [] end)) in Hn. cbn [fst] in Hn. rewrite <- Hn.
  change (assoc [(0, Z.of_nat (100 + g))] n <> None <-> In n [0]). generalize (Z.of_nat (100 + g)). intros v. cbn [assoc In].
  destruct (Nat.eqb_spec n 0); split; intros; subst; auto; try congruence. destruct H as [H|[]]. congruence.
Qed.
