(** The training loop. *)
From Coq Require Import String List Arith Lia ZArith Bool.
From Verif.Base Require Import Py Num Vec.
From Verif.Model Require Import Stepsize BaseClasses DataBatches TensorUtils BaseModel Sampling BNN.
From Verif.Spec Require Import Sampler Network.
From Verif.Proofs Require Import Sampler SamplerHistory.
From Verif.Props Require Import PSampler.
Import ListNotations.
Local Open Scope list_scope.

(** *** Arithmetic of kept iterations *)
Lemma kept_gt : forall bi ss k, 0 < ss -> bi < kept bi ss k.
Proof.
  intros. unfold kept. pose proof (Nat.div_mod bi ss ltac:(lia)). pose proof (Nat.mod_upper_bound bi ss ltac:(lia)). nia.
Qed.
Lemma kept_mod : forall bi ss k, 0 < ss -> kept bi ss k mod ss = 0.
Proof. intros. unfold kept. apply Nat.mod_mul. lia. Qed.
Lemma n_kept_S : forall bi ss i, 0 < ss ->
  n_kept bi ss (S i) = (if (bi <? i) && (i mod ss =? 0) then S (n_kept bi ss i) else n_kept bi ss i) /\
  (bi < i -> i mod ss = 0 -> kept bi ss (n_kept bi ss i) = i).
Proof.
  intros bi ss i Hs. unfold n_kept, kept. replace (S i - 1) with i by lia.
  destruct i as [|i].
  { cbn [Nat.sub]. split; [|lia]. rewrite Nat.mod_0_l, Nat.div_0_l by lia. destruct (Nat.ltb_spec bi 0); [lia|reflexivity]. }
  replace (S i - 1) with i by lia.
  pose proof (Nat.div_mod i ss ltac:(lia)) as E1. pose proof (Nat.mod_upper_bound i ss ltac:(lia)) as B1.
  pose proof (Nat.div_mod (S i) ss ltac:(lia)) as E2. pose proof (Nat.mod_upper_bound (S i) ss ltac:(lia)) as B2.
  pose proof (Nat.div_mod bi ss ltac:(lia)) as E3. pose proof (Nat.mod_upper_bound bi ss ltac:(lia)) as B3.
  set (q1 := i / ss) in *. set (q2 := S i / ss) in *. set (q3 := bi / ss) in *.
  destruct (Nat.eqb_spec (S i mod ss) 0) as [Em|Em]; destruct (Nat.ltb_spec bi (S i)) as [L|L]; cbn [andb].
  - assert (q2 = S q1) by nia. assert (q3 <= q1) by nia. split; [lia|]. intros _ _. nia.
  - split; [|lia]. assert (q2 <= q3) by nia. assert (q1 <= q3) by nia. lia.
  - split; [|congruence]. assert (q2 = q1) by nia. lia.
  - split; [|lia]. assert (q2 <= q3) by nia. assert (q1 <= q3) by nia. lia.
Qed.
Lemma n_kept_0 : forall bi ss, 0 < ss -> n_kept bi ss 0 = 0.
Proof. intros. unfold n_kept. cbn. rewrite Nat.div_0_l by lia. reflexivity. Qed.
Lemma n_kept_mono : forall bi ss n m, 0 < ss -> n <= m -> n_kept bi ss n <= n_kept bi ss m.
Proof. intros. unfold n_kept. pose proof (Nat.div_le_mono (n - 1) (m - 1) ss ltac:(lia) ltac:(lia)). lia. Qed.
Lemma kept_lt : forall bi ss n k, 0 < ss -> k < n_kept bi ss n <-> kept bi ss k < n.
Proof.
  intros bi ss n k Hs. unfold n_kept, kept.
  pose proof (Nat.div_mod (n - 1) ss ltac:(lia)) as E1. pose proof (Nat.mod_upper_bound (n - 1) ss ltac:(lia)) as B1.
  set (q := (n - 1) / ss) in *. set (p := bi / ss). split; intros; nia.
Qed.

Section L.
Context {T : Type} `{Num T} `{NumT T}.
Notation arr := (tensor T).
Variable W : Type.
Variable log_error : heap (list T) T -> W -> res unit * W.
Variable run_sampler : feed arr -> W -> res (outputs arr) * W.
Variable schedule_ : schedule arr (sample arr * arr).
Variable B : batch_source T.
Variable c : config.
Variables px py n_params : nat.
Let E := train_env W run_sampler schedule_ B px py.
Let step := call E (burnin_next E (Z.of_nat (c_burn_in_steps c)) n_params) None.
Notation iteration := (iteration W log_error run_sampler schedule_ B c px py n_params).
Notation train_loop := (train_loop W log_error run_sampler schedule_ B c px py n_params).
Notation state := (state E).

(** Logging touches only the session. *)
Definition same_core (s s' : state) : Prop :=
  n_iterations E s' = n_iterations E s /\ minv E s' = minv E s /\ s_bg E s' = s_bg E s /\ s_sched E s' = s_sched E s.
Lemma same_core_refl : forall s, same_core s s.
Proof. intros. repeat split. Qed.
Lemma same_core_trans : forall a b d, same_core a b -> same_core b d -> same_core a d.
Proof. unfold same_core. intuition congruence. Qed.
Lemma log_core : forall st r st', log_step W log_error run_sampler schedule_ B px py st = (r, st') -> same_core st st'.
Proof.
  intros st r st' Hl. unfold log_step in Hl. destruct (log_error _ _) as [r0 w]. injection Hl as <- <-. repeat split.
Qed.

Definition keep (i : nat) : bool := (c_burn_in_steps c <? i) && (i mod c_sample_steps c =? 0).

(** What an iteration does. *)
Lemma iteration_continue : forall i st sm p ev st' sm', iteration i st sm = Continue W run_sampler schedule_ B px py (p, ev) st' sm' ->
  exists cost st1, step st = (Ok (p, cost), st1, ev) /\ same_core st1 st' /\
    (sm' = if keep i then deque_append (c_n_nets c) sm p else sm) /\
    (keep i = true -> length sm' <> c_n_nets c).
Proof.
  intros i st sm p ev st' sm' Hi. unfold BNN.iteration in Hi. fold E in Hi. fold step in Hi.
  destruct (step st) as [[r st1] ev0] eqn:Es.
  destruct r as [[p0 cost]|er]; [|destruct er; discriminate].
  assert (K : keep i = negb (i <=? c_burn_in_steps c) && (i mod c_sample_steps c =? 0)).
  { unfold keep. f_equal. now rewrite Nat.ltb_antisym. }
  destruct (if (i <=? c_burn_in_steps c) && (i mod 512 =? 0) then _ else _) as [r1 st2] eqn:El.
  assert (C1 : same_core st1 st2).
  { destruct (_ && _); [eapply log_core; eauto|injection El as <- <-; apply same_core_refl]. }
  destruct r1 as [[]|]; [|discriminate].
  destruct (negb (i <=? c_burn_in_steps c) && (i mod c_sample_steps c =? 0)) eqn:Ek.
  - destruct (log_step _ _ _ _ _ _ _ st2) as [r2 st3] eqn:El2. apply log_core in El2.
    destruct r2 as [[]|]; [|discriminate].
    destruct (Nat.eqb_spec (length (deque_append (c_n_nets c) sm p0)) (c_n_nets c)) as [L|L]; [discriminate|].
    injection Hi as <- <- <- <-. exists cost, st1. rewrite K. repeat split; auto; eapply same_core_trans; eauto.
  - injection Hi as <- <- <- <-. exists cost, st1. rewrite K. repeat split; try discriminate; apply C1.
Qed.

Lemma iteration_leave : forall i st sm r st' sm' d, iteration i st sm = Leave W run_sampler schedule_ B px py r st' sm' d ->
  (* the sampler raised *)
  (exists er ev, step st = (Raise er, st', ev) /\ d = [] /\ sm' = sm /\
     r = match er with StopIteration => Ok tt | _ => Raise er end) \/
  (exists p cost st1 ev, step st = (Ok (p, cost), st1, ev) /\ same_core st1 st' /\ d = [(p, ev)] /\
    ((* logging raised *)
     (exists er, r = Raise er /\ sm' = sm) \/
     (* enough samples *)
     (r = Ok tt /\ keep i = true /\ sm' = deque_append (c_n_nets c) sm p /\ length sm' = c_n_nets c))).
Proof.
  intros i st sm r st' sm' d Hi. unfold BNN.iteration in Hi. fold E in Hi. fold step in Hi.
  destruct (step st) as [[rs st1] ev0] eqn:Es.
  destruct rs as [[p0 cost]|er].
  2:{ left. destruct er; injection Hi as <- <- <- <-; eauto 10. }
  right. exists p0, cost, st1, ev0. split; [reflexivity|].
  assert (K : keep i = negb (i <=? c_burn_in_steps c) && (i mod c_sample_steps c =? 0)).
  { unfold keep. f_equal. now rewrite Nat.ltb_antisym. }
  destruct (if (i <=? c_burn_in_steps c) && (i mod 512 =? 0) then _ else _) as [r1 st2] eqn:El.
  assert (C1 : same_core st1 st2).
  { destruct (_ && _); [eapply log_core; eauto|injection El as <- <-; apply same_core_refl]. }
  destruct r1 as [[]|er]; [|injection Hi as <- <- <- <-; repeat split; eauto; apply C1].
  destruct (negb (i <=? c_burn_in_steps c) && (i mod c_sample_steps c =? 0)) eqn:Ek; [|discriminate].
  destruct (log_step _ _ _ _ _ _ _ st2) as [r2 st3] eqn:El2. apply log_core in El2.
  destruct r2 as [[]|er].
  - destruct (Nat.eqb_spec (length (deque_append (c_n_nets c) sm p0)) (c_n_nets c)) as [L|L]; [|discriminate].
    injection Hi as <- <- <- <-. split; [eapply same_core_trans; eauto|]. split; [reflexivity|right; auto].
  - injection Hi as <- <- <- <-. split; [eapply same_core_trans; eauto|]. split; [reflexivity|left; eauto].
Qed.

(** Induction over the loop: [I i st sm tr] for all iterations that went on. *)
Lemma loop_ind : forall (I : nat -> state -> list (sample arr) -> list drawn -> Prop),
  (forall i st sm tr d st' sm', I i st sm tr -> iteration i st sm = Continue W run_sampler schedule_ B px py d st' sm' -> I (S i) st' sm' (tr ++ [d])) ->
  forall fuel i st sm pre r st' sm' tr,
  I i st sm pre -> train_loop fuel i st sm = (r, st', sm', tr) ->
  exists j st0 sm0 tr0 tr1, I j st0 sm0 tr0 /\ pre ++ tr = tr0 ++ tr1 /\ i <= j <= i + fuel /\
    ((j = i + fuel /\ r = Ok tt /\ st' = st0 /\ sm' = sm0 /\ tr1 = []) \/
     (j < i + fuel /\ iteration j st0 sm0 = Leave W run_sampler schedule_ B px py r st' sm' tr1)).
Proof.
  intros I Hstep. induction fuel as [|fuel IH]; intros i st sm pre r st' sm' tr HI Hl.
  - injection Hl as <- <- <- <-. exists i, st, sm, pre, []. split; [assumption|]. split; [now rewrite !app_nil_r|]. split; [lia|]. left. repeat split; auto.
  - cbn [BNN.train_loop] in Hl. destruct (iteration i st sm) as [d st1 sm1|r0 st1 sm1 d] eqn:Ei.
    + destruct (train_loop fuel (S i) st1 sm1) as [[[r2 st2] sm2] tr2] eqn:El. injection Hl as <- <- <- <-.
      destruct (IH _ _ _ _ _ _ _ _ (Hstep _ _ _ _ _ _ _ HI Ei) El) as (j & st0 & sm0 & tr0 & tr1 & A & A2 & A3 & A4).
      exists j, st0, sm0, tr0, tr1. split; auto. split; [rewrite <- A2, <- app_assoc; reflexivity|]. split; [lia|].
      destruct A4 as [(-> & A4)|(A4 & A5)]; [left; split; [lia|auto]|right; split; [lia|auto]].
    + injection Hl as <- <- <- <-. exists i, st, sm, pre, d. repeat split; auto; try lia. right. split; [lia|exact Ei].
Qed.

(** *** Which samples are kept *)
Definition picks (i : nat) (sm : list (sample arr)) (tr : list drawn) : Prop :=
  length sm = n_kept (c_burn_in_steps c) (c_sample_steps c) i /\
  forall k, k < length sm -> nth_error sm k = nth_error (map fst tr) (kept (c_burn_in_steps c) (c_sample_steps c) k).

Lemma deque_append_room : forall A n (l : list A) a, length l < n -> deque_append n l a = l ++ [a].
Proof.
  intros A n l a Hl. unfold deque_append. rewrite app_length. cbn [length].
  destruct (Nat.ltb_spec n (length l + 1)); [lia|reflexivity].
Qed.

Section Positive.
Hypothesis ss_pos : 0 < c_sample_steps c.
Hypothesis nets_pos : 0 < c_n_nets c.

Lemma picks_snoc : forall i sm tr p ev, length tr = i -> length sm < c_n_nets c -> picks i sm tr ->
  picks (S i) (if keep i then deque_append (c_n_nets c) sm p else sm) (tr ++ [(p, ev)]).
Proof.
  intros i sm tr p ev Ht Hsm [P1 P2]. unfold picks. destruct (n_kept_S (c_burn_in_steps c) (c_sample_steps c) i ss_pos) as [N1 N2].
  fold (keep i) in N1.
  assert (Old : forall k, k < length sm -> nth_error sm k = nth_error (map fst (tr ++ [(p, ev)])) (kept (c_burn_in_steps c) (c_sample_steps c) k)).
  { intros k Hk. rewrite P2 by auto. rewrite map_app, nth_error_app1; auto. rewrite map_length, Ht.
    apply kept_lt; auto. lia. }
  destruct (keep i) eqn:Ek.
  - rewrite deque_append_room by auto. rewrite app_length. cbn [length]. split; [lia|]. intros k Hk.
    destruct (Nat.eq_dec k (length sm)) as [->|Hne].
    + rewrite nth_error_app2, Nat.sub_diag by lia. cbn. rewrite P1, N2, map_app, nth_error_app2; rewrite ?map_length, ?Ht.
      * rewrite Nat.sub_diag. reflexivity.
      * lia.
      * unfold keep in Ek. apply andb_true_iff in Ek as [Ek _]. now apply Nat.ltb_lt.
      * unfold keep in Ek. apply andb_true_iff in Ek as [_ Ek]. now apply Nat.eqb_eq.
    + rewrite nth_error_app1 by lia. apply Old. lia.
  - split; [lia|exact Old].
Qed.

Lemma loop_picks : forall fuel st r st' sm tr, train_loop fuel 0 st [] = (r, st', sm, tr) ->
  (* the samples are the kept ones among those drawn *)
  (forall k, k < length sm -> nth_error sm k = nth_error (map fst tr) (kept (c_burn_in_steps c) (c_sample_steps c) k)) /\
  length sm <= c_n_nets c /\ length tr <= fuel /\
  (r = Ok tt -> length sm = n_kept (c_burn_in_steps c) (c_sample_steps c) (length tr) /\
     (length tr = fuel \/
      (length sm = c_n_nets c /\ length tr = S (kept (c_burn_in_steps c) (c_sample_steps c) (c_n_nets c - 1))) \/
      exists st0 ev, step st0 = (Raise StopIteration, st', ev) /\ n_kept (c_burn_in_steps c) (c_sample_steps c) (length tr) < c_n_nets c)).
Proof.
  intros fuel st r st' sm tr Hl.
  pose proof (fun Hs Hi => loop_ind (fun i _ sm tr => length tr = i /\ picks i sm tr /\ length sm < c_n_nets c)
    Hs fuel 0 st [] [] r st' sm tr Hi Hl) as G. cbv beta in G.
  destruct G as (j & st0 & sm0 & tr0 & tr1 & (I1 & I2 & I3) & Et & Hj & Hend).
  - intros i s1 sm1 t1 [p ev] s2 sm2 (A & A2 & A3) Hi.
    destruct (iteration_continue _ _ _ _ _ _ _ Hi) as (cost & st1 & _ & _ & -> & Hk).
    split; [rewrite app_length; cbn; lia|]. split; [now apply picks_snoc|].
    destruct (keep i) eqn:Ek; auto. specialize (Hk eq_refl). rewrite deque_append_room in * by auto.
    rewrite app_length in *. cbn [length] in *. lia.
  - split; [reflexivity|]. split; [|cbn; lia]. split; [symmetry; now apply n_kept_0|cbn; lia].
  - cbn [app] in Et. subst tr. destruct Hend as [(-> & -> & -> & -> & ->)|(Hlt & Hi)].
    + rewrite app_nil_r. destruct I2 as [P1 P2]. split; [exact P2|]. split; [lia|]. split; [lia|]. intros _.
      rewrite I1. auto.
    + apply iteration_leave in Hi as [(er & ev & Es & -> & -> & ->)|(p & cost & st1 & ev & Es & Hc & -> & Hx)].
      * rewrite app_nil_r. destruct I2 as [P1 P2]. split; [exact P2|]. split; [lia|]. split; [lia|].
        intros Hr. rewrite I1. split; [exact P1|]. destruct er; try discriminate. right; right.
        exists st0, ev. split; [exact Es|]. lia.
      * pose proof (picks_snoc _ _ _ p ev I1 I3 I2) as [Q1 Q2]. rewrite app_length. cbn [length].
        destruct Hx as [(er & -> & ->)|(-> & Ek & -> & Hn)].
        -- destruct I2 as [P1 P2]. split; [|split; [lia|split; [lia|discriminate]]].
           intros k Hk. rewrite P2 by auto. rewrite map_app, nth_error_app1; auto. rewrite map_length, I1. apply kept_lt; auto. lia.
        -- rewrite Ek in Q1, Q2. split; [exact Q2|]. split; [lia|]. split; [lia|]. intros _.
           replace (length tr0 + 1) with (S j) by lia. split; [exact Q1|]. right; left. split; [exact Hn|]. f_equal.
           destruct (n_kept_S (c_burn_in_steps c) (c_sample_steps c) j ss_pos) as [_ N2].
           rewrite deque_append_room, app_length in Hn by auto. cbn [length] in Hn. destruct I2 as [P1 _].
           replace (c_n_nets c - 1) with (n_kept (c_burn_in_steps c) (c_sample_steps c) j) by lia. symmetry. rewrite N2; [lia| |];
             unfold keep in Ek; apply andb_true_iff in Ek as [E1 E2]; [now apply Nat.ltb_lt|now apply Nat.eqb_eq].
Qed.

End Positive.

(** *** The sampler's counter and mass matrix along the loop *)
Notation mass_fed := (mass_fed n_params).

Lemma step_mass : forall st r st1 ev m, step st = (r, st1, ev) ->
  (c_burn_in_steps c <= n_iterations E st -> 0 < c_burn_in_steps c -> minv E st = Some m) ->
  n_iterations E st1 = (if is_ok r then S (n_iterations E st) else n_iterations E st) /\
  (n_iterations E st < c_burn_in_steps c -> is_ok r = true ->
     exists f o, runs ev = [(f, Ok o)] /\ minv E st1 = Some (o_minv o)) /\
  (c_burn_in_steps c <= n_iterations E st ->
     minv E st1 = minv E st /\ mass_fed (if c_burn_in_steps c =? 0 then None else Some m) ev).
Proof.
  intros st r st1 ev m Hs Hm. unfold step in Hs. rewrite call_enter in Hs. cbn [dref enter] in Hs.
  destruct (Nat.ltb_spec (n_iterations E st) (c_burn_in_steps c)) as [L|L].
  - assert (Hb : is_burning_in E (Z.of_nat (c_burn_in_steps c)) st = true) by (unfold is_burning_in; apply Z.ltb_lt; lia).
    destruct (burnin_next_burning E _ _ _ _ _ _ _ Hb Hs) as [SS ME]. split; [apply (ss_count _ _ _ _ _ _ _ SS)|]. split; [|lia].
    intros _ Hok. destruct r as [[p cost]|]; [|discriminate]. destruct (step_ok_run E _ _ _ _ (ss_outcome _ _ _ _ _ _ _ SS)) as (f & o & Hr).
    exists f, o. split; auto. unfold minv_effect in ME. now rewrite Hr in ME.
  - destruct (Nat.eqb_spec (c_burn_in_steps c) 0) as [Z0|NZ].
    + destruct (burnin_next_none E (Z.of_nat (c_burn_in_steps c)) n_params (FreshDict []) st r st1 ev ltac:(lia) Hs) as [SS ME].
      split; [apply (ss_count _ _ _ _ _ _ _ SS)|]. split; [lia|]. intros _. split; [exact ME|].
      intros f ro Hin i Hi. apply (outcome_runs _ _ _ _ _ _ _ _ (ss_outcome _ _ _ _ _ _ _ SS)) in Hin as (bb & eps & evb & rest & (_ & _ & F) & _).
      rewrite F. reflexivity.
    + assert (Hb : is_burning_in E (Z.of_nat (c_burn_in_steps c)) st = false) by (unfold is_burning_in; apply Z.ltb_ge; lia).
      destruct (burnin_next_post E _ n_params (FreshDict []) st r st1 ev m Hb ltac:(lia) (Hm L ltac:(lia)) Hs) as (SS & ME & _).
      split; [apply (ss_count _ _ _ _ _ _ _ SS)|]. split; [lia|]. intros _. split; [exact ME|].
      intros f ro Hin i Hi. apply (outcome_runs _ _ _ _ _ _ _ _ (ss_outcome _ _ _ _ _ _ _ SS)) in Hin as (bb & eps & evb & rest & (_ & _ & F) & _).
      rewrite F, lookup_minv_feed. now replace (i <? n_params) with true by (symmetry; now apply Nat.ltb_lt).
Qed.

Notation frozen := (frozen n_params (c_burn_in_steps c)).
Lemma frozen_app : forall (tr tr' : list (sample arr * list (event arr))) ev, frozen tr ev -> frozen (tr ++ tr') ev.
Proof.
  intros tr tr' ev [A B']. split; auto. intros P. destruct (B' P) as (p0 & ev0 & f0 & o0 & N & R & M).
  exists p0, ev0, f0, o0. split; auto. rewrite nth_error_app1; auto. apply nth_error_Some. congruence.
Qed.

Definition mass_inv (i : nat) (st : state) (tr : list drawn) : Prop :=
  n_iterations E st = i /\ length tr = i /\
  (c_burn_in_steps c <= i -> 0 < c_burn_in_steps c -> exists p0 ev0 f0 o0,
     nth_error tr (c_burn_in_steps c - 1) = Some (p0, ev0) /\ runs ev0 = [(f0, Ok o0)] /\ minv E st = Some (o_minv o0)) /\
  (forall j p ev, c_burn_in_steps c <= j -> nth_error tr j = Some (p, ev) -> frozen tr ev).

Lemma mass_inv_step : forall i st tr p cost st1 ev st2, mass_inv i st tr -> step st = (Ok (p, cost), st1, ev) ->
  same_core st1 st2 -> mass_inv (S i) st2 (tr ++ [(p, ev)]).
Proof.
  intros i st tr p cost st1 ev st2 (I1 & I2 & I3 & I4) Hs (C1 & C2 & _).
  assert (exists m, ((c_burn_in_steps c) <= n_iterations E st -> 0 < (c_burn_in_steps c) -> minv E st = Some m) /\
            ((c_burn_in_steps c) <= i -> 0 < (c_burn_in_steps c) -> exists p0 ev0 f0 o0, nth_error tr (c_burn_in_steps c - 1) = Some (p0, ev0) /\ runs ev0 = [(f0, Ok o0)] /\ m = o_minv o0))
    as (m & Hm & Hm').
  { rewrite I1. destruct (le_dec (c_burn_in_steps c) i) as [L|L].
    - destruct (Nat.eq_dec (c_burn_in_steps c) 0) as [Z0|NZ]; [exists []; split; intros; lia|].
      destruct (I3 L ltac:(lia)) as (p0 & ev0 & f0 & o0 & N & R & M). exists (o_minv o0). split; auto.
      intros _ _. exists p0, ev0, f0, o0. auto.
    - exists []. split; intros; lia. }
  destruct (step_mass _ _ _ _ m Hs Hm) as (S1 & S2 & S3). cbn [is_ok] in S1, S2. rewrite I1 in *.
  split; [congruence|]. split; [rewrite app_length; cbn; lia|]. split.
  - intros L P. destruct (Nat.eq_dec (c_burn_in_steps c) (S i)) as [E1|NE].
    + destruct (S2 ltac:(lia) eq_refl) as (f & o & R & M). exists p, ev, f, o. split; [|split; [auto|congruence]].
      rewrite nth_error_app2 by lia. replace (c_burn_in_steps c - 1 - length tr) with 0 by lia. reflexivity.
    + destruct (I3 ltac:(lia) P) as (p0 & ev0 & f0 & o0 & N & R & M). exists p0, ev0, f0, o0.
      split; [|split; [auto|]]. { rewrite nth_error_app1; auto. lia. }
      destruct (S3 ltac:(lia)) as [M1 _]. congruence.
  - intros j q ev' Hj N. destruct (Nat.eq_dec j i) as [->|NE].
    + rewrite nth_error_app2, I2, Nat.sub_diag in N by lia. cbn in N. injection N as <- <-.
      destruct (S3 ltac:(lia)) as [_ MF]. split.
      * intros Z0. rewrite Z0 in MF. exact MF.
      * intros P. destruct (Hm' ltac:(lia) P) as (p0 & ev0 & f0 & o0 & N0 & R & ->). exists p0, ev0, f0, o0.
        split; [rewrite nth_error_app1; auto; lia|]. split; auto.
        destruct (Nat.eqb_spec (c_burn_in_steps c) 0); [lia|exact MF].
    + assert (j < i). { assert (j < length (tr ++ [(p, ev)])) by (apply nth_error_Some; congruence). rewrite app_length in *. cbn in *. lia. }
      rewrite nth_error_app1 in N by lia. apply frozen_app. eauto.
Qed.

Lemma loop_frozen : forall fuel st r st' sm tr, train_loop fuel 0 st [] = (r, st', sm, tr) -> n_iterations E st = 0 ->
  forall j p ev, c_burn_in_steps c <= j -> nth_error tr j = Some (p, ev) -> frozen tr ev.
Proof.
  intros fuel st r st' sm tr Hl Hn0.
  pose proof (fun Hs Hi => loop_ind (fun i s _ t => mass_inv i s t) Hs fuel 0 st [] [] r st' sm tr Hi Hl) as G. cbv beta in G.
  destruct G as (j & st0 & sm0 & tr0 & tr1 & I & Et & Hj & Hend).
  - intros i s1 sm1 t1 [p ev] s2 sm2 A Hi.
    destruct (iteration_continue _ _ _ _ _ _ _ Hi) as (cost & st1 & Es & Hc & _). eapply mass_inv_step; eauto.
  - split; auto. split; auto. split; [intros; lia|]. intros j p ev _ N. destruct j; discriminate.
  - cbn [app] in Et. subst tr. destruct Hend as [(-> & -> & -> & -> & ->)|(Hlt & Hi)].
    + rewrite app_nil_r. apply I.
    + apply iteration_leave in Hi as [(er & ev & Es & -> & _)|(p & cost & st1 & ev & Es & Hc & -> & _)].
      * rewrite app_nil_r. apply I.
      * exact (proj2 (proj2 (proj2 (mass_inv_step _ _ _ _ _ _ _ _ I Es Hc)))).
Qed.


(** *** Single steps and draws *)
Lemma step_cases : forall st r st1 ev, step st = (r, st1, ev) ->
  (exists base, step_spec E base (if n_iterations E st <? c_burn_in_steps c then as_list else unravel) st st1 r ev) \/
  (r = Raise AssertionError /\ st1 = st /\ ev = []).
Proof.
  intros st r st1 ev Hs. unfold step in Hs. rewrite call_enter in Hs. cbn [dref enter] in Hs.
  destruct (Nat.ltb_spec (n_iterations E st) (c_burn_in_steps c)) as [L|L].
  - left. assert (Hb : is_burning_in E (Z.of_nat (c_burn_in_steps c)) st = true) by (unfold is_burning_in; apply Z.ltb_lt; lia).
    destruct (burnin_next_burning E _ _ _ _ _ _ _ Hb Hs) as [SS _]. eexists. exact SS.
  - destruct (Nat.eqb_spec (c_burn_in_steps c) 0) as [Z0|NZ].
    + left. eexists. apply (burnin_next_none E (Z.of_nat (c_burn_in_steps c)) n_params (FreshDict []) st r st1 ev ltac:(lia) Hs).
    + assert (Hb : is_burning_in E (Z.of_nat (c_burn_in_steps c)) st = false) by (unfold is_burning_in; apply Z.ltb_ge; lia).
      destruct (minv E st) as [m|] eqn:Em.
      * left. eexists. apply (burnin_next_post E _ n_params (FreshDict []) st r st1 ev m Hb ltac:(lia) Em Hs).
      * right. unfold burnin_next in Hs. rewrite Hb, Em in Hs.
        replace (0 <? Z.of_nat (c_burn_in_steps c))%Z with true in Hs by (symmetry; apply Z.ltb_lt; lia).
        unfold mraise in Hs. injection Hs as <- <- <-. auto.
Qed.

(** Properties of generator and arrays that a [next] preserves. *)
Definition kept_by_next (P : bs_state B -> heap (list T) T -> Prop) : Prop :=
  forall s h r s' h', bs_next B s h = (r, s', h') -> P s h -> P s' h'.
Lemma step_bg : forall P st r st1 ev, kept_by_next P -> step st = (r, st1, ev) ->
  P (fst (s_bg E st)) (snd (s_bg E st)) -> P (fst (s_bg E st1)) (snd (s_bg E st1)).
Proof.
  intros P st r st1 ev HP Hs HI. destruct (step_cases _ _ _ _ Hs) as [[base SS]|(_ & -> & _)]; auto.
  destruct (ss_bg _ _ _ _ _ _ _ SS) as [Hb _]. rewrite Hb. destruct (s_bg E st) as [g h] eqn:Eb. cbn [fst snd] in *.
  destruct (bs_next B g h) as [[rb g'] h'] eqn:En. cbn. eapply HP; eauto.
Qed.
Lemma loop_bg : forall P fuel i st sm r st' sm' tr, kept_by_next P -> train_loop fuel i st sm = (r, st', sm', tr) ->
  P (fst (s_bg E st)) (snd (s_bg E st)) -> P (fst (s_bg E st')) (snd (s_bg E st')).
Proof.
  intros P fuel i st sm r st' sm' tr HP Hl HI.
  pose proof (fun Hs Hi => loop_ind (fun _ s _ _ => P (fst (s_bg E s)) (snd (s_bg E s))) Hs fuel i st sm [] r st' sm' tr Hi Hl) as G. cbv beta in G.
  destruct G as (j & st0 & sm0 & tr0 & tr1 & I & _ & _ & Hend); auto.
  - intros k s1 sm1 t1 [p ev] s2 sm2 A Hi. destruct (iteration_continue _ _ _ _ _ _ _ Hi) as (cost & s3 & Es & (_ & _ & C & _) & _).
    rewrite C. eapply step_bg; eauto.
  - destruct Hend as [(_ & _ & -> & _)|(_ & Hi)]; auto.
    apply iteration_leave in Hi as [(er & ev & Es & _)|(p & cost & st1 & ev & Es & (_ & _ & C & _) & _)].
    + eapply step_bg; eauto.
    + rewrite C. eapply step_bg; eauto.
Qed.

(** Every draw is what one run returned. *)
Definition drawn_by (d : drawn) (j : nat) : Prop :=
  exists f w o w', run_sampler f w = (Ok o, w') /\ runs (snd d) = [(f, Ok o)] /\
    fst d = (if j <? c_burn_in_steps c then as_list else unravel) (o_theta o).
Lemma step_drawn : forall st p cost st1 ev, step st = (Ok (p, cost), st1, ev) ->
  drawn_by (p, ev) (n_iterations E st) /\ n_iterations E st1 = S (n_iterations E st).
Proof.
  intros st p cost st1 ev Hs. destruct (step_cases _ _ _ _ Hs) as [[base SS]|(C & _)]; [|discriminate].
  split; [|apply (ss_count _ _ _ _ _ _ _ SS)].
  pose proof (ss_outcome _ _ _ _ _ _ _ SS) as SO. pose proof (ss_sess _ _ _ _ _ _ _ SS) as SR.
  inversion SO as [| | | |evb b eps f o HB HF HR HE]. 
  assert (R : runs ev = [(f, Ok o)]).
  { rewrite <- HE. unfold runs. rewrite flat_map_app. unfold batch_events in HB. cbn [bg_next E train_env] in HB. subst evb. reflexivity. }
  rewrite R in SR. cbn [map fst snd run_all] in SR.
  destruct (run E f (s_sess E st)) as [ro w'] eqn:Er. injection SR as -> _.
  exists f, (s_sess E st), o, w'. cbn [fst snd]. split; [exact Er|]. rewrite HE. split; [exact R|reflexivity].
Qed.
Lemma loop_drawn : forall fuel st r st' sm tr, train_loop fuel 0 st [] = (r, st', sm, tr) -> n_iterations E st = 0 ->
  forall j d, nth_error tr j = Some d -> drawn_by d j.
Proof.
  intros fuel st r st' sm tr Hl Hn0.
  pose proof (fun Hs Hi => loop_ind (fun i s _ t => n_iterations E s = i /\ length t = i /\ forall j d, nth_error t j = Some d -> drawn_by d j)
    Hs fuel 0 st [] [] r st' sm tr Hi Hl) as G. cbv beta in G.
  assert (Snoc : forall t i d, length t = i -> (forall j d, nth_error t j = Some d -> drawn_by d j) -> drawn_by d i ->
    forall j d', nth_error (t ++ [d]) j = Some d' -> drawn_by d' j).
  { intros t i d L A D j d' N. destruct (Nat.eq_dec j i) as [->|NE].
    - rewrite nth_error_app2, L, Nat.sub_diag in N by lia. cbn in N. injection N as <-. exact D.
    - assert (j < length (t ++ [d])) by (apply nth_error_Some; congruence). rewrite app_length in *. cbn in *.
      rewrite nth_error_app1 in N by lia. eauto. }
  destruct G as (j & st0 & sm0 & tr0 & tr1 & (I1 & I2 & I3) & Et & Hj & Hend).
  - intros i s1 sm1 t1 [p ev] s2 sm2 (A1 & A2 & A3) Hi.
    destruct (iteration_continue _ _ _ _ _ _ _ Hi) as (cost & st1 & Es & (C & _) & _). destruct (step_drawn _ _ _ _ _ Es) as [D1 D2].
    split; [congruence|]. split; [rewrite app_length; cbn; lia|].
    rewrite A1 in D1. exact (Snoc t1 i (p, ev) A2 A3 D1).
  - split; auto. split; auto. intros j d N. destruct j; discriminate.
  - cbn [app] in Et. subst tr. destruct Hend as [(-> & -> & -> & -> & ->)|(Hlt & Hi)]; [rewrite app_nil_r; exact I3|].
    apply iteration_leave in Hi as [(er & ev & Es & -> & _)|(p & cost & st1 & ev & Es & Hc & -> & _)].
    + rewrite app_nil_r. exact I3.
    + destruct (step_drawn _ _ _ _ _ Es) as [D1 D2].
      rewrite I1 in D1. exact (Snoc tr0 j (p, ev) I2 I3 D1).
Qed.

(** The first batch fails. *)
Lemma loop_first_batch : forall fuel st er g' h', n_iterations E st = 0 -> er <> StopIteration ->
  bs_next B (fst (s_bg E st)) (snd (s_bg E st)) = (Raise er, g', h') ->
  exists st', train_loop (S fuel) 0 st [] = (Raise er, st', [], []) /\ s_bg E st' = (g', h').
Proof.
  intros fuel st er g' h' Hn0 Hne Hb. cbn [BNN.train_loop]. unfold BNN.iteration. fold E. fold step.
  destruct (step st) as [[r st1] ev] eqn:Es.
  assert (A : r = Raise er /\ s_bg E st1 = (g', h')).
  { destruct (step_cases _ _ _ _ Es) as [[base SS]|(-> & -> & ->)].
    - destruct (ss_bg _ _ _ _ _ _ _ SS) as [Hbg (rest & He & _)]. destruct (s_bg E st) as [g h] eqn:Eb. cbn [fst snd] in Hb.
      cbn [bg_next E train_env] in Hbg, He. rewrite Hb in Hbg, He. cbn in Hbg, He. split; auto.
      pose proof (ss_outcome _ _ _ _ _ _ _ SS) as SO.
      inversion SO; subst; try congruence;
        match goal with HB : batch_events _ _ _ |- _ => unfold batch_events in HB; cbn [bg_next E train_env] in HB; subst; discriminate end.
    - exfalso. unfold step in Es. rewrite call_enter in Es. cbn [dref enter] in Es. unfold burnin_next, is_burning_in in Es. rewrite Hn0 in Es.
      destruct (Z.ltb_spec 0 (Z.of_nat (c_burn_in_steps c))); cbn [Z.of_nat] in Es.
      + replace (0 <? Z.of_nat (c_burn_in_steps c))%Z with true in Es by (symmetry; now apply Z.ltb_lt).
        unfold feed_and_run, mbind, next_batch in Es. cbn [bg_next E train_env] in Es. destruct (s_bg E st) as [g h] eqn:Eb. cbn [fst snd] in Hb.
        rewrite Hb in Es. cbn in Es. discriminate.
      + replace (0 <? Z.of_nat (c_burn_in_steps c))%Z with false in Es by (symmetry; now apply Z.ltb_ge).
        unfold mcmc_next, feed_and_run, mbind, next_batch in Es. cbn [bg_next E train_env] in Es. destruct (s_bg E st) as [g h] eqn:Eb. cbn [fst snd] in Hb.
        rewrite Hb in Es. cbn in Es. discriminate. }
  destruct A as [-> A]. exists st1. split; [|exact A]. destruct er; congruence.
Qed.

(** A completed step received a batch. *)
Lemma step_ok_batch : forall st p cost st1 ev, step st = (Ok (p, cost), st1, ev) ->
  exists bt, bs_next B (fst (s_bg E st)) (snd (s_bg E st)) = (Ok bt, fst (s_bg E st1), snd (s_bg E st1)).
Proof.
  intros st p cost st1 ev Hs. destruct (step_cases _ _ _ _ Hs) as [[base SS]|(C & _)]; [|discriminate].
  destruct (ss_bg _ _ _ _ _ _ _ SS) as [Hb (rest & He & _)]. pose proof (ss_outcome _ _ _ _ _ _ _ SS) as SO.
  cbn [bg_next E train_env] in Hb, He.
  inversion SO as [| | | |evb b eps f o HB HF HR HE]. unfold batch_events in HB. cbn [bg_next E train_env] in HB. subst evb.
  rewrite <- HE in He. injection He as He _. rewrite Hb. clear - He. destruct (s_bg E st) as [g h]. cbn [fst snd] in *.
  destruct (bs_next B g h) as [[[[bx by_]|er] g'] h']; cbn in He |- *; [eauto|discriminate].
Qed.
(** A generator that yields at most [remaining s] more batches. *)
Lemma loop_remaining : forall (remaining : bs_state B -> nat) fuel st r st' sm tr,
  (forall s h bt s' h', bs_next B s h = (Ok bt, s', h') -> remaining s' < remaining s) ->
  train_loop fuel 0 st [] = (r, st', sm, tr) -> length tr <= remaining (fst (s_bg E st)).
Proof.
  intros remaining fuel st r st' sm tr Hrem Hl.
  pose proof (fun Hs Hi => loop_ind (fun i s _ t => length t + remaining (fst (s_bg E s)) <= remaining (fst (s_bg E st)))
    Hs fuel 0 st [] [] r st' sm tr Hi Hl) as G. cbv beta in G.
  destruct G as (j & st0 & sm0 & tr0 & tr1 & I & Et & Hj & Hend).
  - intros i s1 sm1 t1 [p ev] s2 sm2 A Hi.
    destruct (iteration_continue _ _ _ _ _ _ _ Hi) as (cost & st1 & Es & (_ & _ & C & _) & _).
    destruct (step_ok_batch _ _ _ _ _ Es) as [bt Hbt]. apply Hrem in Hbt. rewrite C, app_length. cbn. lia.
  - cbn. lia.
  - cbn [app] in Et. subst tr. destruct Hend as [(-> & -> & -> & -> & ->)|(Hlt & Hi)]; [rewrite app_nil_r; lia|].
    apply iteration_leave in Hi as [(er & ev & Es & -> & _)|(p & cost & st1 & ev & Es & Hc & -> & _)].
    + rewrite app_nil_r. lia.
    + destruct (step_ok_batch _ _ _ _ _ Es) as [bt Hbt]. apply Hrem in Hbt. rewrite app_length. cbn. lia.
Qed.
End L.
