(** Lemmas for C87: the loop of train as a history of calls of the sampler, and chains
    without failing calls. *)
From Coq Require Import List Arith Lia ZArith Bool Reals.
From Verif.Base Require Import Py Num Vec.
From Verif.Model Require Import TensorUtils Stepsize BaseClasses DataBatches BNN.
From Verif.Spec Require Import Sampler Chain.
From Verif.Proofs Require Import Sampler SamplerHistory Loop.
Import ListNotations.
Local Open Scope list_scope.

Lemma Forall2_nth_l : forall A B (P : A -> B -> Prop) l l' i a, Forall2 P l l' -> nth_error l i = Some a ->
  exists b, nth_error l' i = Some b /\ P a b.
Proof.
  intros A B P l l' i a HF. revert i. induction HF as [|x y l l' Hxy HF IH]; intros [|i] Hi; try discriminate Hi.
  - injection Hi as <-. exists y. auto.
  - exact (IH i Hi).
Qed.
Lemma Forall2_nth_r : forall A B (P : A -> B -> Prop) l l' i b, Forall2 P l l' -> nth_error l' i = Some b ->
  exists a, nth_error l i = Some a /\ P a b.
Proof.
  intros A B P l l' i b HF. revert i. induction HF as [|x y l l' Hxy HF IH]; intros [|i] Hi; try discriminate Hi.
  - injection Hi as <-. exists x. auto.
  - exact (IH i Hi).
Qed.

Section Drive.
Context {V : Type}.
Variable E : env V.

Lemma drive_snoc : forall nx us s rs s1 u r s2 ev,
  drive E nx us s = (rs, s1) -> call E nx u s1 = (r, s2, ev) ->
  drive E nx (us ++ [u]) s = (rs ++ [CallRecord E u s1 r ev s2], s2).
Proof.
  intros nx us. induction us as [|u0 us IH]; intros s rs s1 u r s2 ev HD HC; cbn [drive app] in *.
  - injection HD as <- <-. now rewrite HC.
  - destruct (call E nx u0 s) as [[r0 s0] ev0]. destruct (drive E nx us s0) as [rs0 s3] eqn:Ed.
    injection HD as <- <-. now rewrite (IH _ _ _ _ _ _ _ Ed HC).
Qed.

(** The states between the calls. *)
Lemma drive_states : forall nx us s rs s', drive E nx us s = (rs, s') ->
  exists st : nat -> state E, st 0 = s /\
  forall i c, nth_error rs i = Some c ->
    cr_pre E c = st i /\ cr_post E c = st (S i) /\
    call E nx (cr_user E c) (st i) = (cr_res E c, st (S i), cr_events E c).
Proof.
  intros nx us. induction us as [|u us IH]; intros s rs s' HD; cbn [drive] in HD.
  - injection HD as <- _. exists (fun _ => s). split; [reflexivity|]. intros [|i] c Hc; discriminate Hc.
  - destruct (call E nx u s) as [[r s1] ev] eqn:Ec. destruct (drive E nx us s1) as [rs1 s2] eqn:Ed.
    injection HD as <- _. destruct (IH _ _ _ Ed) as (st & H0 & HS).
    exists (fun i => match i with 0 => s | S i => st i end). split; [reflexivity|].
    intros [|i] c Hc; cbn [nth_error] in Hc.
    + injection Hc as <-. cbn. rewrite H0. auto.
    + destruct (HS _ _ Hc) as (A & A2 & A3). auto.
Qed.

(** What a call that succeeds does to generator and schedule. *)
Lemma burnin_call_effects : forall burn n_params s p s1 ev,
  call E (burnin_next E burn n_params) None s = (Ok p, s1, ev) ->
  bg_effect E s s1 ev /\
  sch_drive (sched E) (sched_calls ev) (s_sched E s) = (sched_results ev, s_sched E s1).
Proof.
  intros burn n s p s1 ev HC. cbn [call] in HC.
  destruct (is_burning_in E burn s) eqn:Eb.
  - destruct (burnin_next_burning E burn n _ _ _ _ _ Eb HC) as [S1 _]. split; apply S1.
  - destruct (Z.ltb_spec 0 burn) as [Hp|Hp].
    + destruct (minv E s) as [m|] eqn:Em.
      * destruct (burnin_next_post E burn n _ _ _ _ _ _ Eb Hp Em HC) as [S1 _]. split; apply S1.
      * exfalso. unfold burnin_next in HC. rewrite Eb, Em in HC.
        replace (0 <? burn)%Z with true in HC by (symmetry; now apply Z.ltb_lt). discriminate HC.
    + destruct (burnin_next_none E burn n _ _ _ _ _ Hp HC) as [S1 _]. split; apply S1.
Qed.
End Drive.

Section Explicit.
Variable rule : R -> bool -> R -> R -> entry -> entry.
Variable variate : Z * Z -> nat -> R.
Variable reserve : nat -> nat.
Variable target : list (tensor R) -> (nat -> option (tensor R)) -> res (R * list (list R)).
Variable pl : plan.
Variable E : env (tensor R).

(** Without failing calls, [follows] is a sequence of transitions. *)
Lemma follows_explicit : forall t ps rs, follows rule variate reserve target pl E t ps rs ->
  Forall (fun c => is_ok (cr_res E c) = true) rs ->
  exists chain : nat -> list parameter, chain 0 = ps /\
  forall i c, nth_error rs i = Some c ->
    exists b evb eps f o user cost, batch_events E evb b /\
      transition rule variate reserve target (hd 0%R (data eps)) (adapts pl (t + i)) user (chain i)
        = Some (cost, chain (S i)) /\
      cr_res E c = Ok (looks pl (t + i) (map value (chain (S i))), number cost) /\
      cr_events E c = evb ++ [EvStepsize (Ok eps); EvRun f (Ok o);
                              EvUpdate (looks pl (t + i) (map value (chain (S i)))) (number cost) (Ok tt)] /\
      placeholders pl E (t + i) c b user.
Proof.
  intros t ps rs HF. induction HF as [t ps|t ps c rest e Hr|t ps c rest e b evb eps f user Hr
    |t ps c rest e b evb eps f o user cost ps' Hr|t ps c rest b evb eps f o user cost ps' Hb Ht Hr He Hu HF IH]; intros HO.
  1: { exists (fun _ => ps). split; [reflexivity|]. intros [|i] c Hc; discriminate Hc. }
  1-3: inversion HO as [|? ? Hc]; subst; rewrite Hr in Hc; discriminate Hc.
  inversion HO as [|? ? _ HO']; subst. destruct (IH HO') as (chain & H0 & HC).
  exists (fun i => match i with 0 => ps | S i => chain i end). split; [reflexivity|].
  intros [|i] c' Hc; cbn [nth_error] in Hc.
  - injection Hc as <-. rewrite Nat.add_0_r, H0. exists b, evb, eps, f, o, user, cost. auto.
  - replace (t + S i) with (S t + i) by lia. exact (HC _ _ Hc).
Qed.
End Explicit.

Section Loop.
Context {T : Type} `{Num T} `{NumT T}.
Notation arr := (tensor T).
Variable W : Type.
Variable log_error : heap (list T) T -> W -> res unit * W.
Variable run_sampler : feed arr -> W -> res (outputs arr) * W.
Variable schedule_ : schedule arr (sample arr * arr).
Variable B : batch_source T.
Variable c : config.
Variables px py n_params : nat.
Let E := train_env W run_sampler schedule_ B px py.
Let nx := burnin_next E (Z.of_nat (c_burn_in_steps c)) n_params.
Notation iteration := (iteration W log_error run_sampler schedule_ B c px py n_params).
Notation train_loop := (train_loop W log_error run_sampler schedule_ B c px py n_params).
Hypothesis log_pure : forall h w, snd (log_error h w) = w.

Lemma log_step_pure : forall st, snd (log_step W log_error run_sampler schedule_ B px py st) = st.
Proof.
  intros st. unfold log_step. pose proof (log_pure (snd (s_bg _ st)) (s_sess _ st)) as HP.
  destruct (log_error _ _) as [r w]. cbn in *. subst w. now destruct st.
Qed.

(** An iteration that yields something was a successful call. *)
Definition records (cr : call_record E) (d : @drawn T) : Prop :=
  exists cost, cr_res E cr = Ok (fst d, cost) /\ cr_events E cr = snd d /\ cr_user E cr = None.

Lemma iteration_call : forall i st sm p ev,
  (forall st' sm', iteration i st sm = Continue W run_sampler schedule_ B px py (p, ev) st' sm' ->
     exists cost, call E nx None st = (Ok (p, cost), st', ev)) /\
  (forall r st' sm' d, iteration i st sm = Leave W run_sampler schedule_ B px py r st' sm' d ->
     d = [] \/ exists p ev cost, d = [(p, ev)] /\ call E nx None st = (Ok (p, cost), st', ev)).
Proof.
  intros i st sm p ev. unfold BNN.iteration. fold E. fold nx.
  destruct (call E nx None st) as [[[[p0 cost]|er] st1] ev0].
  2:{ split; intros; destruct er; try discriminate; left; congruence. }
  assert (HL : forall b : bool, snd (if b then log_step W log_error run_sampler schedule_ B px py st1 else (Ok tt, st1)) = st1).
  { intros []; [apply log_step_pure|reflexivity]. }
  specialize (HL ((i <=? c_burn_in_steps c) && (i mod 512 =? 0))).
  destruct (if (i <=? c_burn_in_steps c) && (i mod 512 =? 0) then _ else _) as [[u|er] st2]; cbn in HL; subst st2.
  2:{ split; intros; [discriminate|]. right. exists p0, ev0, cost. split; congruence. }
  destruct (negb _ && _).
  - pose proof (log_step_pure st1) as HL2. destruct (log_step _ _ _ _ _ _ _ st1) as [[u2|er] st3]; cbn in HL2; subst st3.
    2:{ split; intros; [discriminate|]. right. exists p0, ev0, cost. split; congruence. }
    destruct (_ =? _); split; intros; try discriminate.
    + right. exists p0, ev0, cost. split; congruence.
    + exists cost. congruence.
  - split; intros; [|discriminate]. exists cost. congruence.
Qed.

Lemma loop_drives : forall fuel st r st' sm tr, train_loop fuel 0 st [] = (r, st', sm, tr) ->
  exists us rs s1, Forall (fun u : option (feed arr) => u = None) us /\ drive E nx us st = (rs, s1) /\ Forall2 records rs tr.
Proof.
  intros fuel st r st' sm tr HL.
  destruct (loop_ind W log_error run_sampler schedule_ B c px py n_params
    (fun _ s _ tr => exists us rs, Forall (fun u : option (feed arr) => u = None) us /\ drive E nx us st = (rs, s) /\ Forall2 records rs tr)) with
    (fuel := fuel) (i := 0) (st := st) (sm := @nil (sample arr)) (pre := @nil (@drawn T)) (r := r) (st' := st') (sm' := sm) (tr := tr)
    as (j & st0 & sm0 & tr0 & tr1 & (us & rs & HU & HD & HF) & Et & _ & Hend); auto.
  - intros i s0 sm0 tr0 [p ev] s1 sm1 (us & rs & HU & HD & HF) Hi.
    destruct (proj1 (iteration_call i s0 sm0 p ev) _ _ Hi) as (cost & HC).
    exists (us ++ [None]), (rs ++ [CallRecord E None s0 (Ok (p, cost)) ev s1]).
    split; [apply Forall_app; auto|]. split; [now apply drive_snoc|].
    apply Forall2_app; [exact HF|]. constructor; [|constructor]. exists cost. auto.
  - exists [], []. repeat split; auto.
  - cbn [app] in Et. subst tr. destruct Hend as [(_ & _ & _ & _ & ->)|(_ & Hi)].
    + exists us, rs, st0. rewrite app_nil_r. auto.
    + destruct (proj2 (iteration_call j st0 sm0 (SList []) []) _ _ _ _ Hi) as [->|(p & ev & cost & -> & HC)].
      * exists us, rs, st0. rewrite app_nil_r. auto.
      * exists (us ++ [None]), (rs ++ [CallRecord E None st0 (Ok (p, cost)) ev st']), st'.
        split; [apply Forall_app; auto|]. split; [now apply drive_snoc|].
        apply Forall2_app; [exact HF|]. constructor; [|constructor]. exists cost. auto.
Qed.
End Loop.
