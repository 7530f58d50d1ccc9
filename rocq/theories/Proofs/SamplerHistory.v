(** Histories of sampler calls: lemmas for C09-C14. *)
From Coq Require Import List Arith Lia ZArith Bool.
From Verif.Base Require Import Py Lists.
From Verif.Model Require Import Stepsize BaseClasses.
From Verif.Spec Require Import Sampler.
From Verif.Proofs Require Import Sampler.
Import ListNotations.

Section H.
Context {V : Type}.
Variable E : env V.

Lemma drive_split : forall nx us s pre c post s',
  drive E nx us s = (pre ++ c :: post, s') ->
  call E nx (cr_user E c) (cr_pre E c) = (cr_res E c, cr_post E c, cr_events E c) /\
  exists us1, drive E nx us1 s = (pre, cr_pre E c) /\
  exists us2, drive E nx us2 s = (pre ++ [c], cr_post E c).
Proof.
  intros nx us s pre. revert us s. induction pre as [|c0 pre IH]; intros us s c post s' H.
  - destruct us as [|u us]; cbn in H; [discriminate|].
    destruct (call E nx u s) as [[r s1] ev] eqn:Ec.
    destruct (drive E nx us s1) as [rs s2]. injection H as <- <- <-. cbn.
    split; [exact Ec|]. exists []. split; [reflexivity|].
    exists [u]. cbn. now rewrite Ec.
  - destruct us as [|u us]; cbn in H; [discriminate|].
    destruct (call E nx u s) as [[r s1] ev] eqn:Ec.
    destruct (drive E nx us s1) as [rs s2] eqn:Ed. injection H as <- -> ->.
    destruct (IH _ _ _ _ _ Ed) as (A & us1 & B & us2 & C).
    split; [exact A|]. exists (u :: us1). split; [cbn; now rewrite Ec, B|].
    exists (u :: us2). cbn. now rewrite Ec, C.
Qed.

Lemma drive_snoc_ind : forall nx (P : list (call_record E) -> state E -> Prop) s0,
  P [] s0 ->
  (forall rs s u r s1 ev, P rs s -> call E nx u s = (r, s1, ev) ->
     P (rs ++ [{| cr_user := u; cr_pre := s; cr_res := r; cr_events := ev; cr_post := s1 |}]) s1) ->
  forall us rs s', drive E nx us s0 = (rs, s') -> P rs s'.
Proof.
  intros nx P s0 H0 HS.
  assert (G : forall us rs0 s rs s', P rs0 s -> drive E nx us s = (rs, s') -> P (rs0 ++ rs) s').
  { induction us as [|u us IH]; intros rs0 s rs s' HP H; cbn in H.
    - injection H as <- <-. now rewrite app_nil_r.
    - destruct (call E nx u s) as [[r s1] ev] eqn:Ec.
      destruct (drive E nx us s1) as [rs1 s2] eqn:Ed. injection H as <- <-.
      specialize (HS _ _ _ _ _ _ HP Ec).
      specialize (IH _ _ _ _ HS Ed). now rewrite <- app_assoc in IH. }
  intros us rs s' H. exact (G us [] s0 rs s' H0 H).
Qed.

Lemma successes_snoc : forall rs c,
  successes E (rs ++ [c]) = successes E rs + (if succeeded E c then 1 else 0).
Proof.
  intros. unfold successes. rewrite filter_app, app_length. cbn.
  destruct (succeeded E c); reflexivity.
Qed.

Lemma all_events_snoc : forall rs c, all_events E (rs ++ [c]) = all_events E rs ++ cr_events E c.
Proof. intros. unfold all_events. rewrite flat_map_app. cbn. now rewrite app_nil_r. Qed.

(** The state a call starts from: the caller's dictionary is put in place. *)
Definition enter (u : option (feed V)) (s : state E) : state E :=
  match u with
  | None => s
  | Some f => {| n_iterations := n_iterations E s; minv := minv E s; s_bg := s_bg E s;
                 s_sched := s_sched E s; s_sess := s_sess E s; s_user := f |}
  end.
Definition dref (u : option (feed V)) : @dict_ref V :=
  match u with None => FreshDict [] | Some _ => UserDict end.

Lemma call_enter : forall nx u s, call E nx u s = nx (dref u) (enter u s).
Proof. intros nx [f|] s; reflexivity. Qed.

Lemma base_enter : forall u s, base_of E (dref u) (enter u s) = user_content u.
Proof. intros [f|] s; reflexivity. Qed.

Lemma enter_fields : forall u s,
  n_iterations E (enter u s) = n_iterations E s /\ minv E (enter u s) = minv E s /\
  s_bg E (enter u s) = s_bg E s /\ s_sched E (enter u s) = s_sched E s /\
  s_sess E (enter u s) = s_sess E s.
Proof. intros [f|] s; cbn; auto. Qed.

(** Specification of a call, from the state before it. *)
Lemma step_spec_enter : forall base fmt u s s' r ev,
  step_spec E base fmt (enter u s) s' r ev -> step_spec E base fmt s s' r ev.
Proof.
  intros base fmt u s s' r ev [A B C D F].
  destruct (enter_fields u s) as (E1 & E2 & E3 & E4 & E5).
  rewrite E1 in C. rewrite E4 in D. rewrite E5 in F.
  constructor; auto. unfold bg_effect in *. now rewrite E3 in B.
Qed.

(** What is known about a sampler after a history, whatever its kind. *)
Record hist_inv (b0 : bg_state E) (c0 : sch_state (sched E)) (z0 : sess_state E)
    (rs : list (call_record E)) (s : state E) : Prop := {
  hi_count : n_iterations E s = successes E rs;
  hi_bg : match bg_next E with
          | Some nx => batch_results (all_events E rs) = stream nx b0 (length rs) /\
                       s_bg E s = Nat.iter (length rs) (fun b => snd (nx b)) b0
          | None => batch_results (all_events E rs) = []
          end;
  hi_sched : sch_drive (sched E) (sched_calls (all_events E rs)) c0 =
             (sched_results (all_events E rs), s_sched E s);
  hi_sess : run_all E (map fst (runs (all_events E rs))) z0 =
            (map snd (runs (all_events E rs)), s_sess E s)
}.

Lemma iter_snoc : forall A (f : A -> A) n x, Nat.iter n f (f x) = f (Nat.iter n f x).
Proof. induction n; intros; simpl; auto. now rewrite IHn. Qed.

Lemma stream_snoc : forall S A (nx : S -> res A * S) k s,
  stream nx s (k + 1) = stream nx s k ++ [fst (nx (Nat.iter k (fun b => snd (nx b)) s))].
Proof.
  induction k; intros; simpl.
  - now destruct (nx s).
  - destruct (nx s) as [r s'] eqn:En. rewrite IHk. cbn [app]. f_equal. f_equal.
    pose proof (iter_snoc _ (fun b => snd (nx b)) k s) as HI. cbn beta in HI.
    rewrite En in HI. cbn [snd] in HI. now rewrite HI.
Qed.

Lemma hist_inv_init : forall b0 c0 z0, hist_inv b0 c0 z0 [] (initial_state E b0 c0 z0).
Proof. intros. constructor; try reflexivity. destruct (bg_next E); split + idtac; reflexivity. Qed.

Lemma hist_inv_step : forall b0 c0 z0 rs s u r s1 ev base fmt,
  hist_inv b0 c0 z0 rs s -> step_spec E base fmt s s1 r ev ->
  hist_inv b0 c0 z0
    (rs ++ [{| cr_user := u; cr_pre := s; cr_res := r; cr_events := ev; cr_post := s1 |}]) s1.
Proof.
  intros b0 c0 z0 rs s u r s1 ev base fmt [A B C D] [P1 P2 P3 P4 P5].
  constructor; rewrite ?all_events_snoc; cbn [cr_events].
  - rewrite successes_snoc, P3, A. unfold succeeded; cbn [cr_res].
    destruct r; cbn; lia.
  - unfold bg_effect in P2. destruct (bg_next E) as [nx|].
    + destruct B as [B1 B2]. destruct P2 as [Q1 (rest & -> & Q2)].
      rewrite app_length. cbn [length]. split.
      * unfold batch_results in *. rewrite flat_map_app, B1. cbn. rewrite Q2.
        rewrite stream_snoc. now rewrite B2.
      * rewrite Nat.add_1_r. cbn. now rewrite Q1, B2.
    + destruct P2 as [Q1 Q2]. unfold batch_results in *. now rewrite flat_map_app, B, Q2.
  - unfold sched_calls, sched_results in *. rewrite !flat_map_app.
    eapply sch_drive_app; eauto.
  - unfold runs in *. rewrite flat_map_app, !map_app.
    eapply run_all_app; eauto.
Qed.

(** *** Plain samplers *)
Lemma mcmc_call : forall u s r s1 ev,
  call E (mcmc_next E) u s = (r, s1, ev) ->
  step_spec E (user_content u) unravel s s1 r ev.
Proof.
  intros u s r s1 ev H. rewrite call_enter in H.
  destruct (mcmc_next_spec E _ _ _ _ _ H) as (A & _). rewrite base_enter in A.
  eapply step_spec_enter; eauto.
Qed.

Lemma mcmc_hist : forall us rs s' b0 c0 z0,
  drive E (mcmc_next E) us (initial_state E b0 c0 z0) = (rs, s') -> hist_inv b0 c0 z0 rs s'.
Proof.
  intros us rs s' b0 c0 z0.
  apply (drive_snoc_ind (mcmc_next E) (hist_inv b0 c0 z0)); [apply hist_inv_init|].
  intros. eapply hist_inv_step; eauto. eapply mcmc_call; eauto.
Qed.

(** *** Burn-in samplers *)
Variable burn : Z.
Variable n_params : nat.

(** The mass matrix returned by the step that ended burn-in. *)
Definition burnt_in_with (rs : list (call_record E)) (m : list V) : Prop :=
  exists pre c post f o, rs = pre ++ c :: post /\
    Z.of_nat (successes E pre) = (burn - 1)%Z /\ succeeded E c = true /\
    runs (cr_events E c) = [(f, Ok o)] /\ m = o_minv o.

Definition burn_inv b0 c0 z0 (rs : list (call_record E)) (s : state E) : Prop :=
  hist_inv b0 c0 z0 rs s /\
  ((0 < burn)%Z -> (burn <= Z.of_nat (successes E rs))%Z ->
   exists m, minv E s = Some m /\ burnt_in_with rs m).

(** The dictionary a call starts with and the presentation of its result. *)
Lemma burnin_call : forall b0 c0 z0 rs u s r s1 ev,
  burn_inv b0 c0 z0 rs s ->
  call E (burnin_next E burn n_params) u s = (r, s1, ev) ->
  ((Z.of_nat (successes E rs) < burn)%Z /\ step_spec E (user_content u) as_list s s1 r ev /\
   match runs ev with [(_, Ok o)] => minv E s1 = Some (o_minv o) | _ => minv E s1 = minv E s end) \/
  ((burn <= 0)%Z /\ step_spec E (user_content u) unravel s s1 r ev) \/
  ((0 < burn)%Z /\ (burn <= Z.of_nat (successes E rs))%Z /\
   exists m, minv E s = Some m /\ burnt_in_with rs m /\ minv E s1 = Some m /\
     step_spec E (minv_feed n_params m) unravel s s1 r ev).
Proof.
  intros b0 c0 z0 rs u s r s1 ev [HI HM] H. rewrite call_enter in H.
  destruct (enter_fields u s) as (E1 & E2 & _).
  assert (Hb : is_burning_in E burn (enter u s) = (Z.of_nat (successes E rs) <? burn)%Z).
  { unfold is_burning_in. rewrite E1, (hi_count _ _ _ _ _ HI). reflexivity. }
  destruct (Z.of_nat (successes E rs) <? burn)%Z eqn:Hlt.
  - left. split; [now apply Z.ltb_lt|].
    destruct (burnin_next_burning E burn n_params _ _ _ _ _ Hb H) as (A & B).
    rewrite base_enter in A. split; [eapply step_spec_enter; eauto|].
    unfold minv_effect in B. rewrite E2 in B. exact B.
  - right. apply Z.ltb_ge in Hlt.
    destruct (Z_lt_le_dec 0 burn) as [Hp|Hp].
    + right. split; [auto|]. split; [auto|].
      destruct (HM Hp Hlt) as (m & Hm & Hbw). exists m.
      destruct (burnin_next_post E burn n_params _ _ _ _ _ m Hb Hp ltac:(now rewrite E2) H) as (A & B & _).
      split; [auto|]. split; [auto|]. split; [now rewrite B, E2|]. eapply step_spec_enter; eauto.
    + left. split; [auto|].
      destruct (burnin_next_none E burn n_params _ _ _ _ _ Hp H) as (A & _).
      rewrite base_enter in A. eapply step_spec_enter; eauto.
Qed.

Lemma step_ok_run : forall base fmt p ev,
  step_outcome E base fmt (Ok p) ev -> exists f o, runs ev = [(f, Ok o)].
Proof.
  intros base fmt p ev H. inversion H; subst. exists f, o.
  unfold runs. rewrite flat_map_app. cbn.
  match goal with HB : batch_events _ _ _ |- _ => unfold batch_events in HB;
    destruct (bg_next E); [subst|destruct HB; subst] end; reflexivity.
Qed.

Lemma burn_inv_step : forall b0 c0 z0 rs u s r s1 ev,
  burn_inv b0 c0 z0 rs s ->
  call E (burnin_next E burn n_params) u s = (r, s1, ev) ->
  burn_inv b0 c0 z0
    (rs ++ [{| cr_user := u; cr_pre := s; cr_res := r; cr_events := ev; cr_post := s1 |}]) s1.
Proof.
  intros b0 c0 z0 rs u s r s1 ev HI H.
  pose proof (burnin_call _ _ _ _ _ _ _ _ _ HI H) as Hc.
  destruct HI as [HI HM].
  destruct Hc as [(Hlt & HS & Hmin)|[(Hle & HS)|(Hp & Hle & m & Hm & Hbw & Hm1 & HS)]].
  - split; [eapply hist_inv_step; eauto|]. intros Hp Hge.
    rewrite successes_snoc in Hge. unfold succeeded in Hge; cbn [cr_res] in Hge.
    destruct r as [p|e]; cbn [is_ok] in Hge; [|lia].
    pose proof (ss_outcome _ _ _ _ _ _ _ HS) as HO.
    destruct (step_ok_run _ _ _ _ HO) as (f & o & Hr). rewrite Hr in Hmin.
    exists (o_minv o). split; [exact Hmin|].
    eexists rs, _, [], f, o. split; [reflexivity|]. split; [lia|]. cbn. auto.
  - split; [eapply hist_inv_step; eauto|]. lia.
  - split; [eapply hist_inv_step; eauto|]. intros _ _. exists m. split; [exact Hm1|].
    destruct Hbw as (pre & c & post & f & o & -> & H1 & H2 & H3 & H4).
    exists pre, c, (post ++ [{| cr_user := u; cr_pre := s; cr_res := r; cr_events := ev; cr_post := s1 |}]), f, o.
    rewrite <- app_assoc. cbn [app]. auto.
Qed.

Lemma burnin_hist : forall us rs s' b0 c0 z0,
  drive E (burnin_next E burn n_params) us (initial_state E b0 c0 z0) = (rs, s') ->
  burn_inv b0 c0 z0 rs s'.
Proof.
  intros us rs s' b0 c0 z0.
  apply (drive_snoc_ind (burnin_next E burn n_params) (burn_inv b0 c0 z0)).
  - split; [apply hist_inv_init|]. cbn. lia.
  - intros. eapply burn_inv_step; eauto.
Qed.

End H.
