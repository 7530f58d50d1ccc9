(** Histories of a complete sampler over an arbitrary kernel, plain or with burn-in. *)
From Coq Require Import List Arith Lia ZArith Bool.
From Verif.Base Require Import Py Num Vec Lists.
From Verif.Model Require Import TensorUtils Stepsize BaseClasses Session.
From Verif.Spec Require Import Sampler Trajectory.
From Verif.Proofs Require Import Sampler SamplerHistory Session.
From Verif.Props Require Import PSampler.
Import ListNotations.

Section K.
Context {T : Type} {NT : Num T}.
Variable stream : Z * Z -> nat -> T.
Variable reserve : nat -> nat.
Variable K : kernel (T:=T).
Variable cg : @objective T.
Variable B : Type.
Variable bg : option (B -> res (list (nat * tensor T)) * B).
Variable sc : schedule (tensor T) (sample (tensor T) * tensor T).
Let E := sampler_env stream reserve K cg B bg sc.

Lemma kernel_history_reached : forall (inv : nat -> k_state K -> Prop) k us rs s' b0 c0 z0,
  kernel_sized K inv ->
  (forall j s o, nth_error (z_params K z0) j = Some (s, o) -> inv (length (data (k_value K s))) s) ->
  drive E (next_of E k) us (initial_state E b0 c0 z0) = (rs, s') ->
  forall c, In c rs ->
  reached reserve K inv z0 (s_sess E (cr_pre E c)) /\ reached reserve K inv z0 (s_sess E (cr_post E c)).
Proof.
  intros inv k us rs s' b0 c0 z0 HK Hinv HD c Hin.
  apply in_split in Hin as (pre & post & ->).
  destruct (drive_split E _ _ _ _ _ _ _ HD) as (_ & us1 & H1 & us2 & H2).
  assert (R0 : reached reserve K inv z0 z0) by (now apply reached_refl).
  assert (G : forall us rs s, drive E (next_of E k) us (initial_state E b0 c0 z0) = (rs, s) ->
     reached reserve K inv z0 (s_sess E s)).
  { intros us0 rs0 s0 H0. pose proof (hist_of _ E k _ _ _ _ _ _ H0) as [_ _ _ HS].
    exact (reached_run_all stream reserve K cg B bg sc inv z0 HK _ _ _ _ R0 HS). }
  split; eapply G; eauto.
Qed.

(** The run of the session in a call that got as far as a successful run. *)
Lemma kernel_call_run : forall k us rs s' b0 c0 z0,
  drive E (next_of E k) us (initial_state E b0 c0 z0) = (rs, s') ->
  forall c f o, In c rs -> runs (cr_events E c) = [(f, Ok o)] ->
  session_run_model stream reserve K cg f (s_sess E (cr_pre E c)) = (Ok o, s_sess E (cr_post E c)).
Proof.
  intros k us rs s' b0 c0 z0 HD c f o Hin Hruns.
  apply in_split in Hin as (pre & post & ->).
  destruct (outcome_of _ E k _ _ _ _ _ _ _ _ HD) as (base & fmt & [SO _ _ _ SS] & Hf).
  rewrite Hruns in SS. cbn [map fst snd run_all] in SS.
  destruct (run E f (s_sess E (cr_pre E c))) as [r z1] eqn:Er. injection SS as -> <-. exact Er.
Qed.

(** Per parameter: the step taken in such a call. *)
Lemma kernel_call_step : forall k us rs s' b0 c0 z0,
  drive E (next_of E k) us (initial_state E b0 c0 z0) = (rs, s') ->
  forall c f o, In c rs -> runs (cr_events E c) = [(f, Ok o)] ->
  exists cst gs,
    cg (values K (s_sess E (cr_pre E c))) (fun n => lookup f (KUser n)) = Ok (cst, gs) /\
    o_cost o = scalar_tensor cst /\ o_theta o = values K (s_sess E (cr_post E c)) /\
    forall j s op, nth_error (z_params K (s_sess E (cr_pre E c))) j = Some (s, op) ->
    exists g, nth_error gs j = Some g /\
      let n := length (data (k_value K s)) in
      let fed := option_map data (lookup f (KMinv j)) in
      let inp := StepInput (fed_eps K f (s_sess E (cr_pre E c))) g (fst (draw stream reserve n op)) fed in
      sized n inp /\
      nth_error (z_params K (s_sess E (cr_post E c))) j =
        Some (k_step K (i_eps inp) (i_grad inp) (i_xi inp) (i_fed inp) s, advanced reserve n 1 op).
Proof.
  intros k us rs s' b0 c0 z0 HD c f o Hin Hruns.
  pose proof (kernel_call_run k us rs s' b0 c0 z0 HD c f o Hin Hruns) as Hrun.
  unfold session_run_model in Hrun. fold E in Hrun.
  destruct (cg (values K (s_sess E (cr_pre E c))) (fun n => lookup f (KUser n))) as [[cst gs]|e]; [|discriminate].
  destruct (run_params _ _ _ _ _ _ _ _) as [[ms ps]|e] eqn:Erp; [|discriminate].
  injection Hrun as <- Hz. exists cst, gs. fold E in Hz. rewrite <- Hz. cbn [o_cost o_theta z_params].
  split; [reflexivity|]. split; [reflexivity|]. split; [reflexivity|].
  destruct (run_params_nth stream reserve _ _ _ _ _ _ _ _ Erp) as (_ & _ & HN).
  intros j s op Hj. destruct (HN j _ _ Hj) as (g & Hg & Hs & Hq & _). cbn [Nat.add] in *. eauto.
Qed.
End K.
