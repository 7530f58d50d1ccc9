(** Properties C49-C52, C55, C58-C60, C73-C75: constructing, training and using
    Bayesian neural networks. *)
From Coq Require Import String List Arith Lia ZArith Bool Permutation Reals.
From Verif.Base Require Import Py Lists Num Vec.
From Verif.Model Require Import Stepsize BaseClasses DataBatches TensorUtils BaseModel Sampling BNN.
From Verif.Spec Require Import Batches Sampler Network.
From Verif.Proofs Require Import Batches Distances Sampler SamplerHistory Loop Train.
From Verif.Props Require Import PBatches.
Import ListNotations.
Local Open Scope list_scope.

(** ** C49 *)
Lemma v_as_int_spec : forall v z, v_as_int v = Some z <-> int_arg v z.
Proof.
  intros v z. unfold v_as_int, int_arg, int_value. split.
  - destruct v as [p| | |]; try discriminate. intros Hp. exists p. split; auto.
    destruct p as [|[]| | | | |]; cbn in Hp; try discriminate; injection Hp as <-; auto.
  - intros (p & -> & [->|[[-> ->]|[-> ->]]]); reflexivity.
Qed.
Lemma v_int_as : forall v, v_int v = match v_as_int v with Some _ => true | None => false end.
Proof. intros [p| | |]; auto. Qed.
Lemma v_pos_spec : forall v, v_int v && v_pos v = true <-> exists z, int_arg v z /\ (z > 0)%Z.
Proof.
  intros v. rewrite v_int_as. unfold v_pos. destruct (v_as_int v) as [z|] eqn:E.
  - cbn. rewrite Z.ltb_lt. split.
    + intros. exists z. split; [now apply v_as_int_spec|lia].
    + intros (z' & Hz & L). apply v_as_int_spec in Hz. rewrite E in Hz. injection Hz as <-. lia.
  - split; [discriminate|]. intros (z' & Hz & L). apply v_as_int_spec in Hz. congruence.
Qed.
Lemma v_nonneg_spec : forall v, v_int v && v_nonneg v = true <-> exists z, int_arg v z /\ (z >= 0)%Z.
Proof.
  intros v. rewrite v_int_as. unfold v_nonneg. destruct (v_as_int v) as [z|] eqn:E.
  - cbn. rewrite Z.leb_le. split.
    + intros. exists z. split; [now apply v_as_int_spec|lia].
    + intros (z' & Hz & L). apply v_as_int_spec in Hz. rewrite E in Hz. injection Hz as <-. lia.
  - split; [discriminate|]. intros (z' & Hz & L). apply v_as_int_spec in Hz. congruence.
Qed.
Lemma v_dtype_spec : forall v, v_dtype v = true <-> exists nm, v = VDType nm.
Proof. intros [| |nm|]; cbn; split; intros Hv; try discriminate; eauto; destruct Hv; discriminate. Qed.

Definition checks (a : bnn_args) : bool :=
  (v_int (a_n_nets a) && v_pos (a_n_nets a)) && (v_int (a_n_iters a) && v_pos (a_n_iters a)) &&
  (v_int (a_burn_in_steps a) && v_nonneg (a_burn_in_steps a)) && (v_int (a_sample_steps a) && v_pos (a_sample_steps a)) &&
  (v_int (a_batch_size a) && v_pos (a_batch_size a)) && v_dtype (a_dtype a) && v_callable (a_get_net a) &&
  v_callable (a_batch_generator a) && v_update (a_schedule a) && v_next (a_schedule a).
Lemma checks_spec : forall a, checks a = true <-> well_typed a.
Proof.
  intros a. unfold checks, well_typed. rewrite !andb_true_iff with (b1 := (_ && _ && _)%bool).
  rewrite <- !v_pos_spec, <- v_nonneg_spec, <- v_dtype_spec, !andb_true_iff. tauto.
Qed.
Lemma construct_checks : forall a, construct_bnn a =
  if checks a then (if is_supported (a_method a) then
     Ok {| c_method := a_method a; c_n_nets := v_nat (a_n_nets a); c_n_iters := v_nat (a_n_iters a);
             c_burn_in_steps := v_nat (a_burn_in_steps a); c_sample_steps := v_nat (a_sample_steps a);
             c_batch_size := v_py (a_batch_size a); c_seed := v_py (a_seed a);
             c_normalize_input := a_normalize_input a; c_normalize_output := a_normalize_output a |}
     else Raise ValueError) else Raise AssertionError.
Proof.
  intros a. unfold construct_bnn, checks.
  destruct (v_int (a_n_nets a)), (v_pos (a_n_nets a)), (v_int (a_n_iters a)), (v_pos (a_n_iters a)); try reflexivity;
  destruct (v_int (a_burn_in_steps a)), (v_nonneg (a_burn_in_steps a)), (v_int (a_sample_steps a)), (v_pos (a_sample_steps a)); try reflexivity;
  destruct (v_int (a_batch_size a)), (v_pos (a_batch_size a)), (v_dtype (a_dtype a)), (v_callable (a_get_net a)); try reflexivity;
  destruct (v_callable (a_batch_generator a)), (v_update (a_schedule a)), (v_next (a_schedule a)), (is_supported (a_method a)); reflexivity.
Qed.

Theorem C49_constructor_exact : forall a,
  ((exists c, construct_bnn a = Ok c) <-> well_typed a /\ supported (a_method a)) /\
  (~ well_typed a -> construct_bnn a = Raise AssertionError) /\
  (well_typed a -> ~ supported (a_method a) -> construct_bnn a = Raise ValueError).
Proof.
  intros a. assert (S : is_supported (a_method a) = true <-> supported (a_method a)).
  { unfold supported. destruct (a_method a) as [[]|]; cbn; split; intros Hs; auto; try discriminate; destruct Hs; discriminate. }
  rewrite construct_checks, <- checks_spec, <- S.
  destruct (checks a), (is_supported (a_method a)); (split; [split|split]); intros;
    repeat match goal with h : _ /\ _ |- _ => destruct h | h : exists _, _ |- _ => destruct h end; try congruence; eauto.
Qed.

(** The attributes are the arguments. *)
Theorem C49_attributes : forall a c, construct_bnn a = Ok c ->
  int_arg (a_n_nets a) (Z.of_nat (c_n_nets c)) /\ int_arg (a_n_iters a) (Z.of_nat (c_n_iters c)) /\
  int_arg (a_burn_in_steps a) (Z.of_nat (c_burn_in_steps c)) /\ int_arg (a_sample_steps a) (Z.of_nat (c_sample_steps c)) /\
  (exists n, valid_batch_size (c_batch_size c) n) /\
  0 < c_n_nets c /\ 0 < c_n_iters c /\ 0 < c_sample_steps c /\ c_method c = a_method a /\ supported (c_method c).
Proof.
  intros a c Hc.
  assert (HW : well_typed a /\ supported (a_method a)) by (apply C49_constructor_exact; eauto).
  destruct HW as [((z1 & A1 & B1) & (z2 & A2 & B2) & (z3 & A3 & B3) & (z4 & A4 & B4) & (z5 & A5 & B5) & _) HS].
  rewrite construct_checks in Hc. destruct (checks a); [|discriminate]. destruct (is_supported (a_method a)); [|discriminate].
  injection Hc as <-. cbn.
  assert (K : forall v z, int_arg v z -> (z >= 0)%Z -> int_arg v (Z.of_nat (v_nat v)) /\ v_nat v = Z.to_nat z).
  { intros v z Hv L. unfold v_nat. rewrite (proj2 (v_as_int_spec v z) Hv). rewrite Z2Nat.id by lia. auto. }
  destruct (K _ _ A1 ltac:(lia)) as [P1 Q1]. destruct (K _ _ A2 ltac:(lia)) as [P2 Q2].
  destruct (K _ _ A3 ltac:(lia)) as [P3 Q3]. destruct (K _ _ A4 ltac:(lia)) as [P4 Q4].
  repeat (split; [assumption|]).
  split. { destruct A5 as (p & -> & Hp). exists (Z.to_nat z5), z5. cbn. auto. }
  repeat (split; [lia|]). auto.
Qed.

Definition some_callable : value := VObj 1 (Traits false false false true true false).
Definition some_args : bnn_args :=
  {| a_method := MMember SGHMC; a_get_net := some_callable; a_batch_generator := some_callable; a_schedule := VConst 1 100;
     a_n_nets := VPy (PInt 2); a_n_iters := VPy (PInt 5); a_burn_in_steps := VPy (PInt 1); a_sample_steps := VPy (PBool true);
     a_batch_size := VPy (PInt 20); a_dtype := VDType "float64"; a_seed := VPy PNone;
     a_normalize_input := true; a_normalize_output := true |}.
Example C49_example : exists c, construct_bnn some_args = Ok c /\ c_sample_steps c = 1.
Proof. eexists. split; reflexivity. Qed.

(** ** Training *)
Section S.
Context {T : Type} `{Num T} `{NumT T}.
Notation arr := (tensor T).
Variable W : Type.
Variable value_of : W -> nat -> arr.
Variable get_sampler_ : W -> res unit * W.
Variable initialize : W -> res unit * W.
Variable log_error : heap (list T) T -> W -> res unit * W.
Variable run_sampler : feed arr -> W -> res (outputs arr) * W.
Variable schedule_ : schedule arr (sample arr * arr).
Variable B : batch_source T.
Variable builder : net_builder T.
Notation ext := (ext W schedule_).
Notation train := (train W get_sampler_ initialize log_error run_sampler schedule_ B builder).
Notation predict := (predict W value_of).
Notation t_res := (t_res W schedule_).
Notation t_bnn := (t_bnn W schedule_).
Notation t_ext := (t_ext W schedule_).
Notation t_drawn := (t_drawn W schedule_).
Notation t_X := (t_X W schedule_).
Notation t_y := (t_y W schedule_).
Notation x_names := (x_names W schedule_).
Notation x_vars := (x_vars W schedule_).
Notation x_ph := (x_ph W schedule_).

(** Something the sampler calls raises [e]. *)
Definition raised_in_step (e : exn) : Prop :=
  (exists s h, fst (fst (bs_next B s h)) = Raise e) \/
  (exists s, fst (sch_next schedule_ s) = Raise e) \/
  (exists f w, fst (run_sampler f w) = Raise e) \/
  (exists p s, fst (sch_update schedule_ p s) = Raise e).

Lemma step_raises : forall c px py n st e st' ev,
  let E := train_env W run_sampler schedule_ B px py in
  call E (burnin_next E (Z.of_nat (c_burn_in_steps c)) n) None st = (Raise e, st', ev) ->
  raised_in_step e \/ e = AssertionError.
Proof.
  intros c px py n st e st' ev E Hs. destruct (step_cases W run_sampler schedule_ B c px py n _ _ _ _ Hs) as [[base SS]|(C & _)].
  2:{ right. congruence. }
  fold E in SS.
  left. pose proof (ss_outcome _ _ _ _ _ _ _ SS) as SO. pose proof (ss_sess _ _ _ _ _ _ _ SS) as SR.
  pose proof (ss_sched _ _ _ _ _ _ _ SS) as SC. pose proof (ss_bg _ _ _ _ _ _ _ SS) as SB. unfold bg_effect in SB.
  cbn [bg_next E train_env] in SB. destruct SB as [_ (rest & He & _)].
  unfold raised_in_step. inversion SO as [e0 Hb Hr Hev|evb b e0 HB Hr Hev|evb b eps f e0 HB HF Hr Hev|evb b eps f o e0 HB HF Hr Hev|]; subst e0.
  - left. rewrite <- Hev in He. injection He as He _. exists (fst (s_bg E st)), (snd (s_bg E st)). clear - He. unfold E in *.
    destruct (s_bg _ st) as [g h]. cbn [fst snd] in *.
    destruct (bs_next B g h) as [[[[bx by_]|er] g'] h']; cbn in He |- *; [discriminate|congruence].
  - right; left. unfold batch_events in HB. cbn [bg_next E train_env] in HB. subst evb. rewrite <- Hev in SC. cbn in SC.
    exists (s_sched E st). destruct (sch_next schedule_ (s_sched E st)) as [r s'] eqn:En. cbn in SC. cbn [fst].
    destruct r; cbn in SC; injection SC; intros; congruence.
  - right; right; left. unfold batch_events in HB. cbn [bg_next E train_env] in HB. subst evb. rewrite <- Hev in SR. cbn in SR.
    exists f, (s_sess E st). destruct (run_sampler f (s_sess E st)) as [r s'] eqn:En. cbn. injection SR; intros; congruence.
  - right; right; right. unfold batch_events in HB. cbn [bg_next E train_env] in HB. subst evb. rewrite <- Hev in SC.
    set (p := (if n_iterations E st <? c_burn_in_steps c then as_list else unravel) (o_theta o)) in *.
    cbn in SC. destruct (sch_next schedule_ (s_sched E st)) as [r s1] eqn:En. cbn in SC.
    exists (p, o_cost o), s1.
    destruct (sch_update schedule_ (p, o_cost o) s1) as [r2 s2] eqn:Eu. cbn [fst].
    destruct r2 as [[]|]; cbn in SC; injection SC; intros; congruence.
Qed.

(** ** C50 *)
(** The iterations that should be kept are those after burn-in whose index is
    divisible by [sample_steps]. *)
Theorem C50_window : forall bi ss, 0 < ss ->
  (forall i, (bi < i /\ i mod ss = 0) <-> exists k, i = kept bi ss k) /\
  (forall k, kept bi ss k < kept bi ss (S k)) /\
  (forall n k, k < n_kept bi ss n <-> kept bi ss k < n).
Proof.
  intros bi ss Hs. split; [|split].
  - intros i. split.
    + intros [A1 A2]. destruct (n_kept_S bi ss i Hs) as [_ K]. exists (n_kept bi ss i). symmetry. auto.
    + intros [k ->]. split; [now apply kept_gt|now apply kept_mod].
  - intros k. unfold kept. nia.
  - intros n k. now apply kept_lt.
Qed.

Theorem C50_collects_thinned_samples : forall a c X y b e, construct_bnn a = Ok c ->
  let t := train c (Matrix X) y b e in
  let bi := c_burn_in_steps c in let ss := c_sample_steps c in
  t_res t = Ok tt ->
  (forall k, k < length (b_samples (t_bnn t)) ->
     nth_error (b_samples (t_bnn t)) k = nth_error (map fst (t_drawn t)) (kept bi ss k)) /\
  length (b_samples (t_bnn t)) = n_kept bi ss (length (t_drawn t)) /\
  length (b_samples (t_bnn t)) <= c_n_nets c /\ length (t_drawn t) <= c_n_iters c /\
  (length (t_drawn t) = c_n_iters c \/
   (length (b_samples (t_bnn t)) = c_n_nets c /\ length (t_drawn t) = S (kept bi ss (c_n_nets c - 1))) \/
   raised_in_step StopIteration).
Proof.
  intros a c X y b e Hc t bi ss Ht. destruct (C49_attributes a c Hc) as (_ & _ & _ & _ & _ & N1 & N2 & N3 & _).
  pose proof (train_cases W get_sampler_ initialize log_error run_sampler schedule_ B builder c X y b e) as O; fold t in O;
    destruct O as [er Hb Hr|nt er Hb _ Hr|nt st Hb Hrb Hg Hi E Hl]; try congruence.
  destruct (loop_picks W log_error run_sampler schedule_ B c _ _ _ N3 N1 _ _ _ _ _ _ Hl) as (P1 & P2 & P3 & P4).
  destruct (P4 Ht) as [P5 P6]. split; [exact P1|]. split; [exact P5|]. split; [exact P2|]. split; [exact P3|].
  destruct P6 as [P6|[P6|(st0 & ev & Es & _)]]; auto. right; right.
  destruct (step_raises _ _ _ _ _ _ _ _ Es) as [|]; [auto|discriminate].
Qed.

Theorem C50_number_of_samples : forall a c X y b e, construct_bnn a = Ok c -> ~ raised_in_step StopIteration ->
  let t := train c (Matrix X) y b e in t_res t = Ok tt ->
  length (b_samples (t_bnn t)) = Nat.min (c_n_nets c) (n_kept (c_burn_in_steps c) (c_sample_steps c) (c_n_iters c)).
Proof.
  intros a c X y b e Hc Hns t Ht. destruct (C49_attributes a c Hc) as (_ & _ & _ & _ & _ & N1 & N2 & N3 & _).
  destruct (C50_collects_thinned_samples a c X y b e Hc Ht) as (_ & P2 & P3 & P4 & [P5|[[P5 P6]|P5]]); [| |contradiction]; fold t in P2, P3, P4, P5.
  - rewrite P5 in P2. lia.
  - rewrite P5. symmetry. apply Nat.min_l. fold t in P6.
    assert (c_n_nets c - 1 < n_kept (c_burn_in_steps c) (c_sample_steps c) (c_n_iters c)) by (apply kept_lt; auto; lia). lia.
Qed.

(** Every collected sample was drawn with the mass matrix of the last burn-in
    iteration. *)
Theorem C50_mass_matrix_frozen : forall a c X y b e, construct_bnn a = Ok c ->
  let t := train c (Matrix X) y b e in
  forall k, k < length (b_samples (t_bnn t)) -> is_ok (t_res t) = true ->
  exists p ev, nth_error (t_drawn t) (kept (c_burn_in_steps c) (c_sample_steps c) k) = Some (p, ev) /\
    nth_error (b_samples (t_bnn t)) k = Some p /\
    frozen (length (b_params (t_bnn t))) (c_burn_in_steps c) (t_drawn t) ev.
Proof.
  intros a c X y b e Hc t k Hk Hnew. destruct (C49_attributes a c Hc) as (_ & _ & _ & _ & _ & N1 & N2 & N3 & _).
  pose proof (train_cases W get_sampler_ initialize log_error run_sampler schedule_ B builder c X y b e) as O; fold t in O;
    destruct O as [er Hb Hr Hbn|nt er Hb Hr Hrr _ _ Hsm|nt st Hb Hrb Hg Hi E Hl].
  - exfalso. rewrite Hr in Hnew. discriminate.
  - exfalso. rewrite Hsm in Hk. cbn in Hk. lia.
  - destruct (loop_picks W log_error run_sampler schedule_ B c _ _ _ N3 N1 _ _ _ _ _ _ Hl) as (P1 & P2 & P3 & P4).
    specialize (P1 k Hk).
    destruct (nth_error (t_drawn t) (kept (c_burn_in_steps c) (c_sample_steps c) k)) as [[p ev]|] eqn:En.
    + exists p, ev. split; [reflexivity|]. split. { rewrite P1. exact (map_nth_error fst _ _ En). }
      refine (loop_frozen W log_error run_sampler schedule_ B c _ _ _ _ _ _ _ _ _ Hl eq_refl _ p ev _ En).
      pose proof (kept_gt (c_burn_in_steps c) (c_sample_steps c) k N3). lia.
    + exfalso. apply nth_error_None in En. apply nth_error_Some in Hk. apply Hk. rewrite P1. apply nth_error_None. now rewrite map_length.
Qed.

(** ** C51: no sample at all *)
(** No iteration index after burn-in is divisible by [sample_steps]. *)
Definition empty_window (c : config) : Prop :=
  forall i, i < c_n_iters c -> c_burn_in_steps c < i -> i mod c_sample_steps c <> 0.
Lemma empty_window_none : forall c, 0 < c_sample_steps c -> empty_window c ->
  n_kept (c_burn_in_steps c) (c_sample_steps c) (c_n_iters c) = 0.
Proof.
  intros c Hs He. destruct (n_kept _ _ _) as [|k] eqn:En; auto. exfalso.
  assert (kept (c_burn_in_steps c) (c_sample_steps c) 0 < c_n_iters c) by (apply kept_lt; auto; lia).
  apply (He _ H1); [now apply kept_gt|now apply kept_mod].
Qed.
Theorem C51_trained_without_samples : forall a c X y b e, construct_bnn a = Ok c -> empty_window c ->
  let t := train c (Matrix X) y b e in
  t_res t = Ok tt -> b_samples (t_bnn t) = [] /\ b_trained (t_bnn t) = true.
Proof.
  intros a c X y b e Hc Hw t Ht. destruct (C49_attributes a c Hc) as (_ & _ & _ & _ & _ & N1 & N2 & N3 & _).
  destruct (C50_collects_thinned_samples a c X y b e Hc Ht) as (_ & P2 & P3 & P4 & _). fold t in P2, P3, P4. split.
  - apply length_zero_iff_nil. rewrite P2.
    pose proof (n_kept_mono (c_burn_in_steps c) (c_sample_steps c) _ _ N3 P4). rewrite (empty_window_none c N3 Hw) in H1. lia.
  - pose proof (train_cases W get_sampler_ initialize log_error run_sampler schedule_ B builder c X y b e) as O; fold t in O;
      destruct O as [er Hb Hr|nt er Hb _ Hr|nt st Hb Hrb Hg Hi E Hl _ Htr]; try congruence.
    now rewrite Ht in Htr.
Qed.

(** ** C52: before training *)
(** Objects and surroundings reached by training calls; the flag tells whether one
    of them completed.  Between calls, other code may add to the graph. *)
Definition grown (e e' : ext) : Prop :=
  incl (x_names e) (x_names e') /\ x_ph e <= x_ph e'.
Inductive history (c : config) : bnn T -> ext -> bool -> Prop :=
| H_new : forall e, history c fresh_bnn e false
| H_train : forall b e done x y e', history c b e done -> let t := train c x y b e in grown (t_ext t) e' ->
    history c (t_bnn t) e' (done || is_ok (t_res t)).

Lemma train_flag : forall c x y b e, let t := train c x y b e in
  b_trained (t_bnn t) = b_trained b || is_ok (t_res t).
Proof.
  intros c [X|] y b e t.
  - pose proof (train_cases W get_sampler_ initialize log_error run_sampler schedule_ B builder c X y b e) as O; fold t in O;
      destruct O as [er Hb Hr Hbn|nt er Hb Hrb Hr _ _ _ Htr|nt st Hb Hrb Hg Hi E Hl _ Htr].
    + rewrite Hr, Hbn. cbn. now rewrite orb_false_r.
    + rewrite Hr, Htr. cbn. now rewrite orb_false_r.
    + rewrite Htr. destruct (t_res t); cbn; [now rewrite orb_true_r|now rewrite orb_false_r].
  - cbn. now rewrite orb_false_r.
Qed.
Theorem C52_trained_iff_a_train_completed : forall c b e done, history c b e done -> b_trained b = done.
Proof.
  intros c b e done Hh. induction Hh as [e|b e done x y e' Hh IH t Hg]; [reflexivity|].
  rewrite <- IH. apply train_flag.
Qed.
Theorem C52_predict_untrained : forall c b e X ind w, history c b e false ->
  predict c (Matrix X) ind b w = Raise ValueError /\ predict c NotMatrix ind b w = Raise AssertionError.
Proof.
  intros c b e X ind w Hh. apply C52_trained_iff_a_train_completed in Hh. cbn. rewrite Hh. auto.
Qed.

(** ** C58: interrupted training *)
(** What failures leave behind. *)
Theorem C58_failed_build_keeps_old_samples : forall c X y b e er,
  let t := train c (Matrix X) y b e in
  fst (build_net W schedule_ builder e) = Raise er ->
  t_res t = Raise er /\ b_trained (t_bnn t) = b_trained b /\ b_samples (t_bnn t) = b_samples b /\
  b_x_stats (t_bnn t) = x_stats_of c X (b_x_stats b) /\ b_y_stats (t_bnn t) = y_stats_of c y (b_y_stats b).
Proof.
  intros c X y b e er t Hb. pose proof (train_cases W get_sampler_ initialize log_error run_sampler schedule_ B builder c X y b e) as O; fold t in O;
    destruct O as [er' Hb' Hr Hbn|nt er' Hb' |nt st Hb']; try congruence.
  split; [congruence|]. rewrite Hbn. cbn. auto.
Qed.
Theorem C58_failed_sampling_keeps_a_prefix : forall a c X y b e er, construct_bnn a = Ok c ->
  let t := train c (Matrix X) y b e in
  is_ok (fst (build_net W schedule_ builder e)) = true -> t_res t = Raise er ->
  b_trained (t_bnn t) = b_trained b /\
  length (b_samples (t_bnn t)) <= n_kept (c_burn_in_steps c) (c_sample_steps c) (length (t_drawn t)) /\
  forall k, k < length (b_samples (t_bnn t)) ->
    nth_error (b_samples (t_bnn t)) k = nth_error (map fst (t_drawn t)) (kept (c_burn_in_steps c) (c_sample_steps c) k).
Proof.
  intros a c X y b e er Hc t Hbo Ht. destruct (C49_attributes a c Hc) as (_ & _ & _ & _ & _ & N1 & N2 & N3 & _).
  split. { pose proof (train_flag c (Matrix X) y b e) as F. cbv zeta in F. fold t in F. rewrite F, Ht. cbn. apply orb_false_r. }
  pose proof (train_cases W get_sampler_ initialize log_error run_sampler schedule_ B builder c X y b e) as O; fold t in O;
    destruct O as [er' Hb' Hr Hbn|nt er' Hb' Hr Hrr _ _ Hsm|nt st Hb' Hrb Hg Hi E Hl _ Htr].
  - rewrite Hb' in Hbo. discriminate.
  - rewrite Hsm. cbn. split; [lia|]. intros; lia.
  -
    destruct (loop_picks W log_error run_sampler schedule_ B c _ _ _ N3 N1 _ _ _ _ _ _ Hl) as (P1 & P2 & P3 & P4).
    split; [|exact P1].
    destruct (length (b_samples (t_bnn t))) as [|m] eqn:Em; [lia|].
    assert (L : m < n_kept (c_burn_in_steps c) (c_sample_steps c) (length (t_drawn t))); [|lia].
    apply kept_lt; auto. specialize (P1 m ltac:(lia)).
    assert (A : nth_error (b_samples (t_bnn t)) m <> None) by (apply nth_error_Some; lia).
    rewrite P1 in A. apply nth_error_Some in A. now rewrite map_length in A.
Qed.

(** Invariant of histories: the network's placeholder is older than the next, and
    after a completed training the layer names are taken. *)
Lemma history_inv : forall c b e done, history c b e done ->
  (forall nt, b_net b = Some nt -> net_input nt < x_ph e) /\
  (done = true -> incl (gn_names builder) (x_names e) /\ b_net b <> None).
Proof.
  intros c b e done Hh. induction Hh as [e|b e done x y e' Hh (I1 & I2) t [G1 G2]]; [split; discriminate|].
  destruct x as [X|].
  2:{ cbn [t BNN.train BNN.t_bnn BNN.t_res BNN.t_ext is_ok] in *. rewrite orb_false_r. split.
      - intros nt Hn. specialize (I1 nt Hn). lia.
      - intros D. destruct (I2 D) as [I3 I4]. split; auto. intros n Hn. auto. }
  pose proof (train_cases W get_sampler_ initialize log_error run_sampler schedule_ B builder c X y b e) as O; fold t in O;
    destruct O as [er Hb Hr Hbn Hn Hv Hp|nt er Hb Hrb Hr|nt st Hb Hrb Hg Hi E Hl].
  - rewrite Hr, Hbn. cbn. rewrite orb_false_r. split.
    + intros nt Hnt. specialize (I1 nt Hnt). lia.
    + intros D. destruct (I2 D) as [I3 I4]. split; auto. intros n Hin. apply G1. rewrite Hn. auto.
  - destruct Hrb. split.
    + intros nt' Hnt. assert (nt' = nt) by congruence. subst nt'. rewrite rb_input. lia.
    + intros _. split; [|congruence]. intros n Hin. apply G1. rewrite rb_names. apply in_or_app. auto.
  - destruct Hrb. split.
    + intros nt' Hnt. assert (nt' = nt) by congruence. subst nt'. rewrite rb_input. lia.
    + intros _. split; [|congruence]. intros n Hin. apply G1. rewrite rb_names. apply in_or_app. auto.
Qed.

(** A network whose layers have names - like the default one - can be trained
    once: every later training raises ValueError ... *)
Theorem C58_named_network_trains_once : forall c b e X y, history c b e true -> gn_names builder <> [] -> gn_fails builder = None ->
  t_res (train c (Matrix X) y b e) = Raise ValueError.
Proof.
  intros c b e X y Hh Hn Hf. destruct (history_inv _ _ _ _ Hh) as [_ I]. destruct (I eq_refl) as [I1 _].
  assert (Eb : build_net W schedule_ builder e = (Raise ValueError, e)).
  { unfold build_net. rewrite Hf. destruct (gn_names builder) as [|n l]; [congruence|]. cbn [existsb].
    replace (existsb (String.eqb n) (BNN.x_names W schedule_ e)) with true; [reflexivity|].
    symmetry. apply existsb_exists. exists n. split; [apply I1; now left|apply String.eqb_refl]. }
  now destruct (C58_failed_build_keeps_old_samples c X y b e ValueError ltac:(now rewrite Eb)).
Qed.

Lemma outputs_dangling : forall b w ps X nt ph k, ps <> [] -> b_net b = Some nt -> b_x_ph b = Some (ph, k) -> ph <> net_input nt ->
  exists er, outputs_of W value_of b w ps X = Raise er.
Proof.
  intros b w [|p ps] X nt ph k Hp Hn Hph Hne; [congruence|]. cbn [outputs_of]. unfold compute_network_output. rewrite Hn, Hph.
  destruct (match p with SList l => _ | SBare v => _ end) as [vals|er]; [|cbn; eauto].
  cbn [bind]. do 2 (destruct (negb _); [cbn; eauto|]). destruct (Nat.eqb_spec ph (net_input nt)); [congruence|]. cbn. eauto.
Qed.

(** ... and destroys the trained network: predict fails from then on. *)
Theorem C58_failed_rebuild_breaks_predict : forall c b e X y er, history c b e true -> b_samples b <> [] ->
  fst (build_net W schedule_ builder e) = Raise er ->
  let t := train c (Matrix X) y b e in
  b_trained (t_bnn t) = true /\
  forall X' ind w, exists er', predict c (Matrix X') ind (t_bnn t) w = Raise er'.
Proof.
  intros c b e X y er Hh Hs Hb t. pose proof (C52_trained_iff_a_train_completed _ _ _ _ Hh) as Ht.
  destruct (history_inv _ _ _ _ Hh) as [I1 I2]. destruct (I2 eq_refl) as [_ I3].
  destruct (b_net b) as [nt|] eqn:En; [|congruence]. specialize (I1 nt eq_refl).
  pose proof (train_cases W get_sampler_ initialize log_error run_sampler schedule_ B builder c X y b e) as O; fold t in O;
    destruct O as [er' Hb' Hr Hbn|nt' er' Hb' |nt' st Hb']; try congruence.
  split; [rewrite Hbn; exact Ht|]. intros X' ind w.
  assert (F : forall X1, exists er1, outputs_of W value_of (t_bnn t) w (b_samples (t_bnn t)) X1 = Raise er1).
  { intros X1. apply (outputs_dangling (t_bnn t) w (b_samples (t_bnn t)) X1 nt (x_ph e) (width X)).
    - now rewrite Hbn.
    - rewrite Hbn. exact En.
    - rewrite Hbn. reflexivity.
    - lia. }
  unfold BNN.predict. replace (b_trained (t_bnn t)) with true by (rewrite Hbn; auto). cbn [negb].
  destruct (if c_normalize_input c then _ else _) as [X1|er1]; [|cbn; eauto]. cbn [bind].
  destruct (F X1) as [er1 ->]. cbn. eauto.
Qed.

(** ** C55: what a prediction depends on *)
(** The session returns one value of the right shape for every parameter. *)
Definition returns_shapes (vars : list (list nat)) : Prop :=
  forall f w o w', run_sampler f w = (Ok o, w') -> map shape (o_theta o) = vars.

Lemma completed_samples : forall a c X y b e, construct_bnn a = Ok c -> let t := train c (Matrix X) y b e in
  t_res t = Ok tt -> returns_shapes (x_vars (t_ext t)) ->
  forall p, In p (b_samples (t_bnn t)) -> exists l, p = unravel l /\ map shape l = x_vars (t_ext t).
Proof.
  intros a c X y b e Hc t Ht Hsh p Hin. destruct (C49_attributes a c Hc) as (_ & _ & _ & _ & _ & N1 & N2 & N3 & _).
  pose proof (train_cases W get_sampler_ initialize log_error run_sampler schedule_ B builder c X y b e) as O; fold t in O;
    destruct O as [er Hb Hr|nt er Hb _ Hr|nt st Hb Hrb Hg Hi E Hl]; try congruence.
  destruct (loop_picks W log_error run_sampler schedule_ B c _ _ _ N3 N1 _ _ _ _ _ _ Hl) as (P1 & _).
  apply In_nth_error in Hin as [k Hk].
  assert (Lk : k < length (b_samples (t_bnn t))) by (apply nth_error_Some; congruence).
  rewrite (P1 k Lk) in Hk.
  destruct (nth_error (t_drawn t) (kept (c_burn_in_steps c) (c_sample_steps c) k)) as [d|] eqn:En.
  2:{ exfalso. apply nth_error_None in En. assert (A : nth_error (map fst (t_drawn t)) (kept (c_burn_in_steps c) (c_sample_steps c) k) <> None) by congruence.
      apply nth_error_Some in A. rewrite map_length in A. exact (Nat.lt_irrefl _ (Nat.lt_le_trans _ _ _ A En)). }
  rewrite (map_nth_error fst _ _ En) in Hk. injection Hk as <-.
  destruct (loop_drawn W log_error run_sampler schedule_ B c _ _ _ _ _ _ _ _ _ Hl eq_refl _ _ En) as (f & w & o & w' & R1 & _ & R2).
  pose proof (kept_gt (c_burn_in_steps c) (c_sample_steps c) k N3) as G.
  replace (kept (c_burn_in_steps c) (c_sample_steps c) k <? c_burn_in_steps c) with false in R2 by (symmetry; apply Nat.ltb_ge; lia).
  exists (o_theta o). split; [exact R2|]. eapply Hsh; eauto.
Qed.

Lemma fed_combine : forall (vars : list (list nat)) (l : list arr) o i, length l = length vars ->
  fed (combine (combine (seq o (length vars)) vars) l) i = if i <? o then None else nth_error l (i - o).
Proof.
  induction vars as [|s vars IH]; intros [|v l] o i Hl; cbn [length] in *; try lia; cbn [seq combine fed].
  - destruct (i <? o); [reflexivity|]. now destruct (i - o).
  - destruct (Nat.eqb_spec i o) as [->|Hne].
    + rewrite Nat.ltb_irrefl, Nat.sub_diag. reflexivity.
    + rewrite IH by lia. destruct (Nat.ltb_spec i (S o)), (Nat.ltb_spec i o); try lia; auto.
      replace (i - o) with (S (i - S o)) by lia. reflexivity.
Qed.
Lemma shapes_match : forall (vars : list (list nat)) (l : list arr) o, map shape l = vars ->
  forallb (fun '((_, s), v) => if list_eq_dec Nat.eq_dec s (shape v) then true else false)
    (combine (combine (seq o (length vars)) vars) l) = true.
Proof.
  induction vars as [|s vars IH]; intros [|v l] o Hl; try discriminate; auto. cbn in Hl. injection Hl as <- Hl.
  cbn. destruct (list_eq_dec Nat.eq_dec (shape v) (shape v)); [|congruence]. cbn. now apply IH.
Qed.
Lemma map_fed_skipn : forall (l : list arr) (d : nat -> arr) off k, off + k = length l ->
  map (fun i => match nth_error l i with Some v => v | None => d i end) (seq off k) = skipn off l.
Proof.
  intros l d off k Hl. revert off Hl. induction k as [|k IH]; intros off Hl.
  - rewrite skipn_all2 by lia. reflexivity.
  - cbn [seq map]. rewrite IH by lia.
    destruct (nth_error l off) as [v|] eqn:En; [|apply nth_error_None in En; lia].
    apply nth_error_split in En as (l1 & l2 & -> & <-). clear. induction l1 as [|x l1 IH]; [reflexivity|exact IH].
Qed.

(** A network with at least two trainable variables is evaluated on the sampled
    values of its own variables - the last ones - and nothing else; inputs of a width other than that
    of the training data are rejected. *)
Theorem C55_network_evaluated_at_samples : forall a c X y b e, construct_bnn a = Ok c -> let t := train c (Matrix X) y b e in
  t_res t = Ok tt -> returns_shapes (x_vars (t_ext t)) -> length (x_vars (t_ext t)) <> 1 ->
  forall p, In p (b_samples (t_bnn t)) -> exists l, p = SList l /\ map shape l = x_vars e ++ gn_vars builder /\
    forall w X', compute_network_output W value_of (t_bnn t) w p X' =
      if forallb (fun r => length r =? width X) X' then gn_out builder (skipn (length (x_vars e)) l) X' else Raise ValueError.
Proof.
  intros a c X y b e Hc t Ht Hsh Hn1 p Hin. destruct (completed_samples a c X y b e Hc Ht Hsh p Hin) as (l & -> & Hl).
  pose proof (train_cases W get_sampler_ initialize log_error run_sampler schedule_ B builder c X y b e) as O; fold t in O;
    destruct O as [er Hb Hr|nt er Hb _ Hr|nt st Hb Hrb Hg Hi E _]; try congruence. destruct Hrb. fold t in Hl.
  assert (Ll : length l = length (x_vars (t_ext t))) by (rewrite <- Hl; now rewrite map_length).
  rewrite <- Ll in Hn1. exists l. split. { destruct l as [|v [|v' l]]; try reflexivity. now cbn in Hn1. }
  split. { now rewrite Hl, rb_xvars. }
  intros w X'. unfold compute_network_output.
  replace (match unravel l with SList l0 => Ok l0 | SBare v => iterate v end) with (@Ok (list arr) l)
    by (destruct l as [|v [|v' l]]; try reflexivity; now cbn in Hn1).
  cbn [bind]. rewrite rb_params, shapes_match by auto. cbn [negb]. rewrite rb_net, rb_ph, rb_input, Nat.eqb_refl, rb_out, rb_vars.
  destruct (forallb _ X'); [cbn [negb]|reflexivity]. f_equal.
  erewrite map_ext; [apply (map_fed_skipn l (value_of w))|].
  - rewrite Ll, rb_xvars, app_length. reflexivity.
  - intros i. rewrite fed_combine by auto. cbn. now rewrite Nat.sub_0_r.
Qed.

(** So predictions depend on no variable of the session: training other networks,
    sampling or re-initializing in between changes nothing. *)
Theorem C55_predict_independent_of_session : forall a c X y b e, construct_bnn a = Ok c -> let t := train c (Matrix X) y b e in
  t_res t = Ok tt -> returns_shapes (x_vars (t_ext t)) -> length (x_vars (t_ext t)) <> 1 ->
  forall x ind w w', predict c x ind (t_bnn t) w = predict c x ind (t_bnn t) w'.
Proof.
  intros a c X y b e Hc t Ht Hsh Hn1 [X'|] ind w w'; [|reflexivity].
  assert (F : forall ps X1, incl ps (b_samples (t_bnn t)) ->
    outputs_of W value_of (t_bnn t) w ps X1 = outputs_of W value_of (t_bnn t) w' ps X1).
  { induction ps as [|p ps IH]; intros X1 Hps; [reflexivity|]. cbn [outputs_of].
    destruct (C55_network_evaluated_at_samples a c X y b e Hc Ht Hsh Hn1 p (Hps p (or_introl eq_refl))) as (l & _ & _ & Hev).
    fold t in Hev. rewrite !Hev, IH by (intros q Hq; apply Hps; now right). reflexivity. }
  unfold BNN.predict. destruct (negb _); [reflexivity|]. destruct (if c_normalize_input c then _ else _) as [X1|]; [|reflexivity].
  cbn [bind]. rewrite F by apply incl_refl. reflexivity.
Qed.

(** ** C73: a network with one variable *)
Theorem C73_single_variable_refuted : forall a c X y b e, construct_bnn a = Ok c -> let t := train c (Matrix X) y b e in
  t_res t = Ok tt -> returns_shapes (x_vars (t_ext t)) ->
  forall s, x_vars (t_ext t) = [s] -> (forall s', s <> 0 :: s') -> b_samples (t_bnn t) <> [] ->
  forall X' ind w, exists er, predict c (Matrix X') ind (t_bnn t) w = Raise er /\
    (Forall (fun r => length r = width X) X' -> er = match s with [] => TypeError | _ => ValueError end).
Proof.
  intros a c X y b e Hc t Ht Hsh s Hs Hs0 Hne X' ind w.
  destruct (b_samples (t_bnn t)) as [|p ps] eqn:Es; [congruence|].
  destruct (completed_samples a c X y b e Hc Ht Hsh p) as (l & Hp & Hl). { fold t. rewrite Es. now left. }
  fold t in Hl. rewrite Hs in Hl. destruct l as [|v [|]]; try discriminate. injection Hl as Hv. cbn in Hp. subst p.
  pose proof (train_flag c (Matrix X) y b e) as F. cbv zeta in F. fold t in F. rewrite Ht, orb_true_r in F.
  pose proof (train_cases W get_sampler_ initialize log_error run_sampler schedule_ B builder c X y b e) as O; fold t in O;
    destruct O as [er Hb Hr|nt er Hb _ Hr|nt st Hb Hrb Hg Hi E _]; try congruence. destruct Hrb.
  assert (Cv : forall X1, compute_network_output W value_of (t_bnn t) w (SBare v) X1 = Raise (match s with [] => TypeError | _ => ValueError end)).
  { intros X1. unfold compute_network_output, iterate. rewrite Hv. destruct s as [|[|n] s']; [reflexivity|exfalso; eapply Hs0; eauto|].
    cbn [bind seq map]. rewrite rb_params, Hs. cbn [length seq combine forallb shape]. destruct (list_eq_dec Nat.eq_dec (S n :: s') s') as [C|C]; [|reflexivity].
    exfalso. apply (f_equal (@length nat)) in C. cbn in C. lia. }
  unfold BNN.predict. rewrite F. cbn [negb].
  set (N := if c_normalize_input c then match b_x_stats (t_bnn t) with
      | Some (m, s0) => zmuv_given X' m s0 | None => Raise AttributeError end else Ok X').
  assert (Xs : Forall (fun r => length r = width X) X' -> exists X1, N = Ok X1).
  { intros HX. unfold N. rewrite rb_x, x_stats_normalize by exact HX. eauto. }
  destruct N as [X1|er]; cbn [bind].
  - rewrite Es. cbn [outputs_of]. rewrite Cv. cbn [bind]. eauto.
  - exists er. split; [reflexivity|]. intros HX. destruct (Xs HX). discriminate.
Qed.

(** ** C74: a batch generator that ends *)
(** [remaining s] bounds the number of further batches. *)
Theorem C74_finite_generator_ends_training_silently : forall a c X y b e (remaining : bs_state B -> nat), construct_bnn a = Ok c ->
  (forall s h bt s' h', bs_next B s h = (Ok bt, s', h') -> remaining s' < remaining s) ->
  let t := train c (Matrix X) y b e in t_res t = Ok tt ->
  let k := remaining (bs_start B (c_batch_size c) (c_seed c)) in
  b_trained (t_bnn t) = true /\ length (t_drawn t) <= k /\
  length (b_samples (t_bnn t)) <= n_kept (c_burn_in_steps c) (c_sample_steps c) k.
Proof.
  intros a c X y b e remaining Hc Hrem t Ht k. destruct (C49_attributes a c Hc) as (_ & _ & _ & _ & _ & N1 & N2 & N3 & _).
  split. { pose proof (train_flag c (Matrix X) y b e) as F. cbv zeta in F. fold t in F. rewrite F, Ht. cbn. apply orb_true_r. }
  assert (L : length (t_drawn t) <= k).
  { pose proof (train_cases W get_sampler_ initialize log_error run_sampler schedule_ B builder c X y b e) as O; fold t in O;
      destruct O as [er Hb Hrr|nt er Hb _ Hrr|nt st Hb Hrb Hg Hi E Hl]; try congruence.
    exact (loop_remaining W log_error run_sampler schedule_ B c _ _ _ remaining _ _ _ _ _ _ Hrem Hl). }
  split; [exact L|].
  destruct (C50_collects_thinned_samples a c X y b e Hc Ht) as (_ & P2 & _). fold t in P2. rewrite P2. now apply n_kept_mono.
Qed.

(** ** C75: variables of others *)
(** [k] completed trainings in a row, nothing else being added to the graph. *)
Inductive completed_runs (c : config) (e0 : ext) : nat -> bnn T -> ext -> Prop :=
| CR_0 : forall b, completed_runs c e0 0 b e0
| CR_S : forall k b e X y, completed_runs c e0 k b e -> let t := train c (Matrix X) y b e in t_res t = Ok tt ->
    completed_runs c e0 (S k) (t_bnn t) (t_ext t).
Theorem C75_variables_of_others_are_sampled : forall c e0 k b e, completed_runs c e0 (S k) b e ->
  x_vars e = x_vars e0 ++ concat (repeat (gn_vars builder) (S k)) /\
  b_params b = combine (seq 0 (length (x_vars e0) + S k * length (gn_vars builder))) (x_vars e).
Proof.
  assert (L : forall k, length (concat (repeat (gn_vars builder) k)) = k * length (gn_vars builder)).
  { induction k; cbn; auto. rewrite app_length. lia. }
  assert (V : forall c e0 k b e, completed_runs c e0 k b e ->
    x_vars e = x_vars e0 ++ concat (repeat (gn_vars builder) k)).
  { intros c e0 k b e Hr. induction Hr as [b|k b e X y Hr IH t Ht]; [now rewrite app_nil_r|].
    pose proof (train_cases W get_sampler_ initialize log_error run_sampler schedule_ B builder c X y b e) as O; fold t in O;
      destruct O as [er Hb Hrr|nt er Hb _ Hrr|nt st Hb Hrb Hg Hi E _]; try congruence. destruct Hrb.
    rewrite rb_xvars, IH, <- app_assoc. f_equal. replace (S k) with (k + 1) by lia. rewrite repeat_app, concat_app. cbn. now rewrite app_nil_r. }
  intros c e0 k b e Hr. pose proof (V _ _ _ _ _ Hr) as Hv. split; [exact Hv|].
  inversion Hr as [|k' b' e' X y Hr' t Ht]; subst.
  pose proof (train_cases W get_sampler_ initialize log_error run_sampler schedule_ B builder c X y b' e') as O; fold t in O;
    destruct O as [er Hb Hrr|nt er Hb _ Hrr|nt st Hb Hrb Hg Hi E _]; try congruence. destruct Hrb. fold t in Hv.
  fold t. rewrite rb_params. f_equal. f_equal. rewrite Hv, app_length, L. reflexivity.
Qed.
End S.

(** ** Training with the generators of data_batches.py *)
Section G.
Context {T : Type} `{Num T} `{NumT T}.
Notation arr := (tensor T).
Variable W : Type.
Variable get_sampler_ : W -> res unit * W.
Variable initialize : W -> res unit * W.
Variable log_error : heap (list T) T -> W -> res unit * W.
Variable run_sampler : feed arr -> W -> res (outputs arr) * W.
Variable schedule_ : schedule arr (sample arr * arr).
Variable builder : net_builder T.
Variable R : rng_ops.
Variable G : global_ops.
Variable g0 : glob_state G.
Notation ext := (ext W schedule_).
Notation train B := (train W get_sampler_ initialize log_error run_sampler schedule_ B builder).
Notation t_res := (t_res W schedule_).
Notation t_bnn := (t_bnn W schedule_).
Notation t_drawn := (t_drawn W schedule_).
Notation t_X := (t_X W schedule_).
Notation t_y := (t_y W schedule_).

Lemma data_lengths : forall c (X : list (list T)) y, length (hx (data_of c X y)) = length X /\ length (hy (data_of c X y)) = length y /\
  hyrows (data_of c X y) = length y /\ hywidth (data_of c X y) = 1.
Proof.
  intros c X y. unfold data_of, arrays, zmuv_normalization, zmuv_normalization1. cbn.
  destruct (c_normalize_input c), (c_normalize_output c); cbn; rewrite ?map_length; auto.
Qed.

(** *** C59 *)
Lemma mismatched_first_batch : forall (h : heap (list T) T) a g, hyrows h <> length (hx h) ->
  exists g', gb_next R G (GNew a) g h = (Raise AssertionError, GDone, g').
Proof.
  intros h a g Hne. cbn [gb_next]. unfold gb_start.
  repeat match goal with |- context [if negb ?x then (Raise AssertionError, g) else _] => destruct x eqn:?; cbn [negb]; [|eauto] end.
  apply Nat.eqb_eq in Heqb3. contradiction.
Qed.

Theorem C59_mismatched_data_fail_late : forall a c X y b e, construct_bnn a = Ok c -> length X <> length y ->
  let t := train (gb_source R G g0) c (Matrix X) y b e in
  is_ok (t_res t) = false /\ t_drawn t = [] /\
  (is_ok (fst (build_net W schedule_ builder e)) = true -> is_ok (fst (get_sampler_ (x_sess W schedule_ e))) = true ->
   is_ok (fst (initialize (snd (get_sampler_ (x_sess W schedule_ e))))) = true ->
   t_res t = Raise AssertionError /\ b_samples (t_bnn t) = [] /\ b_data (t_bnn t) = Some (data_of c X y) /\
   b_x_stats (t_bnn t) = x_stats_of c X (b_x_stats b) /\ b_y_stats (t_bnn t) = y_stats_of c y (b_y_stats b)).
Proof.
  intros a c X y b e Hc Hne t. destruct (C49_attributes a c Hc) as (_ & _ & _ & _ & _ & N1 & N2 & N3 & _).
  pose proof (train_cases W get_sampler_ initialize log_error run_sampler schedule_ (gb_source R G g0) builder c X y b e) as O; fold t in O;
    destruct O as [er Hb Hr _ _ _ _ _ _ Hd|nt er Hb _ Hr Hw _ _ _ _ _ Hd|nt st Hb Hrb Hg Hi E Hl Hda _ _ _].
  - rewrite Hr, Hd. cbn. repeat (split; [reflexivity|]). rewrite Hb. discriminate.
  - rewrite Hr, Hd. cbn. repeat (split; [reflexivity|]). intros _. destruct Hw as [Hw|[Hw' Hw]]; rewrite Hw; cbn; intros; discriminate.
  - destruct (data_lengths c X y) as (D1 & D2 & D3 & D4).
    assert (Hm : hyrows (data_of c X y) <> length (hx (data_of c X y))) by lia.
    destruct (mismatched_first_batch (data_of c X y) {| ga_batch_size := c_batch_size c; ga_seed := c_seed c |} g0 Hm) as [g' Hg'].
    destruct (c_n_iters c) as [|n] eqn:En; [lia|].
    pose proof (loop_first_batch W log_error run_sampler schedule_ (gb_source R G g0) c (x_ph W schedule_ e) (S (x_ph W schedule_ e))
       (length (b_params (t_bnn t))) n (initial_state E (bs_start (gb_source R G g0) (c_batch_size c) (c_seed c), data_of c X y)
        (x_sched W schedule_ e) (snd (initialize (snd (get_sampler_ (x_sess W schedule_ e))))))
       AssertionError (GDone, g') (data_of c X y) eq_refl ltac:(discriminate)) as F.
    destruct F as (st' & F1 & F2). { cbn [bs_next gb_source s_bg initial_state fst snd bs_start]. rewrite Hg'. reflexivity. }
    rewrite F1 in Hl. apply pair_equal_spec in Hl as [Hl A4]. apply pair_equal_spec in Hl as [Hl A3]. apply pair_equal_spec in Hl as [A1 A2].
    rewrite <- A1, <- A4, <- A3. split; [reflexivity|]. split; [reflexivity|]. intros _ _ _. split; [reflexivity|]. split; [reflexivity|].
    destruct Hrb. split; [|auto]. rewrite Hda, <- A2. unfold E. rewrite F2. reflexivity.
Qed.

(** *** C60 *)
Lemma valid_args_dec : forall X L a (h : heap X L), valid_args a h \/ ~ valid_args a h.
Proof.
  intros X L a h. unfold valid_args, valid_batch_size, valid_seed.
  assert (D1 : (exists n z, int_value (ga_batch_size a) z /\ (z > 0)%Z /\ n = Z.to_nat z) \/
               ~ (exists n z, int_value (ga_batch_size a) z /\ (z > 0)%Z /\ n = Z.to_nat z)).
  { destruct (as_int (ga_batch_size a)) as [z|] eqn:E1.
    - destruct (Z_gt_dec z 0).
      + left. exists (Z.to_nat z), z. split; [now apply as_int_spec|auto].
      + right. intros (m & z' & A & A2 & _). apply as_int_spec in A. rewrite E1 in A. injection A as <-. lia.
    - right. intros (m & z' & A & _). apply as_int_spec in A. congruence. }
  assert (D2 : (ga_seed a = PNone \/ exists z, int_value (ga_seed a) z /\ (0 <= z <= 4294967295)%Z) \/
               ~ (ga_seed a = PNone \/ exists z, int_value (ga_seed a) z /\ (0 <= z <= 4294967295)%Z)).
  { destruct (as_int (ga_seed a)) as [z|] eqn:E1.
    - destruct (Z_le_dec 0 z), (Z_le_dec z 4294967295).
      + left. right. exists z. split; [now apply as_int_spec|lia].
      + right. intros [A|(z' & A & A2)]; [rewrite A in E1; discriminate|apply as_int_spec in A; rewrite E1 in A; injection A as <-; lia].
      + right. intros [A|(z' & A & A2)]; [rewrite A in E1; discriminate|apply as_int_spec in A; rewrite E1 in A; injection A as <-; lia].
      + right. intros [A|(z' & A & A2)]; [rewrite A in E1; discriminate|apply as_int_spec in A; rewrite E1 in A; injection A as <-; lia].
    - destruct (ga_seed a) as [|[]| | | | |]; try discriminate; [left; now left|..]; right; intros [A|(z' & A & _)]; try discriminate; apply as_int_spec in A; discriminate. }
  destruct D1, D2, (Nat.eq_dec (hyrows h) (length (hx h))); tauto.
Qed.
Lemma sb_run_snoc : forall X L k gs g (h : heap X L) rs gs1 g1 h1 r gs2 g2 h2,
  sb_run R G k gs g h = (rs, gs1, g1, h1) -> sb_next R G gs1 g1 h1 = (r, gs2, g2, h2) ->
  sb_run R G (S k) gs g h = (rs ++ [r], gs2, g2, h2).
Proof.
  intros X L. induction k as [|k IH]; intros gs g h rs gs1 g1 h1 r gs2 g2 h2 Hr Hn.
  - injection Hr as <- <- <- <-. cbn [sb_run]. rewrite Hn. reflexivity.
  - cbn [sb_run] in Hr. destruct (sb_next R G gs g h) as [[[r0 gs0] g0'] h0] eqn:E0.
    destruct (sb_run R G k gs0 g0' h0) as [[[rs' gs'] g''] h'] eqn:E1. injection Hr as <- <- <- <-.
    pose proof (IH _ _ _ _ _ _ _ _ _ _ _ E1 Hn) as E2. cbn [sb_run] in E2 |- *. rewrite E0, E2. reflexivity.
Qed.

Lemma map_snd_combine : forall A B' (l : list A) (m : list B'), length l = length m -> map snd (combine l m) = m.
Proof. induction l as [|a l IH]; intros [|m0 m] Hl; try discriminate; auto. cbn. f_equal. apply IH. now injection Hl. Qed.

(** The arrays after a run of the shuffled generator. *)
Lemma sb_final : forall c X y fuel px py n r sm tr w sc (st : state (train_env W run_sampler schedule_ (sb_source R G g0) px py)), length X = length y ->
  let E := train_env W run_sampler schedule_ (sb_source R G g0) px py in
  train_loop W log_error run_sampler schedule_ (sb_source R G g0) c px py n fuel 0
    (initial_state E (bs_start (sb_source R G g0) (c_batch_size c) (c_seed c), data_of c X y) sc w) [] = (r, st, sm, tr) ->
  exists D', Permutation (combine (hx (data_of c X y)) (hy (data_of c X y))) D' /\
    hx (snd (s_bg E st)) = map fst D' /\ hy (snd (s_bg E st)) = map snd D'.
Proof.
  intros c X y fuel px py n r sm tr w sc st Hlen E Hl.
  set (a := {| ga_batch_size := c_batch_size c; ga_seed := c_seed c |}).
  destruct (data_lengths c X y) as (D1 & D2 & D3 & D4).
  set (D := combine (hx (data_of c X y)) (hy (data_of c X y))).
  assert (HD : data_of c X y = arrays_of D).
  { unfold arrays_of, D. rewrite map_fst_combine, map_snd_combine by lia. rewrite combine_length, D1, D2, <- Hlen, Nat.min_id.
    destruct (data_of c X y) as [h1 h2 h3 h4]. cbn in *. congruence. }
  pose proof (loop_bg W log_error run_sampler schedule_ (sb_source R G g0) c px py n
    (fun s h => exists k rs, sb_run R G k (SNew a) g0 (arrays_of D) = (rs, fst s, snd s, h)) fuel 0
    (initial_state E (bs_start (sb_source R G g0) (c_batch_size c) (c_seed c), data_of c X y) sc w) [] r st sm tr) as F.
  destruct F as (k & rs & F).
  - intros [s g] h rr [s' g'] h' Hn (k & rs & Hk). cbn in Hn, Hk.
    destruct (sb_next R G s g h) as [[[r1 s1] g1] h1] eqn:En. injection Hn as <- <- <- <-.
    exists (S k), (rs ++ [r1]). cbn [fst snd]. eapply sb_run_snoc; eauto.
  - exact Hl.
  - exists 0, []. cbn. rewrite HD. reflexivity.
  - fold E in F. destruct (valid_args_dec _ _ a (arrays_of D)) as [V|V].
    + destruct V as (V1 & V2 & V3). destruct V1 as [bsz V1].
      destruct (C05_shuffled_batches_keep_pairs _ _ R G D a bsz g0 k rs _ _ _ (conj (ex_intro _ bsz V1) (conj V2 V3)) V1 F) as (D' & P & Hh & _).
      exists D'. rewrite Hh. split; [exact P|]. split; reflexivity.
    + exists D. split; [reflexivity|]. destruct k as [|k].
      * cbn [sb_run] in F. apply pair_equal_spec in F as [_ <-]. split; reflexivity.
      * destruct (C04_shuffled_generator_validation _ _ R G D a g0 k rs _ _ _ F) as [_ K]. destruct (K V) as [-> _]. split; reflexivity.
Qed.

(** Normalized data are copies: the caller's arrays stay as they were.  Without
    any normalization they are permuted, consistently. *)
Theorem C60_safe_settings : forall c X y b e, length X = length y ->
  let t := train (sb_source R G g0) c (Matrix X) y b e in
  (c_normalize_input c = true -> t_X t = X) /\ (c_normalize_output c = true -> t_y t = y) /\
  (c_normalize_input c = false -> c_normalize_output c = false ->
     exists D', Permutation (combine X y) D' /\ t_X t = map fst D' /\ t_y t = map snd D').
Proof.
  intros c X y b e Hlen t.
  assert (Same : t_X t = X -> t_y t = y ->
    exists D', Permutation (combine X y) D' /\ t_X t = map fst D' /\ t_y t = map snd D').
  { intros -> ->. exists (combine X y). rewrite map_fst_combine, map_snd_combine by auto. auto. }
  pose proof (train_cases W get_sampler_ initialize log_error run_sampler schedule_ (sb_source R G g0) builder c X y b e) as O; fold t in O;
    destruct O as [er Hb Hr _ _ _ _ HX Hy Hd|nt er Hb _ Hr Hw _ _ _ HX Hy Hd|nt st Hb Hrb Hg Hi E Hl Hda _ HX Hy]; auto.
  split; [intros N; now rewrite HX, N|]. split; [intros N; now rewrite Hy, N|]. intros N1 N2.
  destruct (sb_final _ _ _ _ _ _ _ _ _ _ _ _ _ Hlen Hl) as (D' & P & F1 & F2). exists D'.
  rewrite HX, Hy, N1, N2. split; [|split; [exact F1|exact F2]].
  unfold data_of in P. rewrite N1, N2 in P. exact P.
Qed.

(** With exactly one of them normalized, only the other one is permuted. *)
Theorem C60_one_sided_permutation : forall c X y b e, length X = length y ->
  let t := train (sb_source R G g0) c (Matrix X) y b e in
  (c_normalize_input c = false -> c_normalize_output c = true -> Permutation X (t_X t) /\ t_y t = y) /\
  (c_normalize_input c = true -> c_normalize_output c = false -> Permutation y (t_y t) /\ t_X t = X).
Proof.
  intros c X y b e Hlen t.
  destruct (C60_safe_settings c X y b e Hlen) as (S1 & S2 & _). fold t in S1, S2.
  pose proof (train_cases W get_sampler_ initialize log_error run_sampler schedule_ (sb_source R G g0) builder c X y b e) as O; fold t in O;
    destruct O as [er Hb Hr _ _ _ _ HX Hy Hd|nt er Hb _ Hr Hw _ _ _ HX Hy Hd|nt st Hb Hrb Hg Hi E Hl Hda _ HX Hy].
  1, 2: rewrite HX, Hy; auto.
  destruct (sb_final _ _ _ _ _ _ _ _ _ _ _ _ _ Hlen Hl) as (D' & P & F1 & F2). destruct (data_lengths c X y) as (D1 & D2 & D3 & D4).
  split; intros N1 N2; (split; [|auto]).
  - rewrite HX, N1. unfold E. rewrite F1. apply (Permutation_map fst) in P. rewrite map_fst_combine in P by lia.
    unfold data_of in P at 1. cbn [hx arrays] in P. now rewrite N1 in P.
  - rewrite Hy, N2. unfold E. rewrite F2. apply (Permutation_map snd) in P. rewrite map_snd_combine in P by lia.
    unfold data_of in P at 1. cbn [hy arrays] in P. now rewrite N2 in P.
Qed.
End G.

(** ** C51 over extended reals: predictions of a network without samples *)
Section X.
Variable W : Type.
Variable value_of : W -> nat -> tensor XR.
Variable get_sampler_ : W -> res unit * W.
Variable initialize : W -> res unit * W.
Variable log_error : heap (list XR) XR -> W -> res unit * W.
Variable run_sampler : feed (tensor XR) -> W -> res (outputs (tensor XR)) * W.
Variable schedule_ : schedule (tensor XR) (sample (tensor XR) * tensor XR).
Variable B : batch_source XR.
Variable builder : net_builder XR.
Theorem C51_predicts_nan_refuted : forall a c X y b e, construct_bnn a = Ok c -> empty_window c ->
  let t := train W get_sampler_ initialize log_error run_sampler schedule_ B builder c (Matrix X) y b e in
  t_res W schedule_ t = Ok tt ->
  forall X' w, Forall (fun r => length r = width X) X' ->
  predict W value_of c (Matrix X') false (t_bnn W schedule_ t) w = Ok (AggregateScalar NaN NaN).
Proof.
  intros a c X y b e Hc Hw t Ht X' w HX'.
  destruct (C51_trained_without_samples W get_sampler_ initialize log_error run_sampler schedule_ B builder a c X y b e Hc Hw Ht) as [Hs Htr].
  fold t in Hs, Htr. unfold predict. rewrite Htr, Hs. cbn [negb outputs_of].
  pose proof (train_cases W get_sampler_ initialize log_error run_sampler schedule_ B builder c X y b e) as O; fold t in O;
    destruct O as [er Hb Hr|nt er Hb _ Hr|nt st Hb Hrb Hg Hi E Hl]; try congruence. destruct Hrb.
  rewrite rb_x, rb_y, x_stats_normalize by exact HX'. unfold y_stats_of.
  assert (M : (np_mean [] : XR) = NaN).
  { unfold np_mean. cbn [nsum fold_right length Z.of_nat]. rewrite n0_XR, nint_XR. cbn. destruct (Req_EM_T 0 0); [|contradiction].
    unfold xsgn. destruct (Rlt_dec 0 0) as [C|]; [exfalso; exact (Rlt_irrefl _ C)|reflexivity]. }
  destruct (c_normalize_output c); cbn [bind]; cbv beta iota zeta delta [map]; rewrite M; reflexivity.
Qed.
End X.
