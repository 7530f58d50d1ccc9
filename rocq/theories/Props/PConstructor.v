(** C89: which constructor arguments are accepted, and what becomes of them. *)
From Coq Require Import String List Arith Lia ZArith Bool.
From Verif.Base Require Import Py.
From Verif.Model Require Import Sampling.
From Verif.Spec Require Import Sampling.
From Verif.Props Require Import PSampling.
Import ListNotations.
Local Open Scope list_scope.
Local Open Scope string_scope.

Lemma none_iff : forall v, v_none v = true <-> none_value v.
Proof. unfold none_value. intros [[]| | |]; cbn; split; intros H; try discriminate H; auto. Qed.
Lemma int_iff : forall v, v_int v = true <-> int_kind v.
Proof.
  unfold int_kind, v_int, is_int. intros v. split.
  - destruct v as [p| | |]; try discriminate. destruct p; cbn; try discriminate; eauto.
  - intros [[z ->]|[b ->]]; cbn; auto. now destruct b.
Qed.
Lemma number_iff : forall v, v_number v = true <-> number_kind v.
Proof.
  unfold number_kind. intros v. rewrite <- int_iff. split.
  - destruct v as [p| | |]; try discriminate. destruct p as [|b| | | | |]; cbn; try discriminate; eauto. destruct b; auto.
  - intros [H|(n & d & ->)]; auto. destruct v as [p| | |]; try discriminate. destruct p; cbn in *; auto; discriminate H.
Qed.
Lemma dtype_iff : forall v, v_dtype v = true <-> dtype_kind v.
Proof. unfold dtype_kind. intros v; split; [destruct v; try discriminate; eauto|now intros [n ->]]. Qed.
Lemma session_iff : forall v, v_session v = true <-> session_kind v.
Proof. unfold session_kind. intros v; split; [destruct v; try discriminate; cbn; eauto|now intros (i & t & -> & H)]. Qed.
Lemma function_iff : forall v, v_callable v = true <-> function_kind v.
Proof. unfold function_kind. intros v; split; [destruct v; try discriminate; cbn; eauto|now intros (i & t & -> & H)]. Qed.
Lemma iterator_iff : forall v, v_next v = true <-> iterator_kind v.
Proof. unfold iterator_kind. intros v; split; [destruct v; try discriminate; cbn; eauto|now intros [(n & d & ->)|(i & t & -> & H)]]. Qed.
Lemma schedule_iff : forall v, v_update v = true /\ v_next v = true /\ v_initial v = true <-> schedule_kind v.
Proof.
  unfold schedule_kind. intros v; split.
  - intros (A & B & C). destruct v; try discriminate A; cbn in *; [left|right]; eauto 8.
  - now intros [(n & d & ->)|(i & t & -> & A & B & C)]; cbn.
Qed.

Lemma and3 : forall a b c, a && (b && c) = true <-> a = true /\ b = true /\ c = true.
Proof. intros [] [] []; cbn; intuition discriminate. Qed.
Lemma or_iff : forall a b, a || b = true <-> a = true \/ b = true.
Proof. intros [] []; cbn; intuition discriminate. Qed.

Section S.
Variable import_session : value.
Variable stack : value -> res unit.
Variable build : method -> kwargs -> res unit.
Notation sig m := (without_self (signature import_session m)).
Notation GET := (get_sampler import_session stack build).
Notation NEW := (call_class import_session stack build).

(** All checks of MCMCSampler.__init__ at once. *)
Lemma base_init_spec : forall m p s b kw,
  (forall args, build m args = Ok tt) ->
  let good := (none_value (arg kw "batch_generator") \/ iterator_kind (arg kw "batch_generator")) /\
              (none_value (arg kw "seed") \/ int_kind (arg kw "seed")) /\
              session_kind (arg kw "session") /\ dtype_kind (arg kw "dtype") /\ function_kind (arg kw "cost_fun") /\
              schedule_kind s in
  (good -> exists obj, base_init build m p s b kw = Ok obj /\
     so_method obj = m /\ so_params obj = arg kw p /\ so_cost_fun obj = arg kw "cost_fun" /\
     so_batch_generator obj = arg kw "batch_generator" /\ so_schedule obj = s /\ so_burn_in obj = b /\
     so_session obj = arg kw "session" /\ so_dtype obj = arg kw "dtype" /\ so_seed obj = arg kw "seed") /\
  (~ good -> base_init build m p s b kw = Raise AssertionError).
Proof.
  intros m p s b kw HB good. unfold base_init, good.
  rewrite <- !none_iff, <- iterator_iff, <- int_iff, <- session_iff, <- dtype_iff, <- function_iff, <- schedule_iff.
  rewrite <- !or_iff. rewrite HB. split.
  - intros (-> & -> & -> & -> & -> & -> & -> & ->). cbn [assert_ bind]. eexists. split; [reflexivity|]. cbn. tauto.
  - intros N.
    repeat match goal with |- context [assert_ ?c] => destruct c eqn:?; cbn [assert_ bind]; [|reflexivity] end.
    exfalso. apply N. tauto.
Qed.

Lemma resolve_complete : forall e m kw args, resolve e (sig m) kw = Ok args ->
  forall n v, NoDup (map fst kw) -> parameter import_session m n -> expected import_session m kw n v -> arg args n = v.
Proof.
  intros e m kw args HR n v HN HP [Hin|[Hno Hd]].
  - eapply resolve_arg; eauto.
  - pose proof (resolve_spec e (sig m) kw) as S. rewrite HR in S. destruct S as (A & _ & C).
    apply sig_names in HP. rewrite <- A in HP. unfold arg.
    destruct (get args n) as [w|] eqn:G; [|apply get_None in G; contradiction].
    apply get_In in G. destruct (C n w G) as [K|[_ K]].
    + apply get_In in K. exfalso. apply Hno. apply in_map_iff. now exists (n, w).
    + apply sig_default in Hd. pose proof (sig_nodup import_session m) as ND.
      revert K Hd ND. generalize (sig m). clear. intros l. induction l as [|[k d] l IH]; cbn; [tauto|].
      intros [E1|K] [E2|Hd] ND; inversion ND; subst; try congruence; auto.
      * injection E1 as -> ->. exfalso. apply H1. apply in_map_iff. now exists (n, Some v).
      * injection E2 as -> ->. exfalso. apply H1. apply in_map_iff. now exists (n, Some w).
Qed.

Lemma no_missing : forall e m kw,
  (forall n, In n (required m) -> In n (map fst kw)) -> exists args, resolve e (sig m) kw = Ok args.
Proof.
  intros e m kw H. pose proof (resolve_spec e (sig m) kw) as S.
  destruct (resolve e (sig m) kw) as [args|e']; [eauto|]. destruct S as (_ & n & Hn & Hk). exfalso. apply Hk, H.
  now apply sig_required in Hn.
Qed.

(** The attributes an accepted construction has. *)
Definition built_from (m : method) (a : string -> value) (obj : sampler_obj) : Prop :=
  so_method obj = m /\ so_params obj = a (match m with SVGD => "particles" | _ => "params" end) /\
  so_cost_fun obj = a "cost_fun" /\ so_batch_generator obj = a "batch_generator" /\
  so_schedule obj = match m with SGLD => VConst 1 100 | _ => a "stepsize_schedule" end /\
  so_burn_in obj = match m with SGHMC | SGLD => Some (a "burn_in_steps") | _ => None end /\
  so_session obj = a "session" /\ so_dtype obj = a "dtype" /\ so_seed obj = a "seed".

Lemma construct_spec : forall m args,
  (forall kw, build m kw = Ok tt) ->
  (m = SVGD -> stack (arg args "particles") = Ok tt /\ v_name (arg args "cost_fun") = true) ->
  (admissible m (arg args) -> exists obj, construct stack build m args = Ok obj /\ built_from m (arg args) obj) /\
  (~ admissible m (arg args) -> construct stack build m args = Raise AssertionError).
Proof.
  intros m args HB HS. unfold admissible, built_from.
  assert (HC : schedule_kind (VConst 1 100)) by (left; eauto).
  destruct m; cbn [construct].
  - destruct (base_init_spec SGHMC "params" (arg args "stepsize_schedule") (Some (arg args "burn_in_steps")) args HB) as [P Q].
    rewrite <- int_iff with (v := arg args "burn_in_steps"). destruct (v_int (arg args "burn_in_steps")); cbn [assert_ bind].
    + split; [intros HA; apply P; tauto|intros HA; apply Q; tauto].
    + split; [intros HA; exfalso; intuition discriminate|reflexivity].
  - destruct (base_init_spec RelativisticSGHMC "params" (arg args "stepsize_schedule") None args HB) as [P Q].
    split; [intros HA; apply P; tauto|intros HA; apply Q; tauto].
  - destruct (base_init_spec SGLD "params" (VConst 1 100) (Some (arg args "burn_in_steps")) args HB) as [P Q].
    rewrite <- int_iff with (v := arg args "burn_in_steps"). destruct (v_int (arg args "burn_in_steps")); cbn [assert_ bind].
    + split; [intros HA; apply P; tauto|intros HA; apply Q; tauto].
    + split; [intros HA; exfalso; intuition discriminate|reflexivity].
  - destruct (base_init_spec SVGD "particles" (arg args "stepsize_schedule") None args HB) as [P Q].
    destruct (HS eq_refl) as [-> ->]. cbn [bind]. rewrite <- !number_iff, <- function_iff in *.
    destruct (v_number (arg args "alpha")); cbn [assert_ bind]; [|split; [intros HA; exfalso; intuition discriminate|reflexivity]].
    destruct (v_number (arg args "fudge_factor")); cbn [assert_ bind]; [|split; [intros HA; exfalso; intuition discriminate|reflexivity]].
    destruct (v_callable (arg args "cost_fun")) eqn:EC; cbn [assert_ bind]; [|split; [intros HA; exfalso; intuition discriminate|reflexivity]].
    split; [intros HA; apply P; tauto|intros HA; apply Q; tauto].
Qed.

Lemma admissible_ext : forall m a b, (forall n, parameter import_session m n -> a n = b n) -> admissible m a <-> admissible m b.
Proof.
  intros m a b H. unfold admissible.
  assert (HP : forall n, In n (map fst (optional import_session m)) -> a n = b n) by (intros; apply H; now right).
  assert (HQ : a "cost_fun" = b "cost_fun") by (apply H; left; destruct m; cbn; tauto).
  destruct m; cbn in HP;
    rewrite (HP "batch_generator"), (HP "seed"), (HP "session"), (HP "dtype"), HQ by tauto;
    rewrite ?(HP "stepsize_schedule"), ?(HP "burn_in_steps"), ?(HP "alpha"), ?(HP "fudge_factor") by tauto; tauto.
Qed.
Lemma built_from_ext : forall m a b obj, (forall n, parameter import_session m n -> a n = b n) -> built_from m a obj -> built_from m b obj.
Proof.
  intros m a b obj H. unfold built_from.
  assert (HP : forall n, In n (map fst (optional import_session m)) -> a n = b n) by (intros; apply H; now right).
  assert (HR : forall n, In n (required m) -> a n = b n) by (intros; apply H; now left).
  destruct m; cbn in HP, HR;
    rewrite (HP "batch_generator"), (HP "seed"), (HP "session"), (HP "dtype"), (HR "cost_fun") by tauto;
    rewrite ?(HR "params"), ?(HR "particles"), ?(HP "stepsize_schedule"), ?(HP "burn_in_steps") by tauto; tauto.
Qed.

(** ** C89.  [a] gives every parameter the value the documentation assigns to it; TensorFlow
    raises no objection of its own.  Then the constructor, called directly or through get_sampler,
    accepts exactly the admissible arguments and stores them; everything else is an AssertionError. *)
Theorem C89_constructor_exact : forall m kw a,
  NoDup (map fst kw) -> (forall n, In n (map fst kw) -> parameter import_session m n) ->
  (forall n, In n (required m) -> In n (map fst kw)) ->
  (forall n, parameter import_session m n -> expected import_session m kw n (a n)) ->
  (forall args, build m args = Ok tt) ->
  (m = SVGD -> stack (a "particles") = Ok tt /\ exists i t, a "cost_fun" = VObj i t /\ t_name t = true) ->
  (admissible m a -> exists obj, GET (MMember m) kw = Ok obj /\ NEW m kw = Ok obj /\ built_from m a obj) /\
  (~ admissible m a -> GET (MMember m) kw = Raise AssertionError /\ NEW m kw = Raise AssertionError).
Proof.
  intros m kw a HN HK HQ HE HB HS.
  assert (NS : ~ In "self" (map fst kw) /\ ~ In "cls" (map fst kw) /\ ~ In "sampling_method" (map fst kw)).
  { repeat split; intros Hi; apply HK in Hi; unfold parameter in Hi; destruct m; cbn in Hi; intuition discriminate. }
  destruct NS as (N1 & N2 & N3).
  assert (X1 : existsb (fun '(k, _) => (k =? "cls") || (k =? "sampling_method")) kw = false).
  { apply not_true_iff_false. rewrite existsb_exists. intros ([k v] & Hi & E). apply orb_true_iff in E.
    rewrite !String.eqb_eq in E. apply (in_map fst) in Hi. cbn in Hi. destruct E; subst; tauto. }
  assert (X2 : existsb (fun '(k, _) => negb (has (signature import_session m) k)) kw = false).
  { apply not_true_iff_false. rewrite existsb_exists. intros ([k v] & Hi & E). apply negb_true_iff in E.
    apply (in_map fst) in Hi. apply HK in Hi. cbn in Hi. apply not_true_iff_false in E. apply E. apply signature_has. now right. }
  assert (X3 : existsb (fun '(k, _) => (k =? "self") || negb (has (signature import_session m) k)) kw = false).
  { apply not_true_iff_false. rewrite existsb_exists. intros ([k v] & Hi & E). apply orb_true_iff in E.
    apply (in_map fst) in Hi. cbn in Hi. destruct E as [E|E].
    - apply String.eqb_eq in E. subst. tauto.
    - apply negb_true_iff, not_true_iff_false in E. apply E. apply signature_has. right. auto. }
  destruct (no_missing ValueError m kw HQ) as [a1 E1]. destruct (no_missing TypeError m kw HQ) as [a2 E2].
  assert (A1 : forall n, parameter import_session m n -> arg a1 n = a n) by (intros; eapply resolve_complete; eauto).
  assert (A2 : forall n, parameter import_session m n -> arg a2 n = a n) by (intros; eapply resolve_complete; eauto).
  assert (a1 = a2) as <-.
  { pose proof (resolve_spec ValueError (sig m) kw) as S. rewrite E1 in S. clear - E1 E2.
    revert a1 a2 E1 E2. generalize (sig m) as l. induction l as [|[n d] l IH]; cbn; intros; [congruence|].
    destruct (get kw n) as [v|]; [|destruct d as [v|]; [|discriminate]]; cbn [bind] in *;
      destruct (resolve ValueError l kw) as [b1|]; try discriminate; destruct (resolve TypeError l kw) as [b2|]; try discriminate;
      cbn [bind] in *; specialize (IH b1 b2 eq_refl eq_refl); congruence. }
  assert (G : GET (MMember m) kw = construct stack build m a1 /\ NEW m kw = construct stack build m a1).
  { unfold get_sampler, bind_args, call_class. rewrite X1, X2, X3, E1, E2. cbn [bind]. auto. }
  destruct G as [-> ->]. destruct (construct_spec m a1 HB) as [P Q].
  { intros ->. destruct (HS eq_refl) as [S1 (i & t & S2 & S3)].
    rewrite (A1 "particles"), (A1 "cost_fun") by (left; cbn; tauto). rewrite S2. auto. }
  rewrite (admissible_ext m (arg a1) a A1) in P, Q. split.
  - intros HA. destruct (P HA) as (obj & -> & HF). exists obj. repeat split; auto; apply (built_from_ext m (arg a1) a obj A1 HF).
  - intros HA. rewrite (Q HA). auto.
Qed.

End S.

(** Contract: no constructor accepts a step size schedule that is not one. *)
Definition schedules_checked : Prop := forall import_session stack build m kw s obj,
  NoDup (map fst kw) -> In ("stepsize_schedule", s) kw ->
  get_sampler import_session stack build (MMember m) kw = Ok obj -> schedule_kind s.
Theorem C89_schedules_checked_refuted : ~ schedules_checked.
Proof.
  intros H. pose (kw := ("stepsize_schedule", VPy (PFloat 1 100)) :: some_kwargs).
  destruct (get_sampler (VPy PNone) (fun _ => Ok tt) all_ok (MMember SGLD) kw) as [obj|e] eqn:E; [|discriminate E].
  assert (N : NoDup (map fst kw)) by (cbn; repeat constructor; cbn; intuition discriminate).
  destruct (H (VPy PNone) (fun _ => Ok tt) all_ok SGLD kw (VPy (PFloat 1 100)) obj N (or_introl eq_refl) E)
    as [(n & d & K)|(i & t & K & _)]; discriminate K.
Qed.

(** The hypotheses of C89 hold, once with admissible arguments and once with a schedule that cannot be iterated. *)
Definition defaults_sghmc (s : value) (n : string) : value :=
  arg (("stepsize_schedule", s) :: some_kwargs ++ optional (VPy PNone) SGHMC) n.
Lemma defaults_expected : forall s n, parameter (VPy PNone) SGHMC n ->
  expected (VPy PNone) SGHMC (("stepsize_schedule", s) :: some_kwargs) n (defaults_sghmc s n).
Proof.
  intros s n H. unfold parameter in H. cbn in H. unfold expected, defaults_sghmc.
  repeat match goal with H : _ \/ _ |- _ => destruct H as [H|H] end; try contradiction; subst; cbn; intuition discriminate.
Qed.
Example C89_example :
  (admissible SGHMC (defaults_sghmc my_schedule) /\
   exists obj, get_sampler (VPy PNone) (fun _ => Ok tt) all_ok (MMember SGHMC) (("stepsize_schedule", my_schedule) :: some_kwargs) = Ok obj) /\
  get_sampler (VPy PNone) (fun _ => Ok tt) all_ok (MMember SGHMC)
    (("stepsize_schedule", VObj 8 (Traits false true true false false false)) :: some_kwargs) = Raise AssertionError.
Proof.
  assert (K : forall s n, In n (map fst (("stepsize_schedule", s) :: some_kwargs)) -> parameter (VPy PNone) SGHMC n).
  { intros s n H. cbn in H. unfold parameter; cbn. intuition (subst; tauto). }
  assert (N : forall s, NoDup (map fst (("stepsize_schedule", s) :: some_kwargs))) by (intros; cbn; repeat constructor; cbn; intuition discriminate).
  assert (Q : forall s n, In n (required SGHMC) -> In n (map fst (("stepsize_schedule", s) :: some_kwargs))) by (intros s n H; cbn in *; tauto).
  pose proof (fun s => C89_constructor_exact (VPy PNone) (fun _ => Ok tt) all_ok SGHMC _ _ (N s) (K s) (Q s) (defaults_expected s)
    (fun _ => eq_refl) ltac:(discriminate)) as C.
  split.
  - assert (A : admissible SGHMC (defaults_sghmc my_schedule)).
    { unfold admissible, defaults_sghmc; cbn. split; [left; reflexivity|]. split; [left; reflexivity|].
      split; [do 2 eexists; split; reflexivity|]. split; [eexists; reflexivity|]. split; [do 2 eexists; split; reflexivity|].
      split; [right; do 2 eexists; repeat split; reflexivity|left; eexists; reflexivity]. }
    split; auto. destruct (C my_schedule) as [P _]. destruct (P A) as (obj & E & _). eauto.
  - destruct (C (VObj 8 (Traits false true true false false false))) as [_ P]. apply P.
    intros (_ & _ & _ & _ & _ & [(n & d & E)|(i & t & E & F & _)] & _); [discriminate E|]. cbn in E. injection E as <- <-. discriminate F.
Qed.
