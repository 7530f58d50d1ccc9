(** C15, C41-C44: the sampler registry and the constructors' arguments. *)
From Coq Require Import String List Arith Lia ZArith Bool.
From Verif.Base Require Import Py.
From Verif.Model Require Import Stepsize BaseClasses Sampling.
From Verif.Spec Require Import Sampler Sampling.
From Verif.Proofs Require Import Sampler SamplerHistory.
From Verif.Props Require Import PSampler.
Import ListNotations.
Local Open Scope list_scope.
Local Open Scope string_scope.

Lemma has_In : forall A (l : list (string * A)) n, has l n = true <-> In n (map fst l).
Proof.
  intros A l n. unfold has. rewrite existsb_exists, in_map_iff. split.
  - intros ([k v] & Hin & E). apply String.eqb_eq in E. subst. exists (k, v). auto.
  - intros ([k v] & E & Hin). cbn in E. subst. exists (n, v). split; auto. apply String.eqb_refl.
Qed.
Lemma get_In : forall kw n v, get kw n = Some v -> In (n, v) kw.
Proof.
  induction kw as [|[k w] kw IH]; cbn; intros n v H; [discriminate|].
  destruct (n =? k) eqn:E; [apply String.eqb_eq in E; left; congruence|right; auto].
Qed.
Lemma get_None : forall kw n, get kw n = None <-> ~ In n (map fst kw).
Proof.
  induction kw as [|[k w] kw IH]; cbn; intros n; [tauto|].
  destruct (n =? k) eqn:E.
  - apply String.eqb_eq in E. subst. split; [discriminate|tauto].
  - apply String.eqb_neq in E. rewrite IH. intuition congruence.
Qed.
Lemma In_get : forall kw n v, NoDup (map fst kw) -> In (n, v) kw -> get kw n = Some v.
Proof.
  induction kw as [|[k w] kw IH]; cbn; intros n v HN H; [tauto|]. inversion HN; subst.
  destruct H as [E|H].
  - injection E as -> ->. now rewrite String.eqb_refl.
  - destruct (n =? k) eqn:E; [|auto]. apply String.eqb_eq in E. subst. exfalso. apply H2.
    apply in_map_iff. now exists (k, v).
Qed.

Section S.
Variable import_session : value.
Notation sig m := (without_self (signature import_session m)).

Lemma sig_names : forall m n, In n (map fst (sig m)) <-> parameter import_session m n.
Proof. intros m n. unfold parameter. destruct m; cbn; tauto. Qed.
Lemma sig_nodup : forall m, NoDup (map fst (sig m)).
Proof. destruct m; cbn; repeat constructor; cbn; intuition discriminate. Qed.
Lemma sig_default : forall m n v, In (n, Some v) (sig m) <-> In (n, v) (optional import_session m).
Proof.
  intros m n v. split; intros H.
  - destruct m; cbn in H; cbn; intuition (try congruence);
      match goal with E : (_, Some _) = (_, Some _) |- _ => injection E as <- <-; tauto end.
  - destruct m; cbn in H; cbn; intuition (try congruence);
      match goal with E : (_, _) = (_, _) |- _ => injection E as <- <-; tauto end.
Qed.
Lemma sig_required : forall m n, In (n, None) (sig m) <-> In n (required m).
Proof. intros m n. destruct m; cbn; intuition (try congruence). Qed.
Lemma signature_has : forall m n, has (signature import_session m) n = true <-> n = "self" \/ parameter import_session m n.
Proof. intros m n. rewrite has_In, <- sig_names. destruct m; cbn; intuition. Qed.

Lemma resolve_spec : forall e s kw,
  match resolve e s kw with
  | Ok args => map fst args = map fst s /\
               (forall n, In (n, None) s -> In n (map fst kw)) /\
               (forall n v, In (n, v) args -> get kw n = Some v \/ (get kw n = None /\ In (n, Some v) s))
  | Raise e' => e' = e /\ exists n, In (n, None) s /\ ~ In n (map fst kw)
  end.
Proof.
  intros e s kw. induction s as [|[n d] s IH]; cbn [resolve].
  - repeat split; cbn; tauto.
  - destruct (get kw n) as [v|] eqn:G; [|destruct d as [v|]]; cbn [bind].
    + destruct (resolve e s kw) as [args|e']; cbn [bind].
      * destruct IH as (A & B & C). split; [cbn; congruence|]. split.
        -- intros m [E|Hm]; [|auto]. injection E as <- _. apply get_In in G. apply in_map_iff. now exists (n, v).
        -- intros m w [E|Hm]; [injection E as <- <-; auto|]. destruct (C m w Hm) as [|[? ?]]; auto. right. split; auto. now right.
      * destruct IH as (-> & m & Hm & Hk). split; auto. exists m. split; auto. now right.
    + destruct (resolve e s kw) as [args|e']; cbn [bind].
      * destruct IH as (A & B & C). split; [cbn; congruence|]. split.
        -- intros m [E|Hm]; [congruence|auto].
        -- intros m w [E|Hm]; [injection E as <- <-; right; split; auto; now left|].
           destruct (C m w Hm) as [|[? ?]]; auto. right. split; auto. now right.
      * destruct IH as (-> & m & Hm & Hk). split; auto. exists m. split; auto. now right.
    + split; auto. exists n. split; [now left|]. now apply get_None.
Qed.

(** ** C41 *)
Theorem C41_arguments_resolved : forall m kw m' args, NoDup (map fst kw) ->
  bind_args import_session (MMember m) kw = Ok (m', args) ->
  m' = m /\ NoDup (map fst args) /\
  (forall n, In n (map fst args) <-> parameter import_session m n) /\
  (forall n v, In (n, v) args <-> parameter import_session m n /\ expected import_session m kw n v).
Proof.
  intros m kw m' args HN H. unfold bind_args in H.
  destruct (existsb _ kw); [discriminate|].
  destruct (existsb (fun '(k, _) => negb (has (signature import_session m) k)) kw); [discriminate|].
  pose proof (resolve_spec ValueError (sig m) kw) as HR.
  destruct (resolve ValueError (sig m) kw) as [a|]; [|discriminate]. cbn [bind] in H. injection H as <- <-.
  destruct HR as (A & B & C). split; auto.
  assert (HNa : NoDup (map fst a)) by (rewrite A; apply sig_nodup).
  assert (HP : forall n, In n (map fst a) <-> parameter import_session m n) by (intros; rewrite A; apply sig_names).
  assert (HE : forall n v, In (n, v) a -> expected import_session m kw n v).
  { intros n v Hin. destruct (C n v Hin) as [G|[G D]]; [left; now apply get_In|right].
    split; [now apply get_None|now apply sig_default]. }
  split; [auto|]. split; [exact HP|]. intros n v. split.
  - intros Hin. split; [|auto]. apply HP. apply in_map_iff. now exists (n, v).
  - intros [Hp Hx]. apply HP in Hp. apply in_map_iff in Hp as ([n' w] & E & Hin). cbn in E. subst n'.
    assert (w = v); [|congruence].
    destruct (HE n w Hin) as [K1|[K1 D1]], Hx as [K2|[K2 D2]].
    + apply (In_get _ _ _ HN) in K1. apply (In_get _ _ _ HN) in K2. congruence.
    + exfalso. apply K2. apply in_map_iff. now exists (n, w).
    + exfalso. apply K1. apply in_map_iff. now exists (n, v).
    + clear - D1 D2. destruct m; cbn in D1, D2; intuition congruence.
Qed.

(** ** C42 *)
Definition colliding (kw : kwargs) : Prop := In "cls" (map fst kw) \/ In "sampling_method" (map fst kw).

Lemma colliding_dec : forall kw, existsb (fun '(k, _) => (k =? "cls") || (k =? "sampling_method")) kw = true <-> colliding kw.
Proof.
  intros kw. rewrite existsb_exists. unfold colliding. rewrite !in_map_iff. split.
  - intros ([k v] & Hin & E). apply orb_true_iff in E as [E|E]; apply String.eqb_eq in E; subst; [left; exists ("cls", v)|right; exists ("sampling_method", v)]; auto.
  - intros [([k v] & E & Hin)|([k v] & E & Hin)]; cbn in E; subst; eexists; (split; [exact Hin|reflexivity]).
Qed.

(** Arguments are rejected, with ValueError, exactly for a non-member, an unknown keyword
    other than 'self', or a missing required parameter. *)
Theorem C42_rejected_iff : forall v kw, ~ colliding kw ->
  (bind_args import_session v kw = Raise ValueError <->
   match v with
   | MOther _ => True
   | MMember m => (exists n, In n (map fst kw) /\ n <> "self" /\ ~ parameter import_session m n) \/
                  (exists n, In n (required m) /\ ~ In n (map fst kw))
   end) /\
  (forall e, bind_args import_session v kw = Raise e -> e = ValueError).
Proof.
  intros v kw HC. unfold bind_args.
  destruct (existsb (fun '(k, _) => (k =? "cls") || (k =? "sampling_method")) kw) eqn:EC.
  { apply colliding_dec in EC. contradiction. }
  destruct v as [m|p].
  2: { split; [tauto|congruence]. }
  destruct (existsb (fun '(k, _) => negb (has (signature import_session m) k)) kw) eqn:EU.
  - split; [|congruence]. split; [|auto]. intros _. left. apply existsb_exists in EU as ([k w] & Hin & E).
    apply negb_true_iff in E. exists k. split; [apply in_map_iff; now exists (k, w)|].
    assert (~ (k = "self" \/ parameter import_session m k)); [|tauto].
    rewrite <- signature_has. congruence.
  - pose proof (resolve_spec ValueError (sig m) kw) as HR.
    destruct (resolve ValueError (sig m) kw) as [a|e]; cbn [bind].
    + split; [|discriminate]. split; [discriminate|]. intros [(n & Hn & Hs & Hp)|(n & Hr & Hn)]; exfalso.
      * apply in_map_iff in Hn as ([k w] & E & Hin). cbn in E. subst k.
        assert (X : existsb (fun '(k, _) => negb (has (signature import_session m) k)) kw = true); [|congruence].
        apply existsb_exists. exists (n, w). split; auto. apply negb_true_iff. destruct (has _ n) eqn:Eh; auto.
        apply signature_has in Eh. tauto.
      * destruct HR as (_ & B & _). apply Hn, B. now apply sig_required.
    + destruct HR as (-> & n & Hn & Hk). split; [|congruence]. split; auto. intros _. right. exists n. split; auto. now apply sig_required.
Qed.

(** 'self' is accepted and has no effect at all. *)
Theorem C42_self_dropped : forall stack build v w kw,
  get_sampler import_session stack build v (("self", w) :: kw) = get_sampler import_session stack build v kw.
Proof.
  intros stack build v w kw. unfold get_sampler. f_equal. unfold bind_args.
  cbn [existsb]. change ("self" =? "cls") with false. change ("self" =? "sampling_method") with false. cbn [orb].
  destruct (existsb _ kw); auto. destruct v as [m|]; auto.
  replace (has (signature import_session m) "self") with true by (destruct m; reflexivity). cbn [negb orb].
  destruct (existsb _ kw); auto.
  assert (E : forall s, ~ In "self" (map fst s) -> resolve ValueError s (("self", w) :: kw) = resolve ValueError s kw).
  { induction s as [|[n d] s IH]; intros Hn; [reflexivity|]. cbn [resolve get].
    destruct (n =? "self") eqn:E; [apply String.eqb_eq in E; subst; exfalso; apply Hn; now left|].
    rewrite IH by (intros X; apply Hn; now right). reflexivity. }
  rewrite E; auto. rewrite sig_names. unfold parameter. destruct m; cbn; intuition discriminate.
Qed.

(** Documented contract: every keyword that is not a listed parameter is
    rejected. *)
Definition unknown_rejected : Prop := forall m kw n, In n (map fst kw) -> ~ parameter import_session m n ->
  ~ colliding kw -> bind_args import_session (MMember m) kw = Raise ValueError.

Definition some_params : value := VObj 1 (Traits false false false false false false).
Definition some_cost : value := VObj 2 (Traits false false false true true false).
Definition some_session : value := VObj 3 (Traits false false false false false true).
Definition some_kwargs : kwargs := [("params", some_params); ("cost_fun", some_cost); ("session", some_session)].

Theorem C42_unknown_rejected_refuted : ~ unknown_rejected.
Proof.
  intros H. specialize (H SGHMC (("self", VPy PNone) :: some_kwargs) "self" (or_introl eq_refl)).
  discriminate H; cbn; unfold parameter, colliding; cbn; intuition discriminate.
Qed.

Example C41_example : bind_args import_session (MMember SGHMC) some_kwargs =
  Ok (SGHMC, [("params", some_params); ("cost_fun", some_cost); ("batch_generator", VPy PNone);
              ("stepsize_schedule", VConst 1 100); ("burn_in_steps", VPy (PInt 3000));
              ("mdecay", VPy (PFloat 1 20)); ("scale_grad", VPy (PFloat 1 1));
              ("session", some_session); ("dtype", VDType "float64"); ("seed", VPy PNone)]).
Proof. reflexivity. Qed.
Example C42_example : bind_args import_session (MMember SVGD) some_kwargs = Raise ValueError.
Proof. reflexivity. Qed.

(** ** C15 *)
Variable stack : value -> res unit.
Variable build : method -> kwargs -> res unit.
Notation GET := (get_sampler import_session stack build).
Notation NEW := (call_class import_session stack build).

Lemma base_schedule : forall m p s b kw obj, base_init build m p s b kw = Ok obj -> so_schedule obj = s /\ so_method obj = m.
Proof.
  intros m p s b kw obj H. unfold base_init in H.
  repeat match type of H with bind (assert_ ?c) _ = _ => destruct c; cbn [assert_ bind] in H; [|discriminate] end.
  destruct (build m kw); cbn [bind] in H; [|discriminate]. injection H as <-. auto.
Qed.

Lemma construct_schedule : forall m kw obj, construct stack build m kw = Ok obj ->
  so_method obj = m /\ so_schedule obj = match m with SGLD => VConst 1 100 | _ => arg kw "stepsize_schedule" end.
Proof.
  intros m kw obj H. destruct m; cbn [construct] in H;
    repeat match type of H with
    | bind (assert_ ?c) _ = _ => destruct c; cbn [assert_ bind] in H; [|discriminate]
    | bind (stack ?x) _ = _ => destruct (stack x); cbn [bind] in H; [|discriminate]
    | bind (if ?c then _ else _) _ = _ => destruct c; cbn [bind] in H; [|discriminate]
    end; apply base_schedule in H; tauto.
Qed.

Lemma resolve_arg : forall e m kw args n v, NoDup (map fst kw) -> resolve e (sig m) kw = Ok args ->
  In (n, v) kw -> parameter import_session m n -> arg args n = v.
Proof.
  intros e m kw args n v HN H Hin Hp. pose proof (resolve_spec e (sig m) kw) as HR. rewrite H in HR.
  destruct HR as (A & _ & C). unfold arg. apply sig_names in Hp. rewrite <- A in Hp.
  destruct (get args n) as [w|] eqn:G; [|apply get_None in G; contradiction].
  apply get_In in G. destruct (C n w G) as [K|[K _]]; rewrite (In_get _ _ _ HN Hin) in K; congruence.
Qed.

(** The three samplers that keep the schedule they are given. *)
Theorem C15_schedule_kept : forall m kw s obj, m <> SGLD -> NoDup (map fst kw) -> In ("stepsize_schedule", s) kw ->
  GET (MMember m) kw = Ok obj \/ NEW m kw = Ok obj -> so_schedule obj = s.
Proof.
  intros m kw s obj Hm HN Hin H.
  assert (HP : parameter import_session m "stepsize_schedule") by (right; destruct m; cbn; tauto).
  destruct H as [H|H].
  - unfold get_sampler, bind_args in H. destruct (existsb _ kw); [discriminate|].
    destruct (existsb (fun '(k, _) => negb (has (signature import_session m) k)) kw); [discriminate|].
    destruct (resolve ValueError (sig m) kw) as [args|] eqn:ER; [|discriminate]. cbn [bind] in H.
    apply construct_schedule in H as [_ H]. rewrite (resolve_arg _ _ _ _ _ _ HN ER Hin HP) in H. destruct m; congruence.
  - unfold call_class in H. destruct (existsb _ kw); [discriminate|].
    destruct (resolve TypeError (sig m) kw) as [args|] eqn:ER; [|discriminate]. cbn [bind] in H.
    apply construct_schedule in H as [_ H]. rewrite (resolve_arg _ _ _ _ _ _ HN ER Hin HP) in H. destruct m; congruence.
Qed.

(** SGLD: always the constant 0.01. *)
Theorem C15_sgld_schedule_ignored : forall kw obj,
  GET (MMember SGLD) kw = Ok obj \/ NEW SGLD kw = Ok obj -> so_schedule obj = VConst 1 100.
Proof.
  intros kw obj [H|H].
  - unfold get_sampler, bind_args in H. destruct (existsb _ kw); [discriminate|].
    destruct (existsb (fun '(k, _) => negb (has (signature import_session SGLD) k)) kw); [discriminate|].
    destruct (resolve ValueError (sig SGLD) kw) as [args|] eqn:ER; [|discriminate]. cbn [bind] in H.
    now apply construct_schedule in H as [_ H].
  - unfold call_class in H. destruct (existsb _ kw); [discriminate|].
    destruct (resolve TypeError (sig SGLD) kw) as [args|] eqn:ER; [|discriminate]. cbn [bind] in H.
    now apply construct_schedule in H as [_ H].
Qed.

(** Every argument, given or default, ends up in the sampler, whichever way it is constructed - except SGLD's
    stepsize_schedule (C15). *)
Lemma construct_attributes : forall m kw obj, construct stack build m kw = Ok obj ->
  so_method obj = m /\ forall n, parameter import_session m n -> In n (map fst kw) -> (m = SGLD -> n <> "stepsize_schedule") -> attribute obj n = get kw n.
Proof.
  intros m kw obj H.
  assert (Q : exists s b, so_method obj = m /\ so_params obj = arg kw (match m with SVGD => "particles" | _ => "params" end) /\ so_cost_fun obj = arg kw "cost_fun" /\
    so_batch_generator obj = arg kw "batch_generator" /\ so_schedule obj = s /\ (m = SGLD \/ s = arg kw "stepsize_schedule") /\
    so_burn_in obj = b /\ match m with SGHMC | SGLD => b = Some (arg kw "burn_in_steps") | _ => True end /\
    so_session obj = arg kw "session" /\ so_dtype obj = arg kw "dtype" /\ so_seed obj = arg kw "seed" /\
    forall n, In n ["mdecay"; "A"; "scale_grad"; "mass"; "speed_of_light"; "D"; "Bhat"; "alpha"; "fudge_factor"] -> get (so_constants obj) n = get kw n).
  { assert (B : forall p s b, base_init build m p s b kw = Ok obj -> so_method obj = m /\ so_params obj = arg kw p /\ so_cost_fun obj = arg kw "cost_fun" /\
      so_batch_generator obj = arg kw "batch_generator" /\ so_schedule obj = s /\ so_burn_in obj = b /\
      so_session obj = arg kw "session" /\ so_dtype obj = arg kw "dtype" /\ so_seed obj = arg kw "seed" /\
      forall n, In n ["mdecay"; "A"; "scale_grad"; "mass"; "speed_of_light"; "D"; "Bhat"; "alpha"; "fudge_factor"] -> get (so_constants obj) n = get kw n).
    { intros p s b HB. unfold base_init in HB.
      repeat match type of HB with bind (assert_ ?c) _ = _ => destruct c; cbn [assert_ bind] in HB; [|discriminate] end.
      destruct (build m kw); cbn [bind] in HB; [|discriminate]. injection HB as <-.
      cbn [so_method so_params so_cost_fun so_batch_generator so_schedule so_burn_in so_session so_dtype so_seed so_constants].
      repeat (split; [reflexivity|]). intros n Hn. clear -Hn. induction kw as [|[k w] kw IH]; [reflexivity|]. cbn [filter get].
      destruct (n =? k) eqn:E.
      - apply String.eqb_eq in E. subst k. replace (_ || _)%bool with true.
        + cbn [get]. now rewrite String.eqb_refl.
        + cbn in Hn. repeat destruct Hn as [<-|Hn]; try reflexivity. destruct Hn.
      - match goal with |- context [if ?c then _ else _] => destruct c end; [cbn [get]; rewrite E|]; exact IH. }
    destruct m; cbn [construct] in H;
    repeat match type of H with
    | bind (assert_ ?c) _ = _ => destruct c; cbn [assert_ bind] in H; [|discriminate]
    | bind (stack ?x) _ = _ => destruct (stack x); cbn [bind] in H; [|discriminate]
    | bind (if ?c then _ else _) _ = _ => destruct c; cbn [bind] in H; [|discriminate]
    end; apply B in H; eexists; eexists; intuition eauto. }
  destruct Q as (s & b & Q0 & Q1 & Q2 & Q3 & Q4 & Q5 & Q6 & Q7 & Q8 & Q9 & Q10 & Q11). split; [exact Q0|]. intros n Hp Hin Hs.
  assert (A : get kw n = Some (arg kw n)).
  { unfold arg. destruct (get kw n) eqn:G; [reflexivity|]. apply get_None in G. contradiction. }
  assert (C : forall n', In n' ["mdecay"; "A"; "scale_grad"; "mass"; "speed_of_light"; "D"; "Bhat"; "alpha"; "fudge_factor"] -> n = n' -> attribute obj n = get kw n).
  { intros n' Hn' <-. rewrite <- (Q11 n Hn'). cbn in Hn'. repeat destruct Hn' as [<-|Hn']; try reflexivity. destruct Hn'. }
  unfold parameter in Hp. destruct m; cbn in Hp;
    repeat match type of Hp with _ \/ _ => destruct Hp as [Hp|Hp] | False => destruct Hp end;
    try (symmetry in Hp; refine (C _ _ Hp); cbn; tauto);
    subst n; rewrite A; unfold attribute; cbn [String.eqb Ascii.eqb Bool.eqb orb]; try congruence;
    rewrite ?Q1, ?Q2, ?Q3, ?Q4, ?Q8, ?Q9, ?Q10; try reflexivity;
    try (destruct Q5 as [Q5|Q5]; [discriminate Q5|rewrite Q5; reflexivity]); try (exfalso; now apply Hs).
Qed.
Theorem C41_arguments_reach_the_sampler : forall m kw obj, NoDup (map fst kw) ->
  GET (MMember m) kw = Ok obj \/ NEW m kw = Ok obj ->
  so_method obj = m /\
  forall n v, parameter import_session m n -> expected import_session m kw n v -> (m = SGLD -> n <> "stepsize_schedule") ->
  attribute obj n = Some v.
Proof.
  intros m kw obj HN H.
  assert (Q : exists e args, resolve e (sig m) kw = Ok args /\ construct stack build m args = Ok obj).
  { destruct H as [H|H].
    - unfold get_sampler, bind_args in H. destruct (existsb _ kw); [discriminate|].
      destruct (existsb (fun '(k, _) => negb (has (signature import_session m) k)) kw); [discriminate|].
      destruct (resolve ValueError (sig m) kw) as [args|] eqn:ER; [|discriminate]. cbn [bind] in H. eauto.
    - unfold call_class in H. destruct (existsb _ kw); [discriminate|].
      destruct (resolve TypeError (sig m) kw) as [args|] eqn:ER; [|discriminate]. cbn [bind] in H. eauto. }
  destruct Q as (e & args & ER & HC). destruct (construct_attributes m args obj HC) as [H1 H2]. split; [exact H1|].
  intros n v Hp Hx Hs. pose proof (resolve_spec e (sig m) kw) as HR. rewrite ER in HR. destruct HR as (A & _ & C).
  assert (Hin : In n (map fst args)) by (rewrite A; now apply sig_names). rewrite (H2 n Hp Hin Hs).
  destruct (get args n) as [w|] eqn:G; [|apply get_None in G; contradiction]. f_equal.
  apply get_In in G. destruct (C n w G) as [K1|[K1 D1]], Hx as [K2|[K2 D2]].
  - apply (In_get _ _ _ HN) in K2. congruence.
  - apply get_In in K1. exfalso. apply K2. apply in_map_iff. now exists (n, w).
  - apply get_None in K1. exfalso. apply K1. apply in_map_iff. now exists (n, v).
  - apply sig_default in D1. clear - D1 D2. destruct m; cbn in D1, D2; intuition congruence.
Qed.

(** ** C43 *)
Lemma base_no_session : forall m p s b kw, v_session (arg kw "session") = false ->
  base_init build m p s b kw = Raise AssertionError.
Proof.
  intros m p s b kw H. unfold base_init.
  repeat match goal with |- context [assert_ ?c] => destruct c; cbn [assert_ bind]; [|reflexivity] end; congruence.
Qed.

Theorem C43_session_required : forall v kw, v_session import_session = false -> ~ In "session" (map fst kw) ->
  (forall obj, GET v kw <> Ok obj) /\
  (forall m args, bind_args import_session v kw = Ok (m, args) ->
     match m with SVGD => (forall p, stack p = Ok tt) /\ v_name (arg args "cost_fun") = true | _ => True end ->
     GET v kw = Raise AssertionError).
Proof.
  intros v kw HS Hn.
  assert (HA : forall m args, bind_args import_session v kw = Ok (m, args) -> v_session (arg args "session") = false).
  { intros m args H. unfold bind_args in H. destruct (existsb _ kw); [discriminate|]. destruct v as [m0|]; [|discriminate].
    destruct (existsb (fun '(k, _) => negb (has (signature import_session m0) k)) kw); [discriminate|].
    pose proof (resolve_spec ValueError (sig m0) kw) as HR.
    destruct (resolve ValueError (sig m0) kw) as [a|]; [|discriminate]. cbn [bind] in H. injection H as <- <-.
    destruct HR as (_ & _ & C). unfold arg. destruct (get a "session") as [w|] eqn:G; [|reflexivity].
    apply get_In in G. destruct (C _ _ G) as [K|[_ K]].
    - apply get_In in K. exfalso. apply Hn. apply in_map_iff. eexists; split; [|exact K]. reflexivity.
    - apply sig_default in K. assert (w = import_session) as ->; [|auto].
      clear - K. destruct m0; cbn in K; intuition congruence. }
  assert (HK : forall m args, bind_args import_session v kw = Ok (m, args) -> forall obj, construct stack build m args <> Ok obj).
  { intros m args H obj HC. specialize (HA m args H). destruct m; cbn [construct] in HC; rewrite ?base_no_session in HC by auto;
    repeat match type of HC with
    | bind (assert_ ?c) _ = _ => destruct c; cbn [assert_ bind] in HC; [|discriminate]
    | bind (stack ?x) _ = _ => destruct (stack x); cbn [bind] in HC; [|discriminate]
    | bind (if ?c then _ else _) _ = _ => destruct c; cbn [bind] in HC; [|discriminate]
    end; try discriminate. }
  split.
  - intros obj H. unfold get_sampler in H. destruct (bind_args import_session v kw) as [[m args]|] eqn:E; [|discriminate].
    cbn [bind] in H. exact (HK m args eq_refl obj H).
  - intros m args E Hs. unfold get_sampler. rewrite E. cbn [bind]. specialize (HA m args E).
    destruct m; cbn [construct]; rewrite ?base_no_session by auto;
    repeat match goal with |- context [assert_ ?c] => destruct c; cbn [assert_ bind]; [|reflexivity] end; auto.
    destruct Hs as [Hst Hna]. rewrite Hst, Hna. reflexivity.
Qed.

(** ** C44 *)
Theorem C44_is_supported_exact : forall v,
  (is_supported v = true <-> v = MMember SGHMC \/ v = MMember SGLD) /\
  (is_burn_in_mcmc v = true <-> v = MMember SGHMC \/ v = MMember SGLD).
Proof. intros [[]|]; cbn; split; split; intros H; auto; try discriminate; destruct H; discriminate. Qed.

(** Documented: true for every entry of the enum. *)
Definition supported_documented : Prop := forall v, is_supported v = true <-> exists m, v = MMember m.
Theorem C44_documented_refuted : ~ supported_documented.
Proof. intros H. destruct (H (MMember SVGD)) as [_ H2]. discriminate H2. eauto. Qed.

End S.

(** Witnesses: constructions that succeed, TensorFlow cooperating. *)
Definition all_ok : method -> kwargs -> res unit := fun _ _ => Ok tt.
Definition my_schedule : value := VObj 7 (Traits true true true false false false).
Example C15_example : exists obj,
  get_sampler (VPy PNone) (fun _ => Ok tt) all_ok (MMember SGHMC) (("stepsize_schedule", my_schedule) :: some_kwargs) = Ok obj /\
  so_schedule obj = my_schedule.
Proof. eexists. split; reflexivity. Qed.

(** Contract: whatever sampler and schedule, the sampler uses it. *)
Definition schedule_always_used : Prop := forall import_session stack build m kw s obj,
  NoDup (map fst kw) -> In ("stepsize_schedule", s) kw ->
  get_sampler import_session stack build (MMember m) kw = Ok obj -> so_schedule obj = s.
Theorem C15_schedule_always_used_refuted : ~ schedule_always_used.
Proof.
  intros H.
  set (kw := ("stepsize_schedule", my_schedule) :: some_kwargs).
  assert (E : exists obj, get_sampler (VPy PNone) (fun _ => Ok tt) all_ok (MMember SGLD) kw = Ok obj /\ so_schedule obj = VConst 1 100)
    by (eexists; split; reflexivity).
  destruct E as (obj & E & Es).
  rewrite (H (VPy PNone) (fun _ => Ok tt) all_ok SGLD kw my_schedule obj) in Es; [discriminate| |now left|exact E].
  cbn. repeat constructor; cbn; intuition discriminate.
Qed.

Example C43_example :
  get_sampler (VPy PNone) (fun _ => Ok tt) all_ok (MMember SGHMC) [("params", some_params); ("cost_fun", some_cost)] = Raise AssertionError.
Proof. reflexivity. Qed.
Definition session_optional : Prop := forall kw stack build m args,
  bind_args (VPy PNone) (MMember m) kw = Ok (m, args) -> (forall p, stack p = Ok tt) -> (forall m a, build m a = Ok tt) ->
  (forall n v, In (n, v) kw -> n = "params" /\ v = some_params \/ n = "cost_fun" /\ v = some_cost) ->
  exists obj, get_sampler (VPy PNone) stack build (MMember m) kw = Ok obj.
Theorem C43_session_optional_refuted : ~ session_optional.
Proof.
  intros H. destruct (H [("params", some_params); ("cost_fun", some_cost)] (fun _ => Ok tt) all_ok SGHMC _ eq_refl) as (obj & E); auto.
  - intros n v [E|[E|[]]]; injection E as <- <-; auto.
  - discriminate E.
Qed.

(** *** Stepsizes over whole runs *)
Section Runs.
Context {V : Type}.
Variable mk : Z -> positive -> V.                       (* the float num/den as an array *)
Variable objects : nat -> {S : schedule V (sample V * V) & sch_state S}.   (* user schedules *)
Definition interp (v : value) : {S : schedule V (sample V * V) & sch_state S} :=
  match v with
  | VConst z p => existT _ (constant_schedule V (sample V * V)) (mk z p)
  | VObj id _ => objects id
  | _ => objects 0
  end.

(** The run environment of a constructed sampler: _next_stepsize and update
    use self.stepsize_schedule (base_classes.py:195-197, 306, 443). *)
Definition env_of (obj : sampler_obj) (B : Type) (bg : option (B -> res (list (nat * V)) * B))
    (Z : Type) (rn : feed V -> Z -> res (outputs V) * Z) : env V :=
  {| bg_state := B; bg_next := bg; sched := projT1 (interp (so_schedule obj)); sess_state := Z; run := rn |}.

(** Every stepsize fed during a run of an SGLD sampler is 0.01, whatever schedule
    it was given. *)
Theorem C15_sgld_stepsizes : forall import_session stack build kw obj B bg Z rn k us rs s' b0 z0,
  get_sampler import_session stack build (MMember SGLD) kw = Ok obj ->
  let E := env_of obj B bg Z rn in
  drive E (next_of E k) us (initial_state E b0 (projT2 (interp (so_schedule obj))) z0) = (rs, s') ->
  forall c r, In c rs -> In (EvStepsize r) (cr_events E c) -> r = Ok (mk 1 100).
Proof.
  intros import_session stack build kw obj B bg Z rn k us rs s' b0 z0 HG E Hd c r Hc Hr.
  pose proof (C15_sgld_schedule_ignored import_session stack build kw obj (or_introl HG)) as Hs.
  destruct (C09_schedule_and_session_replay V E k us rs s' b0 _ z0 Hd) as [HR _].
  assert (HI : In (do v <- r; Ok (Some v)) (sched_results (all_events E rs)) /\
               exists i, nth_error (sched_calls (all_events E rs)) i = Some CallNext /\
                         nth_error (sched_results (all_events E rs)) i = Some (do v <- r; Ok (Some v))).
  { assert (HA : In (EvStepsize r) (all_events E rs)) by (unfold all_events; apply in_flat_map; eauto).
    clear - HA. induction (all_events E rs) as [|ev evs IH]; [destruct HA|].
    destruct HA as [->|HA].
    - split; [now left|]. exists 0%nat. auto.
    - destruct (IH HA) as [I1 (i & I2 & I3)]. unfold sched_results, sched_calls in *. cbn [flat_map].
      destruct ev; cbn [app]; (split; [try (right; exact I1); exact I1|]); try (exists (S i); auto; fail); exists i; auto. }
  destruct HI as [_ (i & Hi1 & Hi2)]. clearbody E || idtac.
  cbv zeta in *. unfold E, env_of in HR. cbn [sched] in HR. revert HR Hi1 Hi2.
  fold (env_of obj B bg Z rn). fold E.
  generalize (sched_results (all_events E rs)). generalize (sched_calls (all_events E rs)).
  intros cs rr. generalize (s_sched E s'). unfold E, env_of. cbn [sched]. rewrite Hs. cbn [interp projT1 projT2].
  intros st HR Hi1 Hi2. destruct (C08_constant_schedule_is_constant _ _ _ _ _ _ HR) as [_ ->].
  rewrite nth_error_map, Hi1 in Hi2. cbn in Hi2. destruct r; cbn in Hi2; congruence.
Qed.

(** The other samplers: the stepsizes fed are those of the given schedule, in
    order. *)
Theorem C15_stepsizes_from_schedule : forall import_session stack build m kw s obj B bg Z rn k us rs s' b0 z0,
  m <> SGLD -> NoDup (map fst kw) -> In ("stepsize_schedule", s) kw ->
  get_sampler import_session stack build (MMember m) kw = Ok obj ->
  let E := env_of obj B bg Z rn in
  drive E (next_of E k) us (initial_state E b0 (projT2 (interp (so_schedule obj))) z0) = (rs, s') ->
  exists st, sch_drive (projT1 (interp s)) (sched_calls (all_events E rs)) (projT2 (interp s)) = (sched_results (all_events E rs), st).
Proof.
  intros import_session stack build m kw s obj B bg Z rn k us rs s' b0 z0 Hm HN Hin HG E Hd.
  destruct (C09_schedule_and_session_replay V E k us rs s' b0 _ z0 Hd) as [HR _].
  pose proof (C15_schedule_kept import_session stack build m kw s obj Hm HN Hin (or_introl HG)) as Hs.
  revert HR. generalize (sched_results (all_events E rs)) (sched_calls (all_events E rs)) (s_sched E s').
  unfold E, env_of. cbn [sched]. rewrite Hs. intros. eauto.
Qed.
End Runs.
Example C41_example_attributes : exists obj,
  get_sampler some_session (fun _ => Ok tt) (fun _ _ => Ok tt) (MMember SGHMC) (("mdecay", VPy (PFloat 1 10)) :: some_kwargs) = Ok obj /\
  attribute obj "mdecay" = Some (VPy (PFloat 1 10)) /\ attribute obj "scale_grad" = Some (VPy (PFloat 1 1)).
Proof. eexists. split; [reflexivity|]. split; reflexivity. Qed.
Print Assumptions C41_arguments_reach_the_sampler.
