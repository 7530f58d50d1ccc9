(** C76: the keyword arguments a network passes to its sampler. *)
From Coq Require Import String List Arith Lia ZArith Bool.
From Verif.Base Require Import Py Num Vec.
From Verif.Model Require Import Stepsize BaseClasses DataBatches TensorUtils BaseModel Sampling BNN.
From Verif.Spec Require Import Sampling.
From Verif.Proofs Require Import Train.
From Verif.Props Require Import PSampling PBNN.
Import ListNotations.
Local Open Scope list_scope.
Local Open Scope string_scope.

Section A.
Variable import_session : value.
Variables params cost_fun batch_generator session seed dtype schedule n_datapoints burn_in_steps : value.
(** The values a network decides itself. *)
Definition own : kwargs :=
  [("params", params); ("cost_fun", cost_fun); ("batch_generator", batch_generator); ("session", session); ("seed", seed);
   ("dtype", dtype); ("stepsize_schedule", schedule); ("scale_grad", n_datapoints); ("burn_in_steps", burn_in_steps)].
Notation arguments kw := (sampler_arguments kw params cost_fun batch_generator session seed dtype schedule n_datapoints burn_in_steps).
Definition trainable (m : method) : Prop := m = SGHMC \/ m = SGLD.

Lemma get_arguments : forall kw n, get (arguments kw) n = match get own n with Some v => Some v | None => get kw n end.
Proof.
  intros kw n. unfold sampler_arguments, own. cbn [get app].
  repeat match goal with |- context [n =? ?s] => destruct (String.eqb_spec n s) as [->|]; [reflexivity|] end. reflexivity.
Qed.
Lemma arguments_names : forall kw n, In n (map fst (arguments kw)) <-> In n (map fst own) \/ In n (map fst kw).
Proof. intros kw n. unfold sampler_arguments. rewrite map_app, in_app_iff. unfold own. cbn. tauto. Qed.
Lemma own_parameter : forall m n, trainable m -> In n (map fst own) -> parameter import_session m n.
Proof. intros m n Hm Hn. unfold parameter. destruct Hm; subst m; cbn in *; tauto. Qed.

Theorem C76_own_values_win : forall m kw m' args, trainable m -> NoDup (map fst kw) ->
  bind_args import_session (MMember m) (arguments kw) = Ok (m', args) ->
  m' = m /\ (forall n, In n (map fst args) <-> parameter import_session m n) /\
  (forall n v, In (n, v) args <-> parameter import_session m n /\
     (In (n, v) own \/ (~ In n (map fst own) /\ expected import_session m kw n v))).
Proof.
  intros m kw m' args Hm Hkw Hb. unfold bind_args in Hb.
  destruct (existsb _ (arguments kw)); [discriminate|].
  destruct (existsb (fun '(k, _) => negb (has (signature import_session m) k)) (arguments kw)); [discriminate|].
  pose proof (resolve_spec ValueError (without_self (signature import_session m)) (arguments kw)) as HR.
  destruct (resolve ValueError (without_self (signature import_session m)) (arguments kw)) as [a|]; [|discriminate]. cbn [bind] in Hb. injection Hb as <- <-.
  destruct HR as (A & B & C). split; [reflexivity|].
  assert (HN : NoDup (map fst a)) by (rewrite A; apply sig_nodup).
  assert (P : forall n, In n (map fst a) <-> parameter import_session m n) by (intros; rewrite A; apply sig_names).
  split; [exact P|].
  assert (Hown : NoDup (map fst own)) by (unfold own; cbn; repeat constructor; cbn; intuition discriminate).
  assert (D : forall n v, In (n, v) a -> In (n, v) own \/ (~ In n (map fst own) /\ expected import_session m kw n v)).
  { intros n v Hin. destruct (C n v Hin) as [G|[G S]]; rewrite get_arguments in G; destruct (get own n) as [w|] eqn:Go.
    - injection G as <-. left. now apply get_In.
    - right. split; [now apply get_None|]. left. now apply get_In.
    - discriminate.
    - right. split; [now apply get_None|]. right. split; [now apply get_None|]. now apply sig_default. }
  intros n v. split.
  - intros Hin. split; [|auto]. apply P. apply in_map_iff. now exists (n, v).
  - intros [Hp He]. apply P in Hp. apply in_map_iff in Hp as ([n' v'] & E & Hin). cbn in E. subst n'.
    replace v with v'; auto. specialize (D n v' Hin).
    assert (U : forall l : kwargs, NoDup (map fst l) -> In (n, v) l -> In (n, v') l -> v' = v).
    { intros l Hl I1 I2. apply In_get in I1, I2; auto. congruence. }
    assert (Uo : In (n, v) (optional import_session m) -> In (n, v') (optional import_session m) -> v' = v).
    { apply U. destruct Hm; subst m; cbn; repeat constructor; cbn; intuition discriminate. }
    assert (I : forall x (l : kwargs), In (n, x) l -> In n (map fst l)) by (intros x l Hx; apply in_map_iff; now exists (n, x)).
    destruct D as [D|[D1 D2]], He as [He|[H1 H2]].
    + eapply U; eauto.
    + exfalso. apply H1. eapply I; eauto.
    + exfalso. apply D1. eapply I; eauto.
    + destruct D2 as [D2|[D2 D3]], H2 as [H2|[H2 H3]]; [eapply (U kw); eauto|exfalso; eauto|exfalso; eauto|auto].
Qed.

(** Rejected exactly for keywords the sampler does not have; nothing can be missing. *)
Theorem C76_rejected_iff : forall m kw, trainable m -> ~ colliding kw ->
  (bind_args import_session (MMember m) (arguments kw) = Raise ValueError <->
   exists n, In n (map fst kw) /\ n <> "self" /\ ~ parameter import_session m n) /\
  (forall e, bind_args import_session (MMember m) (arguments kw) = Raise e -> e = ValueError).
Proof.
  intros m kw Hm Hc.
  assert (Hc' : ~ colliding (arguments kw)).
  { unfold colliding in *. intros [A|A]; apply arguments_names in A as [A|A]; try tauto; unfold own in A; cbn in A; intuition discriminate. }
  destruct (C42_rejected_iff import_session (MMember m) (arguments kw) Hc') as [R1 R2]. split; [|exact R2].
  rewrite R1. split.
  - intros [(n & A & B & C)|(n & A & B)].
    + apply arguments_names in A as [A|A]; [exfalso; apply C; now apply own_parameter|eauto].
    + exfalso. apply B. apply arguments_names. left. destruct Hm; subst m; cbn in *; tauto.
  - intros (n & A & B & C). left. exists n. split; [|auto]. apply arguments_names. auto.
Qed.
End A.

(** train with get_sampler from sampling.py: an unknown keyword surfaces only here, after the network's
    data and graph have been replaced and the samples dropped. *)
Section T.
Context {T : Type} `{Num T} `{NumT T}.
Variable W : Type.
Variable import_session : value.
Variable stack : value -> res unit.
Variable build : method -> kwargs -> res unit.
Variables params cost_fun batch_generator session seed dtype schedule n_datapoints burn_in_steps : value.
Variable initialize : W -> res unit * W.
Variable log_error : heap (list T) T -> W -> res unit * W.
Variable run_sampler : feed (tensor T) -> W -> res (outputs (tensor T)) * W.
Variable schedule_ : Stepsize.schedule (tensor T) (sample (tensor T) * tensor T).
Variable B : batch_source T.
Variable builder : net_builder T.
(** The call of get_sampler in train, bayesian_neural_network.py:464-466. *)
Definition call_get_sampler (method : mval) (kw : kwargs) (w : W) : res unit * W :=
  (do _ <- get_sampler import_session stack build method
     (sampler_arguments kw params cost_fun batch_generator session seed dtype schedule n_datapoints burn_in_steps); Ok tt, w).

Theorem C76_unknown_keyword_fails_late : forall a c kw n X y b e, construct_bnn a = Ok c -> ~ colliding kw ->
  In n (map fst kw) -> n <> "self" -> (forall m, c_method c = MMember m -> ~ parameter import_session m n) ->
  let t := train W (call_get_sampler (c_method c) kw) initialize log_error run_sampler schedule_ B builder c (Matrix X) y b e in
  is_ok (t_res W schedule_ t) = false /\ b_trained (t_bnn W schedule_ t) = b_trained b /\
  (is_ok (fst (build_net W schedule_ builder e)) = true ->
   t_res W schedule_ t = Raise ValueError /\ b_samples (t_bnn W schedule_ t) = [] /\
   b_data (t_bnn W schedule_ t) = Some (data_of c X y) /\
   b_x_stats (t_bnn W schedule_ t) = x_stats_of c X (b_x_stats b) /\
   b_y_stats (t_bnn W schedule_ t) = y_stats_of c y (b_y_stats b) /\
   x_vars W schedule_ (t_ext W schedule_ t) = (x_vars W schedule_ e ++ gn_vars builder)%list).
Proof.
  intros a c kw n X y b e Hc Hcol Hin Hself Hpar t.
  assert (Hm : exists m, c_method c = MMember m /\ trainable m).
  { destruct (C49_attributes a c Hc) as (_ & _ & _ & _ & _ & _ & _ & _ & _).
    unfold construct_bnn in Hc. repeat (destruct (assert_ _) as [[]|]; [|discriminate]; cbn [bind] in Hc).
    destruct (a_method a) as [[]|] eqn:Em; cbn in Hc; try discriminate; injection Hc as <-; cbn; unfold trainable; eauto. }
  destruct Hm as (m & Em & Tm).
  assert (Hg : forall w, call_get_sampler (c_method c) kw w = (Raise ValueError, w)).
  { intros w. unfold call_get_sampler. rewrite Em. unfold get_sampler.
    destruct (C76_rejected_iff import_session params cost_fun batch_generator session seed dtype schedule n_datapoints burn_in_steps m kw Tm Hcol) as [R _].
    rewrite (proj2 R); [reflexivity|]. exists n. auto. }
  pose proof (train_cases W (call_get_sampler (c_method c) kw) initialize log_error run_sampler schedule_ B builder c X y b e) as O; fold t in O;
    destruct O as [er Hb Hr Hbn|nt er Hb Hrb Hr Hw Hd Hsm Htr|nt st Hb Hrb Hgs]; try (rewrite Hg in Hgs; discriminate).
  - rewrite Hr, Hbn. cbn. split; [reflexivity|]. split; [reflexivity|]. rewrite Hb. discriminate.
  - rewrite Hr. split; [reflexivity|]. split; [exact Htr|]. intros _. destruct Hrb.
    split; [|auto 10]. destruct Hw as [Hw|[Hw _]]; rewrite Hg in Hw; cbn in Hw; congruence.
Qed.
End T.

Definition none : value := VPy PNone.
Example C76_example : bind_args none (MMember SGHMC) (sampler_arguments [("scale_grad", VPy (PInt 3)); ("mdecay", VPy (PFloat 1 2))]
    some_params some_cost none some_session none (VDType "float64") (VConst 1 100) (VPy (PInt 50)) (VPy (PInt 10))) =
  Ok (SGHMC, [("params", some_params); ("cost_fun", some_cost); ("batch_generator", none); ("stepsize_schedule", VConst 1 100);
              ("burn_in_steps", VPy (PInt 10)); ("mdecay", VPy (PFloat 1 2)); ("scale_grad", VPy (PInt 50));
              ("session", some_session); ("dtype", VDType "float64"); ("seed", none)]) /\
  bind_args none (MMember SGHMC) (sampler_arguments [("mdeacy", VPy (PFloat 1 2))]
    some_params some_cost none some_session none (VDType "float64") (VConst 1 100) (VPy (PInt 50)) (VPy (PInt 10))) = Raise ValueError.
Proof. split; reflexivity. Qed.
