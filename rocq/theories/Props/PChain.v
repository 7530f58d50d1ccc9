(** C86: complete samplers produce the published chains. *)
From Coq Require Import List Arith Lia ZArith Bool Reals Lra.
From Verif.Base Require Import Py Num Vec Lists.
From Verif.Model Require Import TensorUtils BurnIn SGHMC SGLD Stepsize BaseClasses Session Relativistic.
From Verif.Spec Require Import Sampler Dynamics Trajectory Chain.
From Verif.Proofs Require Import Sampler SamplerHistory Dynamics Trajectory Session Chain ChainKernels.
From Verif.Props Require Import PSampler PSession.
Import ListNotations.
Local Open Scope R_scope.

(** The entry rule of the two samplers with burn-in. *)
Definition rule_of (w : which R) : R -> bool -> R -> R -> entry -> entry :=
  match w with
  | Sghmc c => sghmc_entry (mdecay c) (scale_grad c)
  | Sgld c => sgld_entry (l_A c) (l_scale_grad c)
  end.
Definition gradient_scale (w : which R) : R :=
  match w with Sghmc c => scale_grad c | Sgld c => l_scale_grad c end.

Lemma no_fed : forall us : list (option (feed (tensor R))), Forall no_fed_mass us ->
  forall u f i, In u us -> u = Some f -> lookup f (KMinv i) = None.
Proof.
  intros us HF u f i Hin ->. rewrite Forall_forall in HF. exact (HF _ Hin i).
Qed.

(** Any fresh operations of noise. *)
Lemma chain_of_ops :
  forall variate reserve (w : which R) target B bg sc burn us rs s' b0 c0 eps0 params ops,
  0 < gradient_scale w -> length ops = length params -> Forall no_fed_mass us ->
  Forall (fun o => op_pos o = 0%nat) ops ->
  let E := sampler_env variate reserve (kernel_of w) target B bg sc in
  drive E (burnin_next E burn (length params)) us
    (initial_state E b0 c0 (session_of w eps0 params ops)) = (rs, s') ->
  follows (rule_of w) variate reserve target (burn_in_plan burn) E 0
    (map (fun '(v, o) => fresh 0 v (op_key o)) (combine params ops)) rs.
Proof.
  intros variate reserve w target B bg sc burn us rs s' b0 c0 eps0 params ops Hs HL HU HO E HD.
  assert (LP : length (map (fun '(v, o) => fresh 0 v (op_key o)) (combine params ops)) = length params).
  { rewrite map_length, combine_length. lia. }
  rewrite <- LP in HD.
  assert (F2 : forall sim : _ -> _ -> _ -> Prop, (forall v, sim (init_of w v) (shape v) (map (start 0) (data v))) ->
     Forall2 (sim1 (kernel_of w) sim) (combine (map (init_of w) params) ops)
       (map (fun '(v, o) => fresh 0 v (op_key o)) (combine params ops))).
  { intros sim Hsim. clear HD LP. revert ops HL HO.
    induction params as [|v params IH]; intros [|o ops] HL HO; try discriminate HL; cbn; [constructor|].
    inversion HO; subst. constructor; [|apply IH; [now injection HL|auto]].
    split; [apply Hsim|]. cbn. auto. }
  assert (BI : burn_inv E burn b0 c0 (session_of w eps0 params ops) []
                 (initial_state E b0 c0 (session_of w eps0 params ops))).
  { split; [apply hist_inv_init|]. cbn. lia. }
  change 0%nat with (successes E []).
  destruct w as [c|c]; cbn [kernel_of session_of rule_of gradient_scale] in *.
  - eapply (burnin_follows variate reserve (sghmc_kernel c) target _ sghmc_sim); try exact HD; try exact BI.
    + intros s d es (_ & _ & _ & HP). exact HP.
    + intros. cbn [k_step sghmc_kernel]. now apply sghmc_sim_step.
    + apply sghmc_minv_rule.
    + apply sghmc_rule_mass.
    + now apply no_fed.
    + apply F2. apply sghmc_sim_init.
    + intros _ m Hm. discriminate Hm.
  - eapply (burnin_follows variate reserve (sgld_kernel c) target _ sgld_sim); try exact HD; try exact BI.
    + intros s d es (_ & _ & HP). exact HP.
    + intros. cbn [k_step sgld_kernel]. now apply sgld_sim_step.
    + apply sgld_minv_rule.
    + apply sgld_rule_mass.
    + now apply no_fed.
    + apply F2. apply sgld_sim_init.
    + intros _ m Hm. discriminate Hm.
Qed.

(** With a seed [sd], every history of calls of SGHMC or SGLD, failing calls included, is the
    published chain: started at the initial values with zero momentum, driven by the stepsizes of
    the schedule, the gradients at the current values under the batches, and the normals of the pair
    (graph seed, sd), with the mass adapted during burn-in and kept afterwards. *)
Theorem C86_published_chain :
  forall variate reserve (w : which R) target B bg sc burn us rs s' b0 c0 eps0 params gseed sd ids entropy,
  0 < gradient_scale w -> Forall no_fed_mass us ->
  let E := sampler_env variate reserve (kernel_of w) target B bg sc in
  drive E (burnin_next E burn (length params)) us
    (initial_state E b0 c0
       (session_of w eps0 params (noise_ops gseed (Some sd) ids entropy (length params)))) = (rs, s') ->
  let key := (match gseed with Some g => g | None => 87654321%Z end, sd) in
  follows (rule_of w) variate reserve target (burn_in_plan burn) E 0
    (map (fun v => fresh 0 v key) params) rs.
Proof.
  intros variate reserve w target B bg sc burn us rs s' b0 c0 eps0 params gseed sd ids entropy Hs HU E HD key.
  set (ops := noise_ops gseed (Some sd) ids entropy (length params)) in *.
  assert (HL : length ops = length params) by (unfold ops, noise_ops; now rewrite map_length, seq_length).
  assert (HK : Forall (fun o => op_key o = key /\ op_pos o = 0%nat) ops).
  { apply Forall_forall. intros o Ho. unfold ops, noise_ops in Ho. apply in_map_iff in Ho as (i & <- & _).
    unfold make_noise_op, key. cbn. destruct gseed; auto. }
  assert (HP : Forall (fun o => op_pos o = 0%nat) ops) by (eapply Forall_impl; [|exact HK]; cbn; tauto).
  pose proof (chain_of_ops variate reserve w target B bg sc burn us rs s' b0 c0 eps0 params ops Hs HL HU HP HD) as HC.
  replace (map (fun v => fresh 0 v key) params)
    with (map (fun '(v, o) => fresh 0 v (op_key o)) (combine params ops)); [exact HC|].
  clear -HL HK. clearbody ops. revert ops HL HK.
  induction params as [|v params IH]; intros [|o ops] HL HK; try discriminate HL; [reflexivity|].
  inversion HK as [|? ? [Hk _] HK']; subst. cbn. rewrite Hk. f_equal. apply IH; [now injection HL|exact HK'].
Qed.

(** Without a seed the same, with some pair of seeds for each parameter. *)
Theorem C86_published_chain_unseeded :
  forall variate reserve (w : which R) target B bg sc burn us rs s' b0 c0 eps0 params gseed ids entropy,
  0 < gradient_scale w -> Forall no_fed_mass us ->
  let E := sampler_env variate reserve (kernel_of w) target B bg sc in
  drive E (burnin_next E burn (length params)) us
    (initial_state E b0 c0
       (session_of w eps0 params (noise_ops gseed None ids entropy (length params)))) = (rs, s') ->
  exists keys, length keys = length params /\
  follows (rule_of w) variate reserve target (burn_in_plan burn) E 0
    (map (fun '(v, k) => fresh 0 v k) (combine params keys)) rs.
Proof.
  intros variate reserve w target B bg sc burn us rs s' b0 c0 eps0 params gseed ids entropy Hs HU E HD.
  set (ops := noise_ops gseed None ids entropy (length params)) in *.
  assert (HL : length ops = length params) by (unfold ops, noise_ops; now rewrite map_length, seq_length).
  assert (HP : Forall (fun o => op_pos o = 0%nat) ops).
  { apply Forall_forall. intros o Ho. unfold ops, noise_ops in Ho. now apply in_map_iff in Ho as (i & <- & _). }
  exists (map op_key ops). split; [now rewrite map_length|].
  pose proof (chain_of_ops variate reserve w target B bg sc burn us rs s' b0 c0 eps0 params ops Hs HL HU HP HD) as HC.
  replace (map (fun '(v, k) => fresh 0 v k) (combine params (map op_key ops)))
    with (map (fun '(v, o) => fresh 0 v (op_key o)) (combine params ops)); [exact HC|].
  clear. clearbody ops. revert ops. induction params as [|v params IH]; intros [|o ops]; try reflexivity.
  cbn. now rewrite IH.
Qed.

(** Relativistic SGHMC: the same from the momenta it is started with, for one-element parameters (the
    only ones it can be built with, C26). *)
Theorem C86_published_chain_relativistic :
  forall variate reserve (c : rconfig R) target B bg sc us rs s' b0 c0 eps0 params momenta gseed sd ids entropy,
  Forall (fun v => length (data v) = 1%nat) params -> length momenta = length params ->
  Forall no_fed_mass us ->
  let E := sampler_env variate reserve (rel_kernel c) target B bg sc in
  drive E (mcmc_next E) us
    (initial_state E b0 c0
       (rel_session c eps0 params momenta (noise_ops gseed (Some sd) ids entropy (length params)))) = (rs, s') ->
  let key := (match gseed with Some g => g | None => 87654321%Z end, sd) in
  follows (relativistic_entry (r_mass c) (r_c c) (r_D c) (r_bhat c)) variate reserve target plain_plan E 0
    (map (fun '(v, p) => fresh p v key) (combine params momenta)) rs.
Proof.
  intros variate reserve c target B bg sc us rs s' b0 c0 eps0 params momenta gseed sd ids entropy H1 HLm HU E HD key.
  set (ops := noise_ops gseed (Some sd) ids entropy (length params)) in *.
  assert (HL : length ops = length params) by (unfold ops, noise_ops; now rewrite map_length, seq_length).
  assert (HK : Forall (fun o => op_key o = key /\ op_pos o = 0%nat) ops).
  { apply Forall_forall. intros o Ho. unfold ops, noise_ops in Ho. apply in_map_iff in Ho as (i & <- & _).
    unfold make_noise_op, key. cbn. destruct gseed; auto. }
  eapply (plain_follows variate reserve (rel_kernel c) target _ rel_sim); try exact HD.
  - intros s d es (e & -> & _ & _ & HP). exact HP.
  - intros. now apply rel_sim_step.
  - now apply no_fed.
  - unfold simz, initial_state, rel_session. cbn [s_sess z_params]. clearbody ops key. clear -H1 HLm HL HK.
    revert momenta ops HLm HL HK.
    induction H1 as [|v params Hv H1 IH]; intros [|p ms] [|o ops] HLm HL HK; try discriminate HLm; try discriminate HL; cbn;
      [constructor|].
    inversion HK as [|? ? [Hk Hp] HK']; subst. constructor; [|apply IH; [now injection HLm|now injection HL|exact HK']].
    destruct (data v) as [|x [|]] eqn:Ed; try discriminate Hv.
    split; [|cbn; auto]. cbn [fst fresh dims entries]. rewrite Ed. cbn [map]. now apply rel_sim_init.
Qed.

(** A concrete run: minus log density x^2/2 at x = 1, three calls with one step of burn-in; every call
    succeeds, and the first sample, in explicit form. *)
Definition demo_target : @objective R := fun vs _ =>
  match vs with
  | [v] => let x := hd 0 (data v) in Ok (x ^ 2 / 2, [[x]])
  | _ => Raise ValueError
  end.
Definition demo_env (variate : Z * Z -> nat -> R) :=
  sampler_env variate (fun n => n) (kernel_of (Sghmc (Config (1 / 2) 1))) demo_target unit None
    (constant_schedule (tensor R) (sample (tensor R) * tensor R)).
Definition demo_start variate : state (demo_env variate) :=
  initial_state (demo_env variate) tt (number (1 / 2))
    (session_of (Sghmc (Config (1 / 2) 1)) 0 [Tensor [] [1]] (noise_ops (Some 3%Z) (Some 4%Z) [7%nat] (fun _ => (0, 0)%Z) 1)).
Example C86_example : forall variate,
  let E := demo_env variate in
  map (fun c => is_ok (cr_res E c)) (fst (drive E (burnin_next E 1 1) [None; None; None] (demo_start variate)))
    = [true; true; true] /\
  exists c rest, fst (drive E (burnin_next E 1 1) [None; None; None] (demo_start variate)) = c :: rest /\
    cr_res E c = Ok (SList [number (1 + (0 - (1 / 2) ^ 2 * inverse_mass 1 * 1 - 1 / 2 * 0
       + sqrt (Rmax (2 * ((1 / 2) ^ 2 / 1) * (1 / 2) * inverse_mass 1 - ((1 / 2) ^ 2 / 1) ^ 2) guard) * variate (3, 4)%Z 0%nat))],
     number (1 ^ 2 / 2)).
Proof.
  intros variate E.
  assert (EX : map (fun c => is_ok (cr_res E c)) (fst (drive E (burnin_next E 1 1) [None; None; None] (demo_start variate)))
    = [true; true; true]) by (unfold E; lazy; reflexivity).
  split; [exact EX|].
  assert (EY : map (fun c => stepsize_results (cr_events E c)) (fst (drive E (burnin_next E 1 1) [None; None; None] (demo_start variate)))
    = repeat [Ok (number (1 / 2))] 3) by (unfold E; lazy; reflexivity).
  destruct (drive E (burnin_next E 1 1) [None; None; None] (demo_start variate)) as [rs s'] eqn:HD.
  assert (HF : follows (rule_of (Sghmc (Config (1 / 2) 1))) variate (fun n => n) demo_target (burn_in_plan 1) E 0
    (map (fun v => fresh 0 v (3, 4)%Z) [Tensor [] [1]]) rs).
  { eapply (C86_published_chain variate (fun n => n) (Sghmc (Config (1 / 2) 1)) demo_target unit None _ 1 [None; None; None]
      rs s' tt (number (1 / 2)) 0 [Tensor [] [1]] (Some 3%Z) 4%Z [7%nat] (fun _ => (0, 0)%Z)); [cbn; lra| |exact HD].
    repeat constructor. }
  cbn [fst] in *. inversion HF; subst; try discriminate EX; cbn [map] in EX;
    try (match goal with HR : cr_res _ _ = Raise _ |- _ => rewrite HR in EX; discriminate EX end).
  exists c, rest. split; [reflexivity|]. rewrite H1.
  assert (He : hd 0 (data eps) = 1 / 2).
  { cbn [map] in EY. rewrite H2 in EY. unfold batch_events in H. cbn in H. destruct H as [-> ->].
    injection EY as Heps _. subst eps. reflexivity. }
  rewrite He in H0.
  unfold transition, demo_target, rule_of, fresh, value in H0.
  cbn [map combine data dims entries theta start hd moves length Nat.eqb option_map move moved seeds used
       momentum averages mass shape] in H0.
  injection H0 as <- <-. reflexivity.
Qed.

Print Assumptions C86_published_chain.
Print Assumptions C86_published_chain_unseeded.
Print Assumptions C86_published_chain_relativistic.
Print Assumptions C86_example.
