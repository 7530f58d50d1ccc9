(** C87: a training collects the thinned states of the published chain. *)
From Coq Require Import String List Arith Lia ZArith Bool Reals Lra.
From Verif.Base Require Import Py Num Vec Lists.
From Verif.Model Require Import TensorUtils BurnIn SGHMC SGLD Stepsize BaseClasses Session DataBatches BaseModel Sampling BNN.
From Verif.Spec Require Import Batches Sampler Dynamics Trajectory Network Chain.
From Verif.Proofs Require Import Sampler SamplerHistory Session Chain ChainKernels Loop Train TrainChain.
From Verif.Props Require Import PSampler PSession PChain PPredict PBNN.
From Verif.Model Require SGHMC.
From Verif.Props Require PBNNDemo.
Import ListNotations.
Local Open Scope list_scope.

(** One iteration of a training: generator and arrays [g], schedule [sc], network parameters [ps]
    before, [g'], [sc'], [ps'] after it; [px], [py] are the placeholders of inputs and targets. *)
Definition iterates (rule : R -> bool -> R -> R -> entry -> entry) variate reserve target
    (Sc : schedule (tensor R) (sample (tensor R) * tensor R)) (B : batch_source R)
    (adapting : bool) (look : list (tensor R) -> sample (tensor R)) (px py : nat)
    (g g' : bs_state B * heap (list R) R) (sc sc' : sch_state Sc) (ps ps' : list parameter)
    (d : sample (tensor R) * list (event (tensor R))) : Prop :=
  exists bx by_ eps mid user cost,
    (* the next batch of the generator *)
    bs_next B (fst g) (snd g) = (Ok (bx, by_), fst g', snd g') /\
    (forall n, user n = if n =? px then Some bx else if n =? py then Some by_ else None) /\
    (* the next stepsize of the schedule *)
    sch_next Sc sc = (Ok eps, mid) /\
    (* the transition of the chain *)
    transition rule variate reserve target (hd 0%R (data eps)) adapting user ps = Some (cost, ps') /\
    (* what the training sees, and the schedule is told *)
    fst d = look (map value ps') /\ sch_update Sc (fst d, number cost) mid = (Ok tt, sc').

Section Training.
Variable variate : Z * Z -> nat -> R.
Variable reserve : nat -> nat.
Variable w : which R.
Variable target : @objective R.
Variable schedule_ : schedule (tensor R) (sample (tensor R) * tensor R).
Variable B : batch_source R.
Variable builder : net_builder R.
Notation W := (sess (kernel_of w)).
Variable get_sampler_ : W -> res unit * W.
Variable initialize : W -> res unit * W.
Variable log_error : heap (list R) R -> W -> res unit * W.
Let run_sampler := session_run_model variate reserve (kernel_of w) target.
Notation train := (train W get_sampler_ initialize log_error run_sampler schedule_ B builder).
Notation t_res := (t_res W schedule_).
Notation t_bnn := (t_bnn W schedule_).
Notation t_drawn := (t_drawn W schedule_).

(** Get-sampler and the initializer leave the session of a fresh sampler over all variables of the
    graph, with noise seeded by [sd]. *)
Definition prepared (e : ext W schedule_) eps0 params gseed sd ids entropy : Prop :=
  map shape params = x_vars _ _ e ++ gn_vars builder /\
  initialize (snd (get_sampler_ (x_sess _ _ e))) =
    (Ok tt, session_of w eps0 params (noise_ops gseed (Some sd) ids entropy (length params))).

Theorem C87_training_samples_the_chain : forall a c X y b e eps0 params gseed sd ids entropy,
  construct_bnn a = Ok c -> (0 < gradient_scale w)%R -> (forall h z, snd (log_error h z) = z) ->
  prepared e eps0 params gseed sd ids entropy ->
  let t := train c (Matrix X) y b e in
  let bi := c_burn_in_steps c in
  let key := (match gseed with Some g => g | None => 87654321%Z end, sd) in
  exists (chain : nat -> list parameter) gen sched_,
    (* the start *)
    chain 0 = map (fun v => fresh 0 v key) params /\
    gen 0 = (bs_start B (c_batch_size c) (c_seed c),
             arrays (if c_normalize_input c then fst (fst (zmuv_normalization X None None)) else X)
                    (if c_normalize_output c then fst (fst (zmuv_normalization1 y None None)) else y)) /\
    sched_ 0 = x_sched _ _ e /\
    (* every iteration, also of a training that fails later *)
    (forall i d, nth_error (t_drawn t) i = Some d ->
       iterates (rule_of w) variate reserve target schedule_ B
         ((i <? bi) || (bi =? 0)) (if i <? bi then SList (V:=tensor R) else unravel)
         (x_ph _ _ e) (S (x_ph _ _ e)) (gen i) (gen (S i)) (sched_ i) (sched_ (S i)) (chain i) (chain (S i)) d) /\
    (* what is collected *)
    (t_res t = Ok tt -> forall k, k < length (b_samples (t_bnn t)) ->
       nth_error (b_samples (t_bnn t)) k =
         Some (unravel (map value (chain (S (kept bi (c_sample_steps c) k)))))).
Proof.
  intros a c X y b e eps0 params gseed sd ids entropy Hc Hs Hlog [Hpar Hinit] t bi key.
  destruct (C49_attributes a c Hc) as (_ & _ & _ & _ & _ & N1 & N2 & N3 & _).
  assert (Hnil : t_drawn t = [] -> t_res t <> Ok tt ->
    exists (chain : nat -> list parameter) (gen : nat -> bs_state B * heap (list R) R) (sched_ : nat -> sch_state schedule_),
    chain 0 = map (fun v => fresh 0 v key) params /\
    gen 0 = (bs_start B (c_batch_size c) (c_seed c),
             arrays (if c_normalize_input c then fst (fst (zmuv_normalization X None None)) else X)
                    (if c_normalize_output c then fst (fst (zmuv_normalization1 y None None)) else y)) /\
    sched_ 0 = x_sched _ _ e /\
    (forall i d, nth_error (t_drawn t) i = Some d ->
       iterates (rule_of w) variate reserve target schedule_ B
         ((i <? bi) || (bi =? 0)) (if i <? bi then SList (V:=tensor R) else unravel)
         (x_ph _ _ e) (S (x_ph _ _ e)) (gen i) (gen (S i)) (sched_ i) (sched_ (S i)) (chain i) (chain (S i)) d) /\
    (t_res t = Ok tt -> forall k, k < length (b_samples (t_bnn t)) ->
       nth_error (b_samples (t_bnn t)) k =
         Some (unravel (map value (chain (S (kept bi (c_sample_steps c) k))))))).
  { intros Hd Hr. eexists (fun _ => _), (fun _ => _), (fun _ => _).
    split; [reflexivity|]. split; [reflexivity|]. split; [reflexivity|]. rewrite Hd.
    split; [intros [|i] d Hi; discriminate Hi|]. intros Hr'. contradiction. }
  pose proof (train_cases W get_sampler_ initialize log_error run_sampler schedule_ B builder c X y b e) as O; fold t in O;
    destruct O as [er Hb Hr _ _ _ _ _ _ Hd|nt er Hb _ Hr _ _ _ _ _ _ Hd|nt st Hb Hrb Hg Hi E Hl].
  1, 2: apply Hnil; [exact Hd|rewrite Hr; intros HH; discriminate HH].
  clear Hnil. rewrite Hinit in Hl. cbn [snd] in Hl.
  destruct (loop_picks W log_error run_sampler schedule_ B c _ _ _ N3 N1 _ _ _ _ _ _ Hl) as (P1 & _ & _ & P4).
  destruct (loop_drives W log_error run_sampler schedule_ B c _ _ _ Hlog _ _ _ _ _ _ Hl) as (us & rs & s1 & HU & HD & HF).
  fold E in HD.
  assert (HN : length (b_params (t_bnn t)) = length params).
  { rewrite (rb_params _ _ _ _ _ _ _ _ _ _ _ Hrb), combine_length, seq_length, Nat.min_id,
      (rb_xvars _ _ _ _ _ _ _ _ _ _ _ Hrb), <- Hpar. apply map_length. }
  rewrite HN in HD.
  pose proof (C86_published_chain variate reserve w target _ (bg_next E) schedule_ (Z.of_nat bi) us rs s1
    (bs_start B (c_batch_size c) (c_seed c), data_of c X y) (x_sched _ _ e) eps0 params gseed sd ids entropy Hs) as HC.
  assert (HNF : Forall no_fed_mass us).
  { eapply Forall_impl; [|exact HU]. intros u ->. intros i. reflexivity. }
  specialize (HC HNF HD). fold key in HC.
  destruct (follows_explicit _ _ _ _ _ _ _ _ _ HC) as (chain & C0 & CS).
  { apply Forall_forall. intros cr Hin. apply In_nth_error in Hin as [i Hi'].
    destruct (Forall2_nth_l _ _ _ _ _ _ _ HF Hi') as (d & _ & cost & HR & _). exact (f_equal is_ok HR). }
  destruct (drive_states E _ _ _ _ _ HD) as (states & S0 & SS).
  assert (IT : forall i d, nth_error (t_drawn t) i = Some d ->
    fst d = (if i <? bi then SList (V:=tensor R) else unravel) (map value (chain (S i))) /\
    iterates (rule_of w) variate reserve target schedule_ B
      ((i <? bi) || (bi =? 0)) (if i <? bi then SList (V:=tensor R) else unravel)
      (x_ph _ _ e) (S (x_ph _ _ e)) (s_bg E (states i)) (s_bg E (states (S i))) (s_sched E (states i)) (s_sched E (states (S i)))
      (chain i) (chain (S i)) d).
  { intros i d Hd. destruct (Forall2_nth_r _ _ _ _ _ _ _ HF Hd) as (cr & Hcr & cost0 & R1 & R2 & R3).
    fold E in cr, R1, R2, R3.
    destruct (CS i cr Hcr) as (b0 & evb & eps & f & o & user & cost & HB & HT & HR & HE & HP).
    destruct (SS i cr Hcr) as (_ & _ & HCall). rewrite R3 in HCall.
    change (cr_res E cr) with (cr_res (sampler_env variate reserve (kernel_of w) target (bg_state E) (bg_next E) schedule_) cr) in R1, HCall.
    change (cr_events E cr) with (cr_events (sampler_env variate reserve (kernel_of w) target (bg_state E) (bg_next E) schedule_) cr) in R2, HCall.
    rewrite HR in R1, HCall. rewrite HE in R2, HCall. injection R1 as R1 _.
    destruct (burnin_call_effects E _ _ _ _ _ _ HCall) as [EB ES].
    unfold batch_events in HB. cbn [bg_next sampler_env] in HB. unfold bg_effect in EB.
    unfold E in HB, EB. cbn [bg_next train_env] in HB, EB. fold E in EB. subst evb.
    destruct EB as [EB1 (rest & EB2 & _)]. cbn [app] in EB2. injection EB2 as EB2 _.
    assert (LK : (if i <? bi then SList (V:=tensor R) else unravel) (map value (chain (S i))) =
                 looks (burn_in_plan (Z.of_nat bi)) (0 + i) (map value (chain (S i)))).
    { cbn [looks burn_in_plan plus]. replace (Z.of_nat i <? Z.of_nat bi)%Z with (i <? bi); [now destruct (i <? bi)|].
      destruct (Nat.ltb_spec i bi), (Z.ltb_spec (Z.of_nat i) (Z.of_nat bi)); auto; lia. }
    split; [rewrite LK; symmetry; exact R1|].
    destruct (s_bg E (states i)) as [g h] eqn:Eg. cbv beta iota in EB1, EB2.
    destruct (bs_next B g h) as [[[[bx by_]|er] g'] h'] eqn:En; cbn [fst bind] in EB2; [|discriminate EB2].
    injection EB2 as ->. cbn [snd] in EB1.
    cbn [app sched_calls sched_results flat_map sch_drive] in ES.
    destruct (sch_next (sched E) (s_sched E (states i))) as [re mid] eqn:En1.
    destruct (sch_update (sched E) _ mid) as [ru sc2] eqn:Eu. injection ES as E1 E2 E3. subst sc2.
    exists bx, by_, eps, mid, user, cost. rewrite EB1. cbn [fst snd].
    split; [exact En|]. split; [|split; [|split; [|split]]].
    - intros n. rewrite (HP n). cbn [assoc].
      replace (cr_user (sampler_env variate reserve (kernel_of w) target (bg_state E) (bg_next E) schedule_) cr) with (@None (feed (tensor R)))
        by (symmetry; exact R3).
      destruct (n =? _); [reflexivity|]. destruct (n =? _); [reflexivity|].
      cbn [user_content lookup]. now destruct (heeds _ _).
    - destruct re as [v|]; cbn in E1; [|discriminate E1]. injection E1 as ->. exact En1.
    - rewrite <- HT. f_equal. cbn [adapts burn_in_plan plus]. f_equal.
      + destruct (Nat.ltb_spec i bi), (Z.ltb_spec (Z.of_nat i) (Z.of_nat bi)); auto; lia.
      + destruct (Nat.eqb_spec bi 0), (Z.leb_spec (Z.of_nat bi) 0); auto; lia.
    - rewrite LK. now symmetry.
    - rewrite <- R1. destruct ru as [[]|]; cbn in E2; [exact Eu|discriminate E2]. }
  exists chain, (fun i => s_bg E (states i)), (fun i => s_sched E (states i)).
  split; [exact C0|]. split; [now rewrite S0|]. split; [now rewrite S0|]. split; [intros i d Hd; exact (proj2 (IT i d Hd))|].
  intros Hr k Hk. rewrite (P1 k Hk). destruct (P4 Hr) as [P5 _].
  assert (Hlt : kept bi (c_sample_steps c) k < length (t_drawn t)) by (apply (kept_lt bi (c_sample_steps c)); [exact N3|unfold bi; lia]).
  apply nth_error_Some in Hlt. rewrite nth_error_map. fold bi.
  destruct (nth_error (t_drawn t) (kept bi (c_sample_steps c) k)) as [d|] eqn:Ed; [|contradiction].
  transitivity (Some (fst d)); [exact (f_equal (option_map fst) Ed)|]. f_equal. rewrite (proj1 (IT _ _ Ed)).
  replace (kept bi (c_sample_steps c) k <? bi) with false; [reflexivity|].
  symmetry. apply Nat.ltb_ge. pose proof (kept_gt bi (c_sample_steps c) k N3). lia.
Qed.
End Training.

(** ** The target of a network *)
Definition matrix_rows (v : tensor R) : list (list R) :=
  match shape v with [n; k] => map (fun i => window (i * k) k (data v)) (seq 0 n) | _ => [] end.
(** The cost that train gives to the sampler (bayesian_neural_network.py:428-430, 337-388) as an
    objective: evaluated at values of all variables of the graph, of which the network's own follow
    after [skip] others, under a batch of inputs and labels.  The gradients tf.gradients returns are
    arbitrary. *)
Definition network_objective (builder : net_builder R) (skip bs n px py : nat)
    (grads : list (tensor R) -> tensor R -> tensor R -> list (list R)) : @objective R := fun vals user =>
  match user px, user py with
  | Some bx, Some by_ =>
      do outs <- gn_out builder (firstn (length (gn_vars builder)) (skipn skip vals)) (matrix_rows bx);
      Ok (fst (negative_log_likelihood bs n vals (combine (data by_) outs)), grads vals bx by_)
  | _, _ => Raise (OtherError 0)
  end.

(** With that target, each iteration evaluates network, likelihood and priors at the state of the
    chain before it and at the batch of that iteration, tells the schedule the cost per datapoint
    (C56), and moves along its gradients. *)
Theorem C87_chain_of_a_network : forall rule variate reserve Sc B builder skip bs n px py grads ad look g g' sc sc' ps ps' d,
  px <> py -> 0 < bs ->
  iterates rule variate reserve (network_objective builder skip bs n px py grads) Sc B ad look px py g g' sc sc' ps ps' d ->
  exists bx by_ outs eps mid,
    bs_next B (fst g) (snd g) = (Ok (bx, by_), fst g', snd g') /\
    gn_out builder (firstn (length (gn_vars builder)) (skipn skip (map value ps))) (matrix_rows bx) = Ok outs /\
    sch_next Sc sc = (Ok eps, mid) /\
    moves rule variate reserve (hd 0%R (data eps)) ad (grads (map value ps) bx by_) ps = Some ps' /\
    let rows := combine (data by_) outs in
    (rows <> [] ->
     sch_update Sc (look (map value ps'),
       number (INR (length rows) / INR bs * batch_nll rows - log_prior (map value ps) rows / INR n)%R) mid = (Ok tt, sc')).
Proof.
  intros rule variate reserve Sc B builder skip bs n px py grads ad look g g' sc sc' ps ps' d Hne Hbs
    (bx & by_ & eps & mid & user & cost & HB & HU & HN & HT & HD & HS).
  unfold transition, network_objective in HT. rewrite (HU px), (HU py), !Nat.eqb_refl in HT.
  replace (py =? px) with false in HT by (symmetry; apply Nat.eqb_neq; congruence).
  destruct (gn_out builder _ (matrix_rows bx)) as [outs|er] eqn:EO; [|discriminate HT].
  cbn [bind] in HT. destruct (moves _ _ _ _ _ _ ps) as [qs|] eqn:EM; [|discriminate HT].
  cbn [option_map] in HT. injection HT as <- <-.
  exists bx, by_, outs, eps, mid. rewrite <- HD. split; [exact HB|]. split; [exact EO|]. split; [exact HN|]. split; [exact EM|].
  intros rows Hr. destruct (C56_cost bs n (map value ps) rows Hbs Hr) as [<- _]. exact HS.
Qed.

(** ** A concrete training: minus log density x^2/2 of a network with one variable, two networks,
    burn-in 1, thinning 2. *)
Definition demo_which : which R := Sghmc (SGHMC.Config (1 / 2)%R 5%R).
Definition demo_params : list (tensor R) := [Tensor [1] [1%R]; Tensor [1] [2%R]].
Definition demo_objective : @objective R := fun vs user =>
  match user 0, user 1 with
  | Some bx, Some by_ => Ok (hd 0%R (data by_), map (fun v => data v) vs)
  | _, _ => Raise ValueError
  end.
Definition demo_init (z : sess (kernel_of demo_which)) : res unit * sess (kernel_of demo_which) :=
  (Ok tt, session_of demo_which 0%R demo_params (noise_ops (Some 3%Z) (Some 7%Z) [] (fun _ => (0, 0)%Z) 2)).
Definition demo_ext : ext (sess (kernel_of demo_which)) (PBNNDemo.demo_schedule (T:=R)) :=
  Ext _ (PBNNDemo.demo_schedule (T:=R)) [] [] 0 (session_of demo_which 0%R [] []) (PBNNDemo.demo_T (T:=R) 1).
Notation demo_training variate := (BNN.train (sess (kernel_of demo_which)) (fun z => (Ok tt, z)) demo_init (fun _ z => (Ok tt, z))
  (session_run_model variate (fun n => n) (kernel_of demo_which) demo_objective) (PBNNDemo.demo_schedule (T:=R)) (PBNNDemo.demo_gb (T:=R))
  (PBNNDemo.demo_net (T:=R) [] 2) (PBNNDemo.demo_config 2 9 1 2 false false) (Matrix (PBNNDemo.demo_X (T:=R))) (PBNNDemo.demo_y (T:=R)) fresh_bnn demo_ext).
Example C87_example : forall variate : Z * Z -> nat -> R,
  let t := demo_training variate in
  construct_bnn (PBNNDemo.demo_args 2 9 1 2 false false) = Ok (PBNNDemo.demo_config 2 9 1 2 false false) /\
  prepared demo_which (PBNNDemo.demo_schedule (T:=R)) (PBNNDemo.demo_net (T:=R) [] 2) (fun z => (Ok tt, z)) demo_init demo_ext 0%R
    demo_params (Some 3%Z) 7%Z [] (fun _ => (0, 0)%Z) /\
  is_ok (BNN.t_res _ _ t) = true /\ length (BNN.t_drawn _ _ t) = 5 /\ length (b_samples (BNN.t_bnn _ _ t)) = 2.
Proof.
  intros variate t. split; [reflexivity|]. split; [split; reflexivity|].
  unfold t. split; [lazy -[IZR]; reflexivity|]. split; lazy -[IZR]; reflexivity.
Qed.

(** That training evaluates a network: the batch of its first iteration has three rows. *)
Example C87_network_example : forall vals bx by_ grads,
  shape bx = [3; 1] -> length (data by_) = 3 ->
  let user n := if n =? 0 then Some bx else if n =? 1 then Some by_ else None in
  exists cost, network_objective (PBNNDemo.demo_net (T:=R) [] 2) 0 3 5 0 1 grads vals user = Ok (cost, grads vals bx by_) /\
    length (matrix_rows bx) = 3.
Proof.
  intros vals bx by_ grads Hx Hy user. unfold network_objective, matrix_rows. cbn [Nat.eqb user]. rewrite Hx.
  eexists. split; reflexivity.
Qed.

Print Assumptions C87_training_samples_the_chain.
Print Assumptions C87_chain_of_a_network.
Print Assumptions C87_example.
