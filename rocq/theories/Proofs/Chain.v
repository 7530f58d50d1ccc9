(** The complete samplers simulate the chains of Spec/Chain.v. *)
From Coq Require Import List Arith Lia ZArith Bool Reals Lra.
From Verif.Base Require Import Py Num Vec Lists.
From Verif.Model Require Import TensorUtils BurnIn SGHMC SGLD Stepsize BaseClasses Session Relativistic.
From Verif.Spec Require Import Sampler Dynamics Trajectory Chain.
From Verif.Proofs Require Import Sampler SamplerHistory Dynamics Trajectory Session.
Import ListNotations.

Section Sim.
Variable stream : Z * Z -> nat -> R.
Variable reserve : nat -> nat.
Variable K : kernel (T:=R).
Variable cg : @objective R.
Variable rule : R -> bool -> R -> R -> entry -> entry.
(** [sim s d es]: the kernel state [s] holds a parameter of shape [d] with entries [es]. *)
Variable sim : k_state K -> list nat -> list entry -> Prop.
Hypothesis sim_value : forall s d es, sim s d es -> k_value K s = Tensor d (map theta es).
Definition fed_for (adapting : bool) (es : list entry) : option (list R) :=
  if adapting then None else Some (map mass es).
Hypothesis sim_step : forall s d es eps adapting gs noise i, sim s d es -> length gs = length es ->
  sim (k_step K eps gs (map (fun k => noise (i + k)) (seq 0 (length es))) (fed_for adapting es) s)
      d (moved rule eps adapting noise i gs es).

Definition masses (ps : list parameter) : list (tensor R) :=
  map (fun p => column_tensor (map mass (entries p))) ps.
Definition sim1 (q : k_state K * noise_op) (p : parameter) : Prop :=
  sim (fst q) (dims p) (entries p) /\ op_key (snd q) = seeds p /\ op_pos (snd q) = used p.

Definition minv_rule : Prop := forall s d es eps adapting gs xi, sim s d es ->
  length gs = length es -> length xi = length es ->
  k_minv K (fed_for adapting es) (k_step K eps gs xi (fed_for adapting es) s) =
  map (mass_of adapting) es.
Definition rule_mass : Prop := forall eps adapting g x e, mass (rule eps adapting g x e) = mass_of adapting e.

Lemma moved_length : forall eps ad noise gs es i, length gs = length es ->
  length (moved rule eps ad noise i gs es) = length es.
Proof.
  intros eps ad noise gs. induction gs as [|g gs IH]; intros [|e es] i HL; try discriminate HL; [reflexivity|].
  cbn in HL |- *. now rewrite IH by lia.
Qed.
Lemma moved_mass : rule_mass -> forall eps ad noise gs es i, length gs = length es ->
  map mass (moved rule eps ad noise i gs es) = map (mass_of ad) es.
Proof.
  intros RM eps ad noise gs. induction gs as [|g gs IH]; intros [|e es] i HL; try discriminate HL; [reflexivity|].
  cbn in HL |- *. now rewrite RM, IH by lia.
Qed.

Lemma run_params_sim : forall eps f (ad : bool) ps qs i gss,
  Forall2 sim1 qs ps ->
  (forall j p, nth_error ps j = Some p ->
     lookup f (KMinv (i + j)) = if ad then None else Some (column_tensor (map mass (entries p)))) ->
  match moves rule stream reserve eps ad gss ps with
  | Some ps' => exists ms qs', run_params stream reserve K eps f i gss qs = Ok (ms, qs') /\
      Forall2 sim1 qs' ps' /\ (minv_rule -> rule_mass -> ms = masses ps')
  | None => run_params stream reserve K eps f i gss qs = Raise ValueError
  end.
Proof.
  intros eps f ad ps qs i gss HF. revert i gss.
  induction HF as [|[s o] p qs ps (Hs & Hk & Hp) HF IH]; intros i gss HL.
  - destruct gss; cbn; [|reflexivity]. exists [], []. auto.
  - destruct gss as [|gs gss]; [reflexivity|]. cbn [moves run_params].
    unfold run_param. cbn [fst snd] in *. rewrite (sim_value _ _ _ Hs). cbn [data]. rewrite map_length.
    destruct (Nat.eqb_spec (length gs) (length (entries p))) as [El|El]; [|reflexivity]. cbn [andb].
    pose proof (HL 0 p eq_refl) as HL0. rewrite Nat.add_0_r in HL0.
    assert (Hfed : option_map data (lookup f (KMinv i)) = fed_for ad (entries p)).
    { rewrite HL0. destruct ad; reflexivity. }
    rewrite Hfed.
    replace (match fed_for ad (entries p) with Some m => length m =? length (entries p) | None => true end)
      with true by (destruct ad; cbn; [reflexivity|symmetry; apply Nat.eqb_eq; now rewrite map_length]).
    unfold draw. rewrite Hk, Hp.
    set (xi := map _ (seq 0 (length (entries p)))).
    cbn [bind].
    specialize (IH (S i) gss).
    assert (HL' : forall j q, nth_error ps j = Some q ->
      lookup f (KMinv (S i + j)) = if ad then None else Some (column_tensor (map mass (entries q)))).
    { intros j q Hq. specialize (HL (S j) q Hq). now rewrite Nat.add_succ_r in HL. }
    specialize (IH HL').
    destruct (moves rule stream reserve eps ad gss ps) as [ps'|]; cbn [option_map].
    + destruct IH as (ms & qs' & -> & HF' & HM). cbn [bind].
      eexists _, _. split; [reflexivity|]. split.
      * constructor; [|exact HF']. split; [|split; cbn; congruence].
        cbn [fst move dims entries]. subst xi. now apply sim_step.
      * intros MR RM. cbn [masses map]. f_equal; [|auto].
        cbn [move entries]. rewrite (moved_mass RM) by exact El. f_equal. eapply MR; eauto.
        subst xi. now rewrite map_length, seq_length.
    + rewrite IH. reflexivity.
Qed.

Definition simz (z : sess K) (ps : list parameter) : Prop := Forall2 sim1 (z_params K z) ps.
Lemma simz_values : forall z ps, simz z ps -> values K z = map value ps.
Proof.
  intros z ps HF. unfold values. induction HF as [|q p qs ps (Hs & _) HF IH]; [reflexivity|].
  cbn. rewrite IH, (sim_value _ _ _ Hs). reflexivity.
Qed.

Lemma session_sim : forall f eps (ad : bool) z ps, simz z ps -> lookup f KEps = Some eps ->
  (forall j p, nth_error ps j = Some p ->
     lookup f (KMinv j) = if ad then None else Some (column_tensor (map mass (entries p)))) ->
  match transition rule stream reserve cg (hd 0%R (data eps)) ad (fun n => lookup f (KUser n)) ps with
  | Some (cost, ps') => exists z' o, session_run_model stream reserve K cg f z = (Ok o, z') /\ simz z' ps' /\
      o_theta o = map value ps' /\ o_cost o = number cost /\ (minv_rule -> rule_mass -> o_minv o = masses ps')
  | None => exists e, session_run_model stream reserve K cg f z = (Raise e, z)
  end.
Proof.
  intros f eps ad z ps HZ He HL. unfold transition, session_run_model. rewrite (simz_values _ _ HZ).
  destruct (cg (map value ps) (fun n => lookup f (KUser n))) as [[cost gss]|e]; [|eauto].
  assert (Hf : fed_eps K f z = hd 0%R (data eps)) by (unfold fed_eps; now rewrite He, n0_R).
  rewrite Hf.
  pose proof (run_params_sim (hd 0%R (data eps)) f ad ps (z_params K z) 0 gss HZ HL) as HP.
  destruct (moves rule stream reserve (hd 0%R (data eps)) ad gss ps) as [ps'|]; cbn [option_map].
  - destruct HP as (ms & qs & -> & HF & HM).
    eexists _, _. split; [reflexivity|]. split; [exact HF|]. cbn [o_theta o_cost o_minv].
    split; [|split; [reflexivity|exact HM]].
    now apply simz_values.
  - rewrite HP. eauto.
Qed.

Variable B : Type.
Variable bg : option (B -> res (list (nat * tensor R)) * B).
Variable sc : schedule (tensor R) (sample (tensor R) * tensor R).
Let E := sampler_env stream reserve K cg B bg sc.

(** One call, from its description as a [step_spec]. *)
Lemma step_follows : forall pl t u s s1 r ev base ps rest,
  step_spec E base (looks pl t) s s1 r ev -> simz (s_sess E s) ps ->
  (forall j p, nth_error ps j = Some p ->
     lookup base (KMinv j) = if adapts pl t then None else Some (column_tensor (map mass (entries p)))) ->
  (forall n, lookup base (KUser n) = if heeds pl t then lookup (user_content u) (KUser n) else None) ->
  (forall ps', simz (s_sess E s1) ps' ->
     (runs ev = [] \/ exists f e, runs ev = [(f, Raise e)]) -> ps' = ps ->
     follows rule stream reserve cg pl E (if is_ok r then S t else t) ps' rest) ->
  (forall ps' f o, simz (s_sess E s1) ps' -> runs ev = [(f, Ok o)] ->
     (minv_rule -> rule_mass -> o_minv o = masses ps') ->
     (exists eps user cost, transition rule stream reserve cg eps (adapts pl t) user ps = Some (cost, ps')) ->
     follows rule stream reserve cg pl E (if is_ok r then S t else t) ps' rest) ->
  follows rule stream reserve cg pl E t ps
    (CallRecord E u s r ev s1 :: rest).
Proof.
  intros pl t u s s1 r ev base ps rest [SO _ _ _ SS] HZ HB HU Hstay Hgo.
  assert (RB : forall evb b l, batch_events E evb b -> runs (evb ++ l) = runs l).
  { intros evb b l HBE. unfold runs. rewrite flat_map_app. unfold batch_events in HBE.
    destruct (bg_next E); [subst|destruct HBE; subst]; reflexivity. }
  inversion SO; subst.
  - (* batch *)
    eapply F_not_run; cbn [cr_res cr_events]; [reflexivity|reflexivity|].
    cbn [runs flat_map map fst snd run_all] in SS. injection SS as Hse. rewrite Hse in HZ.
    apply (Hstay ps HZ); auto.
  - eapply F_not_run; cbn [cr_res cr_events]; [reflexivity|eapply RB; eauto|].
    erewrite RB in SS by eauto. cbn [runs flat_map map fst snd run_all] in SS. injection SS as Hse. rewrite Hse in HZ.
    apply (Hstay ps HZ); auto. left. eapply RB; eauto.
  - erewrite RB in SS by eauto. destruct H0 as (Fe & Fu & Fm).
    cbn [runs flat_map map fst snd run_all app] in SS.
    destruct (run E f (s_sess E s)) as [r1 z1] eqn:Er. injection SS as Hr Hz. subst r1 z1.
    pose proof (session_sim f eps (adapts pl t) (s_sess E s) ps HZ Fe) as HS.
    assert (HM : forall j p, nth_error ps j = Some p ->
       lookup f (KMinv j) = if adapts pl t then None else Some (column_tensor (map mass (entries p)))).
    { intros j p Hj. rewrite Fm. now apply HB. }
    specialize (HS HM). change (session_run_model stream reserve K cg f (s_sess E s)) with (run E f (s_sess E s)) in HS.
    rewrite Er in HS.
    destruct (transition rule stream reserve cg (hd 0%R (data eps)) (adapts pl t) (fun n => lookup f (KUser n)) ps)
      as [[cost ps']|] eqn:ET.
    + destruct HS as (z' & o & HE & _). discriminate HE.
    + destruct HS as (e' & HE).
      eapply F_run_fails; cbn [cr_res cr_events]; [reflexivity|eassumption|reflexivity| |exact ET|].
      * intros n. rewrite Fu. cbn [cr_user]. now rewrite HU.
      * apply (Hstay ps); auto.
        -- assert (s_sess E s1 = s_sess E s) as -> by congruence. exact HZ.
        -- right. exists f, e. erewrite RB by eauto. reflexivity.
  - erewrite RB in SS by eauto. destruct H0 as (Fe & Fu & Fm).
    cbn [runs flat_map map fst snd run_all app] in SS.
    destruct (run E f (s_sess E s)) as [r1 z1] eqn:Er. injection SS as Hr Hz. subst r1 z1.
    pose proof (session_sim f eps (adapts pl t) (s_sess E s) ps HZ Fe) as HS.
    assert (HM : forall j p, nth_error ps j = Some p ->
       lookup f (KMinv j) = if adapts pl t then None else Some (column_tensor (map mass (entries p)))).
    { intros j p Hj. rewrite Fm. now apply HB. }
    specialize (HS HM). change (session_run_model stream reserve K cg f (s_sess E s)) with (run E f (s_sess E s)) in HS.
    rewrite Er in HS.
    destruct (transition rule stream reserve cg (hd 0%R (data eps)) (adapts pl t) (fun n => lookup f (KUser n)) ps)
      as [[cost ps']|] eqn:ET; [|destruct HS as (? & HE); discriminate HE].
    destruct HS as (z' & o' & HE & HZ' & Ht & Hc & Hmv).
    assert (o' = o) by congruence. assert (z' = s_sess E s1) by congruence. subst o' z'.
    rewrite Ht, Hc in *.
    eapply F_update_fails; cbn [cr_res cr_events]; [reflexivity|eassumption|exact ET|reflexivity| |].
    + intros n. rewrite Fu. cbn [cr_user]. now rewrite HU.
    + eapply (Hgo ps' f o HZ'); [erewrite RB by eauto; reflexivity|exact Hmv|eauto].
  - erewrite RB in SS by eauto. destruct H0 as (Fe & Fu & Fm).
    cbn [runs flat_map map fst snd run_all app] in SS.
    destruct (run E f (s_sess E s)) as [r1 z1] eqn:Er. injection SS as Hr Hz. subst r1 z1.
    pose proof (session_sim f eps (adapts pl t) (s_sess E s) ps HZ Fe) as HS.
    assert (HM : forall j p, nth_error ps j = Some p ->
       lookup f (KMinv j) = if adapts pl t then None else Some (column_tensor (map mass (entries p)))).
    { intros j p Hj. rewrite Fm. now apply HB. }
    specialize (HS HM). change (session_run_model stream reserve K cg f (s_sess E s)) with (run E f (s_sess E s)) in HS.
    rewrite Er in HS.
    destruct (transition rule stream reserve cg (hd 0%R (data eps)) (adapts pl t) (fun n => lookup f (KUser n)) ps)
      as [[cost ps']|] eqn:ET; [|destruct HS as (? & HE); discriminate HE].
    destruct HS as (z' & o' & HE & HZ' & Ht & Hc & Hmv).
    assert (o' = o) by congruence. assert (z' = s_sess E s1) by congruence. subst o' z'.
    rewrite Ht, Hc in *.
    eapply F_moves; cbn [cr_res cr_events]; [eassumption|exact ET|reflexivity|reflexivity| |].
    + intros n. rewrite Fu. cbn [cr_user]. now rewrite HU.
    + eapply (Hgo ps' f o HZ'); [erewrite RB by eauto; reflexivity|exact Hmv|eauto].
Qed.

(** *** Plain samplers *)
Lemma plain_follows : forall us t ps s rs s',
  (forall u f i, In u us -> u = Some f -> lookup f (KMinv i) = None) ->
  simz (s_sess E s) ps -> drive E (mcmc_next E) us s = (rs, s') ->
  follows rule stream reserve cg plain_plan E t ps rs.
Proof.
  intros us. induction us as [|u us IH]; intros t ps s rs s' HU HZ HD; cbn [drive] in HD.
  - injection HD as <- _. apply F_end.
  - destruct (call E (mcmc_next E) u s) as [[r s1] ev] eqn:Ec.
    destruct (drive E (mcmc_next E) us s1) as [rs2 s2] eqn:Ed. injection HD as <- _.
    pose proof (mcmc_call E _ _ _ _ _ Ec) as HS.
    eapply (step_follows plain_plan t u s s1 r ev (user_content u) ps rs2); eauto.
    + intros j p _. cbn [adapts plain_plan]. destruct u as [f|]; [|reflexivity].
      cbn [user_content]. eapply HU; [left; reflexivity|reflexivity].
    + intros ps' HZ' _ _. eapply IH; eauto. intros. eapply HU; eauto. now right.
    + intros ps' f o HZ' _ _ _. eapply IH; eauto. intros. eapply HU; eauto. now right.
Qed.

(** *** Burn-in samplers *)
Variable burn : Z.

Lemma lookup_minv_feed : forall n (m : list (tensor R)) i, i < n ->
  lookup (minv_feed n m) (KMinv i) = nth_error m i.
Proof.
  intros n m i Hi. unfold minv_feed.
  assert (G : forall n (m : list (tensor R)) k i, i < n -> lookup (combine (map KMinv (seq k n)) m) (KMinv (k + i)) = nth_error m i).
  { clear. induction n as [|n IH]; intros m k i Hi; [lia|]. cbn [seq map combine].
    destruct m as [|x m]; [now destruct i|]. cbn [combine lookup].
    destruct i as [|i].
    - rewrite Nat.add_0_r. cbn. now rewrite Nat.eqb_refl.
    - cbn [key_eqb]. replace (k + S i =? k) with false by (symmetry; apply Nat.eqb_neq; lia).
      replace (k + S i) with (S k + i) by lia. cbn [nth_error]. apply IH. lia. }
  apply (G n m 0 i Hi).
Qed.
Lemma lookup_minv_feed_user : forall n (m : list (tensor R)) k, lookup (minv_feed n m) (KUser k) = None.
Proof.
  intros n m k. unfold minv_feed. generalize 0. revert m.
  induction n as [|n IH]; intros m j; [reflexivity|]. destruct m; [reflexivity|]. cbn. apply IH.
Qed.

Lemma moves_length : forall eps ad gss ps ps', moves rule stream reserve eps ad gss ps = Some ps' -> length ps' = length ps.
Proof.
  intros eps ad gss. induction gss as [|g gss IH]; intros [|p ps] ps' H; try discriminate H; [injection H as <-; reflexivity|].
  cbn in H. destruct (_ =? _); [|discriminate H].
  destruct (moves rule stream reserve eps ad gss ps) as [qs|] eqn:Em; [|discriminate H].
  injection H as <-. cbn. f_equal. now apply IH.
Qed.
Lemma moves_masses : rule_mass -> forall eps gss ps ps',
  moves rule stream reserve eps false gss ps = Some ps' -> masses ps' = masses ps.
Proof.
  intros RM eps gss. induction gss as [|g gss IH]; intros [|p ps] ps' H; try discriminate H; [injection H as <-; reflexivity|].
  cbn in H. destruct (Nat.eqb_spec (length g) (length (entries p))) as [El|]; [|discriminate H].
  destruct (moves rule stream reserve eps false gss ps) as [qs|] eqn:Em; [|discriminate H].
  injection H as <-. cbn [masses map]. f_equal; [|now apply IH].
  cbn [move entries]. rewrite (moved_mass RM) by exact El. f_equal.
Qed.
Lemma transition_moves : forall eps ad user ps cost ps',
  transition rule stream reserve cg eps ad user ps = Some (cost, ps') ->
  exists gss, moves rule stream reserve eps ad gss ps = Some ps'.
Proof.
  intros eps ad user ps cost ps' H. unfold transition in H.
  destruct (cg (map value ps) user) as [[c gss]|]; [|discriminate H].
  destruct (moves rule stream reserve eps ad gss ps) as [qs|] eqn:Em; [|discriminate H].
  injection H as _ <-. eauto.
Qed.

Hypothesis MR : minv_rule.
Hypothesis RM : rule_mass.

Lemma burnin_follows : forall us pre s ps rs s' b0 c0 z0,
  (forall u f i, In u us -> u = Some f -> lookup f (KMinv i) = None) ->
  burn_inv E burn b0 c0 z0 pre s -> simz (s_sess E s) ps ->
  ((0 < burn)%Z -> forall m, minv E s = Some m -> m = masses ps) ->
  drive E (burnin_next E burn (length ps)) us s = (rs, s') ->
  follows rule stream reserve cg (burn_in_plan burn) E (successes E pre) ps rs.
Proof.
  intros us. induction us as [|u us IH]; intros pre s ps rs s' b0 c0 z0 HU HI HZ HM HD; cbn [drive] in HD.
  - injection HD as <- _. apply F_end.
  - destruct (call E (burnin_next E burn (length ps)) u s) as [[r s1] ev] eqn:Ec.
    destruct (drive E (burnin_next E burn (length ps)) us s1) as [rs2 s2] eqn:Ed. injection HD as <- _.
    pose proof (burn_inv_step E _ _ _ _ _ _ _ _ _ _ _ HI Ec) as HI1.
    set (c := CallRecord E u s r ev s1) in HI1.
    assert (HC : forall ps', length ps' = length ps -> simz (s_sess E s1) ps' ->
        ((0 < burn)%Z -> forall m, minv E s1 = Some m -> m = masses ps') ->
        follows rule stream reserve cg (burn_in_plan burn) E
          (if is_ok r then S (successes E pre) else successes E pre) ps' rs2).
    { intros ps' HL HZ' HM'. replace (if is_ok r then _ else _) with (successes E (pre ++ [c])).
      - refine (IH (pre ++ [c]) s1 ps' rs2 s2 b0 c0 z0 _ HI1 HZ' HM' _); [|now rewrite HL].
        intros u0 f i Hin. apply HU. now right.
      - rewrite successes_snoc. unfold succeeded, c. cbn [cr_res]. destruct (is_ok r); lia. }
    assert (HUM : forall j, lookup (user_content u) (KMinv j) = None).
    { intros j. destruct u as [f|]; [|reflexivity]. eapply HU; [left; reflexivity|reflexivity]. }
    destruct (burnin_call E _ _ _ _ _ _ _ _ _ _ _ HI Ec)
      as [(Hlt & HS & Hmv)|[(Hle & HS)|(Hp & Hge & m & Hm & _ & Hm1 & HS)]].
    + (* burning in *)
      assert (Hb : (Z.of_nat (successes E pre) <? burn)%Z = true) by (now apply Z.ltb_lt).
      eapply (step_follows (burn_in_plan burn) _ u s s1 r ev (user_content u) ps rs2); eauto.
      * replace (looks (burn_in_plan burn) (successes E pre)) with (as_list (V:=tensor R)); [exact HS|].
        cbn [looks burn_in_plan]. now rewrite Hb.
      * intros j p _. cbn [adapts burn_in_plan]. rewrite Hb. cbn. apply HUM.
      * intros n. cbn [heeds burn_in_plan]. now rewrite Hb.
      * intros ps' HZ' Hr ->. apply HC; auto. intros Hp m Hm. apply HM; auto.
        destruct Hr as [Hr|(f & e & Hr)]; rewrite Hr in Hmv; congruence.
      * intros ps' f o HZ' Hr Ho (eps & user & cost & HT). rewrite Hr in Hmv.
        destruct (transition_moves _ _ _ _ _ _ HT) as (gss & Hg).
        apply HC; auto; [eapply moves_length; eauto|].
        intros _ m Hm. rewrite (Ho MR RM) in Hmv. congruence.
    + (* no burn-in *)
      assert (Hb : (Z.of_nat (successes E pre) <? burn)%Z = false) by (apply Z.ltb_ge; lia).
      assert (Hb2 : (burn <=? 0)%Z = true) by (apply Z.leb_le; lia).
      eapply (step_follows (burn_in_plan burn) _ u s s1 r ev (user_content u) ps rs2); eauto.
      * replace (looks (burn_in_plan burn) (successes E pre)) with (unravel (V:=tensor R)); [exact HS|].
        cbn [looks burn_in_plan]. now rewrite Hb.
      * intros j p _. cbn [adapts burn_in_plan]. rewrite Hb, Hb2. cbn. apply HUM.
      * intros n. cbn [heeds burn_in_plan]. now rewrite Hb, Hb2.
      * intros ps' HZ' Hr ->. apply HC; auto. lia.
      * intros ps' f o HZ' Hr Ho (eps & user & cost & HT).
        destruct (transition_moves _ _ _ _ _ _ HT) as (gss & Hg).
        apply HC; auto; [eapply moves_length; eauto|]. lia.
    + (* after burn-in *)
      assert (Hb : (Z.of_nat (successes E pre) <? burn)%Z = false) by (apply Z.ltb_ge; lia).
      assert (Hb2 : (burn <=? 0)%Z = false) by (apply Z.leb_gt; lia).
      pose proof (HM Hp m Hm) as ->.
      eapply (step_follows (burn_in_plan burn) _ u s s1 r ev (minv_feed (length ps) (masses ps)) ps rs2); eauto.
      * replace (looks (burn_in_plan burn) (successes E pre)) with (unravel (V:=tensor R)); [exact HS|].
        cbn [looks burn_in_plan]. now rewrite Hb.
      * intros j p Hj. cbn [adapts burn_in_plan]. rewrite Hb, Hb2. cbn [orb].
        rewrite lookup_minv_feed by (apply nth_error_Some; congruence).
        unfold masses. now rewrite nth_error_map, Hj.
      * intros n. cbn [heeds burn_in_plan]. rewrite Hb, Hb2. apply lookup_minv_feed_user.
      * intros ps' HZ' Hr ->. apply HC; auto. intros _ m2 Hm2. congruence.
      * intros ps' f o HZ' Hr Ho (eps & user & cost & HT).
        destruct (transition_moves _ _ _ _ _ _ HT) as (gss & Hg).
        apply HC; auto; [eapply moves_length; eauto|].
        intros _ m2 Hm2. cbn [adapts burn_in_plan] in Hg. rewrite Hb, Hb2 in Hg. cbn [orb] in Hg.
        rewrite (moves_masses RM _ _ _ _ Hg). congruence.
Qed.
End Sim.
