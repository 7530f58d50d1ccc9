(** C33: noise of different parameters under a seed. *)
From Coq Require Import List Arith Lia ZArith Bool Reals Lra.
From Verif.Base Require Import Py Num Vec Lists.
From Verif.Model Require Import TensorUtils BurnIn SGHMC SGLD Stepsize BaseClasses Session.
From Verif.Spec Require Import Sampler Dynamics Trajectory.
From Verif.Proofs Require Import Sampler SamplerHistory Dynamics Trajectory Session.
From Verif.Props Require Import PSampler PSession.
Import ListNotations.

Section S.
Context {T : Type} {NT : Num T}.

Lemma nth_noise_ops : forall g s ids ent n j o, nth_error (noise_ops g s ids ent n) j = Some o ->
  o = make_noise_op g s (nth j ids 0) (ent j) /\ j < n.
Proof.
  intros g s ids ent n j o Hj. unfold noise_ops in Hj.
  rewrite nth_error_map in Hj.
  assert (L : j < n).
  { destruct (nth_error (seq 0 n) j) as [x|] eqn:Ex; [|discriminate].
    assert (HN : nth_error (seq 0 n) j <> None) by congruence.
    apply nth_error_Some in HN. now rewrite seq_length in HN. }
  split; [|exact L].
  rewrite (nth_error_nth' (seq 0 n) 0) in Hj by now rewrite seq_length.
  rewrite seq_nth in Hj by exact L. cbn in Hj. now injection Hj as <-.
Qed.

(** Call [c] changed parameter [j] by one step with the standard normals [xi]. *)
Definition received stream reserve (w : which T) cg B bg sc
    (c : call_record (sampler_env stream reserve (kernel_of w) cg B bg sc)) (j : nat) (xi : list T) : Prop :=
  exists s op op' eps g fed,
    nth_error (z_params _ (s_sess _ (cr_pre _ c))) j = Some (s, op) /\
    xi = fst (draw stream reserve (length (data (k_value (kernel_of w) s))) op) /\
    nth_error (z_params _ (s_sess _ (cr_post _ c))) j = Some (k_step (kernel_of w) eps g xi fed s, op').
End S.

(** With a seed: in every step, all parameters draw from one and the same stream; variate
    number k of a parameter with m elements is number t*reserve m + k, t the number of steps so
    far.  Parameters of the same size get the same draws; in the first step the draws of any two
    parameters agree on their common length. *)
Theorem C33_seeded_parameters_share_one_stream :
  forall (T : Type) (NT : Num T) stream reserve (w : which T) cg B bg sc b n us rs s' b0 c0 eps0 params
         (graph_seed : option Z) (seed : Z) ids ent,
  let E := sampler_env stream reserve (kernel_of w) cg B bg sc in
  drive E (burnin_next E b n) us (initial_state E b0 c0 (session_of w eps0 params
     (noise_ops graph_seed (Some seed) ids ent (length params)))) = (rs, s') ->
  exists key, forall c f o, In c rs -> runs (cr_events E c) = [(f, Ok o)] ->
  exists t, forall j v, nth_error params j = Some v ->
    received stream reserve w cg B bg sc c j
      (map (fun k => stream key (t * reserve (length (data v)) + k)) (seq 0 (length (data v)))).
Proof.
  intros T NT stream reserve w cg B bg sc b n us rs s' b0 c0 eps0 params gs seed ids ent E HD.
  set (ops := noise_ops gs (Some seed) ids ent (length params)) in *.
  exists (match get_seed gs (Some seed) 0 with Some k => k | None => (0, 0)%Z end).
  intros c f o Hin Hruns.
  assert (Lo : length ops = length params) by (unfold ops, noise_ops; now rewrite map_length, seq_length).
  destruct (history_reached stream reserve w cg B bg sc b n us rs s' b0 c0 eps0 params ops HD c Hin) as [(_ & _ & t & R3) _].
  exists t. intros j v Hj.
  destruct (session_of_nth w eps0 params ops j v Lo Hj) as (op & Hop & Hz).
  destruct (R3 j _ _ Hz) as (ins & _ & _ & Hn & Hi). rewrite init_value in Hn, Hi.
  apply in_split in Hin as (pre & post & ->).
  destruct (drive_split E _ _ _ _ _ _ _ HD) as (Hc & us1 & H1 & _).
  pose proof (burnin_hist E b n _ _ _ _ _ _ H1) as HI.
  assert (HS : exists base fmt, step_spec E base fmt (cr_pre E c) (cr_post E c) (cr_res E c) (cr_events E c)).
  { destruct (burnin_call E b n _ _ _ _ _ _ _ _ _ HI Hc)
      as [(_ & HS & _)|[(_ & HS)|(_ & _ & m & _ & _ & _ & HS)]]; eauto. }
  destruct HS as (base & fmt & HS). pose proof (ss_sess E _ _ _ _ _ _ HS) as HR.
  rewrite Hruns in HR. cbn [map fst snd run_all] in HR.
  destruct (run E f (s_sess E (cr_pre E c))) as [r z1] eqn:Er. injection HR as -> HZ.
  cbn [run sampler_env E] in Er. unfold session_run_model in Er.
  destruct (cg _ _) as [[cst gr]|e] eqn:Ecg; [|discriminate].
  destruct (run_params _ _ _ _ _ _ _ _) as [[ms ps]|e] eqn:Erp; [|discriminate].
  injection Er as _ Hpost.
  destruct (run_params_nth stream reserve _ _ _ _ _ _ _ _ Erp) as (_ & _ & HN).
  destruct (HN j _ _ Hn) as (g & _ & _ & Hq & _). cbn zeta in Hq. cbn [i_eps i_grad i_xi i_fed] in Hq.
  assert (Lv : length (data (k_value (kernel_of w) (k_run (kernel_of w) ins (init_of w v)))) = length (data v)).
  { destruct (inv_clone w _ _ Hi) as [C1 C2]. now rewrite C1, C2. }
  assert (Hxi : map (fun k => stream (match get_seed gs (Some seed) 0 with Some k => k | None => (0, 0)%Z end)
                      (t * reserve (length (data v)) + k)) (seq 0 (length (data v))) =
                fst (draw stream reserve (length (data (k_value (kernel_of w) (k_run (kernel_of w) ins (init_of w v)))))
                       (advanced reserve (length (data v)) t op))).
  { rewrite Lv. unfold draw, advanced. cbn [fst op_key op_pos]. apply map_ext. intros k.
    destruct (nth_noise_ops _ _ _ _ _ _ _ Hop) as [-> _].
    unfold make_noise_op. destruct gs; reflexivity. }
  red. exists (k_run (kernel_of w) ins (init_of w v)), (advanced reserve (length (data v)) t op). eexists. eexists. eexists. eexists.
  split; [exact Hn|]. split; [exact Hxi|]. rewrite Hxi.
  change (s_sess _ (cr_post _ c)) with (s_sess E (cr_post E c)). rewrite <- HZ, <- Hpost. exact Hq.
Qed.

(** What independent parameters would see: uncorrelated draws. *)
Section Correlation.
Variable O : Type.
Variable P : expectation O.
Variable stream : O -> Z * Z -> nat -> R.   (* the random generator *)
Variable reserve : nat -> nat.
Variables (graph_seed : option Z) (ids : list nat) (entropy : nat -> Z * Z) (n_params : nat).
(** Draw number k of parameter j (with m elements) in step t. *)
Definition noise_of (seed : option Z) (t m j k : nat) (o : O) : R :=
  match nth_error (noise_ops graph_seed seed ids entropy n_params) j with
  | Some op => nth k (fst (draw (stream o) reserve m (advanced reserve m t op))) 0%R
  | None => 0%R
  end.

Lemma noise_of_eq : forall seed t m j k, j < n_params -> k < m -> forall o,
  noise_of seed t m j k o =
  stream o (op_key (make_noise_op graph_seed seed (nth j ids 0) (entropy j))) (t * reserve m + k).
Proof.
  intros seed t m j k Hj Hk o. unfold noise_of.
  destruct (nth_error (noise_ops graph_seed seed ids entropy n_params) j) as [op|] eqn:E.
  - destruct (nth_noise_ops _ _ _ _ _ _ _ E) as [-> _]. unfold draw. cbn [fst].
    rewrite (nth_indep _ 0%R (stream o (op_key (advanced reserve m t (make_noise_op graph_seed seed (nth j ids 0) (entropy j))))
       (op_pos (advanced reserve m t (make_noise_op graph_seed seed (nth j ids 0) (entropy j))) + 0))) by now rewrite map_length, seq_length.
    rewrite map_nth with (f := fun i => stream o _ (_ + i)). rewrite seq_nth by exact Hk. cbn. reflexivity.
  - apply nth_error_None in E. unfold noise_ops in E. rewrite map_length, seq_length in E. lia.
Qed.
End Correlation.

(** With a seed the draws of two parameters of the same size have correlation 1, in every step,
    for every generator of unit variance. *)
Theorem C33_seeded_noise_is_perfectly_correlated :
  forall O (P : expectation O) stream reserve gs ids ent np (seed : Z) t m i j k,
  i < np -> j < np -> k < m ->
  (forall key p, ex P (fun o => stream o key p * stream o key p)%R = 1%R) ->
  ex P (fun o => noise_of O stream reserve gs ids ent np (Some seed) t m i k o *
                 noise_of O stream reserve gs ids ent np (Some seed) t m j k o)%R = 1%R.
Proof.
  intros O P stream reserve gs ids ent np seed t m i j k Hi Hj Hk HV.
  erewrite (ex_ext P); [apply (HV (op_key (make_noise_op gs (Some seed) 0 (0,0)%Z)) (t * reserve m + k))|].
  intros o. cbn beta. rewrite !noise_of_eq by assumption. unfold make_noise_op. destruct gs; reflexivity.
Qed.
(** Without a seed they are uncorrelated, provided the generator's streams of different keys are:
    if the graph seed is unset and the entropies differ, or it is set and the op ids differ. *)
Theorem C33_unseeded_noise_is_uncorrelated :
  forall O (P : expectation O) stream reserve gs ids ent np t m i j k,
  i < np -> j < np -> k < m ->
  (forall p, let key l := op_key (make_noise_op gs None (nth l ids 0) (ent l)) in key i <> key j ->
     ex P (fun o => stream o (key i) p * stream o (key j) p)%R = 0%R) ->
  match gs with None => ent i <> ent j | Some _ => nth i ids 0 <> nth j ids 0 end ->
  ex P (fun o => noise_of O stream reserve gs ids ent np None t m i k o *
                 noise_of O stream reserve gs ids ent np None t m j k o)%R = 0%R.
Proof.
  intros O P stream reserve gs ids ent np t m i j k Hi Hj Hk HU Hd.
  erewrite (ex_ext P); [apply (HU (t * reserve m + k))|].
  - destruct gs; cbn; [|exact Hd]. intros X. injection X as X. lia.
  - intros o. cbn beta. rewrite !noise_of_eq by assumption. reflexivity.
Qed.

(** Consequence a user sees: two parameters with the same initial value whose gradients agree
    whenever their values do stay equal for ever, i.e. the sampler never leaves the diagonal. *)
Section Twins.
Context {T : Type} {NT : Num T}.
Variable stream : Z * Z -> nat -> T.
Variable reserve : nat -> nat.
Variable w : which T.
Variable cg : @objective T.
Variable B : Type.
Variable bg : option (B -> res (list (nat * tensor T)) * B).
Variable sc : schedule (tensor T) (sample (tensor T) * tensor T).
Variables i j : nat.
Let K := kernel_of w.
Let E := sampler_env stream reserve K cg B bg sc.
Hypothesis symmetric : forall vals u c gs, cg vals u = Ok (c, gs) ->
  nth_error vals i = nth_error vals j -> nth_error gs i = nth_error gs j.

Definition twins (z : sess K) : Prop := nth_error (z_params _ z) i = nth_error (z_params _ z) j.

Lemma run_params_none : forall eps f ps gs k ms qs,
  run_params stream reserve K eps f k gs ps = Ok (ms, qs) ->
  forall l, nth_error ps l = None -> nth_error qs l = None /\ nth_error ms l = None.
Proof.
  intros eps f ps gs k ms qs HR l Hl.
  destruct (run_params_nth stream reserve _ _ _ _ _ _ _ _ HR) as (L1 & L2 & _).
  apply nth_error_None in Hl. split; apply nth_error_None; lia.
Qed.

Lemma run_twins : forall f z r z', session_run_model stream reserve K cg f z = (r, z') ->
  twins z -> lookup f (KMinv i) = lookup f (KMinv j) ->
  twins z' /\ forall o, r = Ok o -> nth_error (o_minv o) i = nth_error (o_minv o) j.
Proof.
  intros f z r z' HM HT HL. unfold session_run_model in HM.
  destruct (cg (values K z) (fun n => lookup f (KUser n))) as [[c gs]|e] eqn:Ecg; [|injection HM as <- <-; split; [exact HT|discriminate]].
  destruct (run_params stream reserve K (fed_eps K f z) f 0 gs (z_params K z)) as [[ms ps]|e] eqn:Erp;
    [|injection HM as <- <-; split; [exact HT|discriminate]].
  injection HM as <- <-.
  assert (Hg : nth_error gs i = nth_error gs j).
  { apply (symmetric _ _ _ _ Ecg). unfold values. rewrite !nth_error_map. now rewrite HT. }
  unfold twins in *. cbn [z_params].
  destruct (nth_error (z_params K z) j) as [[s o]|] eqn:Ej.
  - destruct (run_params_nth stream reserve _ _ _ _ _ _ _ _ Erp) as (_ & _ & HN).
    destruct (HN i _ _ HT) as (g1 & G1 & _ & Q1 & M1). destruct (HN j _ _ Ej) as (g2 & G2 & _ & Q2 & M2).
    cbn [Nat.add] in *. rewrite HL in Q1, M1. rewrite G1, G2 in Hg. injection Hg as ->.
    split; [congruence|]. intros o1 Ho. injection Ho as <-. cbn [o_minv]. congruence.
  - destruct (run_params_none _ _ _ _ _ _ _ Erp i HT) as [-> M1].
    destruct (run_params_none _ _ _ _ _ _ _ Erp j Ej) as [-> M2].
    split; [reflexivity|]. intros o1 Ho. injection Ho as <-. cbn [o_minv]. congruence.
Qed.

Theorem twins_forever : forall b n us b0 c0 z0 rs s', i < n -> j < n -> twins z0 ->
  Forall no_fed_mass us ->
  drive E (burnin_next E b n) us (initial_state E b0 c0 z0) = (rs, s') ->
  twins (s_sess E s') /\ forall c, In c rs -> twins (s_sess E (cr_post E c)).
Proof.
  intros b n us b0 c0 z0 rs s' Hi Hj HT HU HD.
  assert (G : forall us rs0 s rs s', Forall no_fed_mass us ->
     burn_inv E b b0 c0 z0 rs0 s -> twins (s_sess E s) ->
     (forall m, minv E s = Some m -> nth_error m i = nth_error m j) ->
     drive E (burnin_next E b n) us s = (rs, s') ->
     twins (s_sess E s') /\ forall c, In c rs -> twins (s_sess E (cr_post E c))).
  { clear - Hi Hj symmetric. intros us. induction us as [|u us IH]; intros rs0 s rs s' HU HB HT HM HD.
    { cbn in HD. injection HD as <- <-. split; [exact HT|intros c []]. }
    cbn [drive] in HD. destruct (call E (burnin_next E b n) u s) as [[r s1] ev] eqn:Ec.
    destruct (drive E (burnin_next E b n) us s1) as [rs1 s2] eqn:Ed. injection HD as <- <-.
    pose proof (burn_inv_step E b n _ _ _ _ _ _ _ _ _ HB Ec) as HB1.
    inversion HU as [|? ? Hu HU']; subst.
    assert (ST : forall base fmt, lookup base (KMinv i) = lookup base (KMinv j) ->
       step_spec E base fmt s s1 r ev ->
       twins (s_sess E s1) /\ forall f o, runs ev = [(f, Ok o)] -> nth_error (o_minv o) i = nth_error (o_minv o) j).
    { intros base fmt Hb HS. pose proof (ss_sess E _ _ _ _ _ _ HS) as HR.
      assert (HF : forall f ro, In (f, ro) (runs ev) -> lookup f (KMinv i) = lookup f (KMinv j)).
      { intros f ro Hr. destruct (outcome_runs _ _ _ _ _ _ _ _ (ss_outcome E _ _ _ _ _ _ HS) Hr)
          as (bb & eps & evb & rest & (_ & _ & F3) & _). now rewrite !F3. }
      assert (L : forall (l : list (feed (tensor T) * res (outputs (tensor T)))) z rs z', (forall f ro, In (f, ro) l -> lookup f (KMinv i) = lookup f (KMinv j)) ->
         twins z -> run_all E (map fst l) z = (rs, z') -> twins z' /\
         forall f o, map fst l = [f] -> rs = [Ok o] -> nth_error (o_minv o) i = nth_error (o_minv o) j).
      { clear - symmetric. induction l as [|[f ro] l IHl]; intros z rs z' HF HT HR; cbn [map fst run_all] in HR.
        - injection HR as <- <-. split; [exact HT|discriminate].
        - destruct (run E f z) as [r1 z1] eqn:E1. destruct (run_all E (map fst l) z1) as [rs2 z2] eqn:E2.
          injection HR as <- <-.
          destruct (run_twins _ _ _ _ E1 HT (HF f ro (or_introl eq_refl))) as [T1 M1].
          destruct (IHl z1 rs2 z2 (fun f r Hr => HF f r (or_intror Hr)) T1 E2) as [T2 _].
          split; [exact T2|]. intros f0 o0 _ Hr. injection Hr as -> _. now apply M1. }
      destruct (L _ _ _ _ HF HT HR) as [T1 M1]. split; [exact T1|].
      intros f o Hr. rewrite Hr in M1. eapply M1; reflexivity. }
    assert (NB : twins (s_sess E s1) /\ (forall m, minv E s1 = Some m -> nth_error m i = nth_error m j)).
    { destruct (burnin_call E b n _ _ _ _ _ _ _ _ _ HB Ec)
        as [(_ & HS & HMv)|[(Hb0 & HS)|(_ & _ & m & Em & _ & Em1 & HS)]].
      - destruct (ST _ _ ltac:(now rewrite !Hu) HS) as [T1 M1]. split; [exact T1|].
        intros m Hm. destruct (runs ev) as [|[f [o|e]] [|]] eqn:Er; rewrite HMv in Hm; try (now apply HM).
        injection Hm as <-. now apply (M1 f o).
      - destruct (ST _ _ ltac:(now rewrite !Hu) HS) as [T1 _]. split; [exact T1|].
        intros m Hm. apply HM. rewrite <- Hm. symmetry.
        rewrite call_enter in Ec.
        assert (HNB : is_burning_in E b (enter E u s) = false) by (unfold is_burning_in; apply Z.ltb_ge; lia).
        unfold burnin_next in Ec. rewrite HNB in Ec.
        replace (0 <? b)%Z with false in Ec by (symmetry; apply Z.ltb_ge; lia).
        destruct (mcmc_next_spec E _ _ _ _ _ Ec) as (_ & HH).
        destruct (enter_fields E u s) as (_ & Hmm & _). rewrite <- Hmm. tauto.
      - assert (HL : lookup (minv_feed n m) (KMinv i) = lookup (minv_feed n m) (KMinv j)).
        { rewrite !lookup_minv_feed. apply Nat.ltb_lt in Hi, Hj. rewrite Hi, Hj. now apply HM. }
        destruct (ST _ _ HL HS) as [T1 _]. split; [exact T1|]. intros m' Hm'. rewrite Em1 in Hm'.
        injection Hm' as <-. now apply HM. }
    destruct NB as [T1 M1].
    destruct (IH _ _ _ _ HU' HB1 T1 M1 Ed) as [T2 H2].
    split; [exact T2|]. intros c [<-|Hc]; [exact T1|now apply H2]. }
  apply (G us [] (initial_state E b0 c0 z0) rs s' HU).
  - split; [apply hist_inv_init|]. cbn. lia.
  - exact HT.
  - discriminate.
  - exact HD.
Qed.
End Twins.

Theorem C33_identical_parameters_never_separate :
  forall (T : Type) (NT : Num T) stream reserve (w : which T) cg B bg sc b us rs s' b0 c0 eps0 params
         (graph_seed : option Z) (seed : Z) ids ent i j v,
  nth_error params i = Some v -> nth_error params j = Some v ->
  (forall vals u c gs, cg vals u = Ok (c, gs) -> nth_error vals i = nth_error vals j ->
     nth_error gs i = nth_error gs j) ->
  Forall no_fed_mass us ->
  let E := sampler_env stream reserve (kernel_of w) cg B bg sc in
  drive E (burnin_next E b (length params)) us (initial_state E b0 c0 (session_of w eps0 params
     (noise_ops graph_seed (Some seed) ids ent (length params)))) = (rs, s') ->
  forall c smp cost, In c rs -> cr_res E c = Ok (smp, cost) ->
  match smp with SList l => nth_error l i = nth_error l j | SBare _ => True end.
Proof.
  intros T NT stream reserve w cg B bg sc b us rs s' b0 c0 eps0 params gs seed ids ent i j v Hi Hj Hsym HU E HD c smp cost Hin Hres.
  set (ops := noise_ops gs (Some seed) ids ent (length params)) in *.
  assert (Lo : length ops = length params) by (unfold ops, noise_ops; now rewrite map_length, seq_length).
  assert (Li : i < length params) by (apply nth_error_Some; congruence).
  assert (Lj : j < length params) by (apply nth_error_Some; congruence).
  assert (TW : twins w i j (session_of w eps0 params ops)).
  { destruct (session_of_nth w eps0 params ops i v Lo Hi) as (o1 & O1 & Z1).
    destruct (session_of_nth w eps0 params ops j v Lo Hj) as (o2 & O2 & Z2).
    red. rewrite Z1, Z2. destruct (nth_noise_ops _ _ _ _ _ _ _ O1) as [-> _].
    destruct (nth_noise_ops _ _ _ _ _ _ _ O2) as [-> _]. unfold make_noise_op. destruct gs; reflexivity. }
  destruct (twins_forever stream reserve w cg B bg sc i j Hsym b (length params) us b0 c0 _ rs s' Li Lj TW HU HD) as [_ HT].
  specialize (HT c Hin).
  destruct (ok_call_run stream reserve w cg B bg sc b (length params) us rs s' b0 c0 _ HD c smp cost Hin Hres) as (f & o & _ & Hrun & Hs).
  assert (Ho : o_theta o = values (kernel_of w) (s_sess E (cr_post E c))).
  { unfold session_run_model in Hrun.
    destruct (cg _ _) as [[cst g]|e]; [|discriminate].
    destruct (run_params _ _ _ _ _ _ _ _) as [[ms ps]|e]; [|discriminate].
    injection Hrun as <- HZ. exact (f_equal (values (kernel_of w)) HZ). }
  destruct smp as [l|]; [|exact I].
  assert (l = o_theta o) as ->.
  { destruct Hs as [Hs|Hs]; [congruence|]. unfold unravel in Hs.
    destruct (o_theta o) as [|a [|a' l']]; congruence. }
  rewrite Ho. unfold values. rewrite !nth_error_map. red in HT. fold E in HT. now rewrite HT.
Qed.

(** Concrete cases.  Two equal scalars with cost x^2 + y^2. *)
Example C33_twins_nontrivial :
  let cg : @objective R := fun vals _ => match vals with
    | [a; b] => Ok (0%R, [data a; data b]) | _ => Raise ValueError end in
  nth_error [Tensor [] [1%R]; Tensor [] [1%R]] 0 = Some (Tensor [] [1%R]) /\
  (forall vals u c gs, cg vals u = Ok (c, gs) -> nth_error vals 0 = nth_error vals 1 ->
     nth_error gs 0 = nth_error gs 1) /\
  (exists r, cg [Tensor [] [1%R]; Tensor [] [1%R]] (fun _ => None) = Ok r).
Proof.
  cbv zeta. split; [reflexivity|]. split; [|eauto].
  intros [|a [|b [|]]] u c gs E Hn; try discriminate. injection E as _ <-. cbn in *. congruence.
Qed.
(** Four equally likely outcomes; a generator with independent signs for two keys. *)
Definition coin2 : expectation (bool * bool).
Proof.
  refine {| ex := fun f => ((f (true, true) + f (true, false) + f (false, true) + f (false, false)) / 4)%R |}.
  - intros f g H. now rewrite !H.
  - intros. lra.
  - intros. lra.
  - lra.
Defined.
Definition sign (b : bool) : R := if b then 1%R else (-1)%R.
Example C33_correlation_nontrivial :
  let stream (o : bool * bool) (key : Z * Z) (p : nat) := if (snd key =? 7)%Z then sign (fst o) else sign (snd o) in
  (forall key p, ex coin2 (fun o => stream o key p * stream o key p)%R = 1%R) /\
  ex coin2 (fun o => stream o (0, 7)%Z 0%nat * stream o (0, 8)%Z 0%nat)%R = 0%R.
Proof.
  cbv zeta. split.
  - intros key p. destruct (snd key =? 7)%Z; cbn; lra.
  - cbn. lra.
Qed.

Print Assumptions C33_seeded_parameters_share_one_stream.
Print Assumptions C33_seeded_noise_is_perfectly_correlated.
Print Assumptions C33_unseeded_noise_is_uncorrelated.
Print Assumptions C33_identical_parameters_never_separate.
