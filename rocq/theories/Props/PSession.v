(** C11 (second half), C16, C32, C33: complete SGHMC and SGLD samplers, i.e. the sampler
    loop of Model/BaseClasses.v over the session of Model/Session.v. *)
From Coq Require Import List Arith Lia ZArith Bool Reals Lra.
From Verif.Base Require Import Py Num Vec Lists.
From Verif.Model Require Import TensorUtils BurnIn SGHMC SGLD Stepsize BaseClasses Session.
From Verif.Spec Require Import Sampler Dynamics Trajectory.
From Verif.Proofs Require Import Sampler SamplerHistory Dynamics Trajectory Session.
From Verif.Props Require Import PSampler PDynamics.
Import ListNotations.

(** *** Either sampler *)
Inductive which (T : Type) := Sghmc (c : config T) | Sgld (c : lconfig T).
Arguments Sghmc {T}. Arguments Sgld {T}.

Section W.
Context {T : Type} `{Num T}.
Definition kernel_of (w : which T) : kernel (T:=T) :=
  match w with Sghmc c => sghmc_kernel c | Sgld c => sgld_kernel c end.
(** The vectorized clone and the burn-in variables of a parameter. *)
Definition clone_of (w : which T) : k_state (kernel_of w) -> list T :=
  match w with Sghmc c => p_vec | Sgld c => l_vec end.
Definition adapt_of (w : which T) : k_state (kernel_of w) -> adapt T :=
  match w with Sghmc c => p_adapt | Sgld c => l_adapt end.
Definition session_of (w : which T) (eps0 : T) (params : list (tensor T)) (ops : list noise_op)
  : sess (kernel_of w) :=
  match w with
  | Sghmc c => sghmc_session c eps0 params ops
  | Sgld c => sgld_session c eps0 params ops
  end.
(** Assigning [v] to a target variable from outside the sampler. *)
Definition write_target (w : which T) (v : tensor T) : k_state (kernel_of w) -> k_state (kernel_of w) :=
  match w with
  | Sghmc c => fun p => PState (p_adapt p) (p_mom p) (p_vec p) v
  | Sgld c => fun p => LState (l_adapt p) (l_vec p) v
  end.

Definition init_of (w : which T) : tensor T -> k_state (kernel_of w) :=
  match w with Sghmc c => pinit | Sgld c => linit end.
Definition inv_of (w : which T) : nat -> k_state (kernel_of w) -> Prop :=
  match w with Sghmc c => sghmc_inv | Sgld c => sgld_inv end.

Lemma kernel_of_sized : forall w, kernel_sized (kernel_of w) (inv_of w).
Proof. intros [c|c]; [apply sghmc_kernel_sized|apply sgld_kernel_sized]. Qed.

Lemma session_of_params : forall w eps0 params ops j s o,
  nth_error (z_params _ (session_of w eps0 params ops)) j = Some (s, o) ->
  exists v, nth_error params j = Some v /\ nth_error ops j = Some o /\ s = init_of w v.
Proof.
  intros w eps0 params ops j s o Hj.
  assert (G : nth_error (combine (map (init_of w) params) ops) j = Some (s, o)) by (destruct w; exact Hj).
  clear Hj. revert ops j G. induction params as [|v params IH]; intros ops j G; cbn in G.
  - destruct j; discriminate.
  - destruct ops as [|o' ops]; [destruct j; discriminate|]. destruct j as [|j]; cbn in G |- *.
    + injection G as <- <-. eauto.
    + apply IH. exact G.
Qed.
Lemma session_of_nth : forall w eps0 params ops j v, length ops = length params ->
  nth_error params j = Some v ->
  exists o, nth_error ops j = Some o /\ nth_error (z_params _ (session_of w eps0 params ops)) j = Some (init_of w v, o).
Proof.
  intros w eps0 params ops j v Hl Hj.
  assert (G : exists o, nth_error ops j = Some o /\
    nth_error (combine (map (init_of w) params) ops) j = Some (init_of w v, o)).
  { revert ops j Hl Hj. induction params as [|x params IH]; intros [|o ops] j Hl Hj; try discriminate.
    - destruct j; discriminate.
    - destruct j as [|j]; cbn in *; [injection Hj as ->; eauto|]. apply IH; auto. }
  destruct w; exact G.
Qed.
Lemma session_of_length : forall w eps0 params ops, length ops = length params ->
  length (z_params _ (session_of w eps0 params ops)) = length params.
Proof.
  intros w eps0 params ops Hl.
  assert (length (combine (map (init_of w) params) ops) = length params)
    by (rewrite combine_length, map_length; lia).
  destruct w; auto.
Qed.
Lemma init_value : forall w v, k_value (kernel_of w) (init_of w v) = v.
Proof. intros [c|c] v; reflexivity. Qed.
Lemma init_inv : forall w v, inv_of w (length (data v)) (init_of w v).
Proof. intros [c|c] v; [apply sghmc_inv_init|apply sgld_inv_init]. Qed.
Lemma inv_clone : forall w n s, inv_of w n s ->
  data (k_value (kernel_of w) s) = clone_of w s /\ length (clone_of w s) = n.
Proof.
  intros [c|c] n s; [intros ((_ & _ & L) & E)|intros ((_ & L) & E)]; split; auto.
Qed.
Lemma shape_run : forall w ins s,
  shape (k_value (kernel_of w) (k_run (kernel_of w) ins s)) = shape (k_value (kernel_of w) s).
Proof.
  intros w ins s. induction ins as [|i ins IH] using rev_ind; [reflexivity|].
  rewrite k_run_snoc. rewrite <- IH. destruct w; reflexivity.
Qed.
Lemma adapt_run_of : forall w ins s,
  adapt_of w (k_run (kernel_of w) ins s) = adapt_fold (map i_grad ins) (adapt_of w s).
Proof. intros [c|c] ins s; [apply sghmc_run_adapt|apply sgld_run_adapt]. Qed.
Lemma adapt_of_init : forall w v, adapt_of w (init_of w v) = adapt_init (length (data v)).
Proof. intros [c|c] v; reflexivity. Qed.
End W.

(** *** Histories of a complete sampler *)
Section Run.
Context {T : Type} {NT : Num T}.
Variable stream : Z * Z -> nat -> T.
Variable reserve : nat -> nat.
Variable w : which T.
Variable cg : @objective T.
Variable B : Type.
Variable bg : option (B -> res (list (nat * tensor T)) * B).
Variable sc : schedule (tensor T) (sample (tensor T) * tensor T).
Let E := sampler_env stream reserve (kernel_of w) cg B bg sc.

(** State of the session before and after each call. *)
Lemma history_reached : forall b n us rs s' b0 c0 eps0 params ops,
  drive E (burnin_next E b n) us (initial_state E b0 c0 (session_of w eps0 params ops)) = (rs, s') ->
  forall c, In c rs ->
  let z0 := session_of w eps0 params ops in
  reached reserve (kernel_of w) (inv_of w) z0 (s_sess E (cr_pre E c)) /\
  reached reserve (kernel_of w) (inv_of w) z0 (s_sess E (cr_post E c)).
Proof.
  intros b n us rs s' b0 c0 eps0 params ops HD c Hin z0.
  apply in_split in Hin as (pre & post & ->).
  destruct (drive_split E _ _ _ _ _ _ _ HD) as (_ & us1 & H1 & us2 & H2).
  assert (R0 : reached reserve (kernel_of w) (inv_of w) z0 z0).
  { apply reached_refl. intros j s o Hj.
    destruct (session_of_params _ _ _ _ _ _ _ Hj) as (v & _ & _ & ->). rewrite init_value. apply init_inv. }
  assert (G : forall us rs s, drive E (burnin_next E b n) us (initial_state E b0 c0 z0) = (rs, s) ->
     reached reserve (kernel_of w) (inv_of w) z0 (s_sess E s)).
  { intros us0 rs0 s0 H0. pose proof (hist_of _ E (BurnIn b n) _ _ _ _ _ _ H0) as [_ _ _ HS].
    exact (reached_run_all stream reserve (kernel_of w) cg B bg sc (inv_of w) z0 (kernel_of_sized w) _ _ _ _ R0 HS). }
  split; eapply G; eauto.
Qed.

(** The run of the session in a successful call. *)
Lemma ok_call_run : forall b n us rs s' b0 c0 z0,
  drive E (burnin_next E b n) us (initial_state E b0 c0 z0) = (rs, s') ->
  forall c smp cost, In c rs -> cr_res E c = Ok (smp, cost) ->
  exists f o, runs (cr_events E c) = [(f, Ok o)] /\
    session_run_model stream reserve (kernel_of w) cg f (s_sess E (cr_pre E c)) = (Ok o, s_sess E (cr_post E c)) /\
    (smp = SList (o_theta o) \/ smp = unravel (o_theta o)).
Proof.
  intros b n us rs s' b0 c0 z0 HD c smp cost Hin Hr.
  apply in_split in Hin as (pre & post & ->).
  destruct (outcome_of _ E (BurnIn b n) _ _ _ _ _ _ _ _ HD) as (base & fmt & [SO _ _ _ SS] & Hf).
  rewrite Hr in SO. destruct (step_ok_run E _ _ _ _ SO) as (f & o & Hruns).
  exists f, o. split; [exact Hruns|]. rewrite Hruns in SS. cbn [map fst snd run_all] in SS.
  destruct (run E f (s_sess E (cr_pre E c))) as [r z1] eqn:Er. injection SS as -> <-.
  split; [exact Er|].
  assert (smp = fmt (o_theta o)) as ->.
  { inversion SO as [| | | |evb bb eps ff o' Hbe Hfe Hr' He]; subst.
    rewrite <- He in Hruns. unfold runs in Hruns. rewrite flat_map_app in Hruns.
    unfold batch_events in Hbe. destruct (bg_next E); [|destruct Hbe as [Hbe _]]; subst evb;
      cbn in Hruns; injection Hruns as _ ->; reflexivity. }
  destruct Hf as [->| ->]; auto.
Qed.
End Run.

(** *** C16 *)
Theorem C16_samples_track_parameters :
  forall (T : Type) (NT : Num T) stream reserve (w : which T) cg B bg sc b n us rs s' b0 c0 eps0 params ops,
  length ops = length params -> Forall well_shaped params ->
  let E := sampler_env stream reserve (kernel_of w) cg B bg sc in
  drive E (burnin_next E b n) us (initial_state E b0 c0 (session_of w eps0 params ops)) = (rs, s') ->
  forall c, In c rs ->
  let z := s_sess E (cr_post E c) in
  (* the variables: same number, same shapes, equal to the internal clones *)
  length (values (kernel_of w) z) = length params /\
  (forall j v, nth_error params j = Some v ->
     exists st o, nth_error (z_params _ z) j = Some (st, o) /\
       data (k_value (kernel_of w) st) = clone_of w st /\
       shape (k_value (kernel_of w) st) = shape v /\ well_shaped (k_value (kernel_of w) st)) /\
  (* the returned sample: the values of the variables *)
  (forall smp cost, cr_res E c = Ok (smp, cost) ->
     smp = SList (values (kernel_of w) z) \/
     exists v, values (kernel_of w) z = [v] /\ smp = SBare v).
Proof.
  intros T NT stream reserve w cg B bg sc b n us rs s' b0 c0 eps0 params ops Hl Hw E HD c Hin z.
  destruct (history_reached stream reserve w cg B bg sc b n us rs s' b0 c0 eps0 params ops HD c Hin) as [_ (_ & R2 & t & R3)].
  split; [|split].
  - unfold values. rewrite map_length. etransitivity; [exact R2|]. now apply session_of_length.
  - intros j v Hj. destruct (session_of_nth w eps0 params ops j v Hl Hj) as (o & Ho & Hz).
    destruct (R3 j _ _ Hz) as (ins & _ & HF & Hn & Hi). rewrite init_value in Hn, Hi, HF.
    eexists. eexists. split; [exact Hn|]. destruct (inv_clone w _ _ Hi) as [E1 E2].
    split; [exact E1|]. rewrite shape_run, init_value. split; [reflexivity|].
    unfold well_shaped. rewrite shape_run, init_value, E1, E2.
    apply nth_error_In in Hj. exact (proj1 (Forall_forall _ _) Hw v Hj).
  - intros smp cost Hr.
    destruct (ok_call_run stream reserve w cg B bg sc b n us rs s' b0 c0 _ HD c smp cost Hin Hr) as (f & o & _ & Hrun & Hs).
    unfold session_run_model in Hrun. fold E in Hrun.
    destruct (cg _ _) as [[cst gs]|e]; [|discriminate].
    destruct (run_params _ _ _ _ _ _ _ _) as [[ms ps]|e]; [|discriminate].
    injection Hrun as <- Hz. unfold z. fold E in Hz. rewrite <- Hz. cbn [o_theta] in Hs.
    destruct Hs as [->| ->]; [now left|]. unfold unravel.
    destruct (values (kernel_of w) _) as [|v [|v' l]]; [now left|right; eauto|now left].
Qed.

(** Two sessions that differ only in the values of the target variables (same shapes). *)
Definition same_internals {T} {NT : Num T} (w : which T) (z z' : sess (kernel_of w)) : Prop :=
  z_eps _ z = z_eps _ z' /\
  Forall2 (fun p q => exists v, shape v = shape (k_value (kernel_of w) (fst p)) /\
             length (data v) = length (data (k_value (kernel_of w) (fst p))) /\
             q = (write_target w v (fst p), snd p)) (z_params _ z) (z_params _ z').

(** A value written from outside influences only the cost and gradient of the next step: if
    these are the same, then everything - sample, cost, masses, all variables afterwards,
    hence all later steps - is the same. *)
Theorem C16_external_writes_are_overwritten :
  forall (T : Type) (NT : Num T) stream reserve (w : which T) cg cg' f z z',
  same_internals w z z' ->
  cg (values _ z) (fun n => lookup f (KUser n)) = cg' (values _ z') (fun n => lookup f (KUser n)) ->
  let '(r, z1) := session_run_model stream reserve (kernel_of w) cg f z in
  let '(r', z1') := session_run_model stream reserve (kernel_of w) cg' f z' in
  r = r' /\ (is_ok r = true -> z1 = z1').
Proof.
  intros T NT stream reserve w cg cg' f z z' (He & HF) Hcg. unfold session_run_model. rewrite <- Hcg.
  destruct (cg _ _) as [[c gs]|e]; [|split; [auto|discriminate]].
  assert (Hrp : forall i gs, run_params stream reserve (kernel_of w) (fed_eps _ f z) f i gs (z_params _ z) =
                        run_params stream reserve (kernel_of w) (fed_eps _ f z') f i gs (z_params _ z')).
  { unfold fed_eps. rewrite He. clear He Hcg c gs. generalize (match lookup f KEps with Some t => hd n0 (data t) | None => z_eps _ z' end).
    intros eps. induction HF as [|[s o] q ps qs (v & Hs & Hlen & ->) _ IH]; intros i gs; [reflexivity|].
    destruct gs as [|g gs]; cbn [run_params]; [reflexivity|]. rewrite IH.
    replace (run_param stream reserve (kernel_of w) eps g (lookup f (KMinv i)) (write_target w v (fst (s, o)), snd (s, o)))
      with (run_param stream reserve (kernel_of w) eps g (lookup f (KMinv i)) (s, o)); [reflexivity|].
    cbn [fst snd] in *. unfold run_param; cbn [fst snd].
    destruct w as [cc|cc]; cbn [kernel_of write_target sghmc_kernel sgld_kernel k_value k_step k_minv p_val l_val] in *;
      rewrite Hlen; destruct (_ && _); auto; unfold draw; f_equal; unfold sghmc_step, sgld_step;
      cbn [p_adapt p_mom p_vec p_val l_adapt l_vec l_val shape]; rewrite Hs; reflexivity. }
  rewrite <- Hrp. destruct (run_params _ _ _ _ _ _ _ _) as [[ms ps]|e]; [|split; [auto|discriminate]].
  rewrite He. split; auto.
Qed.

(** Writing 100 to a parameter holding 5: the next sample continues from 5. *)
Example C16_nontrivial :
  let w := Sgld (LConfig 1%R 1%R) in
  let z : sess (kernel_of w) := session_of w 0%R [Tensor [] [5%R]] [NoiseOp (1, 2)%Z 0] in
  let z' : sess (kernel_of w) := {| z_eps := 0%R;
     z_params := [((write_target w (Tensor [] [100%R]) (init_of w (Tensor [] [5%R]))), NoiseOp (1, 2)%Z 0)] |} in
  same_internals w z z' /\ values _ z' = [Tensor [] [100%R]].
Proof.
  cbn. split; [|reflexivity]. split; [reflexivity|]. constructor; [|constructor].
  exists (Tensor [] [100%R]). auto.
Qed.

(** *** C11: without burn-in the mass is adapted in every step *)
Definition no_fed_mass {V} (u : option (feed V)) : Prop := forall i, lookup (user_content u) (KMinv i) = None.

Theorem C11_mass_adapts_forever :
  forall stream reserve (w : which R) cg B bg sc b n us rs s' b0 c0 eps0 params ops,
  length ops = length params -> (b <= 0)%Z -> Forall no_fed_mass us ->
  let E := sampler_env stream reserve (kernel_of w) cg B bg sc in
  drive E (burnin_next E b n) us (initial_state E b0 c0 (session_of w eps0 params ops)) = (rs, s') ->
  forall c f o, In c rs -> is_ok (cr_res E c) = true -> runs (cr_events E c) = [(f, Ok o)] ->
  forall j v k, nth_error params j = Some v -> k < length (data v) ->
  (* mass used in this step = function of the variance estimate before it, which this
     step updates *)
  exists st st' nop nop' g m vh vh' r,
    nth_error (z_params _ (s_sess E (cr_pre E c))) j = Some (st, nop) /\
    nth_error (z_params _ (s_sess E (cr_post E c))) j = Some (st', nop') /\
    nth_error (o_minv o) j = Some (Tensor [length (data v); 1] m) /\
    nth_error (a_vhat (adapt_of w st)) k = Some vh /\
    nth_error m k = Some (inverse_mass vh) /\
    nth_error (a_vhat (adapt_of w st')) k = Some vh' /\
    (exists cst gs, cg (values _ (s_sess E (cr_pre E c))) (fun u => lookup f (KUser u)) = Ok (cst, gs) /\
                    nth_error gs j = Some g) /\
    nth_error g k <> None /\ (0 < r <= 1 / 2)%R /\ vh' = ((1 - r) * vh + r * (nth k g 0) ^ 2)%R.
Proof.
  intros stream reserve w cg B bg sc b n us rs s' b0 c0 eps0 params ops Hl Hb Hus E HD c f o Hin Hok Hruns j v k Hj Hk.
  destruct (cr_res E c) as [[smp cost]|e] eqn:Hr; [|discriminate].
  destruct (ok_call_run stream reserve w cg B bg sc b n us rs s' b0 c0 _ HD c smp cost Hin Hr) as (f1 & o1 & Hr1 & Hrun & _).
  fold E in Hr1, Hrun. rewrite Hruns in Hr1. injection Hr1 as <- <-.
  destruct (history_reached stream reserve w cg B bg sc b n us rs s' b0 c0 eps0 params ops HD c Hin) as [(_ & _ & t & R3) _].
  fold E in R3.
  destruct (session_of_nth w eps0 params ops j v Hl Hj) as (o0 & Ho & Hz).
  destruct (R3 j _ _ Hz) as (ins & _ & HF & Hn & Hi). rewrite init_value in Hn, Hi, HF.
  unfold session_run_model in Hrun. fold E in Hrun.
  destruct (cg _ _) as [[cst gs]|e] eqn:Ecg; [|discriminate].
  destruct (run_params _ _ _ _ _ _ _ _) as [[ms ps]|e] eqn:Erp; [|discriminate].
  injection Hrun as <- Hpost.
  destruct (run_params_nth stream reserve _ _ _ _ _ _ _ _ Erp) as (_ & _ & HN).
  destruct (HN j _ _ Hn) as (g & Hg & (Hsg & _) & Hq & Hm). cbn zeta in Hsg, Hq, Hm. cbn [i_grad] in Hsg.
  rewrite (proj1 (inv_clone w _ _ Hi)), (proj2 (inv_clone w _ _ Hi)) in Hsg, Hq, Hm.
  (* no mass is fed *)
  assert (Hfed : lookup f (KMinv (0 + j)) = None).
  { assert (In (f, Ok {| o_theta := values (kernel_of w) {| z_eps := z_eps _ (s_sess E (cr_pre E c)); z_params := ps |};
              o_cost := scalar_tensor cst; o_minv := ms |}) (runs (cr_events E c))) as Hi2
      by (rewrite Hruns; now left).
    destruct (C11_no_burn_in_never_feeds_mass _ E b n us rs s' b0 c0 _ Hb HD c _ _ Hin Hi2) as (_ & Hf).
    rewrite Hf.
    assert (In (cr_user E c) us) as Hu.
    { clear - HD Hin. revert HD Hin. generalize (initial_state E b0 c0 (session_of w eps0 params ops)).
      revert rs. induction us as [|u us IH]; intros rs s HD Hin; cbn in HD.
      - injection HD as <- _. destruct Hin.
      - destruct (call E (burnin_next E b n) u s) as [[r s1] ev].
        destruct (drive E (burnin_next E b n) us s1) as [rs1 s2] eqn:Ed. injection HD as <- <-.
        destruct Hin as [<-|Hin]; [now left|right]. eapply IH; eauto. }
    exact (proj1 (Forall_forall _ _) Hus _ Hu (0 + j)). }
  rewrite Hfed in Hq, Hm. cbn [option_map i_eps i_grad i_xi i_fed] in Hq, Hm.
  set (st := k_run (kernel_of w) ins (init_of w v)) in *.
  (* the variance estimate before the step *)
  pose proof (adaptation_ok_run (length (data v)) k ins HF Hk) as (tau & r0 & gb & vh & A1 & A2 & A3 & A4 & At & Ar & Av & Ag & _).
  assert (Ea : adapt_of w st = adapt_fold (map i_grad ins) (adapt_init (length (data v)))).
  { unfold st. rewrite adapt_run_of. now rewrite adapt_of_init. }
  rewrite <- Ea in A1, A2, A3, A4.
  destruct (mass_ok_run (length (data v)) ins g k HF Hsg Hk) as (_ & m0 & _ & M2 & _). rewrite <- Ea in M2.
  destruct (nth_error_lt _ g k ltac:(lia)) as [gk Egk].
  assert (exists mm, nth_error (a_minv (adapt_of w st)) k = Some mm) as [mm Emm].
  { destruct (at_index_exists (length (data v)) (adapt_of w st) k) as (cc & _ & _ & _ & _ & ?); eauto.
    destruct w; [destruct Hi as ((Hi & _) & _)|destruct Hi as ((Hi & _) & _)]; exact Hi. }
  set (cl := Cell tau r0 gb vh mm).
  assert (Hcl : at_index (adapt_of w st) k cl) by (repeat split; auto).
  pose proof (at_index_step _ _ _ _ _ Hcl Egk) as (_ & _ & _ & F4 & F5).
  destruct (cell_step_R gk cl Av ltac:(cbn; lra)) as (Sc & Sr & Sm).
  set (xi := fst (draw stream reserve (length (data v)) (advanced reserve (length (data v)) t o0))) in *.
  set (eps := fed_eps (kernel_of w) f (s_sess E (cr_pre E c))) in *.
  assert (Eadapt : adapt_of w (k_step (kernel_of w) eps g xi None st) = adapt_step g (adapt_of w st)) by (destruct w; reflexivity).
  assert (Eminv : k_minv (kernel_of w) None (k_step (kernel_of w) eps g xi None st) = a_minv (adapt_step g (adapt_of w st))) by (destruct w; reflexivity).
  rewrite Eminv in Hm.
  exists st, (k_step (kernel_of w) eps g xi None st), (advanced reserve (length (data v)) t o0).
  eexists. exists g, (a_minv (adapt_step g (adapt_of w st))), vh, (c_vhat (cell_step gk cl)), (rate (scalar_of cl)).
  split; [exact Hn|]. split; [rewrite <- Hpost; exact Hq|].
  split.
  { cbn [o_minv]. rewrite Hm. unfold column_tensor. do 2 f_equal. f_equal.
    assert (adapt_len (length (data v)) (adapt_of w st)) as HL.
    { destruct w; [destruct Hi as ((Hi & _) & _)|destruct Hi as ((Hi & _) & _)]; exact Hi. }
    exact (proj2 (proj2 (proj2 (proj2 (adapt_len_step _ _ g HL Hsg))))). }
  split; [exact A4|]. split; [rewrite F5, Sm; reflexivity|].
  split; [rewrite Eadapt; exact F4|]. split; [exists cst, gs; auto|]. split; [congruence|].
  split; [apply rate_bounds; repeat split; auto; cbn; lra|].
  pose proof (f_equal s_v Sc) as Sv. cbn [scalar_of s_v] in Sv. rewrite Sv. unfold adapt_scalar; cbn [s_v].
  rewrite (nth_error_nth _ _ _ Egk). reflexivity.
Qed.

(** Calls that succeed. *)
Lemma run_params_ok : forall T (NT : Num T) stream reserve (K : kernel (T:=T)) eps f, (forall i, lookup f (KMinv i) = None) ->
  forall ps gs i, Forall2 (fun p g => length g = length (data (k_value K (fst p)))) ps gs ->
  exists r, run_params stream reserve K eps f i gs ps = Ok r.
Proof.
  intros T NT stream reserve K eps f Hf ps. induction ps as [|p ps IH]; intros gs i HF; inversion HF as [|? g ? gs' Hl HF']; subst.
  - eexists. reflexivity.
  - cbn [run_params]. unfold run_param at 1. rewrite Hf. cbn [option_map]. rewrite Hl, Nat.eqb_refl. cbn [andb].
    destruct (draw stream reserve (length (data (k_value K (fst p)))) (snd p)) as [xi o']. cbn [bind].
    destruct (IH gs' (S i) HF') as [[ms qs] ->]. cbn [bind]. eauto.
Qed.
Definition plain_env {T} {NT : Num T} stream reserve (w : which T) cg : env (tensor T) :=
  sampler_env stream reserve (kernel_of w) cg unit None (constant_schedule _ _).
Lemma call_ok : forall T (NT : Num T) stream reserve (w : which T) cg b n s o z',
  let E := plain_env stream reserve w cg in
  ((Z.of_nat (n_iterations E s) < b)%Z \/ (b <= 0)%Z) ->
  session_run_model stream reserve (kernel_of w) cg [(KEps, s_sched E s)] (s_sess E s) = (Ok o, z') ->
  exists r s1 ev, call E (burnin_next E b n) None s = (Ok r, s1, ev) /\
    runs ev = [([(KEps, s_sched E s)], Ok o)] /\ s_sess E s1 = z' /\ s_sched E s1 = s_sched E s /\
    n_iterations E s1 = S (n_iterations E s) /\
    ((Z.of_nat (n_iterations E s) < b)%Z -> r = (SList (o_theta o), o_cost o)).
Proof.
  intros T NT stream reserve w cg b n [it mi sb ss sz su] o z' E Hb HR. cbn [s_sched s_sess n_iterations] in *.
  unfold call, burnin_next, is_burning_in. cbn [n_iterations].
  destruct (Z.of_nat it <? b)%Z eqn:Hlt.
  - subst E; unfold mcmc_next, feed_and_run, mbind, next_batch, dict_update, next_stepsize, dict_get, session_run, set_minv, schedule_update, count_iteration, ret, plain_env, sampler_env, update; cbn -[session_run_model Z.of_nat]; unfold plain_env, sampler_env in HR; cbn -[session_run_model] in HR; rewrite HR.
    eexists. eexists. eexists. split; [reflexivity|]. cbn. repeat split; auto.
  - apply Z.ltb_ge in Hlt. destruct Hb as [Hb|Hb]; [lia|].
    replace (0 <? b)%Z with false by (symmetry; apply Z.ltb_ge; lia).
    subst E; unfold mcmc_next, feed_and_run, mbind, next_batch, dict_update, next_stepsize, dict_get, session_run, set_minv, schedule_update, count_iteration, ret, plain_env, sampler_env, update; cbn -[session_run_model Z.of_nat]; unfold plain_env, sampler_env in HR; cbn -[session_run_model] in HR; rewrite HR.
    eexists. eexists. eexists. split; [reflexivity|]. cbn. repeat split; auto; lia.
Qed.

(** One would expect: without burn-in, all steps use one mass matrix. *)
Definition no_burn_in_means_fixed_mass : Prop :=
  forall stream reserve (w : which R) cg B bg sc b n us rs s' b0 c0 eps0 params ops,
  length ops = length params -> (b <= 0)%Z -> Forall no_fed_mass us ->
  let E := sampler_env stream reserve (kernel_of w) cg B bg sc in
  drive E (burnin_next E b n) us (initial_state E b0 c0 (session_of w eps0 params ops)) = (rs, s') ->
  forall c c' f f' o o', In c rs -> In c' rs ->
  runs (cr_events E c) = [(f, Ok o)] -> runs (cr_events E c') = [(f', Ok o')] -> o_minv o = o_minv o'.

Lemma two_calls : forall V (E : env V) nx s r1 s1 ev1 r2 s2 ev2,
  call E nx None s = (r1, s1, ev1) -> call E nx None s1 = (r2, s2, ev2) ->
  drive E nx [None; None] s =
    ([{| cr_user := None; cr_pre := s; cr_res := r1; cr_events := ev1; cr_post := s1 |};
      {| cr_user := None; cr_pre := s1; cr_res := r2; cr_events := ev2; cr_post := s2 |}], s2).
Proof. intros V E nx s r1 s1 ev1 r2 s2 ev2 E1 E2. cbn [drive]. rewrite E1, E2. reflexivity. Qed.

(** One scalar parameter, cost 3x, two steps. *)
Definition linear_cost : @objective R := fun _ _ => Ok (0%R, [[3%R]]).
Definition slope3 : env (tensor R) :=
  plain_env (fun _ _ => 0%R) (fun n => n) (Sghmc (Config (1/20) 1)%R) linear_cost.

Theorem C11_no_burn_in_means_fixed_mass_refuted : ~ no_burn_in_means_fixed_mass.
Proof.
  intros HP.
  set (w := Sghmc (Config (1/20) 1)%R).
  set (z0 := session_of w (1/10)%R [Tensor [] [0%R]] [NoiseOp (1, 2)%Z 0]).
  assert (Hus : Forall no_fed_mass [@None (feed (tensor R)); None]).
  { repeat constructor; intros i; reflexivity. }
  set (s0 := initial_state slope3 tt (scalar_tensor (1/10)%R) z0).
  (* both calls succeed *)
  assert (Rok : forall z, reached (fun n => n) (kernel_of w) (inv_of w) z0 z -> forall f, (forall i, lookup f (KMinv i) = None) ->
     exists o z', session_run_model (fun _ _ => 0%R) (fun n => n) (kernel_of w) linear_cost f z = (Ok o, z')).
  { intros z (_ & RL & t & R3) f Hf. unfold session_run_model, linear_cost.
    destruct (run_params_ok R Num_R (fun _ _ => 0%R) (fun n => n) (kernel_of w) (fed_eps _ f z) f Hf (z_params _ z) [[3%R]] 0) as [[ms ps] ->];
      [|eauto].
    destruct (R3 0 _ _ eq_refl) as (ins & _ & _ & Hn & Hi).
    destruct (z_params (kernel_of w) z) as [|p [|]]; try discriminate.
    cbn in Hn. injection Hn as ->. constructor; [|constructor]. cbn [fst].
    destruct (inv_clone w _ _ Hi) as [C1 C2]. etransitivity; [|symmetry; exact (eq_trans (f_equal (@length R) C1) C2)]. reflexivity. }
  assert (R0 : reached (fun n => n) (kernel_of w) (inv_of w) z0 z0).
  { apply reached_refl. intros j s o Hj.
    destruct (session_of_params _ _ _ _ _ _ _ Hj) as (v & _ & _ & ->). rewrite init_value. apply init_inv. }
  destruct (Rok z0 R0 [(KEps, s_sched slope3 s0)] ltac:(reflexivity)) as (o1 & z1 & Run1).
  destruct (call_ok R Num_R _ _ w linear_cost 0 1 s0 o1 z1 (or_intror (Z.le_refl 0)) Run1) as (r1 & s1 & ev1 & E1 & Rev1 & Es1 & Ec1 & _).
  change (plain_env (fun _ _ => 0%R) (fun n => n) w linear_cost) with slope3 in E1, Es1, Ec1.
  pose proof (reached_run _ _ _ _ _ _ _ _ _ _ (kernel_of_sized w) R0 Run1) as R1'.
  destruct (Rok z1 R1' [(KEps, s_sched slope3 s1)] ltac:(reflexivity)) as (o2 & z2 & Run2).
  rewrite <- Es1 in Run2.
  destruct (call_ok R Num_R _ _ w linear_cost 0 1 s1 o2 z2 (or_intror (Z.le_refl 0)) Run2) as (r2 & s2 & ev2 & E2 & Rev2 & _ & _ & _).
  change (plain_env (fun _ _ => 0%R) (fun n => n) w linear_cost) with slope3 in E2.
  pose proof (two_calls _ slope3 _ _ _ _ _ _ _ _ E1 E2) as Ed.
  set (c1 := {| cr_user := None; cr_pre := s0; cr_res := Ok r1; cr_events := ev1; cr_post := s1 |}) in *.
  set (c2 := {| cr_user := None; cr_pre := s1; cr_res := Ok r2; cr_events := ev2; cr_post := s2 |}) in *.
  pose proof (C11_mass_adapts_forever _ _ w linear_cost unit None (constant_schedule _ _) 0 1 _ [c1; c2] s2 tt
     (scalar_tensor (1/10)%R) (1/10)%R [Tensor [] [0%R]] [NoiseOp (1, 2)%Z 0] eq_refl ltac:(lia) Hus Ed) as HA.
  specialize (HP _ _ w linear_cost unit None (constant_schedule _ _) 0%Z 1 _ [c1; c2] s2 tt
     (scalar_tensor (1/10)%R) (1/10)%R [Tensor [] [0%R]] [NoiseOp (1, 2)%Z 0] eq_refl ltac:(lia) Hus Ed).
  cbn zeta in HA, HP. change (sampler_env _ _ _ _ _ _ _) with slope3 in HA, HP.
  pose proof (eq_refl : is_ok (@Ok (sample (tensor R) * tensor R) r1) = true) as K1.
  pose proof (eq_refl : is_ok (@Ok (sample (tensor R) * tensor R) r2) = true) as K2.
  specialize (HP c1 c2 _ _ o1 o2 (or_introl eq_refl) (or_intror (or_introl eq_refl)) Rev1 Rev2).
  destruct (HA c1 _ o1 (or_introl eq_refl) K1 Rev1 0 _ 0 eq_refl ltac:(cbn; lia))
    as (st1 & st1' & p1 & p1' & g1 & m1 & vh1 & vh1' & r1' & A1 & A2 & A3 & A4 & A5 & A6 & (cst & gs & A7 & A8) & _ & Ar & A9).
  destruct (HA c2 _ o2 (or_intror (or_introl eq_refl)) K2 Rev2 0 _ 0 eq_refl ltac:(cbn; lia))
    as (st2 & st2' & p2 & p2' & g2 & m2 & vh2 & vh2' & r2' & B1 & B2 & B3 & B4 & B5 & _).
  (* the estimate is 1 before the first step, larger before the second *)
  injection A1 as <- <-. cbn in A4. injection A4 as <-.
  injection A7 as _ <-. cbn in A8. injection A8 as <-.
  change (s_sess slope3 (cr_pre slope3 c2)) with (s_sess slope3 (cr_post slope3 c1)) in B1.
  rewrite A2 in B1. injection B1 as <- <-. rewrite A6 in B4. injection B4 as <-.
  rewrite HP in A3. rewrite B3 in A3. injection A3 as <-. rewrite A5 in B5. injection B5 as B5.
  change (Rfrac 1 1) with (n1 : R) in *. rewrite n1_R in *. cbn [nth] in A9.
  assert (1 < vh1')%R by nra.
  assert (sqrt 1 < sqrt vh1')%R by (apply sqrt_lt_1_alt; lra).
  unfold inverse_mass in B5. pose proof guard_pos. rewrite sqrt_1 in *.
  apply (f_equal Rinv) in B5. unfold Rdiv in B5. rewrite !Rmult_1_l, !Rinv_inv in B5. lra.
Qed.

(** *** C32: seeded runs are reproducible *)
Lemma seeded_ops : forall g seed ids ids' ent ent' n,
  noise_ops g (Some seed) ids ent n = noise_ops g (Some seed) ids' ent' n.
Proof. intros. unfold noise_ops. apply map_ext. intros i. unfold make_noise_op. destruct g; reflexivity. Qed.

(** Same seed (and same graph-level seed, set or not): the complete history - results,
    events, states - is the same, whatever the op ids and the entropy source. *)
Theorem C32_seeded_runs_are_reproducible :
  forall (T : Type) (NT : Num T) stream reserve (w : which T) cg B bg sc b n us b0 c0 eps0 params
         (graph_seed : option Z) (seed : Z) ids ids' ent ent',
  let E := sampler_env stream reserve (kernel_of w) cg B bg sc in
  let history ids ent :=
    drive E (burnin_next E b n) us
      (initial_state E b0 c0 (session_of w eps0 params
         (noise_ops graph_seed (Some seed) ids ent (length params)))) in
  history ids ent = history ids' ent'.
Proof.
  intros. unfold history. now rewrite (seeded_ops graph_seed seed ids ids' ent ent').
Qed.

(** Without a seed this fails; with only a graph-level seed, samples depend on the op ids. *)
Definition unseeded_runs_are_reproducible (graph_seed : option Z) : Prop :=
  forall stream reserve (w : which R) cg B bg sc b n us b0 c0 eps0 params ids ids' ent ent',
  let E := sampler_env stream reserve (kernel_of w) cg B bg sc in
  let samples ids ent :=
    map (cr_res E) (fst (drive E (burnin_next E b n) us
      (initial_state E b0 c0 (session_of w eps0 params
         (noise_ops graph_seed None ids ent (length params)))))) in
  samples ids ent = samples ids' ent'.
Theorem C32_unseeded_runs_refuted : forall graph_seed, ~ unseeded_runs_are_reproducible graph_seed.
Proof.
  intros g H.
  set (w := Sgld (LConfig 1 1)%R).
  set (cg := (fun _ _ => Ok (0%R, [[0%R]])) : @objective R).
  set (st := fun (k : Z * Z) (_ : nat) => IZR (snd k)).
  specialize (H st (fun n => n) w cg unit None
     (constant_schedule _ _) 1%Z 1 [None] tt (scalar_tensor 1%R) 1%R [Tensor [] [0%R]] [0] [1]
     (fun _ => (0, 0)%Z) (fun _ => (0, 1)%Z)).
  cbn zeta in H.
  assert (Key : forall i e, e = Z.of_nat i -> exists k, op_key (make_noise_op g None i (0, e)%Z) = (k, e)).
  { intros i e ->. unfold make_noise_op, get_seed. destruct g; cbn; eauto. }
  assert (One : forall i e, e = Z.of_nat i -> forall r,
    map (cr_res (plain_env st (fun n => n) w cg)) (fst (drive (plain_env st (fun n => n) w cg) (burnin_next _ 1 1) [None]
      (initial_state (plain_env st (fun n => n) w cg) tt (scalar_tensor 1%R)
         (session_of w 1%R [Tensor [] [0%R]] [make_noise_op g None i (0, e)%Z])))) = r ->
    r = [Ok (SList [Tensor [] [(0 + (- (1) * inverse_mass 1 * 1 * 0 + sqrt (2 * (1 * inverse_mass 1 * 1) / (1 + 3 * guard)) * IZR e))%R]],
             scalar_tensor 0%R)]).
  { intros i e He r <-. destruct (Key i e He) as [k Hk].
    set (s0 := initial_state _ _ _ _).
    assert (Run : exists ms z, session_run_model st (fun n => n) (kernel_of w) cg [(KEps, scalar_tensor 1%R)] (s_sess _ s0) =
      (Ok {| o_theta := [l_val (sgld_step (LConfig 1 1)%R 1%R [0%R] [IZR e] None (linit (Tensor [] [0%R])))];
             o_cost := scalar_tensor 0%R; o_minv := ms |}, z)).
    { unfold session_run_model, cg, s0. cbn [initial_state s_sess session_of w sgld_session z_params map combine run_params
        run_param kernel_of sgld_kernel k_value k_step k_minv fst snd linit l_val data length Nat.eqb lookup key_eqb option_map andb draw
        seq map bind fed_eps hd scalar_tensor values]. unfold st at 1. rewrite Hk. cbn [snd]. eexists. eexists. reflexivity. }
    destruct Run as (ms & z & Run).
    destruct (call_ok R Num_R st (fun n => n) w cg 1 1 s0 _ z (or_introl (eq_refl : (Z.of_nat 0 < 1)%Z)) Run) as (r1 & s1 & ev1 & E1 & _ & _ & _ & _ & Hr1).
    cbn [drive]. rewrite E1. cbn [fst map cr_res]. rewrite (Hr1 (eq_refl : (Z.of_nat 0 < 1)%Z)). cbn [o_theta o_cost].
    unfold sgld_step. cbn [l_val data shape linit minv_used adapt_step a_minv map vmap2 combine l_A a_vhat l_adapt adapt_init length repeat l_vec].
    rewrite lsigma_R by (cbn; lra). cbn [l_A l_scale_grad nadd nmul nopp Num_R].
    rewrite n1_R. rewrite safe_sqrt_R, safe_divide_R_pos by (rewrite ?sqrt_1; lra).
    change (1 / (sqrt 1 + 3 * guard))%R with (inverse_mass 1).
    destruct (inverse_mass_bounds 1 ltac:(lra)) as [Hm _]. pose proof guard_pos.
    rewrite Rmax_right; [reflexivity|]. unfold sgld_drift. apply Rmult_le_pos; [lra|].
    apply Rlt_le, Rinv_0_lt_compat. lra. }
  pose proof (One 0 0%Z eq_refl _ eq_refl) as S0. pose proof (One 1 1%Z eq_refl _ eq_refl) as S1.
  unfold plain_env in S0, S1. unfold noise_ops in H. cbn [length seq map nth] in H.
  rewrite S0, S1 in H. injection H as H.
  destruct (inverse_mass_bounds 1 ltac:(lra)) as [Hm _]. pose proof guard_pos.
  assert (0 < 2 * (1 * inverse_mass 1 * 1) / (1 + 3 * guard))%R by (apply Rdiv_lt_0_compat; lra).
  pose proof (sqrt_lt_R0 _ H1). lra.
Qed.

Print Assumptions C16_samples_track_parameters.
Print Assumptions C16_external_writes_are_overwritten.
Print Assumptions C11_mass_adapts_forever.
Print Assumptions C11_no_burn_in_means_fixed_mass_refuted.
Print Assumptions C32_seeded_runs_are_reproducible.
Print Assumptions C32_unseeded_runs_refuted.
