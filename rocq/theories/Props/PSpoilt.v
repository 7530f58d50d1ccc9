(** C101: in double precision a parameter entry that became infinite or NaN never recovers. *)
From Coq Require Import List Arith Lia ZArith Bool.
From Flocq Require IEEE754.BinarySingleNaN.
From Verif.Base Require Import Py Num Float64 Vec Lists.
From Verif.Model Require Import TensorUtils BurnIn SGHMC SGLD Relativistic SVGD Stepsize BaseClasses Session SvgdSession.
From Verif.Spec Require Import Sampler Trajectory Tensor Doubles.
From Verif.Proofs Require Import Distances Sampler SamplerHistory Session Dynamics Trajectory KernelHistory.
From Verif.Props Require Import PSampler PRelativistic PSvgdChain.
Import ListNotations.

(** *** Sessions along a history *)
Section Later.
Context {V : Type}.
Variable E : env V.
Lemma drive_last : forall nx us s pre c s', drive E nx us s = (pre ++ [c], s') -> s' = cr_post E c.
Proof.
  intros nx us s pre. revert us s. induction pre as [|a pre IH]; intros us s c s' H; destruct us as [|u us]; cbn in H; try discriminate H;
    destruct (call E nx u s) as [[r s1] ev] eqn:Ec; destruct (drive E nx us s1) as [rs s2] eqn:Ed; injection H as Ha Hr Hs; subst.
  - destruct us as [|u' us]; cbn in Ed; [injection Ed as Ed; now subst|].
    destruct (call E nx u' s1) as [[r' s1'] ev']. destruct (drive E nx us s1'). discriminate Ed.
  - apply (IH us s1). exact Ed.
Qed.
(** What every run of the session preserves still holds after all later calls. *)
Lemma holds_later : forall (Inv : sess_state E -> Prop) k b0 c0 z0 pre c1,
  (forall f z r z', Inv z -> run E f z = (r, z') -> Inv z') -> Inv (s_sess E (cr_post E c1)) ->
  forall mid us s', drive E (next_of E k) us (initial_state E b0 c0 z0) = (pre ++ c1 :: mid, s') -> Inv (s_sess E s').
Proof.
  intros Inv k b0 c0 z0 pre c1 HR H1 mid. induction mid as [|c mid IH] using rev_ind; intros us s' HD.
  - rewrite (drive_last _ _ _ _ _ _ HD). exact H1.
  - assert (HD' : drive E (next_of E k) us (initial_state E b0 c0 z0) = ((pre ++ c1 :: mid) ++ c :: [], s')) by (rewrite <- app_assoc; exact HD).
    rewrite (drive_last _ _ _ _ _ _ HD'). destruct (drive_split E _ _ _ _ _ _ _ HD') as (_ & us1 & D1 & _).
    specialize (IH _ _ D1). destruct (outcome_of _ E _ _ _ _ _ _ _ _ _ HD') as (base & fmt & [_ _ _ _ SS] & _).
    revert SS IH. generalize (s_sess E (cr_pre E c)) (map snd (runs (cr_events E c))). induction (map fst (runs (cr_events E c))) as [|f fs IHf]; intros z l SS Hz; cbn [run_all] in SS.
    + injection SS as _ <-. exact Hz.
    + destruct (run E f z) as [r z1] eqn:Er. destruct (run_all E fs z1) as [rs z2] eqn:E2. injection SS as _ SS. subst z2. eapply IHf; [exact E2|eauto].
Qed.
Lemma success_run : forall k us rs s' b0 c0 z0 c smp cost, drive E (next_of E k) us (initial_state E b0 c0 z0) = (rs, s') ->
  In c rs -> cr_res E c = Ok (smp, cost) -> exists f o, runs (cr_events E c) = [(f, Ok o)] /\ values_of smp = o_theta o.
Proof.
  intros k us rs s' b0 c0 z0 c smp cost HD Hin Hr. destruct (C09_step_protocol _ _ _ _ _ _ _ _ _ HD) as [_ P].
  destruct (P c smp cost Hin Hr) as (evb & b & eps & f & o & He & Hb & _ & _ & _ & Hs). exists f, o. rewrite He. split.
  - unfold runs. rewrite flat_map_app. unfold batch_events in Hb. destruct (bg_next E); [subst evb|destruct Hb; subst evb]; reflexivity.
  - destruct Hs as [-> |(v & Hv & ->)]; [reflexivity|now rewrite Hv].
Qed.
End Later.

(** *** The three kernels *)
Record fragile (K : kernel (T:=f64)) (inv : nat -> k_state K -> Prop) : Prop := {
  fr_sized : kernel_sized K inv;
  fr_keep : forall n s i inp x, inv n s -> sized n inp -> nth_error (data (k_value K s)) i = Some x -> spoilt x ->
    exists y, nth_error (data (k_value K (k_step K (i_eps inp) (i_grad inp) (i_xi inp) (i_fed inp) s))) i = Some y /\ spoilt y;
  fr_grad : forall n s i inp g, inv n s -> sized n inp -> nth_error (i_grad inp) i = Some g -> spoilt g ->
    exists y, nth_error (data (k_value K (k_step K (i_eps inp) (i_grad inp) (i_xi inp) (i_fed inp) s))) i = Some y /\ spoilt y }.

#[local] Hint Resolve add_spoilt_l add_spoilt_r sub_spoilt_l sub_spoilt_r mul_spoilt_l mul_spoilt_r div_spoilt_l opp_spoilt : spoil.

Lemma nth_some : forall A (l : list A) n i, length l = n -> i < n -> exists x, nth_error l i = Some x.
Proof. intros. apply nth_error_lt. lia. Qed.

Lemma sghmc_fragile : forall c, fragile (sghmc_kernel c) sghmc_inv.
Proof.
  intros c.
  assert (P : forall n s i inp x g, sghmc_inv n s -> sized n inp -> nth_error (p_vec s) i = Some x -> nth_error (i_grad inp) i = Some g -> spoilt x \/ spoilt g ->
    exists y, nth_error (p_vec (sghmc_step c (i_eps inp) (i_grad inp) (i_xi inp) (i_fed inp) s)) i = Some y /\ spoilt y).
  { intros n s i inp x g [HL _] Hs Hx Hg Hb. destruct (pstate_len_step n c inp s HL Hs) as (LA & LM & LV).
    destruct HL as (LA0 & LM0 & LV0). destruct Hs as (L1 & L2 & L3).
    assert (Hi : i < n) by (rewrite <- LV0; apply nth_error_Some; congruence).
    unfold sghmc_step in *. cbn [p_vec p_mom p_adapt] in *. set (a' := adapt_step (i_grad inp) (p_adapt s)) in *.
    assert (Lm : length (minv_used (i_fed inp) a') = n).
    { unfold minv_used. destruct (i_fed inp); [exact L3|apply LA]. }
    destruct (nth_some _ _ n i Lm Hi) as [m Hm]. destruct (nth_some _ _ n i LM0 Hi) as [v Hv]. destruct (nth_some _ _ n i L2 Hi) as [xi Hxi].
    eexists. split.
    - rewrite !nth_error_vmap2, !nth_error_map, Hx, Hv, Hm, Hg, Hxi. reflexivity.
    - destruct Hb as [Hb|Hb]; auto 8 with spoil. }
  split; [apply sghmc_kernel_sized| |]; cbn [k_state k_value k_step sghmc_kernel].
  - intros n s i inp x Hi Hs Hx Hb. pose proof Hi as [(_ & _ & LV) HV]. rewrite HV in Hx. pose proof Hs as (L1 & _).
    assert (Hi' : i < n) by (rewrite <- LV; apply nth_error_Some; congruence). destruct (nth_some _ _ n i L1 Hi') as [g Hg].
    apply (P n s i inp x g); auto.
  - intros n s i inp g Hi Hs Hg Hb. pose proof Hi as [(_ & _ & LV) HV]. pose proof Hs as (L1 & _).
    assert (Hi' : i < n) by (rewrite <- L1; apply nth_error_Some; congruence). destruct (nth_some _ _ n i LV Hi') as [x Hx].
    apply (P n s i inp x g); auto.
Qed.

Lemma sgld_fragile : forall c, fragile (sgld_kernel c) sgld_inv.
Proof.
  intros c.
  assert (P : forall n s i inp x g, sgld_inv n s -> sized n inp -> nth_error (l_vec s) i = Some x -> nth_error (i_grad inp) i = Some g -> spoilt x \/ spoilt g ->
    exists y, nth_error (l_vec (sgld_step c (i_eps inp) (i_grad inp) (i_xi inp) (i_fed inp) s)) i = Some y /\ spoilt y).
  { intros n s i inp x g [HL _] Hs Hx Hg Hb. destruct (lstate_len_step n c inp s HL Hs) as (LA & LV).
    destruct HL as (LA0 & LV0). destruct Hs as (L1 & L2 & L3).
    assert (Hi : i < n) by (rewrite <- LV0; apply nth_error_Some; congruence).
    unfold sgld_step in *. cbn [l_vec l_adapt] in *. set (a' := adapt_step (i_grad inp) (l_adapt s)) in *.
    assert (Lm : length (minv_used (i_fed inp) a') = n).
    { unfold minv_used. destruct (i_fed inp); [exact L3|apply LA]. }
    destruct (nth_some _ _ n i Lm Hi) as [m Hm]. destruct (nth_some _ _ n i L2 Hi) as [xi Hxi].
    eexists. split.
    - rewrite !nth_error_vmap2, !nth_error_map, Hx, Hm, Hg, Hxi. reflexivity.
    - destruct Hb as [Hb|Hb]; auto 8 with spoil. }
  split; [apply sgld_kernel_sized| |]; cbn [k_state k_value k_step sgld_kernel].
  - intros n s i inp x Hi Hs Hx Hb. pose proof Hi as [(_ & LV) HV]. rewrite HV in Hx. pose proof Hs as (L1 & _).
    assert (Hi' : i < n) by (rewrite <- LV; apply nth_error_Some; congruence). destruct (nth_some _ _ n i L1 Hi') as [g Hg].
    apply (P n s i inp x g); auto.
  - intros n s i inp g Hi Hs Hg Hb. pose proof Hi as [(_ & LV) HV]. pose proof Hs as (L1 & _).
    assert (Hi' : i < n) by (rewrite <- L1; apply nth_error_Some; congruence). destruct (nth_some _ _ n i LV Hi') as [x Hx].
    apply (P n s i inp x g); auto.
Qed.

Definition rel_inv1 (n : nat) (s : rstate f64) : Prop := rel_inv n s /\ n = 1.
Lemma rel_fragile : forall c, fragile (rel_kernel c) rel_inv1.
Proof.
  intros c. split.
  - destruct (rel_kernel_sized f64 _ c) as [S1 S2]. split; [intros n s [H _]; auto|intros n s i [H E] Hs; split; auto].
  - intros n s i inp x [[L HV] _] Hs Hx Hb. cbn [k_state k_value k_step rel_kernel] in *. rewrite HV in Hx.
    eexists. unfold rel_step. cbn [r_val data]. rewrite nth_error_map, Hx. split; [reflexivity|auto with spoil].
  - intros n s i inp g [[L HV] ->] (L1 & L2 & _) Hg Hb. cbn [k_state k_value k_step rel_kernel] in *.
    destruct (i_grad inp) as [|g0 [|? ?]]; try discriminate L1. destruct i as [|i]; [|destruct i; discriminate Hg]. injection Hg as ->.
    destruct (r_vec s) as [|x [|? ?]] eqn:Ev; try discriminate L. destruct (i_xi inp) as [|xi [|? ?]]; try discriminate L2.
    unfold rel_step. rewrite Ev. cbn [r_val data map vmap2 combine hd nth_error]. eexists. split; [reflexivity|].
    apply add_spoilt_r. unfold rel_velocity. auto 8 with spoil.
Qed.

(** *** Complete runs *)
Section Runs.
Variable stream : Z * Z -> nat -> f64.
Variable reserve : nat -> nat.
Variable K : kernel (T:=f64).
Variable cg : @objective f64.
Variable B : Type.
Variable bg : option (B -> res (list (nat * tensor f64)) * B).
Variable sc : schedule (tensor f64) (sample (tensor f64) * tensor f64).
Let E := sampler_env stream reserve K cg B bg sc.
Variable inv : nat -> k_state K -> Prop.
Variable z0 : sess K.
Hypothesis HF : fragile K inv.
Hypothesis Hinit : forall j s o, nth_error (z_params K z0) j = Some (s, o) -> inv (length (data (k_value K s))) s.

Definition bad_session (j i : nat) (z : sess K) : Prop :=
  reached reserve K inv z0 z /\ exists s o x, nth_error (z_params K z) j = Some (s, o) /\ nth_error (data (k_value K s)) i = Some x /\ spoilt x.

Lemma reached_inv : forall z j s o, reached reserve K inv z0 z -> nth_error (z_params K z) j = Some (s, o) -> inv (length (data (k_value K s))) s.
Proof.
  intros z j s o (_ & RL & t & R3) Hj.
  assert (L : j < length (z_params K z0)) by (rewrite <- RL; apply nth_error_Some; congruence).
  destruct (nth_error_lt _ _ _ L) as [[s0 o0] E0]. destruct (R3 j s0 o0 E0) as (ins & _ & _ & Hn & Hi). rewrite Hj in Hn. injection Hn as -> _.
  rewrite (proj1 (fr_sized _ _ HF) _ _ Hi). exact Hi.
Qed.

Lemma bad_stays : forall j i f z r z', bad_session j i z -> session_run_model stream reserve K cg f z = (r, z') -> bad_session j i z'.
Proof.
  intros j i f z r z' [HR (s & o & x & Hj & Hx & Hb)] HM.
  split; [eapply reached_run; eauto; apply (fr_sized _ _ HF)|]. pose proof (reached_inv _ _ _ _ HR Hj) as Hi.
  unfold session_run_model in HM. destruct (cg (values K z) (fun n => lookup f (KUser n))) as [[c gs]|e]; [|injection HM as _ <-; eauto 8].
  destruct (run_params stream reserve K (fed_eps K f z) f 0 gs (z_params K z)) as [[ms ps]|e] eqn:Er; [|injection HM as _ <-; eauto 8].
  injection HM as _ <-. destruct (run_params_nth _ _ _ _ _ _ _ _ _ _ Er) as (_ & _ & HN). destruct (HN j _ _ Hj) as (g & Hg & Hs & Hq & _).
  cbn zeta in Hs, Hq. destruct (fr_keep _ _ HF _ _ _ _ _ Hi Hs Hx Hb) as (y & Hy & Hyb). cbn [z_params]. eauto 8.
Qed.

Lemma session_spoilt : forall k us rs s' b0 c0 c smp cost j i,
  drive E (next_of E k) us (initial_state E b0 c0 z0) = (rs, s') -> In c rs -> cr_res E c = Ok (smp, cost) ->
  (spoilt_entry smp j i <-> bad_session j i (s_sess E (cr_post E c))).
Proof.
  intros k us rs s' b0 c0 c smp cost j i HD Hin Hr. destruct (success_run E k us rs s' b0 c0 z0 c smp cost HD Hin Hr) as (f & o & Hf & Hv).
  destruct (kernel_call_step stream reserve K cg B bg sc k us rs s' b0 c0 z0 HD c f o Hin Hf) as (cst & gs & _ & _ & Ht & _). fold E in Ht.
  destruct (kernel_history_reached stream reserve K cg B bg sc inv k us rs s' b0 c0 z0 (fr_sized _ _ HF) Hinit HD c Hin) as [_ HR]. fold E in HR.
  unfold spoilt_entry, bad_session. rewrite Hv, Ht. unfold values. split.
  - intros (v & x & H1 & H2 & H3). split; [exact HR|]. rewrite nth_error_map in H1.
    destruct (nth_error (z_params K (s_sess E (cr_post E c))) j) as [[s op]|]; [|discriminate H1]. cbn [option_map fst] in H1. injection H1 as <-. exists s, op, x. auto.
  - intros (_ & s & op & x & H1 & H2 & H3). exists (k_value K s), x. rewrite nth_error_map, H1. auto.
Qed.

Lemma stays_spoilt : forall k us s' b0 c0 pre c1 mid c2 post smp1 cost1 smp2 cost2 j i,
  drive E (next_of E k) us (initial_state E b0 c0 z0) = (pre ++ c1 :: mid ++ c2 :: post, s') ->
  cr_res E c1 = Ok (smp1, cost1) -> cr_res E c2 = Ok (smp2, cost2) -> spoilt_entry smp1 j i -> spoilt_entry smp2 j i.
Proof.
  intros k us s' b0 c0 pre c1 mid c2 post smp1 cost1 smp2 cost2 j i HD R1 R2 H1.
  assert (I1 : In c1 (pre ++ c1 :: mid ++ c2 :: post)) by (apply in_or_app; right; now left).
  assert (I2 : In c2 (pre ++ c1 :: mid ++ c2 :: post)) by (apply in_or_app; right; right; apply in_or_app; right; now left).
  apply (session_spoilt k us _ s' b0 c0 c2 smp2 cost2 j i HD I2 R2). apply (session_spoilt k us _ s' b0 c0 c1 smp1 cost1 j i HD I1 R1) in H1.
  assert (HD' : drive E (next_of E k) us (initial_state E b0 c0 z0) = ((pre ++ c1 :: mid) ++ c2 :: post, s')) by (rewrite <- app_assoc; exact HD).
  destruct (drive_split E _ _ _ _ _ _ _ HD') as (_ & _ & _ & us2 & D2). rewrite <- app_assoc in D2.
  apply (holds_later E (bad_session j i) k b0 c0 z0 pre c1) with (mid := mid ++ [c2]) (us := us2) (s' := cr_post E c2); [intros f z r z' Hz Er; exact (bad_stays j i f z r z' Hz Er)|exact H1|exact D2].
Qed.

Lemma gradient_spoils : forall k us rs s' b0 c0 c smp cost f o cst gs g y j i,
  drive E (next_of E k) us (initial_state E b0 c0 z0) = (rs, s') -> In c rs -> cr_res E c = Ok (smp, cost) ->
  runs (cr_events E c) = [(f, Ok o)] -> cg (values K (s_sess E (cr_pre E c))) (fun n => lookup f (KUser n)) = Ok (cst, gs) ->
  nth_error gs j = Some g -> nth_error g i = Some y -> spoilt y -> spoilt_entry smp j i.
Proof.
  intros k us rs s' b0 c0 c smp cost f o cst gs g y j i HD Hin Hr Hf Hcg Hg Hy Hb.
  apply (session_spoilt k us rs s' b0 c0 c smp cost j i HD Hin Hr).
  destruct (kernel_call_step stream reserve K cg B bg sc k us rs s' b0 c0 z0 HD c f o Hin Hf) as (cst' & gs' & Hcg' & _ & Ht & HS). fold E in Hcg', Ht, HS.
  rewrite Hcg in Hcg'. injection Hcg' as <- <-.
  destruct (kernel_history_reached stream reserve K cg B bg sc inv k us rs s' b0 c0 z0 (fr_sized _ _ HF) Hinit HD c Hin) as [HRp HR]. fold E in HRp, HR.
  split; [exact HR|].
  pose proof (kernel_call_run stream reserve K cg B bg sc k us rs s' b0 c0 z0 HD c f o Hin Hf) as Hrun. fold E in Hrun.
  unfold session_run_model in Hrun. rewrite Hcg in Hrun.
  destruct (run_params _ _ _ _ _ _ _ _) as [[ms ps]|e] eqn:Er; [|discriminate Hrun]. clear Hrun.
  assert (L : j < length (z_params K (s_sess E (cr_pre E c)))).
  { clear -Er Hg. revert Er Hg. generalize (z_params K (s_sess E (cr_pre E c))) 0 ms ps j. clear. induction gs as [|a gs IH]; intros ps0 n0 ms ps j Er Hg; [destruct j; discriminate Hg|].
    destruct ps0 as [|p ps0]; [discriminate Er|]. destruct j as [|j]; cbn; [lia|]. cbn in Hg. cbn [run_params] in Er.
    destruct (run_param _ _ _ _ _ _ _) as [[m p']|]; [|discriminate Er]. cbn [bind] in Er.
    destruct (run_params _ _ _ _ _ _ _ _) as [[ms' qs]|] eqn:Eq; [|discriminate Er]. specialize (IH _ _ _ _ _ Eq Hg). lia. }
  destruct (nth_error_lt _ _ _ L) as [[s op] Hj]. destruct (HS j s op Hj) as (g' & Hg' & Hsz & Hq). rewrite Hg in Hg'. injection Hg' as <-. cbn zeta in Hsz, Hq.
  destruct (fr_grad _ _ HF _ _ _ _ _ (reached_inv _ _ _ _ HRp Hj) Hsz Hy Hb) as (x & Hx & Hxb). eauto 8.
Qed.
End Runs.

Lemma started_fragile : forall K z0, started K z0 -> exists inv, fragile K inv /\
  forall j s o, nth_error (z_params K z0) j = Some (s, o) -> inv (length (data (k_value K s))) s.
Proof.
  intros K z0 H. destruct H as [c eps0 params ops|c eps0 params ops|c eps0 params momenta ops HP].
  - exists sghmc_inv. split; [apply sghmc_fragile|]. intros j s o Hj. cbn [sghmc_session z_params] in Hj.
    assert (In (s, o) (combine (map pinit params) ops)) as Hin by (eapply nth_error_In; exact Hj). apply in_combine_l in Hin. apply in_map_iff in Hin as (v & <- & _).
    apply sghmc_inv_init.
  - exists sgld_inv. split; [apply sgld_fragile|]. intros j s o Hj. cbn [sgld_session z_params] in Hj.
    assert (In (s, o) (combine (map linit params) ops)) as Hin by (eapply nth_error_In; exact Hj). apply in_combine_l in Hin. apply in_map_iff in Hin as (v & <- & _).
    apply sgld_inv_init.
  - exists rel_inv1. split; [apply rel_fragile|]. intros j s o Hj.
    destruct (rel_session_params _ _ _ _ _ _ _ _ _ _ Hj) as (v & p & Hv & _ & _ & ->). split; [now split|].
    rewrite Forall_forall in HP. cbn. apply HP. eapply nth_error_In; eauto.
Qed.

(** Once an entry of a sample is infinite or NaN, it is so in every later sample. *)
Theorem C101_entries_never_recover :
  forall stream reserve K z0 cg B bg sc k us s' b0 c0 pre c1 mid c2 post smp1 cost1 smp2 cost2 j i,
  started K z0 ->
  let E := sampler_env stream reserve K cg B bg sc in
  drive E (next_of E k) us (initial_state E b0 c0 z0) = (pre ++ c1 :: mid ++ c2 :: post, s') ->
  cr_res E c1 = Ok (smp1, cost1) -> cr_res E c2 = Ok (smp2, cost2) ->
  spoilt_entry smp1 j i -> spoilt_entry smp2 j i.
Proof.
  intros stream reserve K z0 cg B bg sc k us s' b0 c0 pre c1 mid c2 post smp1 cost1 smp2 cost2 j i HS E HD R1 R2 H1.
  destruct (started_fragile K z0 HS) as (inv & HF & Hi). eapply stays_spoilt; eauto.
Qed.

(** A gradient entry that is infinite or NaN makes the entry it belongs to infinite or NaN in the same call. *)
Theorem C101_bad_gradients_spoil :
  forall stream reserve K z0 cg B bg sc k us rs s' b0 c0 c smp cost f o cst gs g y j i,
  started K z0 ->
  let E := sampler_env stream reserve K cg B bg sc in
  drive E (next_of E k) us (initial_state E b0 c0 z0) = (rs, s') -> In c rs -> cr_res E c = Ok (smp, cost) ->
  runs (cr_events E c) = [(f, Ok o)] ->
  cg (values K (s_sess E (cr_pre E c))) (fun n => lookup f (KUser n)) = Ok (cst, gs) ->
  nth_error gs j = Some g -> nth_error g i = Some y -> spoilt y ->
  spoilt_entry smp j i.
Proof.
  intros stream reserve K z0 cg B bg sc k us rs s' b0 c0 c smp cost f o cst gs g y j i HS E HD Hin Hr Hf Hcg Hg Hy Hb.
  destruct (started_fragile K z0 HS) as (inv & HF & Hi). eapply gradient_spoils; eauto.
Qed.

(** *** Stein variational gradient descent *)
Definition bad_at (M : list (list f64)) (a k : nat) : Prop :=
  exists r x, nth_error M a = Some r /\ nth_error r k = Some x /\ spoilt x.

Lemma grid_row : forall n d M a, grid n d M -> a < n -> exists r, nth_error M a = Some r /\ length r = d.
Proof.
  intros n d M a [L F] Ha. destruct (nth_some _ M n a L Ha) as [r Hr]. exists r. split; [auto|].
  rewrite Forall_forall in F. apply F. eapply nth_error_In; eauto.
Qed.
Lemma grid_intro : forall n d (M : list (list f64)), length M = n -> (forall a r, nth_error M a = Some r -> length r = d) -> grid n d M.
Proof. intros n d M L H. split; [auto|]. apply Forall_forall. intros r Hr. apply In_nth_error in Hr as [a Ha]. eauto. Qed.
Lemma grid_mmap2 : forall f n d A B, grid n d A -> grid n d B -> grid n d (mmap2 f A B).
Proof.
  intros f n d A B HA HB. apply grid_intro; [apply vmap2_length; [exact (proj1 HA)|exact (proj1 HB)]|].
  intros a r Hr. unfold mmap2 in Hr. rewrite nth_error_vmap2 in Hr. destruct (nth_error A a) as [x|] eqn:Ex; [|discriminate Hr]. destruct (nth_error B a) as [y|] eqn:Ey; [|discriminate Hr].
  injection Hr as <-. assert (Ha : a < n) by (rewrite <- (proj1 HA); apply nth_error_Some; congruence).
  destruct (grid_row _ _ _ _ HA Ha) as (x' & E1 & L1). destruct (grid_row _ _ _ _ HB Ha) as (y' & E2 & L2). replace x' with x in L1 by congruence. replace y' with y in L2 by congruence. now apply vmap2_length.
Qed.
Lemma grid_mmap : forall f n d A, grid n d A -> grid n d (mmap f A).
Proof.
  intros f n d A [L F]. unfold mmap. split; [now rewrite map_length|]. apply Forall_forall. intros r Hr. apply in_map_iff in Hr as (x & <- & Hx).
  rewrite map_length. rewrite Forall_forall in F. now apply F.
Qed.
Lemma grid_matmul : forall n d A B, length A = n -> grid n d (matmul d A B).
Proof.
  intros n d A B L. unfold matmul. split; [now rewrite map_length|]. apply Forall_forall. intros r Hr. apply in_map_iff in Hr as (x & <- & _).
  now rewrite map_length, seq_length.
Qed.
Lemma bad_mmap2_l : forall f n d A B a k, (forall x y, spoilt x -> spoilt (f x y)) -> grid n d A -> grid n d B -> bad_at A a k -> bad_at (mmap2 f A B) a k.
Proof.
  intros f n d A B a k Hf HA HB (r & x & Hr & Hx & Hb). assert (Ha : a < n) by (rewrite <- (proj1 HA); apply nth_error_Some; congruence).
  destruct (grid_row _ _ _ _ HA Ha) as (r' & E1 & L1). replace r' with r in L1 by congruence.
  destruct (grid_row _ _ _ _ HB Ha) as (q & E2 & L2). destruct (nth_some _ q d k L2) as [y Hy]; [rewrite <- L1; apply nth_error_Some; congruence|].
  exists (vmap2 f r q), (f x y). unfold mmap2. rewrite !nth_error_vmap2, Hr, E2, Hx, Hy. auto.
Qed.
Lemma bad_mmap2_r : forall f n d A B a k, (forall x y, spoilt y -> spoilt (f x y)) -> grid n d A -> grid n d B -> bad_at B a k -> bad_at (mmap2 f A B) a k.
Proof.
  intros f n d A B a k Hf HA HB (r & x & Hr & Hx & Hb). assert (Ha : a < n) by (rewrite <- (proj1 HB); apply nth_error_Some; congruence).
  destruct (grid_row _ _ _ _ HB Ha) as (r' & E1 & L1). replace r' with r in L1 by congruence.
  destruct (grid_row _ _ _ _ HA Ha) as (q & E2 & L2). destruct (nth_some _ q d k L2) as [y Hy]; [rewrite <- L1; apply nth_error_Some; congruence|].
  exists (vmap2 f q r), (f y x). unfold mmap2. rewrite !nth_error_vmap2, Hr, E2, Hx, Hy. auto.
Qed.
Lemma bad_mmap : forall f A a k, (forall x, spoilt x -> spoilt (f x)) -> bad_at A a k -> bad_at (mmap f A) a k.
Proof. intros f A a k Hf (r & x & Hr & Hx & Hb). exists (map f r), (f x). unfold mmap. rewrite !nth_error_map, Hr. cbn [option_map]. rewrite Hx. auto. Qed.
Lemma nsum_spoilt : forall (l : list f64) i x, nth_error l i = Some x -> spoilt x -> spoilt (nsum l).
Proof. unfold nsum. induction l as [|y l IH]; intros [|i] x Hi Hx; cbn [fold_right nth_error] in *; try discriminate Hi; [injection Hi as ->; auto with spoil|apply add_spoilt_r; eauto]. Qed.
Lemma bad_matmul : forall n d A B a b k, grid n n A -> grid n d B -> a < n -> k < d -> bad_at B b k -> bad_at (matmul d A B) a k.
Proof.
  intros n d A B a b k HA HB Ha Hk (r & x & Hr & Hx & Hb). assert (Hbn : b < n) by (rewrite <- (proj1 HB); apply nth_error_Some; congruence).
  destruct (grid_row _ _ _ _ HA Ha) as (q & E1 & L1). destruct (nth_some _ q n b L1 Hbn) as [y Hy].
  eexists _, _. unfold matmul. rewrite nth_error_map, E1. cbn [option_map]. split; [reflexivity|]. split.
  - rewrite nth_error_map. rewrite (nth_error_nth' _ 0) by (now rewrite seq_length). rewrite seq_nth by auto. reflexivity.
  - apply (nsum_spoilt _ b (nmul y x)); [|auto with spoil].
    rewrite nth_error_vmap2, Hy, nth_error_map, Hr. cbn [option_map Nat.add]. now rewrite (nth_error_nth _ _ _ Hx).
Qed.

Lemma ok_inj : forall A (a b : A), Ok a = Ok b -> a = b. Proof. intros A a b H. now injection H. Qed.
Lemma pair3_inj : forall A B C (a a' : A) (b b' : B) (x x' : C), (a, b, x) = (a', b', x') -> b = b' /\ x = x'. Proof. intros. now injection H. Qed.
Section Stein.
Context {NT : NumT f64}.

Lemma grid_rows : forall n (l : list f64), length l = n * n -> grid n n (rows_of n l).
Proof.
  intros n l HL. unfold rows_of. split; [now rewrite map_length, seq_length|]. apply Forall_forall. intros r Hr. apply in_map_iff in Hr as (i & <- & Hi).
  apply in_seq in Hi. unfold row, window. rewrite firstn_length, skipn_length. nia.
Qed.
Lemma kernel_grids : forall n d X h K G, grid n d X -> 1 <= n -> svgd_kernel n d X = Ok (h, K, G) ->
  grid n n K /\ grid n d G /\ forall a b k, a < n -> k < d -> bad_at X b k -> bad_at G a k.
Proof.
  intros n d X h K G HX Hn HK. unfold svgd_kernel in HK. cbn [pdist shape data String.eqb Ascii.eqb Bool.eqb bind] in HK.
  destruct (squareform _) as [sq|e] eqn:Es; [|discriminate HK]. cbn [bind] in HK.
  assert (HS : length (data sq) = n * n).
  { unfold squareform in Es. cbn [is_vector shape hd length Nat.eqb data] in Es.
    assert (HL : length (pairwise_euclidean_distance n d (concat X)) * 2 = n * (n - 1)) by (rewrite pairwise_pairs, map_length; pose proof (pairs_length n); lia).
    destruct (length (pairwise_euclidean_distance n d (concat X)) =? 0) eqn:E0.
    - apply Nat.eqb_eq in E0. injection Es as <-. cbn [data length]. nia.
    - apply Nat.eqb_neq in E0. rewrite HL in Es. assert (2 <= n) by nia. rewrite sqrt_up_binomial in Es by auto. rewrite Nat.eqb_refl in Es. cbn [negb] in Es.
      injection Es as <-. cbn [data]. rewrite map_length, combine_length, transpose_length. unfold dynamic_stitch. rewrite map_length, seq_length. lia. }
  destruct (median _) as [med|e]; [|discriminate HK]. cbn [bind] in HK. cbv zeta in HK.
  apply ok_inj in HK. apply pair3_inj in HK as [HK HG].
  assert (GK : grid n n K) by (subst K; apply grid_rows; now rewrite !map_length).
  rewrite HK in HG. clear Es HK.
  assert (GS : grid n d (vmap2 (fun x s => map (fun y : f64 => nmul y s) x) X (map nsum K))).
  { apply grid_intro; [apply vmap2_length; [exact (proj1 HX)|rewrite map_length; exact (proj1 GK)]|]. intros a r Hr. rewrite nth_error_vmap2 in Hr.
    destruct (nth_error X a) as [x|] eqn:Ex; [|discriminate Hr]. destruct (nth_error (map nsum K) a) as [s|]; [|discriminate Hr]. injection Hr as <-. rewrite map_length.
    destruct HX as [_ F]. rewrite Forall_forall in F. apply F. eapply nth_error_In; eauto. }
  assert (GM : grid n d (mmap nopp (matmul d K X))) by (apply grid_mmap, grid_matmul; exact (proj1 GK)).
  split; [exact GK|]. split; [subst G; apply grid_mmap, grid_mmap2; assumption|].
  intros a b k Ha Hk Hb. subst G. apply bad_mmap; [auto with spoil|]. eapply bad_mmap2_l; [auto with spoil|exact GM|exact GS|].
  apply bad_mmap; [auto with spoil|]. eapply bad_matmul; eauto.
Qed.

Lemma stein_step : forall c eps n d X L H X' H', grid n d X -> grid n d L -> grid n d H -> 1 <= n ->
  svgd_step c eps n d X L H = Ok (X', H') ->
  grid n d X' /\ grid n d H' /\ forall a b k, a < n -> k < d -> bad_at X b k \/ bad_at L b k -> bad_at X' a k.
Proof.
  intros c eps n d X L H X' H' HX HL HH Hn HS. unfold svgd_step, svgd_grad in HS.
  destruct (svgd_kernel n d X) as [[[h K] G]|e] eqn:Ek; [|discriminate HS]. cbn [bind] in HS. cbv zeta in HS.
  destruct (kernel_grids _ _ _ _ _ _ HX Hn Ek) as (GK & GG & GB).
  set (g := mmap (fun y : f64 => ndiv y (n_particles n)) (mmap2 nadd (matmul d K L) G)) in *.
  assert (GM : grid n d (matmul d K L)) by (apply grid_matmul; exact (proj1 GK)).
  assert (Gg : grid n d g) by (apply grid_mmap, grid_mmap2; assumption).
  apply ok_inj in HS. apply pair_equal_spec in HS as [HS1 HS2].
  assert (GH : grid n d H') by (subst H'; apply grid_mmap2; assumption). rewrite HS2 in HS1.
  assert (GA : grid n d (mmap2 (fun y h0 => (y / (s_fudge c + nsqrt h0))%num) g H')) by (apply grid_mmap2; assumption).
  split; [subst X'; apply grid_mmap2; assumption|]. split; [exact GH|].
  intros a b k Ha Hk Hb. subst X'. eapply bad_mmap2_r; [auto with spoil|exact HX|exact GA|]. eapply bad_mmap2_l; [auto with spoil|exact Gg|exact GH|].
  apply bad_mmap; [auto with spoil|]. destruct Hb as [Hb|Hb].
  - eapply bad_mmap2_r; [auto with spoil|exact GM|exact GG|eauto].
  - eapply bad_mmap2_l; [auto with spoil|exact GM|exact GG|]. eapply bad_matmul; eauto.
Qed.

Variable c : sconfig f64.
Variable d : nat.
Variable target : @particle_cost f64.
Hypothesis target_sized : forall x user v g, length x = d -> target x user = Ok (v, g) -> length g = d.
Variable B : Type.
Variable bg : option (B -> res (list (nat * tensor f64)) * B).
Variable sc : schedule (tensor f64) (sample (tensor f64) * tensor f64).
Let E := svgd_env c d target B bg sc.
Variable n : nat.
Hypothesis Hn : 1 <= n.

Definition stein_ok (z : vsess f64) : Prop := grid n d (v_particles z) /\ grid n d (v_hist z).
Definition stein_bad (k : nat) (z : vsess f64) : Prop := stein_ok z /\ k < d /\ forall a, a < n -> bad_at (v_particles z) a k.

Lemma stein_run : forall f z r z', stein_ok z -> svgd_session_run c d target f z = (r, z') ->
  stein_ok z' /\
  match r with
  | Raise _ => z' = z
  | Ok o => o_theta o = map (fun x => {| shape := [d]; data := x |}) (v_particles z') /\
    forall a k, a < n -> k < d ->
    (exists b, bad_at (v_particles z) b k) \/
    (exists b x v g y, nth_error (v_particles z) b = Some x /\ target x (fun m => lookup f (KUser m)) = Ok (v, g) /\ nth_error g k = Some y /\ spoilt y) ->
    bad_at (v_particles z') a k
  end.
Proof.
  intros f z r z' [GX GH] HR. unfold svgd_session_run in HR. pose proof (each_spec _ _ (fun x => target x (fun m => lookup f (KUser m))) (v_particles z)) as ES.
  destruct (each _ (v_particles z)) as [cgs|e]; [|injection HR as <- <-; split; [split; assumption|reflexivity]].
  destruct ES as [EL EN]. assert (GL : grid n d (map snd cgs)).
  { apply grid_intro; [rewrite map_length; destruct GX; congruence|]. intros a r' Hr. rewrite nth_error_map in Hr. destruct (nth_error cgs a) as [[v g]|] eqn:Eg; [|discriminate Hr].
    injection Hr as <-. cbn [snd]. assert (Ha : a < n) by (rewrite <- (proj1 GX), <- EL; apply nth_error_Some; congruence).
    destruct (grid_row _ _ _ _ GX Ha) as (x & Hx & Lx). destruct (EN a x Hx) as (b & Hb & Ht). rewrite Eg in Hb. injection Hb as <-. eapply target_sized; eauto. }
  rewrite (proj1 GX) in HR. destruct (svgd_step _ _ _ _ _ _ _) as [[X' H']|e] eqn:Es; [|injection HR as <- <-; split; [split; assumption|reflexivity]].
  destruct (stein_step _ _ _ _ _ _ _ _ _ GX GL GH Hn Es) as (GX' & GH' & GB). injection HR as <- <-. split; [split; assumption|]. cbn [o_theta v_particles]. split; [reflexivity|].
  intros a k Ha Hk [[b Hb]|(b & x & v & g & y & Hx & Ht & Hy & Hb)]; [apply (GB a b k); auto|].
  apply (GB a b k); auto. right. destruct (EN b x Hx) as (p & Hp & Ht'). rewrite Ht in Ht'. injection Ht' as <-. exists g, y. rewrite nth_error_map, Hp. auto.
Qed.

Variable X0 : list (list f64).
Variable eps0 : f64.
Hypothesis HX0 : grid n d X0.
Let z0 := svgd_session d eps0 X0.

Lemma stein_start : stein_ok z0.
Proof.
  unfold z0, svgd_session, stein_ok. cbn [v_particles v_hist]. split; [exact HX0|]. rewrite (proj1 HX0). unfold svgd_history. split; [apply repeat_length|].
  apply Forall_forall. intros r Hr. apply repeat_spec in Hr as ->. apply repeat_length.
Qed.
Lemma stein_all : forall fs l z z', stein_ok z -> run_all E fs z = (l, z') -> stein_ok z'.
Proof.
  induction fs as [|f fs IH]; intros l z z' Hz HR; cbn [run_all] in HR; [injection HR as _ <-; exact Hz|].
  destruct (run E f z) as [r z1] eqn:Er. destruct (run_all E fs z1) as [rs z2] eqn:E2. injection HR as _ <-. eapply IH; [|exact E2]. apply (stein_run f z r z1 Hz Er).
Qed.
Lemma stein_reached : forall us rs s b0 c0, drive E (mcmc_next E) us (initial_state E b0 c0 z0) = (rs, s) -> stein_ok (s_sess E s).
Proof.
  intros us rs s b0 c0 HD. pose proof (hist_of _ E Plain _ _ _ _ _ _ HD) as [_ _ _ HS]. exact (stein_all _ _ _ _ stein_start HS).
Qed.
Lemma stein_call : forall us rs s' b0 c0 cl smp cost, drive E (mcmc_next E) us (initial_state E b0 c0 z0) = (rs, s') ->
  In cl rs -> cr_res E cl = Ok (smp, cost) ->
  exists f o, runs (cr_events E cl) = [(f, Ok o)] /\ svgd_session_run c d target f (s_sess E (cr_pre E cl)) = (Ok o, s_sess E (cr_post E cl)) /\
    stein_ok (s_sess E (cr_pre E cl)) /\ values_of smp = o_theta o.
Proof.
  intros us rs s' b0 c0 cl smp cost HD Hin Hr. destruct (success_run E Plain us rs s' b0 c0 z0 cl smp cost HD Hin Hr) as (f & o & Hf & Hv).
  exists f, o. split; [exact Hf|]. apply in_split in Hin as (pre & post & ->).
  destruct (outcome_of _ E Plain _ _ _ _ _ _ _ _ HD) as (base & fmt & [_ _ _ _ SS] & _). rewrite Hf in SS. cbn [map fst snd run_all] in SS.
  destruct (run E f (s_sess E (cr_pre E cl))) as [r z1] eqn:Er. injection SS as -> <-. split; [exact Er|]. split; [|exact Hv].
  destruct (drive_split E _ _ _ _ _ _ _ HD) as (_ & us1 & D1 & _). eapply stein_reached; eauto.
Qed.
Lemma stein_entry : forall smp X a k, values_of smp = map (fun x => {| shape := [d]; data := x |}) X -> spoilt_entry smp a k <-> bad_at X a k.
Proof.
  intros smp X a k HV. unfold spoilt_entry, bad_at. rewrite HV. split.
  - intros (v & x & H1 & H2 & H3). rewrite nth_error_map in H1. destruct (nth_error X a) as [r|]; [|discriminate H1]. injection H1 as <-. exists r, x. auto.
  - intros (r & x & H1 & H2 & H3). exists {| shape := [d]; data := r |}, x. rewrite nth_error_map, H1. auto.
Qed.
End Stein.

(** Stein variational gradient descent couples the particles: once a coordinate of one particle is infinite or NaN,
    the same coordinate is so for all particles in every later sample ... *)
Theorem C101_stein_particles_infect_each_other :
  forall (NT : NumT f64) c d target B bg sc n eps0 X0 us s' b0 c0 pre c1 mid c2 post smp1 cost1 smp2 cost2 a b k,
  (forall x user v g, length x = d -> target x user = Ok (v, g) -> length g = d) -> 1 <= n -> grid n d X0 ->
  let E := svgd_env c d target B bg sc in
  drive E (mcmc_next E) us (initial_state E b0 c0 (svgd_session d eps0 X0)) = (pre ++ c1 :: mid ++ c2 :: post, s') ->
  cr_res E c1 = Ok (smp1, cost1) -> cr_res E c2 = Ok (smp2, cost2) ->
  spoilt_entry smp1 b k -> a < n -> spoilt_entry smp2 a k.
Proof.
  intros NT c d target B bg sc n eps0 X0 us s' b0 c0 pre c1 mid c2 post smp1 cost1 smp2 cost2 a b k Ht Hn HX E HD R1 R2 H1 Ha.
  assert (I1 : In c1 (pre ++ c1 :: mid ++ c2 :: post)) by (apply in_or_app; right; now left).
  assert (I2 : In c2 (pre ++ c1 :: mid ++ c2 :: post)) by (apply in_or_app; right; right; apply in_or_app; right; now left).
  destruct (stein_call c d target Ht B bg sc n Hn X0 eps0 HX us _ s' b0 c0 c1 smp1 cost1 HD I1 R1) as (f1 & o1 & _ & Er1 & Ok1 & V1).
  destruct (stein_call c d target Ht B bg sc n Hn X0 eps0 HX us _ s' b0 c0 c2 smp2 cost2 HD I2 R2) as (f2 & o2 & _ & Er2 & Ok2 & V2).
  fold E in Er1, Er2, Ok1, Ok2. destruct (stein_run c d target Ht n Hn _ _ _ _ Ok1 Er1) as (OkP & T1 & _). destruct (stein_run c d target Ht n Hn _ _ _ _ Ok2 Er2) as (_ & T2 & S2).
  rewrite T1 in V1. rewrite T2 in V2. rewrite (stein_entry d _ _ _ _ V1) in H1. rewrite (stein_entry d _ _ _ _ V2).
  assert (HD' : drive E (mcmc_next E) us (initial_state E b0 c0 (svgd_session d eps0 X0)) = ((pre ++ c1 :: mid) ++ c2 :: post, s')) by (rewrite <- app_assoc; exact HD).
  destruct (drive_split E _ _ _ _ _ _ _ HD') as (_ & us1 & D1 & _).
  assert (Inv : (stein_ok d n (s_sess E (cr_pre E c2)) /\ k < d) /\ bad_at (v_particles (s_sess E (cr_pre E c2))) b k).
  { apply (holds_later E (fun z => (stein_ok d n z /\ k < d) /\ bad_at (v_particles z) b k) Plain b0 c0 (svgd_session d eps0 X0) pre c1) with (mid := mid) (us := us1); [|split; [split; [exact OkP|]|exact H1]|exact D1].
    - intros f z r z' [[Hz Hk] Hb] Er. destruct (stein_run c d target Ht n Hn _ _ _ _ Hz Er) as [Hz' HR]. destruct r as [o|e]; [|now subst z'].
      split; [now split|]. apply HR; [|exact Hk|eauto]. destruct Hb as (q & x & Hq & _). destruct Hz as [[L _] _]. rewrite <- L. apply nth_error_Some. congruence.
    - destruct H1 as (q & x & Hq & Hx & _). destruct OkP as [[_ F] _]. rewrite Forall_forall in F. rewrite <- (F q) by (eapply nth_error_In; eauto). apply nth_error_Some. congruence. }
  destruct Inv as [[_ Hk] Hb]. apply S2; eauto.
Qed.

(** ... and one infinite or NaN gradient entry of one particle spoils the coordinate for all particles at once. *)
Theorem C101_stein_gradients_spoil_all_particles :
  forall (NT : NumT f64) c d target B bg sc n eps0 X0 us rs s' b0 c0 cl smp cost f o a b k x v g y,
  (forall x user v g, length x = d -> target x user = Ok (v, g) -> length g = d) -> 1 <= n -> grid n d X0 ->
  let E := svgd_env c d target B bg sc in
  drive E (mcmc_next E) us (initial_state E b0 c0 (svgd_session d eps0 X0)) = (rs, s') ->
  In cl rs -> cr_res E cl = Ok (smp, cost) -> runs (cr_events E cl) = [(f, Ok o)] ->
  nth_error (v_particles (s_sess E (cr_pre E cl))) b = Some x -> target x (fun m => lookup f (KUser m)) = Ok (v, g) ->
  nth_error g k = Some y -> spoilt y -> a < n -> spoilt_entry smp a k.
Proof.
  intros NT c d target B bg sc n eps0 X0 us rs s' b0 c0 cl smp cost f o a b k x v g y Ht Hn HX E HD Hin Hr Hf Hx Hg Hy Hb Ha.
  destruct (stein_call c d target Ht B bg sc n Hn X0 eps0 HX us _ s' b0 c0 cl smp cost HD Hin Hr) as (f1 & o1 & Hf1 & Er & Okc & V1).
  fold E in Hf1, Er, Okc. rewrite Hf in Hf1. injection Hf1 as <- <-. destruct (stein_run c d target Ht n Hn _ _ _ _ Okc Er) as (_ & T1 & S1).
  rewrite T1 in V1. rewrite (stein_entry d _ _ _ _ V1). apply S1; [exact Ha| |right; exists b, x, v, g, y; auto].
  destruct Okc as [[_ F] _]. rewrite Forall_forall in F. rewrite <- (Ht x _ _ _ (F x (nth_error_In _ _ Hx)) Hg). apply nth_error_Some. congruence.
Qed.

(** *** Examples *)
Definition finite_flags {V} (rs : list V) (f : V -> res (sample (tensor f64) * tensor f64)) : list (list (list bool)) :=
  map (fun r => match f r with Ok (s, _) => map (fun v => map (@BinarySingleNaN.is_finite 53 1024) (data v)) (values_of s) | Raise _ => [] end) rs.
(** The cost ln |x| + y^2/2, started at x = 0, y = 1; at an infinite or NaN x the gradient is reported as 1. *)
Definition log_target : @objective f64 := fun vs _ =>
  match vs with
  | [v] => match data v with [x; y] => Ok (y, [[if @BinarySingleNaN.is_finite 53 1024 x then ndiv n1 x else n1; y]]) | _ => Raise ValueError end
  | _ => Raise ValueError
  end.
Definition log_env := sampler_env (fun _ _ => n1) (fun n => n) (sghmc_kernel (Config (nfrac 1 2) n1)) log_target unit None
  (constant_schedule (tensor f64) (sample (tensor f64) * tensor f64)).
Definition log_start : state log_env := initial_state log_env tt (Tensor [] [nfrac 1 2])
  (sghmc_session (Config (nfrac 1 2) n1) n0 [Tensor [2] [n0; n1]] (noise_ops (Some 3%Z) (Some 4%Z) [7%nat] (fun _ => (0, 0)%Z) 1)).
(** The first step makes x infinite or NaN, where it stays in spite of the finite gradients that follow; y stays finite. *)
Example C101_example :
  started (sghmc_kernel (Config (nfrac 1 2) n1)) (s_sess log_env log_start) /\
  finite_flags (fst (drive log_env (burnin_next log_env 1 1) [None; None; None; None] log_start)) (cr_res log_env)
  = repeat [[false; true]] 4.
Proof. split; [apply started_sghmc|vm_compute; reflexivity]. Qed.

(** Two particles; the cost of a particle at (0, y) has an infinite gradient in its first coordinate. *)
Definition stein_target : @particle_cost f64 := fun x _ =>
  match x with [a; b] => Ok (b, [if @BinarySingleNaN.is_finite 53 1024 a then ndiv n1 a else n1; b]) | _ => Raise ValueError end.
Definition crude_functions : NumT f64 := {| nexp := fun x => nadd n1 x; nln := fun x => nsub x n1; nsin := fun x => x; ncos := fun _ => n1; npi := n1 |}.
Example C101_stein_example :
  let E := @svgd_env f64 _ crude_functions (SConfig (nfrac 9 10) (nfrac 1 1000)) 2 stein_target unit None (constant_schedule (tensor f64) (sample (tensor f64) * tensor f64)) in
  finite_flags (fst (drive E (mcmc_next E) [None; None; None] (initial_state E tt (Tensor [] [nfrac 1 2]) (svgd_session 2 n1 [[n0; n1]; [n2; n0]])))) (cr_res E)
  = [[[false; true]; [false; true]]; [[false; false]; [false; false]]; [[false; false]; [false; false]]] /\
  grid 2 2 [[n0; n1]; [n2; n0]] /\ (forall x user v g, length x = 2 -> stein_target x user = Ok (v, g) -> length g = 2).
Proof.
  split; [vm_compute; reflexivity|]. split; [split; [reflexivity|repeat constructor]|].
  intros x user v g Hx H. destruct x as [|a [|b [|? ?]]]; try discriminate Hx. injection H as _ <-. reflexivity.
Qed.
