(** C115 for the samples a complete SGHMC sampler returns after burn-in. *)
From Coq Require Import List Arith Lia ZArith Bool Reals Lra Psatz.
From Flocq Require Import Core.Core.
From Flocq Require IEEE754.BinarySingleNaN.
From Verif.Proofs Require Import FloatCell SafeFloat FloatAdapt.
From Verif.Base Require Import Py Num Float64 Vec Lists.
From Verif.Model Require Import TensorUtils BurnIn SGHMC Stepsize BaseClasses Session.
From Verif.Spec Require Import Sampler Trajectory Doubles Dynamics RoundingMomentum.
From Verif.Proofs Require Import DoubleCell DoubleRun Sampler SamplerHistory Session KernelHistory.
From Verif.Props Require Import PSampler PSpoilt PRounding PRoundingMomentum.
Import ListNotations.
Local Open Scope R_scope.

Section Run.
Variables (stream : Z * Z -> nat -> f64) (reserve : nat -> nat) (c : config f64) (cg : @objective f64) (B : Type)
  (bg : option (B -> res (list (nat * tensor f64)) * B)) (sc : schedule (tensor f64) (sample (tensor f64) * tensor f64)).
Let K := sghmc_kernel c.
Let E := sampler_env stream reserve K cg B bg sc.
Lemma minv_count : forall k us rs s' b0 c0 z0, drive E (next_of E k) us (initial_state E b0 c0 z0) = (rs, s') ->
  forall cl f o, In cl rs -> runs (cr_events E cl) = [(f, Ok o)] -> length (o_minv o) = length (z_params K (s_sess E (cr_pre E cl))).
Proof.
  intros k us rs s' b0 c0 z0 HD cl f o Hin Hr. pose proof (kernel_call_run stream reserve K cg B bg sc k us rs s' b0 c0 z0 HD cl f o Hin Hr) as H. fold E in H.
  unfold session_run_model in H. destruct (cg _ _) as [[cst gs]|]; [|discriminate H]. destruct (run_params _ _ _ _ _ _ _ _) as [[ms ps]|] eqn:Er; [|discriminate H].
  destruct (run_params_nth _ _ _ _ _ _ _ _ _ _ Er) as (_ & L & _). pose proof (f_equal (fun r => match fst r with Ok o => o_minv o | _ => ms end) H) as Hm. cbn in Hm. now rewrite <- Hm.
Qed.
End Run.

(** After [b] samples of burn-in every sample is, per entry, within 2^(e-44) of the exact step of SGHMC with the masses of the
    last sample of burn-in, from the value and the momentum before, as long as the sizes of the four are at most 2^e. *)
Theorem C115_samples_after_burn_in :
  forall stream reserve (c : config f64) cg B bg sc b us rs s' b0 c0 eps0 params ops,
  let K := sghmc_kernel c in let E := sampler_env stream reserve K cg B bg sc in
  let z0 := sghmc_session c eps0 params ops in
  (0 < b)%Z -> drive E (burnin_next E b (length (z_params K z0))) us (initial_state E b0 c0 z0) = (rs, s') ->
  forall pre cl post smp cost, rs = pre ++ cl :: post -> (b <= Z.of_nat (successes E pre))%Z -> cr_res E cl = Ok (smp, cost) ->
  exists pre0 last post0 f0 o0 f o cst gs eps,
    pre = pre0 ++ last :: post0 /\ Z.of_nat (successes E pre0) = (b - 1)%Z /\ succeeded E last = true /\ runs (cr_events E last) = [(f0, Ok o0)] /\
    runs (cr_events E cl) = [(f, Ok o)] /\ cg (values K (s_sess E (cr_pre E cl))) (fun n => lookup f (KUser n)) = Ok (cst, gs) /\
    lookup f KEps = Some eps /\ length (values_of smp) = length (z_params K (s_sess E (cr_pre E cl))) /\
    forall j p op, nth_error (z_params K (s_sess E (cr_pre E cl))) j = Some (p, op) ->
    let xs := data (p_val p) in let xi := fst (draw stream reserve (length xs) op) in let ep := hd n0 (data eps) in
    exists m g p' op' w, nth_error (o_minv o0) j = Some m /\ nth_error gs j = Some g /\ nth_error (z_params K (s_sess E (cr_post E cl))) j = Some (p', op') /\
    nth_error (values_of smp) j = Some w /\ length (data w) = length xs /\ length (data m) = length xs /\ length g = length xs /\ length (p_mom p) = length xs /\
    forall e, usual_sghmc ep (mdecay c) (scale_grad c) -> (-900 <= e <= 1000)%Z ->
    forall i mi gi z v x, nth_error (data m) i = Some mi -> nth_error g i = Some gi -> nth_error xi i = Some z -> nth_error (p_mom p) i = Some v -> nth_error xs i = Some x ->
      usual_mass ep (mdecay c) (scale_grad c) mi -> moderate_entry e ep (mdecay c) (scale_grad c) mi gi z v x ->
      exists v' x', nth_error (p_mom p') i = Some v' /\ nth_error (data w) i = Some x' /\ finite v' /\ finite x' /\
        let u := sghmc_momentum (value ep) (value (mdecay c)) (value (scale_grad c)) (value mi) (value gi) (value z) (value v) in
        Rabs (value v' - u) <= bpow radix2 (e - 45) /\ Rabs (value x' - (value x + u)) <= bpow radix2 (e - 44).
Proof.
  intros stream reserve c cg B bg sc b us rs s' b0 c0 eps0 params ops K E z0 Hb HD pre cl post smp cost HR Hs Hok.
  assert (HD' : drive E (next_of E (BurnIn b (length (z_params K z0)))) us (initial_state E b0 c0 z0) = (rs, s')) by exact HD.
  assert (Hin : In cl rs) by (rewrite HR; apply in_or_app; right; now left).
  destruct (C10_burn_in_boundary_and_frozen_mass _ E b _ us rs s' b0 c0 z0 Hb HD pre cl post HR) as [_ HF]. destruct (HF Hs) as (pre0 & last & post0 & f0 & o0 & P1 & P2 & P3 & P4 & P5).
  destruct (C09_step_protocol _ _ _ _ _ _ _ _ _ HD') as [_ P]. destruct (P cl smp cost Hin Hok) as (evb & bb & eps & f & o & He & Hbb & Hl & _ & _ & Hv).
  assert (Hr : runs (cr_events E cl) = [(f, Ok o)]) by (rewrite He; unfold runs; rewrite flat_map_app; unfold batch_events in Hbb; destruct (bg_next E); [subst evb|destruct Hbb; subst evb]; reflexivity).
  assert (Hv' : values_of smp = o_theta o) by (destruct Hv as [-> |(v & Hv & ->)]; [reflexivity|now rewrite Hv]).
  destruct (kernel_call_step stream reserve K cg B bg sc _ us rs s' b0 c0 z0 HD' cl f o Hin Hr) as (cst & gs & Hg & _ & Ht & HN). fold E in Hg, Ht, HN.
  assert (Hinit : forall j s op, nth_error (z_params K z0) j = Some (s, op) -> sghmc_inv (length (data (k_value K s))) s).
  { intros j s op Hj. unfold z0, sghmc_session in Hj. cbn [z_params] in Hj. apply nth_error_In, in_combine_l, in_map_iff in Hj as (v & <- & _). apply sghmc_inv_init. }
  assert (Hlast : In last rs) by (rewrite HR, P1; apply in_or_app; left; apply in_or_app; right; now left).
  destruct (kernel_history_reached stream reserve K cg B bg sc sghmc_inv _ us rs s' b0 c0 z0 (sghmc_kernel_sized c) Hinit HD' cl Hin) as [(_ & LZ & t & HZ) (_ & LZ1 & _)]. fold E in LZ, HZ, LZ1.
  destruct (kernel_history_reached stream reserve K cg B bg sc sghmc_inv _ us rs s' b0 c0 z0 (sghmc_kernel_sized c) Hinit HD' last Hlast) as [(_ & LZ0 & _) _]. fold E in LZ0.
  exists pre0, last, post0, f0, o0, f, o, cst, gs, eps. repeat (split; [assumption|]). split; [rewrite Hv', Ht; unfold values; rewrite map_length; congruence|].
  intros j p op Hj xs xi ep. destruct (HN j p op Hj) as (g & Hgj & Hsz & Hpost). cbn [i_eps i_grad i_xi i_fed] in Hsz, Hpost. change (k_value K p) with (p_val p) in Hsz, Hpost. fold xs in Hsz, Hpost. fold xi in Hsz, Hpost.
  assert (Hjn : (j < length (z_params K z0))%nat) by (rewrite <- LZ; apply nth_error_Some; congruence).
  assert (Hm : exists m, nth_error (o_minv o0) j = Some m).
  { destruct (nth_error (o_minv o0) j) as [m|] eqn:Em; [eauto|]. apply nth_error_None in Em.
    pose proof (minv_count stream reserve c cg B bg sc _ us rs s' b0 c0 z0 HD' last f0 o0 Hlast P4) as Lm. fold K E in Lm. rewrite LZ0 in Lm. lia. }
  destruct Hm as [m Hm]. assert (Hfed : lookup f (KMinv j) = Some m) by (rewrite (P5 f (Ok o) ltac:(rewrite Hr; now left) j Hjn); exact Hm).
  rewrite Hfed in Hsz, Hpost. cbn [option_map] in Hsz, Hpost. destruct Hsz as (S1 & S2 & S3). cbn [i_grad i_xi i_fed] in S1, S2, S3.
  assert (Hep : fed_eps K f (s_sess E (cr_pre E cl)) = ep) by (unfold fed_eps; now rewrite Hl). rewrite Hep in Hpost.
  assert (Hp : sghmc_inv (length xs) p).
  { destruct (nth_error_lt _ (z_params K z0) j Hjn) as [[q0 op0] Hq0]. destruct (HZ j q0 op0 Hq0) as (ins & _ & _ & Hz & Hi). rewrite Hj in Hz.
    assert (Ep : p = k_run K ins q0) by congruence. rewrite <- Ep in Hi. unfold xs. destruct Hi as [(L1 & L2 & L3) L4]. rewrite L4, L3. split; [split; [exact L1|split; assumption]|exact L4]. }
  destruct Hp as [(LA & LM & LV) VV]. fold xs in VV.
  exists m, g, (sghmc_step c ep g xi (Some (data m)) p), (advanced reserve (length xs) 1 op), (p_val (sghmc_step c ep g xi (Some (data m)) p)). split; [exact Hm|]. split; [exact Hgj|]. split; [exact Hpost|]. split.
  { rewrite Hv', Ht. unfold values. rewrite nth_error_map, Hpost. reflexivity. }
  split; [unfold sghmc_step; cbn [p_val data minv_used]; repeat apply vmap2_length; rewrite ?map_length; assumption|]. split; [exact S3|]. split; [exact S1|]. split; [exact LM|].
  intros e HU He'. destruct (C115_sghmc_step_error c ep (data m) g xi p e HU He') as [D N]. rewrite D. intros i mi gi z v x G1 G2 G3 G4 G5. rewrite VV in G5. exact (N i mi gi z v x G1 G2 G3 G4 G5).
Qed.

(** A concrete complete sampler: gradient x, stepsize 1/4, friction 1/2, noise 1. *)
Definition swing_session := sghmc_session swing n0 [Tensor [1%nat] [nint 3]] (noise_ops (Some 3%Z) (Some 4%Z) [7%nat] (fun _ => (0, 0)%Z) 1).
Definition swing_env := sampler_env (fun _ _ => n1) (fun n => n) (sghmc_kernel swing) (PRange.spiky None) unit None (constant_schedule (tensor f64) (sample (tensor f64) * tensor f64)).
Notation swing_drive := (drive swing_env (burnin_next swing_env 2 (length (z_params (sghmc_kernel swing) swing_session))) (repeat None 5) (initial_state swing_env tt (Tensor [] [quarter]) swing_session)).
Notation swing_calls := (fst swing_drive).
Definition eighth : f64 := nfrac 1 8.
(** Value and momentum before a call, stepsize and masses of a call. *)
Definition swing_point (cl : call_record swing_env) : list f64 := flat_map (fun q => data (p_val (fst q))) (z_params (sghmc_kernel swing) (s_sess swing_env (cr_pre swing_env cl))).
Definition swing_momentum (cl : call_record swing_env) : list f64 := flat_map (fun q => p_mom (fst q)) (z_params (sghmc_kernel swing) (s_sess swing_env (cr_pre swing_env cl))).
Definition swing_masses (cl : call_record swing_env) : list f64 :=
  flat_map (fun fr : feed (tensor f64) * res (outputs (tensor f64)) => match snd fr with Ok o => flat_map data (o_minv o) | Raise _ => [] end) (runs (cr_events swing_env cl)).
Definition swing_steps (cl : call_record swing_env) : list f64 :=
  flat_map (fun fr : feed (tensor f64) * res (outputs (tensor f64)) => match lookup (fst fr) KEps with Some t => [hd n0 (data t)] | None => [] end) (runs (cr_events swing_env cl)).
Definition swing_ok (cl : call_record swing_env) : bool :=
  succeeded swing_env cl && forallb (PRange.ok64 3) (swing_point cl) && forallb (PRange.ok64 3) (swing_momentum cl) && forallb (fun m => PRange.ok64 1 m && nltb eighth m) (swing_masses cl) &&
  forallb (fun e => PRange.ok64 0 e && negb (nltb e quarter) && negb (nltb quarter e)) (swing_steps cl).
Lemma swing_ok_all : forallb swing_ok swing_calls = true /\ length swing_calls = 5%nat.
Proof. split; vm_compute; reflexivity. Qed.
Lemma eighth_value : rep eighth (/ 8).
Proof. split; [vm_compute; reflexivity|]. unfold value. vm_compute. lra. Qed.
Lemma swing_moderate : forall x v m, bounded64 3 x -> bounded64 3 v -> between64 (/ 8) 2 m -> forall ep, finite ep -> value ep = / 4 ->
  usual_mass ep (mdecay swing) (scale_grad swing) m /\ moderate_entry 4 ep (mdecay swing) (scale_grad swing) m x n1 v x.
Proof.
  intros x v m [Fx Bx] [Fv Bv] [Fm Bm] ep Fe Ve. destruct rep_1 as [F1 V1], half_rep as [FH VH]. change (bpow radix2 3) with 8 in Bx, Bv.
  pose proof (p2_le (-20) (-3) ltac:(lia)) as B1. pose proof (p2_le 1 20 ltac:(lia)) as B2. unfold p2 in *. change (bpow radix2 (-3)) with (/ 8) in B1. change (bpow radix2 1) with 2 in B2.
  unfold usual_mass, moderate_entry, bounded64. cbn [mdecay scale_grad swing]. rewrite V1, VH, Ve. change (bpow radix2 4) with 16. split.
  - split; [split; [exact Fm|lra]|]. lra.
  - split; [split; [exact Fx|lra]|]. split; [split; [exact Fv|lra]|]. split; [exact Fx|]. split; [exact F1|]. split; rewrite Rabs_mult.
    + rewrite (Rabs_right ((/ 4) ^ 2 * _)) by nra. pose proof (Rabs_pos (value x)). nra.
    + rewrite (Rabs_right 1), Rmult_1_r, Rabs_right by first [lra|apply Rle_ge, sqrt_pos]. rewrite <- (sqrt_pow2 16) by lra. apply sqrt_le_1_alt.
      apply Rmax_lub; [unfold sghmc_noise_var; nra|unfold guard; lra].
Qed.

Lemma swing_sample : forall rs s',
  drive swing_env (burnin_next swing_env 2 (length (z_params (sghmc_kernel swing) swing_session))) (repeat None 5) (initial_state swing_env tt (Tensor [] [quarter]) swing_session) = (rs, s') ->
  (forall cl, In cl rs -> swing_ok cl = true) -> (forall cl, In cl rs -> succeeded swing_env cl = true) ->
  forall pre cl post, rs = pre ++ cl :: post -> In cl rs -> successes swing_env pre = length pre -> (2 <= length pre)%nat ->
  exists smp cost x v m y, cr_res swing_env cl = Ok (smp, cost) /\ swing_point cl = [x] /\ swing_momentum cl = [v] /\ flat_map data (values_of smp) = [y] /\ / 8 <= value m <= 2 /\ (exists last, In last pre /\ In m (swing_masses last)) /\
    Rabs (value y - (value x + sghmc_momentum (/ 4) (/ 2) 1 (value m) (value x) 1 (value v))) <= bpow radix2 (-40).
Proof.
  intros rs s' HD HA SU pre cl post HC Hin NS Hp.
  pose proof (SU cl Hin) as HS. unfold succeeded in HS. destruct (cr_res swing_env cl) as [[smp cost]|] eqn:Hok; [|discriminate HS]. clear HS.
  destruct (C115_samples_after_burn_in (fun _ _ => n1) (fun n => n) swing (PRange.spiky None) unit None (constant_schedule (tensor f64) (sample (tensor f64) * tensor f64)) 2 (repeat None 5) rs s' tt (Tensor [] [quarter]) n0 [Tensor [1%nat] [nint 3]]
    (noise_ops (Some 3%Z) (Some 4%Z) [7%nat] (fun _ => (0, 0)%Z) 1) ltac:(lia) HD pre cl post smp cost HC ltac:(fold swing_env; rewrite NS; lia) Hok)
    as (pre0 & last & post0 & f0 & o0 & f & o & cst & gs & eps & E1 & E2 & E3 & E4 & E5 & E6 & E7 & LS & HJ). fold swing_env in *.
  pose proof (HA cl Hin) as HQ. unfold swing_ok in HQ. rewrite !andb_true_iff in HQ. destruct HQ as ((((_ & QX) & QV) & _) & QE).
  assert (Hlast : In last pre) by (rewrite E1; apply in_or_app; right; now left).
  assert (QM := HA last ltac:(rewrite HC; apply in_or_app; now left)). unfold swing_ok in QM. rewrite !andb_true_iff in QM. destruct QM as ((_ & QM) & _).
  unfold swing_steps in QE. rewrite E5 in QE. cbn [flat_map fst app] in QE. rewrite E7 in QE. cbn [app forallb] in QE. rewrite !andb_true_iff, !negb_true_iff in QE. destruct QE as (((QE1 & QE2) & QE3) & _).
  destruct (PRange.ok64_bounded 0 _ ltac:(lia) QE1) as [Fe _].
  assert (RQ : rep quarter (/ 4)) by (split; [vm_compute; reflexivity|apply quarter_value]).
  assert (RE : rep (hd n0 (data eps)) (value (hd n0 (data eps)))) by (now split).
  rewrite (rep_ltb _ _ _ _ RE RQ) in QE2. rewrite (rep_ltb _ _ _ _ RQ RE) in QE3. unfold Rltb in *.
  destruct (Rlt_dec (value (hd n0 (data eps))) (/ 4)) as [|L2]; [discriminate QE2|]. destruct (Rlt_dec (/ 4) (value (hd n0 (data eps)))) as [|L3]; [discriminate QE3|].
  assert (Ve : value (hd n0 (data eps)) = / 4) by lra. set (ep := hd n0 (data eps)) in *.
  unfold swing_point, swing_momentum in *. unfold values in E6. destruct (z_params (sghmc_kernel swing) (s_sess swing_env (cr_pre swing_env cl))) as [|[p op] [|? ?]] eqn:EZ; try discriminate E6.
  cbn [map fst] in E6. change (k_value (sghmc_kernel swing) p) with (p_val p) in E6. unfold PRange.spiky in E6. destruct (data (p_val p)) as [|x [|? ?]] eqn:EX; try discriminate E6.
  assert (EG : gs = [[x]]) by congruence. subst gs.
  destruct (HJ O p op eq_refl) as (m & g & p' & op' & w & M1 & M2 & _ & M3 & M4 & M6 & _ & M7 & M5). fold ep in M5. assert (g = [x]) by (cbn [nth_error] in M2; congruence). subst g. clear M2.
  rewrite EX in M4, M5, M6, M7. cbn [length] in M4, M6, M7, LS.
  destruct (p_mom p) as [|v [|? ?]] eqn:EV; try discriminate M7.
  assert (FX : flat_map (fun q : pstate f64 * noise_op => data (p_val (fst q))) [(p, op)] = [x]) by (cbn [flat_map fst]; now rewrite EX, app_nil_r).
  assert (FV : flat_map (fun q : pstate f64 * noise_op => p_mom (fst q)) [(p, op)] = [v]) by (cbn [flat_map fst]; now rewrite EV, app_nil_r).
  assert (BX : bounded64 3 x). { change (forallb (PRange.ok64 3) (flat_map (fun q : pstate f64 * noise_op => data (p_val (fst q))) [(p, op)]) = true) in QX. rewrite FX in QX. cbn [forallb] in QX. rewrite andb_true_r in QX. apply PRange.ok64_bounded; [lia|exact QX]. }
  assert (BV : bounded64 3 v). { change (forallb (PRange.ok64 3) (flat_map (fun q : pstate f64 * noise_op => p_mom (fst q)) [(p, op)]) = true) in QV. rewrite FV in QV. cbn [forallb] in QV. rewrite andb_true_r in QV. apply PRange.ok64_bounded; [lia|exact QV]. }
  assert (IM : incl (data m) (swing_masses last)).
  { unfold swing_masses. rewrite E4. cbn [flat_map snd app]. rewrite app_nil_r. intros u Hu. apply in_flat_map. exists m. split; [eapply nth_error_In; exact M1|exact Hu]. }
  assert (BM : Forall (between64 (/ 8) 2) (data m)).
  { apply Forall_forall. intros u Hu. apply IM in Hu. rewrite forallb_forall in QM. specialize (QM u Hu). apply andb_true_iff in QM as [Q1 Q2]. destruct (PRange.ok64_bounded 1 u ltac:(lia) Q1) as [F Bu].
    change (bpow radix2 1) with 2 in Bu. rewrite (rep_ltb _ _ _ _ eighth_value (conj F eq_refl)) in Q2. unfold Rltb in Q2. destruct (Rlt_dec (/ 8) (value u)) as [L|]; [|discriminate Q2]. split; [exact F|]. apply abs_inv in Bu. lra. }
  destruct (data m) as [|m1 [|? ?]] eqn:EM; try discriminate M6. inversion BM as [|? ? BM1 _]; subst.
  destruct (values_of smp) as [|w' [|? ?]] eqn:EW; try discriminate LS. assert (w' = w) by (cbn [nth_error] in M3; congruence). subst w'.
  destruct (data w) as [|y [|? ?]] eqn:EY; try discriminate M4.
  exists smp, cost, x, v, m1, y. split; [reflexivity|]. split; [exact FX|]. split; [exact FV|]. split; [rewrite EW; cbn [flat_map]; now rewrite EY, app_nil_r|]. split; [exact (proj2 BM1)|]. split; [exists last; split; [exact Hlast|apply IM; now left]|].
  destruct rep_1 as [F1 V1], half_rep as [FH VH]. pose proof (p2_le (-20) (-2) ltac:(lia)) as B1. pose proof (p2_le 0 20 ltac:(lia)) as B2. pose proof (p2_le 0 100 ltac:(lia)) as B3. unfold p2 in *. change (bpow radix2 (-2)) with (/ 4) in B1. change (bpow radix2 0) with 1 in B2, B3.
  assert (U : usual_sghmc ep (mdecay swing) (scale_grad swing)). { cbn [mdecay scale_grad swing]. split; [split; [exact Fe|rewrite Ve; lra]|]. split; split; [exact FH|rewrite VH; lra|exact F1|rewrite V1; lra]. }
  destruct (swing_moderate x v m1 BX BV BM1 ep Fe Ve) as [UM W].
  destruct (M5 4%Z U ltac:(lia) O m1 x n1 v x eq_refl eq_refl eq_refl eq_refl eq_refl UM W) as (v' & x' & _ & HX & _ & _ & _ & D).
  cbn [nth_error] in HX. assert (x' = y) by congruence. subst x'. cbn [mdecay scale_grad swing] in D. rewrite V1, VH, Ve in D. exact D.
Qed.

Lemma swing_final : forall d, drive swing_env (burnin_next swing_env 2 (length (z_params (sghmc_kernel swing) swing_session))) (repeat None 5) (initial_state swing_env tt (Tensor [] [quarter]) swing_session) = d -> forallb swing_ok (fst d) = true -> length (fst d) = 5%nat ->
  map (succeeded swing_env) (fst d) = repeat true 5 /\
  forall pre cl post, fst d = pre ++ cl :: post -> (2 <= length pre)%nat ->
  exists smp cost x v m y, cr_res swing_env cl = Ok (smp, cost) /\ swing_point cl = [x] /\ swing_momentum cl = [v] /\ flat_map data (values_of smp) = [y] /\ / 8 <= value m <= 2 /\ (exists last, In last pre /\ In m (swing_masses last)) /\
    Rabs (value y - (value x + sghmc_momentum (/ 4) (/ 2) 1 (value m) (value x) 1 (value v))) <= bpow radix2 (-40).
Proof.
  intros [rs s'] HD HA HL. cbn [fst] in *. rewrite forallb_forall in HA.
  assert (SU : forall cl, In cl rs -> succeeded swing_env cl = true) by (intros cl Hc; specialize (HA cl Hc); unfold swing_ok in HA; rewrite !andb_true_iff in HA; tauto).
  split.
  { rewrite <- HL. clear HL HA HD. revert SU. induction rs as [|a l IH]; intros H; [reflexivity|]. cbn [map length repeat]. rewrite (H a (or_introl eq_refl)). f_equal. apply IH. intros cl Hc. apply H. now right. }
  intros pre cl post HC Hp. assert (Hin : In cl rs) by (rewrite HC; apply in_or_app; right; now left).
  assert (NS : successes swing_env pre = length pre).
  { unfold successes. assert (Q : forall a, In a pre -> succeeded swing_env a = true) by (intros a Ha; apply SU; rewrite HC; apply in_or_app; now left). clear - Q. induction pre as [|a l IH]; [reflexivity|]. cbn [filter]. rewrite (Q a (or_introl eq_refl)). cbn [length]. f_equal. apply IH. intros b Hb. apply Q. now right. }
  exact (swing_sample rs s' HD HA SU pre cl post HC Hin NS Hp).
Qed.
(** All five calls succeed, and from the third on the new value is within 2^-40 of the exact SGHMC step. *)
Example C115_example_run :
  map (succeeded swing_env) swing_calls = repeat true 5 /\
  forall pre cl post, swing_calls = pre ++ cl :: post -> (2 <= length pre)%nat ->
  exists smp cost x v m y, cr_res swing_env cl = Ok (smp, cost) /\ swing_point cl = [x] /\ swing_momentum cl = [v] /\ flat_map data (values_of smp) = [y] /\ / 8 <= value m <= 2 /\ (exists last, In last pre /\ In m (swing_masses last)) /\
    Rabs (value y - (value x + sghmc_momentum (/ 4) (/ 2) 1 (value m) (value x) 1 (value v))) <= bpow radix2 (-40).
Proof. destruct swing_ok_all as [HA HL]. exact (swing_final swing_drive eq_refl HA HL). Qed.
