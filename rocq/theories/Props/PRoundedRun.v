(** C114 for the samples a complete SGLD sampler returns after burn-in. *)
From Coq Require Import List Arith Lia ZArith Bool Reals Lra Psatz.
From Flocq Require Import Core.Core.
From Flocq Require IEEE754.BinarySingleNaN.
From Verif.Proofs Require Import FloatCell SafeFloat FloatAdapt.
From Verif.Base Require Import Py Num Float64 Vec Lists.
From Verif.Model Require Import TensorUtils BurnIn SGLD Stepsize BaseClasses Session.
From Verif.Spec Require Import Sampler Trajectory Doubles Dynamics Convex Rounding.
From Verif.Proofs Require Import DoubleCell DoubleRun DoubleStein DoubleKernel DoubleRel Sampler SamplerHistory Session KernelHistory.
From Verif.Props Require Import PSampler PSpoilt PRounding.
From Verif.Props Require PRange.
Import ListNotations.
Local Open Scope R_scope.

Section Run.
Variables (stream : Z * Z -> nat -> f64) (reserve : nat -> nat) (c : lconfig f64) (cg : @objective f64) (B : Type)
  (bg : option (B -> res (list (nat * tensor f64)) * B)) (sc : schedule (tensor f64) (sample (tensor f64) * tensor f64)).
Let K := sgld_kernel c.
Let E := sampler_env stream reserve K cg B bg sc.

(** The masses a run of the session returns: one tensor per parameter. *)
Lemma minv_count : forall k us rs s' b0 c0 z0, drive E (next_of E k) us (initial_state E b0 c0 z0) = (rs, s') ->
  forall cl f o, In cl rs -> runs (cr_events E cl) = [(f, Ok o)] -> length (o_minv o) = length (z_params K (s_sess E (cr_pre E cl))).
Proof.
  intros k us rs s' b0 c0 z0 HD cl f o Hin Hr. pose proof (kernel_call_run stream reserve K cg B bg sc k us rs s' b0 c0 z0 HD cl f o Hin Hr) as H. fold E in H.
  unfold session_run_model in H. destruct (cg _ _) as [[cst gs]|]; [|discriminate H]. destruct (run_params _ _ _ _ _ _ _ _) as [[ms ps]|] eqn:Er; [|discriminate H].
  destruct (run_params_nth _ _ _ _ _ _ _ _ _ _ Er) as (_ & L & _). pose proof (f_equal (fun r => match fst r with Ok o => o_minv o | _ => ms end) H) as Hm. cbn in Hm. now rewrite <- Hm.
Qed.
End Run.

(** After [b] samples of burn-in every sample is, per entry, within 2^(e-46) of the Langevin step in exact arithmetic with
    the masses of the last sample of burn-in, from the values before, as long as these, drift and noise are at most 2^e. *)
Theorem C114_samples_after_burn_in :
  forall stream reserve (c : lconfig f64) cg B bg sc b us rs s' b0 c0 eps0 params ops,
  let K := sgld_kernel c in let E := sampler_env stream reserve K cg B bg sc in
  let z0 := sgld_session c eps0 params ops in
  (0 < b)%Z -> drive E (burnin_next E b (length (z_params K z0))) us (initial_state E b0 c0 z0) = (rs, s') ->
  forall pre cl post smp cost, rs = pre ++ cl :: post -> (b <= Z.of_nat (successes E pre))%Z -> cr_res E cl = Ok (smp, cost) ->
  exists pre0 last post0 f0 o0 f o cst gs eps,
    pre = pre0 ++ last :: post0 /\ Z.of_nat (successes E pre0) = (b - 1)%Z /\ succeeded E last = true /\ runs (cr_events E last) = [(f0, Ok o0)] /\
    runs (cr_events E cl) = [(f, Ok o)] /\ cg (values K (s_sess E (cr_pre E cl))) (fun n => lookup f (KUser n)) = Ok (cst, gs) /\
    lookup f KEps = Some eps /\ length (values_of smp) = length (z_params K (s_sess E (cr_pre E cl))) /\
    forall j p op, nth_error (z_params K (s_sess E (cr_pre E cl))) j = Some (p, op) ->
    let xs := data (l_val p) in let xi := fst (draw stream reserve (length xs) op) in let ep := hd n0 (data eps) in
    exists m g w, nth_error (o_minv o0) j = Some m /\ nth_error gs j = Some g /\ nth_error (values_of smp) j = Some w /\ length (data w) = length xs /\ length (data m) = length xs /\
    forall e, usual_sgld ep (l_A c) (l_scale_grad c) -> Forall (between64 (bpow radix2 (-20)) (bpow radix2 20)) (data m) -> (-900 <= e <= 1000)%Z ->
      all_within e ep (l_A c) (l_scale_grad c) (data m) xs g xi ->
      Forall finite (data w) /\
      forall i y, nth_error (data w) i = Some y -> exists x',
        nth_error (langevin (value ep) (value (l_A c)) (value (l_scale_grad c)) (map value (data m)) (map value g) (map value xi) (map value xs)) i = Some x' /\
        Rabs (value y - x') <= bpow radix2 (e - 46).
Proof.
  intros stream reserve c cg B bg sc b us rs s' b0 c0 eps0 params ops K E z0 Hb HD pre cl post smp cost HR Hs Hok.
  assert (HD' : drive E (next_of E (BurnIn b (length (z_params K z0)))) us (initial_state E b0 c0 z0) = (rs, s')) by exact HD.
  assert (Hin : In cl rs) by (rewrite HR; apply in_or_app; right; now left).
  destruct (C10_burn_in_boundary_and_frozen_mass _ E b _ us rs s' b0 c0 z0 Hb HD pre cl post HR) as [_ HF]. destruct (HF Hs) as (pre0 & last & post0 & f0 & o0 & P1 & P2 & P3 & P4 & P5).
  destruct (C09_step_protocol _ _ _ _ _ _ _ _ _ HD') as [_ P]. destruct (P cl smp cost Hin Hok) as (evb & bb & eps & f & o & He & Hbb & Hl & _ & _ & Hv).
  assert (Hr : runs (cr_events E cl) = [(f, Ok o)]) by (rewrite He; unfold runs; rewrite flat_map_app; unfold batch_events in Hbb; destruct (bg_next E); [subst evb|destruct Hbb; subst evb]; reflexivity).
  assert (Hv' : values_of smp = o_theta o) by (destruct Hv as [-> |(v & Hv & ->)]; [reflexivity|now rewrite Hv]).
  destruct (kernel_call_step stream reserve K cg B bg sc _ us rs s' b0 c0 z0 HD' cl f o Hin Hr) as (cst & gs & Hg & _ & Ht & HN). fold E in Hg, Ht, HN.
  assert (Hinit : forall j s op, nth_error (z_params K z0) j = Some (s, op) -> sgld_inv (length (data (k_value K s))) s).
  { intros j s op Hj. unfold z0, sgld_session in Hj. cbn [z_params] in Hj. apply nth_error_In, in_combine_l, in_map_iff in Hj as (v & <- & _). apply sgld_inv_init. }
  assert (Hlast : In last rs) by (rewrite HR, P1; apply in_or_app; left; apply in_or_app; right; now left).
  destruct (kernel_history_reached stream reserve K cg B bg sc sgld_inv _ us rs s' b0 c0 z0 (sgld_kernel_sized c) Hinit HD' cl Hin) as [(_ & LZ & t & HZ) (_ & LZ1 & _)]. fold E in LZ, HZ, LZ1.
  destruct (kernel_history_reached stream reserve K cg B bg sc sgld_inv _ us rs s' b0 c0 z0 (sgld_kernel_sized c) Hinit HD' last Hlast) as [(_ & LZ0 & _) _]. fold E in LZ0.
  exists pre0, last, post0, f0, o0, f, o, cst, gs, eps. repeat (split; [assumption|]). split; [rewrite Hv', Ht; unfold values; rewrite map_length; congruence|].
  intros j p op Hj xs xi ep. destruct (HN j p op Hj) as (g & Hgj & Hsz & Hpost). cbn [i_eps i_grad i_xi i_fed] in Hsz, Hpost. change (k_value K p) with (l_val p) in Hsz, Hpost. fold xs in Hsz, Hpost. fold xi in Hsz, Hpost.
  assert (Hjn : (j < length (z_params K z0))%nat) by (rewrite <- LZ; apply nth_error_Some; congruence).
  assert (Hm : exists m, nth_error (o_minv o0) j = Some m).
  { destruct (nth_error (o_minv o0) j) as [m|] eqn:Em; [eauto|]. apply nth_error_None in Em.
    pose proof (minv_count stream reserve c cg B bg sc _ us rs s' b0 c0 z0 HD' last f0 o0 Hlast P4) as Lm. fold K E in Lm. rewrite LZ0 in Lm. lia. }
  destruct Hm as [m Hm]. assert (Hfed : lookup f (KMinv j) = Some m) by (rewrite (P5 f (Ok o) ltac:(rewrite Hr; now left) j Hjn); exact Hm).
  rewrite Hfed in Hsz, Hpost. cbn [option_map] in Hsz, Hpost. destruct Hsz as (S1 & S2 & S3). cbn [i_grad i_xi i_fed] in S1, S2, S3.
  assert (Hep : fed_eps K f (s_sess E (cr_pre E cl)) = ep) by (unfold fed_eps; now rewrite Hl). rewrite Hep in Hpost.
  assert (Hp : sgld_inv (length xs) p).
  { destruct (nth_error_lt _ (z_params K z0) j Hjn) as [[q0 op0] Hq0]. destruct (HZ j q0 op0 Hq0) as (ins & _ & _ & Hz & Hi). rewrite Hj in Hz.
    assert (Ep : p = k_run K ins q0) by congruence. rewrite <- Ep in Hi. unfold xs. destruct Hi as [[L1 L2] L3]. rewrite L3, L2. now split. }
  destruct Hp as [[LA LV] VV]. fold xs in VV.
  exists m, g, (l_val (sgld_step c ep g xi (Some (data m)) p)). split; [exact Hm|]. split; [exact Hgj|]. split.
  { rewrite Hv', Ht. unfold values. rewrite nth_error_map, Hpost. reflexivity. }
  split; [unfold sgld_step; cbn [l_val data minv_used]; repeat apply vmap2_length; rewrite ?map_length; assumption|]. split; [exact S3|].
  intros e HU HM He' HW. rewrite VV in HW. destruct (C114_step_error c ep (data m) g xi p e (length xs) HU HM S3 S1 S2 LV He' HW) as (_ & F & D & N). rewrite D. split; [exact F|].
  intros i y Hy. rewrite VV. exact (N i y Hy).
Qed.

(** *** Example: the cost x^2/2 from x = 3, two samples of burn-in, five samples *)
Definition calm_env := sampler_env (fun _ _ => n1) (fun n => n) (sgld_kernel toy) (PRange.spiky None) unit None
  (constant_schedule (tensor f64) (sample (tensor f64) * tensor f64)).
Definition calm_session : sess (sgld_kernel toy) := sgld_session toy n0 [Tensor [1%nat] [nint 3]] (noise_ops (Some 3%Z) (Some 4%Z) [7%nat] (fun _ => (0, 0)%Z) 1).
Notation calm_drive := (drive calm_env (burnin_next calm_env 2 (length (z_params (sgld_kernel toy) calm_session))) (repeat None 5) (initial_state calm_env tt (Tensor [] [quarter]) calm_session)).
Notation calm_calls := (fst calm_drive).
Definition tenth : f64 := nfrac 1 1024.
(** Value before a call, stepsize and masses of a call. *)
Definition calm_point (cl : call_record calm_env) : list f64 := flat_map (fun q => data (l_val (fst q))) (z_params (sgld_kernel toy) (s_sess calm_env (cr_pre calm_env cl))).
Definition calm_masses (cl : call_record calm_env) : list f64 :=
  flat_map (fun fr : feed (tensor f64) * res (outputs (tensor f64)) => match snd fr with Ok o => flat_map data (o_minv o) | Raise _ => [] end) (runs (cr_events calm_env cl)).
Definition calm_steps (cl : call_record calm_env) : list f64 :=
  flat_map (fun fr : feed (tensor f64) * res (outputs (tensor f64)) => match lookup (fst fr) KEps with Some t => [hd n0 (data t)] | None => [] end) (runs (cr_events calm_env cl)).
Definition calm_ok (cl : call_record calm_env) : bool :=
  succeeded calm_env cl && forallb (PRange.ok64 3) (calm_point cl) && forallb (fun m => PRange.ok64 1 m && nltb tenth m) (calm_masses cl) &&
  forallb (fun e => PRange.ok64 0 e && negb (nltb e quarter) && negb (nltb quarter e)) (calm_steps cl).
Lemma calm_ok_all : forallb calm_ok calm_calls = true /\ length calm_calls = 5%nat.
Proof. split; vm_compute; reflexivity. Qed.
Lemma calm_within : forall x m, bounded64 3 x -> between64 (/ 1024) 2 m -> forall ep, finite ep -> value ep = / 4 -> all_within 4 ep (l_A toy) (l_scale_grad toy) [m] [x] [x] [n1].
Proof.
  intros x m [Fx Bx] [Fm Bm] ep Fe Ve [|i] m' x' g z' H1 H2 H3 H4; try (cbn [nth_error] in H1; destruct i; discriminate H1). cbn [nth_error] in H1, H2, H3, H4.
  assert (m' = m) by congruence. assert (x' = x) by congruence. assert (g = x) by congruence. assert (z' = n1) by congruence. subst.
  destruct rep_1 as [F1 V1]. change (bpow radix2 3) with 8 in Bx.
  unfold within. cbn [l_A l_scale_grad toy]. unfold sgld_drift. rewrite V1, Ve. change (bpow radix2 4) with 16. split; [split; [exact Fx|change (bpow radix2 4) with 16; lra]|]. split; [exact Fx|]. split; [exact F1|].
  split; rewrite Rabs_mult.
  - rewrite (Rabs_right (/ 4 * _ * _)) by nra. pose proof (Rabs_pos (value x)). nra.
  - rewrite (Rabs_right 1), Rmult_1_r, Rabs_right by first [lra|apply Rle_ge, sqrt_pos]. rewrite <- (sqrt_pow2 16) by lra. apply sqrt_le_1_alt.
    assert (G : 0 <= 3 * guard) by (unfold guard; lra). apply (Rmult_le_reg_r (1 + 3 * guard)); [lra|]. unfold Rdiv. rewrite (Rmult_assoc (2 * _)), Rinv_l by lra. nra.
Qed.
Lemma tenth_value : rep tenth (/ 1024).
Proof. split; [vm_compute; reflexivity|]. unfold value. vm_compute. lra. Qed.

Lemma calm_sample : forall rs s',
  drive calm_env (burnin_next calm_env 2 (length (z_params (sgld_kernel toy) calm_session))) (repeat None 5) (initial_state calm_env tt (Tensor [] [quarter]) calm_session) = (rs, s') ->
  (forall cl, In cl rs -> calm_ok cl = true) -> (forall cl, In cl rs -> succeeded calm_env cl = true) ->
  forall pre cl post, rs = pre ++ cl :: post -> In cl rs -> successes calm_env pre = length pre -> (2 <= length pre)%nat ->
  exists smp cost x m y, cr_res calm_env cl = Ok (smp, cost) /\ calm_point cl = [x] /\ flat_map data (values_of smp) = [y] /\ / 1024 <= value m <= 2 /\ (exists last, In last pre /\ In m (calm_masses last)) /\
    Rabs (value y - sgld_theta (/ 4) 1 1 (value m) (value x) 1 (value x)) <= bpow radix2 (-42).
Proof.
  intros rs s' HD HA SU pre cl post HC Hin NS Hp.
  pose proof (SU cl Hin) as HS. unfold succeeded in HS. destruct (cr_res calm_env cl) as [[smp cost]|] eqn:Hok; [|discriminate HS]. clear HS.
  destruct (C114_samples_after_burn_in (fun _ _ => n1) (fun n => n) toy (PRange.spiky None) unit None (constant_schedule (tensor f64) (sample (tensor f64) * tensor f64)) 2 (repeat None 5) rs s' tt (Tensor [] [quarter]) n0 [Tensor [1%nat] [nint 3]]
    (noise_ops (Some 3%Z) (Some 4%Z) [7%nat] (fun _ => (0, 0)%Z) 1) ltac:(lia) HD pre cl post smp cost HC ltac:(fold calm_env; rewrite NS; lia) Hok)
    as (pre0 & last & post0 & f0 & o0 & f & o & cst & gs & eps & E1 & E2 & E3 & E4 & E5 & E6 & E7 & LS & HJ). fold calm_env in *.
  pose proof (HA cl Hin) as HQ. unfold calm_ok in HQ. rewrite !andb_true_iff in HQ. destruct HQ as (((_ & QX) & _) & QE).
  assert (Hlast : In last pre) by (rewrite E1; apply in_or_app; right; now left).
  assert (QM := HA last ltac:(rewrite HC; apply in_or_app; now left)). unfold calm_ok in QM. rewrite !andb_true_iff in QM. destruct QM as ((_ & QM) & _).
  unfold calm_steps in QE. rewrite E5 in QE. cbn [flat_map fst app] in QE. rewrite E7 in QE. cbn [app forallb] in QE. rewrite !andb_true_iff, !negb_true_iff in QE. destruct QE as (((QE1 & QE2) & QE3) & _).
  destruct (PRange.ok64_bounded 0 _ ltac:(lia) QE1) as [Fe _].
  assert (RQ : rep quarter (/ 4)) by (split; [vm_compute; reflexivity|apply quarter_value]).
  assert (RE : rep (hd n0 (data eps)) (value (hd n0 (data eps)))) by (now split).
  rewrite (rep_ltb _ _ _ _ RE RQ) in QE2. rewrite (rep_ltb _ _ _ _ RQ RE) in QE3. unfold Rltb in *.
  destruct (Rlt_dec (value (hd n0 (data eps))) (/ 4)) as [|L2]; [discriminate QE2|]. destruct (Rlt_dec (/ 4) (value (hd n0 (data eps)))) as [|L3]; [discriminate QE3|].
  assert (Ve : value (hd n0 (data eps)) = / 4) by lra. set (ep := hd n0 (data eps)) in *.
  unfold calm_point in *. unfold values in E6. destruct (z_params (sgld_kernel toy) (s_sess calm_env (cr_pre calm_env cl))) as [|[p op] [|? ?]] eqn:EZ; try discriminate E6.
  cbn [map fst] in E6. change (k_value (sgld_kernel toy) p) with (l_val p) in E6. unfold PRange.spiky in E6. destruct (data (l_val p)) as [|x [|? ?]] eqn:EX; try discriminate E6.
  assert (EG : gs = [[x]]) by congruence. subst gs.
  destruct (HJ O p op eq_refl) as (m & g & w & M1 & M2 & M3 & M4 & M6 & M5). fold ep in M5. assert (g = [x]) by (cbn [nth_error] in M2; congruence). subst g. clear M2.
  rewrite EX in M4, M5, M6. cbn [length] in M4, M6, LS.
  assert (FX : flat_map (fun q : lstate f64 * noise_op => data (l_val (fst q))) [(p, op)] = [x]) by (cbn [flat_map fst]; now rewrite EX, app_nil_r).
  assert (BX : bounded64 3 x). { change (forallb (PRange.ok64 3) (flat_map (fun q : lstate f64 * noise_op => data (l_val (fst q))) [(p, op)]) = true) in QX. rewrite FX in QX. cbn [forallb] in QX. rewrite andb_true_r in QX. apply PRange.ok64_bounded; [lia|exact QX]. }
  assert (IM : incl (data m) (calm_masses last)).
  { unfold calm_masses. rewrite E4. cbn [flat_map snd app]. rewrite app_nil_r. intros v Hv. apply in_flat_map. exists m. split; [eapply nth_error_In; exact M1|exact Hv]. }
  assert (BM : Forall (between64 (/ 1024) 2) (data m)).
  { apply Forall_forall. intros v Hv. apply IM in Hv. rewrite forallb_forall in QM. specialize (QM v Hv). apply andb_true_iff in QM as [Q1 Q2]. destruct (PRange.ok64_bounded 1 v ltac:(lia) Q1) as [F Bv].
    change (bpow radix2 1) with 2 in Bv. rewrite (rep_ltb _ _ _ _ tenth_value (conj F eq_refl)) in Q2. unfold Rltb in Q2. destruct (Rlt_dec (/ 1024) (value v)) as [L|]; [|discriminate Q2]. split; [exact F|]. apply abs_inv in Bv. lra. }
  destruct (data m) as [|m1 [|? ?]] eqn:EM; try discriminate M6. inversion BM as [|? ? BM1 _]; subst.
  destruct (values_of smp) as [|w' [|? ?]] eqn:EW; try discriminate LS. assert (w' = w) by (cbn [nth_error] in M3; congruence). subst w'.
  destruct (data w) as [|y [|? ?]] eqn:EY; try discriminate M4.
  exists smp, cost, x, m1, y. split; [reflexivity|]. split; [exact FX|]. split; [rewrite EW; cbn [flat_map]; now rewrite EY, app_nil_r|]. split; [exact (proj2 BM1)|]. split; [exists last; split; [exact Hlast|apply IM; now left]|].
  destruct rep_1 as [F1 V1]. pose proof (p2_le (-20) (-10) ltac:(lia)) as B1. pose proof (p2_le 1 20 ltac:(lia)) as B2. pose proof (p2_le 0 100 ltac:(lia)) as B3. unfold p2 in *. change (bpow radix2 (-10)) with (/ 1024) in B1. change (bpow radix2 1) with 2 in B2. change (bpow radix2 0) with 1 in B3.
  destruct (M5 4%Z) as [_ N].
  - cbn [l_A l_scale_grad toy]. split; [split; [exact Fe|rewrite Ve; lra]|]. split; split; [exact F1|rewrite V1; lra|exact F1|rewrite V1; lra].
  - constructor; [|constructor]. destruct BM1 as [F Bv]. split; [exact F|lra].
  - lia.
  - apply (calm_within x m1 BX BM1 ep Fe Ve).
  - destruct (N O y eq_refl) as (x' & Hx & D). change (fst (draw (fun (_ : Z * Z) (_ : nat) => n1) (fun n : nat => n) (length [x]) op)) with [@n1 f64 _] in Hx.
    cbn [map langevin nth_error] in Hx. pose proof (f_equal (fun o => match o with Some v => v | None => 0 end) Hx) as EX'. cbv beta iota in EX'. rewrite <- EX' in D. cbn [l_A l_scale_grad toy] in D. rewrite V1, Ve in D. exact D.
Qed.

Lemma calm_final : forall d, drive calm_env (burnin_next calm_env 2 (length (z_params (sgld_kernel toy) calm_session))) (repeat None 5) (initial_state calm_env tt (Tensor [] [quarter]) calm_session) = d -> forallb calm_ok (fst d) = true -> length (fst d) = 5%nat ->
  map (succeeded calm_env) (fst d) = repeat true 5 /\
  forall pre cl post, fst d = pre ++ cl :: post -> (2 <= length pre)%nat ->
  exists smp cost x m y, cr_res calm_env cl = Ok (smp, cost) /\ calm_point cl = [x] /\ flat_map data (values_of smp) = [y] /\ / 1024 <= value m <= 2 /\ (exists last, In last pre /\ In m (calm_masses last)) /\
    Rabs (value y - sgld_theta (/ 4) 1 1 (value m) (value x) 1 (value x)) <= bpow radix2 (-42).
Proof.
  intros [rs s'] HD HA HL. cbn [fst] in *. rewrite forallb_forall in HA.
  assert (SU : forall cl, In cl rs -> succeeded calm_env cl = true) by (intros cl Hc; specialize (HA cl Hc); unfold calm_ok in HA; rewrite !andb_true_iff in HA; tauto).
  split.
  { rewrite <- HL. clear HL HA HD. revert SU. induction rs as [|a l IH]; intros H; [reflexivity|]. cbn [map length repeat]. rewrite (H a (or_introl eq_refl)). f_equal. apply IH. intros cl Hc. apply H. now right. }
  intros pre cl post HC Hp. assert (Hin : In cl rs) by (rewrite HC; apply in_or_app; right; now left).
  assert (NS : successes calm_env pre = length pre).
  { unfold successes. assert (Q : forall a, In a pre -> succeeded calm_env a = true) by (intros a Ha; apply SU; rewrite HC; apply in_or_app; now left). clear - Q. induction pre as [|a l IH]; [reflexivity|]. cbn [filter]. rewrite (Q a (or_introl eq_refl)). cbn [length]. f_equal. apply IH. intros b Hb. apply Q. now right. }
  exact (calm_sample rs s' HD HA SU pre cl post HC Hin NS Hp).
Qed.
(** All five calls succeed, and from the third on the new value is within 2^-42 of the exact Langevin step. *)
Example C114_example_run :
  map (succeeded calm_env) calm_calls = repeat true 5 /\
  forall pre cl post, calm_calls = pre ++ cl :: post -> (2 <= length pre)%nat ->
  exists smp cost x m y, cr_res calm_env cl = Ok (smp, cost) /\ calm_point cl = [x] /\ flat_map data (values_of smp) = [y] /\ / 1024 <= value m <= 2 /\ (exists last, In last pre /\ In m (calm_masses last)) /\
    Rabs (value y - sgld_theta (/ 4) 1 1 (value m) (value x) 1 (value x)) <= bpow radix2 (-42).
Proof. destruct calm_ok_all as [HA HL]. exact (calm_final calm_drive eq_refl HA HL). Qed.
