(** C106: relativistic SGHMC in double precision. *)
From Coq Require Import List Arith Lia ZArith Bool Reals Lra.
From Flocq Require Import Core.Core.
From Flocq Require IEEE754.BinarySingleNaN.
From Verif.Proofs Require Import FloatCell SafeFloat FloatAdapt.
From Verif.Base Require Import Py Num Float64 Vec Lists.
From Verif.Model Require Import TensorUtils BurnIn SGHMC SGLD Stepsize BaseClasses Session Relativistic.
From Verif.Spec Require Import Sampler Trajectory Doubles.
From Verif.Proofs Require Import Dynamics Sampler SamplerHistory Session Trajectory KernelHistory DoubleCell DoubleRun DoubleRel.
From Verif.Props Require Import PSampler PSpoilt PRange PRelativistic PDoubleData PDoubleTensor.
Import ListNotations.
Local Open Scope R_scope.

(** *** C106 *)
(** The velocity computed in doubles agrees with the exact one up to 2^-47 of it, so that the speed limit holds up to
    a factor 1 + 2^-47. *)
Theorem C106_velocity_in_doubles : forall (c : rconfig f64) eps p,
  between64 (bpow radix2 (-20)) (bpow radix2 20) (r_mass c) -> between64 (bpow radix2 (-20)) (bpow radix2 20) (r_c c) ->
  between64 0 1 eps -> bounded64 460 p ->
  let v := value eps * value p / (value (r_mass c) * sqrt ((value p / (value (r_mass c) * value (r_c c))) ^ 2 + 1)) in
  let V := rel_velocity c eps p in
  finite V /\ Rabs (value V - v) <= bpow radix2 (-47) * Rabs v + bpow radix2 (-1050) /\
  Rabs (value V) <= (1 + bpow radix2 (-47)) * (value eps * value (r_c c)) + bpow radix2 (-1050).
Proof.
  intros c eps p (Fm & Hm) (Fc & Hc) (Fe & He) (Fp & Hp) v V. pose proof (bpow_gt_0 radix2 (-20)) as P2.
  assert (Ev : v = value eps * value p / (value (r_mass c) * sqrt (value p * value p / (value (r_mass c) ^ 2 * value (r_c c) ^ 2) + 1))).
  { unfold v. f_equal. f_equal. f_equal. f_equal. field. lra. }
  destruct (V_rep c eps p Fm Fc Fe Fp Hm Hc He Hp) as [F E]. split; [exact F|]. fold V in E. rewrite E, Ev. split.
  - now apply V_close.
  - now apply V_limit.
Qed.
(** The strict limit of the exact dynamics is exceeded: with mass 1, c = 0.7 and stepsize 1 the velocity at momentum
    1.5 * 2^50 is above c. *)
Definition fast : rconfig f64 := RConfig n1 (nfrac 7 10) n1 n0.
Theorem C106_strict_limit_refuted : exists p, bounded64 52 p /\
  value (r_c fast) < value (rel_velocity fast n1 p) /\ finite (rel_velocity fast n1 p).
Proof.
  exists (f_of_Z (3 * 2 ^ 49)). split; [apply ok64_bounded; [lia|vm_compute; reflexivity]|].
  assert (F1 : finite (rel_velocity fast n1 (f_of_Z (3 * 2 ^ 49)))) by (vm_compute; reflexivity). assert (F2 : finite (r_c fast)) by (vm_compute; reflexivity).
  split; [|exact F1]. assert (H : nltb (r_c fast) (rel_velocity fast n1 (f_of_Z (3 * 2 ^ 49))) = true) by (vm_compute; reflexivity).
  rewrite (rep_ltb _ _ (value (r_c fast)) (value (rel_velocity fast n1 (f_of_Z (3 * 2 ^ 49))))) in H by (now split). unfold Rltb in H. destruct (Rlt_dec _ _) as [L|]; [exact L|discriminate H].
Qed.

(** *** Complete runs *)
Definition rel_good (t : nat) (s : rstate f64) : Prop := rmom_bound t (r_mom s) /\ Forall (vec_bound t) (r_vec s).
Definition forward (e : f64) : Prop := 0 <= value e.
Lemma kick_hd : forall c eps grad xi p n, length grad = n -> length xi = n -> moderate_config c -> finite eps -> 0 <= value eps <= 1 ->
  small (rel_velocity c eps p) 21 -> Forall (bounded64 400) grad -> Forall (bounded64 10) xi ->
  small (hd n0 (map (fun y => nsub y (nmul (r_D c) (rel_velocity c eps p))) (vmap2 nadd (map (fun g => nmul eps g) (map nopp grad)) (map (fun x => nmul (rel_noise_scale c eps) x) xi)))) 402.
Proof.
  intros c eps grad xi p n Lg Lx HC Fe He HV HG HX. destruct grad as [|g grad]; destruct xi as [|x xi]; cbn [length] in *; try lia.
  - cbn [map vmap2 hd]. eexists. apply fits_0.
  - inversion HG; inversion HX; subst. cbn [map vmap2 hd]. apply (kick_small c HC eps Fe He p); [exact HV|apply small_opp; now apply small_bounded|now apply small_bounded].
Qed.
Lemma eps_range : forall e, bounded64 0 e -> forward e -> finite e /\ 0 <= value e <= 1.
Proof. intros e [F B] P. split; [exact F|]. unfold forward in P. rewrite Rabs_right in B by lra. cbn in B. lra. Qed.

Lemma rel_step_mom : forall c eps grad xi (s : rstate f64), r_mom (rel_step c eps (map nopp grad) xi s) =
  nadd (r_mom s) (hd n0 (map (fun y => nsub y (nmul (r_D c) (rel_velocity c eps (r_mom s)))) (vmap2 nadd (map (fun g => nmul eps g) (map nopp grad)) (map (fun x => nmul (rel_noise_scale c eps) x) xi)))).
Proof. reflexivity. Qed.
Lemma rel_step_vec : forall c eps grad xi (s : rstate f64), r_vec (rel_step c eps (map nopp grad) xi s) =
  map (fun x => nadd x (rel_velocity c eps (r_mom (rel_step c eps (map nopp grad) xi s)))) (r_vec s).
Proof. reflexivity. Qed.
Lemma rel_good_step : forall c n t s i, moderate_config c -> sized n i -> rel_good t s -> fewd (S t) ->
  bounded64 0 (i_eps i) -> Forall (bounded64 400) (i_grad i) -> Forall (bounded64 10) (i_xi i) -> forward (i_eps i) ->
  rel_good (S t) (rel_step c (i_eps i) (map nopp (i_grad i)) (i_xi i) s) /\ small (rel_velocity c (i_eps i) (r_mom (rel_step c (i_eps i) (map nopp (i_grad i)) (i_xi i) s))) 21.
Proof.
  intros c n t s i HC (L1 & L2 & _) (GM & GV) HF Be HG HX HP. destruct (eps_range _ Be HP) as [Fe He].
  pose proof (fewd_le t (S t) (Nat.le_succ_diag_r t) HF) as HFt.
  destruct (rmom_small _ _ HFt GM) as [Fp Bp].
  assert (HV : small (rel_velocity c (i_eps i) (r_mom s)) 21) by (apply velocity_small; auto; pose proof (p2_le 426 460 ltac:(lia)); lra).
  assert (GM' : rmom_bound (S t) (r_mom (rel_step c (i_eps i) (map nopp (i_grad i)) (i_xi i) s))).
  { rewrite rel_step_mom. apply rmom_step; auto. now apply (kick_hd _ _ _ _ _ n). }
  destruct (rmom_small _ _ HF GM') as [Fp' Bp'].
  assert (HV' : small (rel_velocity c (i_eps i) (r_mom (rel_step c (i_eps i) (map nopp (i_grad i)) (i_xi i) s))) 21) by (apply velocity_small; auto; pose proof (p2_le 426 460 ltac:(lia)); lra).
  split; [|exact HV']. split; [exact GM'|]. rewrite rel_step_vec. apply Forall_map. eapply Forall_impl; [|exact GV]. cbn beta. intros x Hx. apply vec_step; auto. apply (small_weaken _ 21); [exact HV'|lia].
Qed.
Lemma rel_steady : forall c, moderate_config c -> steady (rel_kernel c) forward rel_inv (fun _ => rel_good).
Proof.
  intros c HC. split; [apply rel_kernel_sized| |].
  - intros _ n t s i _ HS HG HF (I1 & I2 & I3 & _) HP. cbn [k_step k_minv rel_kernel]. split; [|constructor]. now apply (rel_good_step c n t s i).
  - intros _ n t s [_ E] (_ & GV) HF. cbn [k_value rel_kernel]. rewrite E. eapply Forall_impl; [|exact GV]. cbn beta. intros x Hx. apply small_bounded. now apply (vec_small t).
Qed.
Lemma rel_start : forall c eps0 params momenta ops, Forall (bounded_tensor 500) params -> Forall (bounded64 420) momenta ->
  sess_good (rel_kernel c) rel_inv (fun _ => rel_good) 0 (rel_session c eps0 params momenta ops).
Proof.
  intros c eps0 params momenta ops HP HM j s o Hj. destruct (rel_session_params _ _ _ _ _ _ _ _ _ _ Hj) as (v & p & Hv & Hp & _ & ->). split; [now split|].
  rewrite Forall_forall in HP, HM. split; cbn [rinit r_mom r_vec].
  - destruct (HM p (nth_error_In _ _ Hp)) as [F B]. exists (value p). split; [now split|]. cbn [INR]. unfold p2 in *. lra.
  - eapply Forall_impl; [|exact (HP v (nth_error_In _ _ Hv))]. cbn beta. intros x [F Bx]. exists (value x). split; [now split|]. cbn [INR]. unfold p2. lra.
Qed.

(** Up to about two million calls with stepsizes between 0 and 1, gradients at most 2^400 and noise at most 2^10 no
    sample contains an infinity or NaN. *)
Theorem C106_runs_stay_finite :
  forall stream reserve c eps0 params momenta ops cg B bg sc k us rs s' b0 c0,
  moderate_config c -> Forall (bounded_tensor 500) params -> Forall (bounded64 420) momenta ->
  (forall key i, bounded64 10 (stream key i)) -> Forall moderate_feed us ->
  let K := rel_kernel c in let E := sampler_env stream reserve K cg B bg sc in
  drive E (next_of E k) us (initial_state E b0 c0 (rel_session c eps0 params momenta ops)) = (rs, s') -> (Z.of_nat (length us) < 2 ^ 21)%Z ->
  (forall c f r, In c rs -> In (f, r) (runs (cr_events E c)) -> calm K cg (s_sess E (cr_pre E c)) f /\ 0 <= value (fed_eps K f (s_sess E (cr_pre E c)))) ->
  forall c smp cost, In c rs -> cr_res E c = Ok (smp, cost) -> bounded_sample 503 smp.
Proof.
  intros stream reserve cf eps0 params momenta ops cg B bg sc k us rs s' b0 c0 HM HP HQ Hxi HU K E HD HL HC c smp cost Hin Hr.
  assert (HUs : map (cr_user E) rs = us) by exact (drive_users _ E _ _ _ _ _ HD).
  assert (HC' : Forall (calm_call stream reserve K cg B bg sc forward) rs).
  { apply Forall_forall. intros c' Hc'. split; [|intros f r Hf; exact (HC c' f r Hc' Hf)]. rewrite Forall_forall in HU. apply HU. rewrite <- HUs. now apply in_map. }
  assert (HF : fewd (length rs)) by (apply few_calls; rewrite <- HUs, map_length in HL; exact HL).
  destruct (success_run E k us rs s' b0 c0 _ c smp cost HD Hin Hr) as (f & o & Hf & Hv). unfold bounded_sample. rewrite Hv.
  apply (runs_bounded stream reserve K cg B bg sc forward rel_inv (fun _ => rel_good) (rel_steady _ HM) Hxi _ (rel_start cf eps0 params momenta ops HP HQ) k us rs s' b0 c0 HD HC' HF c f o Hin).
  fold E. rewrite Hf. now left.
Qed.

(** In such runs every entry moves by at most eps c in each call, up to rounding. *)
Theorem C106_speed_limit_in_runs :
  forall stream reserve c eps0 params momenta ops cg B bg sc k us s' b0 c0 pre ca post f o smp cost j i v x,
  moderate_config c -> Forall (bounded_tensor 500) params -> Forall (bounded64 420) momenta ->
  (forall key i, bounded64 10 (stream key i)) -> Forall moderate_feed us ->
  let K := rel_kernel c in let E := sampler_env stream reserve K cg B bg sc in
  drive E (next_of E k) us (initial_state E b0 c0 (rel_session c eps0 params momenta ops)) = (pre ++ ca :: post, s') -> (Z.of_nat (length us) < 2 ^ 21)%Z ->
  (forall c f r, In c (pre ++ [ca]) -> In (f, r) (runs (cr_events E c)) -> calm K cg (s_sess E (cr_pre E c)) f /\ 0 <= value (fed_eps K f (s_sess E (cr_pre E c)))) ->
  runs (cr_events E ca) = [(f, Ok o)] -> cr_res E ca = Ok (smp, cost) ->
  nth_error (values K (s_sess E (cr_pre E ca))) j = Some v -> nth_error (data v) i = Some x ->
  exists v' x', nth_error (values_of smp) j = Some v' /\ nth_error (data v') i = Some x' /\ finite x' /\
    Rabs (value x' - value x) <= (1 + bpow radix2 (-46)) * (value (fed_eps K f (s_sess E (cr_pre E ca))) * value (r_c c)) + bpow radix2 (-53) * Rabs (value x) + bpow radix2 (-1049).
Proof.
  intros stream reserve cf eps0 params momenta ops cg B bg sc k us s' b0 c0 pre ca post f o smp cost j i v x HM HP HQ Hxi HU K E HD HL HC Ra Hr Hv Hx.
  assert (HUs : map (cr_user E) (pre ++ ca :: post) = us) by exact (drive_users _ E _ _ _ _ _ HD).
  assert (HC' : Forall (calm_call stream reserve K cg B bg sc forward) pre).
  { apply Forall_forall. intros c' Hc'. split; [|intros f' r Hf; apply (HC c' f' r); [apply in_or_app; now left|exact Hf]]. rewrite Forall_forall in HU. apply HU. rewrite <- HUs. apply in_map, in_or_app. now left. }
  assert (HLp : (Z.of_nat (S (length pre)) < 2 ^ 21)%Z) by (rewrite <- HUs, map_length, app_length in HL; cbn [length] in HL; lia).
  pose proof (few_calls _ HLp) as HF.
  destruct (drive_split E _ _ _ _ _ _ _ HD) as (_ & us1 & D1 & _).
  destruct (hist_good_all stream reserve K cg B bg sc forward rel_inv (fun _ => rel_good) (rel_steady _ HM) Hxi _ (rel_start cf eps0 params momenta ops HP HQ) k us1 pre (cr_pre E ca) b0 c0 D1) as [burn HI].
  destruct (HI HC' (fewd_le _ _ (Nat.le_succ_diag_r _) HF)) as ((t & Ht & HGt) & _).
  assert (HFt : fewd (S t)) by (apply (fewd_le _ (S (length pre))); [exact (le_n_S _ _ Ht)|exact HF]).
  assert (Ia : In ca (pre ++ ca :: post)) by (apply in_or_app; right; now left).
  destruct (success_run E k us _ s' b0 c0 _ ca smp cost HD Ia Hr) as (f' & o' & Hf & Ho). rewrite Ra in Hf. injection Hf as <- <-.
  pose proof (kernel_call_run stream reserve K cg B bg sc k us _ s' b0 c0 _ HD ca f o Ia Ra) as Ea. fold E in Ea.
  destruct (HC ca f (Ok o) ltac:(apply in_or_app; right; now left) ltac:(rewrite Ra; now left)) as [[Be Hg] Pe].
  unfold session_run_model in Ea. destruct (cg _ _) as [[cst gs]|e] eqn:Hcg; [|discriminate Ea]. specialize (Hg cst gs eq_refl).
  destruct (run_params _ _ _ _ _ _ _ _) as [[ms ps]|e] eqn:Er; [|discriminate Ea]. apply pair_equal_spec in Ea as [Eo Ez].
  assert (Ho' : o_theta o = map (fun pr => k_value K (fst pr)) ps) by (injection Eo as <-; reflexivity). clear Eo Ez.
  unfold values in Hv. rewrite nth_error_map in Hv. destruct (nth_error (z_params K (s_sess E (cr_pre E ca))) j) as [[s op]|] eqn:Hj; [|discriminate Hv]. cbn [option_map fst] in Hv. injection Hv as <-.
  destruct (run_params_nth _ _ _ _ _ _ _ _ _ _ Er) as (_ & _ & HN). destruct (HN j s op Hj) as (g & Hgj & Hs & Hq & _). cbn zeta in Hs, Hq.
  destruct (HGt j s op Hj) as [[Hi1 Hi2] Hgd]. set (inp := StepInput _ _ _ _) in *.
  assert (HX : Forall (bounded64 10) (i_xi inp)).
  { unfold inp, draw. cbn [fst i_xi]. apply Forall_forall. intros y Hy. apply in_map_iff in Hy as (n & <- & _). apply Hxi. }
  assert (HG : Forall (bounded64 400) (i_grad inp)) by (rewrite Forall_forall in Hg; apply Hg; eapply nth_error_In; eauto).
  destruct (rel_good_step cf _ t s inp HM Hs Hgd HFt Be HG HX Pe) as [[GM GV] _].
  destruct (rmom_small _ _ HFt GM) as [Fp Bp]. destruct (eps_range _ Be Pe) as [Fe He].
  pose proof HM as ((Fm & Hm) & (Fc & Hc) & _). set (s2 := rel_step cf (i_eps inp) (map nopp (i_grad inp)) (i_xi inp) s) in *.
  assert (Bp' : Rabs (value (r_mom s2)) <= p2 460) by (pose proof (p2_le 426 460 ltac:(lia)); lra).
  pose proof (V_rep cf (i_eps inp) (r_mom s2) Fm Fc Fe Fp Hm Hc He Bp') as RV. pose proof (V_limit cf (i_eps inp) (r_mom s2) Fm Fc Hm Hc He Bp') as LV. rewrite <- (proj2 RV) in LV. destruct RV as [FV _].
  cbn [k_value rel_kernel] in Hx. change (k_value K s) with (r_val s) in Hx. rewrite Hi2 in Hx.
  assert (Hx2 : nth_error (r_vec s2) i = Some (nadd x (rel_velocity cf (i_eps inp) (r_mom s2)))).
  { unfold s2 at 1. rewrite rel_step_vec. fold s2. now rewrite nth_error_map, Hx. }
  rewrite Forall_forall in GV. destruct (GV _ (nth_error_In _ _ Hx2)) as (y & Ry & _).
  destruct Hgd as [_ GV0]. rewrite Forall_forall in GV0. destruct (GV0 _ (nth_error_In _ _ Hx)) as (x0 & Rx & Bx0).
  exists (r_val s2), (nadd x (rel_velocity cf (i_eps inp) (r_mom s2))). split; [|split; [exact Hx2|split; [exact (proj1 Ry)|]]].
  - rewrite Ho, Ho', nth_error_map, Hq. reflexivity.
  - set (V := rel_velocity cf (i_eps inp) (r_mom s2)) in *.
    assert (RA : rep (nadd x V) (rnd64 (value x + value V))).
    { apply rep_add; [split; [exact (proj1 Rx)|reflexivity]|now split|]. 
      assert (SV : small V 21) by (apply velocity_small; auto). destruct SV as (vv & [_ <-] & BV).
      assert (SX : small x 503) by (apply (vec_small t); [exact (fewd_le _ _ (Nat.le_succ_diag_r _) HFt)|exists x0; split; assumption]). destruct SX as (xx & [_ <-] & BX).
      apply (below 504); [lia|]. eapply Rle_trans; [apply Rabs_triang|]. pose proof (p2_twice 503 504 ltac:(lia)). pose proof (p2_le 21 503 ltac:(lia)). unfold p2 in *. lra. }
    rewrite (proj2 RA). pose proof (add_rel _ _ (value_format x) (value_format V)) as AR.
    replace (rnd64 (value x + value V) - value x) with ((rnd64 (value x + value V) - (value x + value V)) + value V) by ring. eapply Rle_trans; [apply Rabs_triang|].
    pose proof (Rabs_triang (value x) (value V)) as TR. pose proof (p2_pos (-53)) as U. change (i_eps inp) with (fed_eps K f (s_sess E (cr_pre E ca))) in *.
    set (ec := value (fed_eps K f (s_sess E (cr_pre E ca))) * value (r_c cf)) in *. assert (0 <= ec) by (apply Rmult_le_pos; [exact Pe|pose proof (bpow_gt_0 radix2 (-20)); lra]).
    fold (p2 (-46)) (p2 (-53)) (p2 (-1049)) in *.
    assert (Q1 : p2 (-46) = 128 * p2 (-53)) by (change (-46)%Z with (7 + -53)%Z; rewrite p2_plus; reflexivity).
    assert (Q2 : p2 (-47) = 64 * p2 (-53)) by (change (-47)%Z with (6 + -53)%Z; rewrite p2_plus; reflexivity).
    assert (Q3 : p2 (-1049) = 2 * p2 (-1050)) by (change (-1049)%Z with (1 + -1050)%Z; rewrite p2_plus; reflexivity). rewrite Q1, Q3. rewrite Q2 in LV.
    assert (U2 : p2 (-53) <= / 1000000) by (unfold p2; change (bpow radix2 (-53)) with (/ 9007199254740992); lra).
    set (rel := p2 (-53)) in *. set (tn := p2 (-1050)) in *. assert (Pt : 0 < tn) by apply p2_pos. pose proof (Rabs_pos (value V)).
    assert (rel * Rabs (value x + value V) <= rel * Rabs (value x) + rel * Rabs (value V)) by nra.
    assert (rel * Rabs (value V) <= rel * ((1 + 64 * rel) * ec + tn)) by (apply Rmult_le_compat_l; lra).
    assert (rel * ((1 + 64 * rel) * ec + tn) <= 2 * rel * ec + tn) by (assert (rel * (64 * rel) <= rel) by nra; assert (rel * (64 * rel) * ec <= rel * ec) by (apply Rmult_le_compat_r; lra); nra).
    assert (0 <= rel * ec) by (apply Rmult_le_pos; lra). lra.
Qed.

(** *** Large gradients *)
(** What a run preserves under a condition on the session and the feed holds as long as the condition does. *)
Lemma holds_while : forall stream reserve (K : kernel (T:=f64)) cg B bg sc, let E := sampler_env stream reserve K cg B bg sc in
  forall (Inv : sess K -> Prop) (Cond : sess K -> feed (tensor f64) -> Prop) k b0 c0 z0 pre c1,
  (forall f z r z', Inv z -> Cond z f -> run E f z = (r, z') -> Inv z') -> Inv (s_sess E (cr_post E c1)) ->
  forall mid us s', drive E (next_of E k) us (initial_state E b0 c0 z0) = (pre ++ c1 :: mid, s') ->
  (forall c f r, In c mid -> In (f, r) (runs (cr_events E c)) -> Cond (s_sess E (cr_pre E c)) f) -> Inv (s_sess E s').
Proof.
  intros stream reserve K cg B bg sc E Inv Cond k b0 c0 z0 pre c1 HR H1 mid. induction mid as [|c mid IH] using rev_ind; intros us s' HD HC.
  - rewrite (drive_last E _ _ _ _ _ _ HD). exact H1.
  - assert (HD' : drive E (next_of E k) us (initial_state E b0 c0 z0) = ((pre ++ c1 :: mid) ++ c :: [], s')) by (rewrite <- app_assoc; exact HD).
    rewrite (drive_last E _ _ _ _ _ _ HD'). destruct (drive_split E _ _ _ _ _ _ _ HD') as (_ & us1 & D1 & _).
    assert (HZ : Inv (s_sess E (cr_pre E c))) by (apply (IH _ _ D1); intros c' f r Hc'; apply HC; apply in_or_app; now left).
    destruct (outcome_of _ E _ _ _ _ _ _ _ _ _ HD') as (base & fmt & [SO _ _ _ SS] & _).
    destruct (outcome_one_run stream reserve K cg B bg sc _ _ _ _ SO) as [Er|(f & ro & Er)]; fold E in Er; rewrite Er in SS; cbn [map fst snd run_all] in SS.
    + injection SS as <-. exact HZ.
    + destruct (run E f (s_sess E (cr_pre E c))) as [r' z'] eqn:Ez. injection SS as _ <-. apply (HR f _ _ _ HZ) in Ez; [exact Ez|].
      apply (HC c f ro); [apply in_or_app; right; now left|rewrite Er; now left].
Qed.

(** Parameter [j] stands still at the numbers [xs]. *)
Definition stuck (c : rconfig f64) (j : nat) (xs : list R) (z : sess (rel_kernel c)) : Prop :=
  exists (s : rstate f64) o, nth_error (z_params (rel_kernel c) z) j = Some (s, o) /\ rel_inv (length (data (r_val s))) s /\ finite (r_mom s) /\ p2 512 <= Rabs (value (r_mom s)) <= p2 1000 /\
    map value (r_vec s) = xs /\ Forall (bounded64 503) (r_vec s).
Lemma stand_still : forall V x, rep V 0 -> bounded64 503 x -> bounded64 503 (nadd x V) /\ value (nadd x V) = value x.
Proof.
  intros V x RV [Fx Bx]. assert (RA : rep (nadd x V) (rnd64 (value x + 0))).
  { apply rep_add; [now split|exact RV|]. rewrite Rplus_0_r, value_round. apply Rle_lt_trans with (bpow radix2 503); [exact Bx|apply bpow_lt; lia]. }
  rewrite Rplus_0_r, value_round in RA. destruct RA as [F E]. split; [split; [exact F|now rewrite E]|exact E].
Qed.
Lemma still_vec : forall V l, rep V 0 -> Forall (bounded64 503) l -> Forall (bounded64 503) (map (fun x => nadd x V) l) /\ map value (map (fun x => nadd x V) l) = map value l.
Proof.
  intros V l RV HL. induction HL as [|x l Hx HL [IH1 IH2]]; [split; [constructor|reflexivity]|]. destruct (stand_still V x RV Hx) as [S1 S2]. cbn [map]. split; [constructor; auto|]. now rewrite S2, IH2.
Qed.
Section Frozen.
Variable stream : Z * Z -> nat -> f64.
Variable reserve : nat -> nat.
Variable c : rconfig f64.
Variable cg : @objective f64.
Hypothesis HM : moderate_config c.
Hypothesis Hxi : forall key i, bounded64 10 (stream key i).
Let K := rel_kernel c.

Lemma stuck_run : forall j xs f z r z', stuck c j xs z -> calm K cg z f /\ 0 <= value (fed_eps K f z) ->
  session_run_model stream reserve K cg f z = (r, z') -> stuck c j xs z'.
Proof.
  intros j xs f z r z' HS [[Be Hg] Pe] HR. destruct r as [o|e]; [|now rewrite (cell_fail _ _ _ _ _ _ _ _ HR)]. destruct HS as (s & op & Hj & [Hi1 Hi2] & Fp & Bp & Hxs & Hb).
  unfold session_run_model in HR. destruct (cg _ _) as [[cst gs]|e]; [|discriminate HR]. specialize (Hg cst gs eq_refl).
  destruct (run_params _ _ _ _ _ _ _ _) as [[ms ps]|e] eqn:Er; [|discriminate HR]. apply pair_equal_spec in HR as [_ <-].
  destruct (run_params_nth _ _ _ _ _ _ _ _ _ _ Er) as (_ & _ & HN). destruct (HN j s op Hj) as (g & Hgj & Hs & Hq & _). cbn zeta in Hs, Hq. set (inp := StepInput _ _ _ _) in *.
  destruct (eps_range _ Be Pe) as [Fe He]. change (fed_eps K f z) with (i_eps inp) in Fe, He, Be, Pe.
  assert (HX : Forall (bounded64 10) (i_xi inp)).
  { unfold inp, draw. cbn [fst i_xi]. apply Forall_forall. intros y Hy. apply in_map_iff in Hy as (n & <- & _). apply Hxi. }
  assert (HG : Forall (bounded64 400) (i_grad inp)) by (rewrite Forall_forall in Hg; apply Hg; eapply nth_error_In; eauto).
  pose proof (velocity_frozen c _ _ HM Fe He Fp Bp) as V0. destruct Hs as (L1 & L2 & _).
  assert (SV : small (rel_velocity c (i_eps inp) (r_mom s)) 21) by (exists 0; split; [exact V0|rewrite Rabs_R0; left; apply p2_pos]).
  pose proof (kick_hd c (i_eps inp) (i_grad inp) (i_xi inp) (r_mom s) _ L1 L2 HM Fe He SV HG HX) as SK.
  set (s2 := rel_step c (i_eps inp) (map nopp (i_grad inp)) (i_xi inp) s) in *.
  assert (RP : rep (r_mom s2) (value (r_mom s))).
  { unfold s2. rewrite rel_step_mom. set (d := hd _ _) in *. destruct (small_rep _ _ SK) as (dd & Rd & Bd).
    assert (AB : rnd64 (value (r_mom s) + dd) = value (r_mom s)) by (apply absorbs; [apply value_format|apply Bp|pose proof (p2_le 402 457 ltac:(lia)); lra]).
    rewrite <- AB. apply rep_add; [now split|exact Rd|]. rewrite AB. apply Rle_lt_trans with (p2 1000); [apply Bp|apply bpow_lt; lia]. }
  destruct RP as [Fp2 Ep2]. assert (V2 : rep (rel_velocity c (i_eps inp) (r_mom s2)) 0) by (apply velocity_frozen; auto; now rewrite Ep2).
  destruct (still_vec _ _ V2 Hb) as [Sb Sx]. exists s2. eexists. split; [exact Hq|].
  assert (Ev : r_vec s2 = map (fun x => nadd x (rel_velocity c (i_eps inp) (r_mom s2))) (r_vec s)) by (unfold s2 at 1; now rewrite rel_step_vec).
  split; [split; reflexivity|]. split; [exact Fp2|]. rewrite Ep2, Ev, Sx. split; [exact Bp|]. now split.
Qed.
End Frozen.

Lemma still_big : forall a b, p2 512 <= Rabs a -> Rabs b <= p2 430 -> (1 - / 1000000) * Rabs a <= Rabs (rnd64 (a + b)).
Proof.
  intros a b Ha Hb. pose proof (err64 (a + b)) as E. pose proof (Rabs_triang_inv (a + b) ((a + b) - rnd64 (a + b))) as T. replace (a + b - (a + b - rnd64 (a + b))) with (rnd64 (a + b)) in T by ring.
  rewrite (Rabs_minus_sym (a + b)) in T. pose proof (Rabs_triang_inv a (- b)) as T2. rewrite Rabs_Ropp in T2. replace (a - - b) with (a + b) in T2 by ring. pose proof (Rabs_triang a b) as T3.
  assert (B : Rabs b <= / 1000000000 * Rabs a).
  { eapply Rle_trans; [exact Hb|]. apply Rle_trans with (p2 (-82) * p2 512); [rewrite <- p2_plus; apply p2_le; lia|]. apply Rmult_le_compat; [left; apply p2_pos|left; apply p2_pos| |exact Ha].
    apply Rle_trans with (p2 (-40)); [apply p2_le; lia|]. unfold p2. change (bpow radix2 (-40)) with (/ 1099511627776). lra. }
  assert (U : p2 (-53) <= / 1000000000) by (unfold p2; change (bpow radix2 (-53)) with (/ 9007199254740992); lra). pose proof (p2_pos (-53)) as U0.
  assert (Tn : p2 (-1075) <= / 1000000000 * Rabs a).
  { apply Rle_trans with (p2 (-82) * p2 512); [rewrite <- p2_plus; apply p2_le; lia|]. apply Rmult_le_compat; [left; apply p2_pos|left; apply p2_pos| |exact Ha].
    apply Rle_trans with (p2 (-40)); [apply p2_le; lia|]. unfold p2. change (bpow radix2 (-40)) with (/ 1099511627776). lra. }
  pose proof (Rabs_pos a). assert (p2 (-53) * Rabs (a + b) <= / 1000000000 * (2 * Rabs a)) by (apply Rmult_le_compat; try lra; apply Rabs_pos). lra.
Qed.
(** The momentum after a huge gradient. *)
Lemma huge_kick : forall c eps p g x, moderate_config c -> finite eps -> 0 <= value eps <= 1 -> finite p -> Rabs (value p) <= p2 426 -> small x 10 -> finite g ->
  p2 513 <= Rabs (value eps * value g) <= p2 900 -> finite (nadd p (kick c eps p (nopp g) x)) /\ p2 512 <= Rabs (value (nadd p (kick c eps p (nopp g) x))) <= p2 1000.
Proof.
  intros c eps p g x HM Fe He Fp Bp Hx Fg Hg. assert (Bp' : Rabs (value p) <= p2 460) by (pose proof (p2_le 426 460 ltac:(lia)); lra).
  pose proof (velocity_small c HM eps Fe He p Fp Bp') as SV. pose proof (noise_small c HM eps Fe He) as SN. pose proof (D_small c HM) as SD.
  pose proof (small_mul _ _ 6 10 16 SN Hx ltac:(lia) ltac:(lia)) as SX. pose proof (small_mul _ _ 10 21 31 SD SV ltac:(lia) ltac:(lia)) as SW.
  unfold kick. destruct (small_rep _ _ SX) as (n & Rn & Bn). destruct (small_rep _ _ SW) as (w & Rw & Bw). set (e := value eps) in *. set (y := value g) in *.
  assert (R1 : rep (nmul eps (nopp g)) (rnd64 (e * - y))).
  { apply rep_mul; [now split|apply rep_opp; now split|]. apply (below 900); [lia|]. rewrite Ropp_mult_distr_r_reverse, Rabs_Ropp. apply Hg. }
  assert (U1 : Rabs (rnd64 (e * - y)) <= p2 900) by (apply rnd64_bound; [lia|]; rewrite Ropp_mult_distr_r_reverse, Rabs_Ropp; apply Hg).
  assert (L1 : p2 513 <= Rabs (rnd64 (e * - y))).
  { unfold rnd64. apply abs_round_ge_generic; [auto with typeclass_instances|apply valid_rnd_N|apply format64_bpow; lia|]. rewrite Ropp_mult_distr_r_reverse, Rabs_Ropp. apply Hg. }
  set (k1 := rnd64 (e * - y)) in *. pose proof (p2_twice 512 513 ltac:(lia)) as T5. pose proof (p2_pos 512) as P5.
  pose proof (p2_le 16 430 ltac:(lia)) as Q1. pose proof (p2_le 31 430 ltac:(lia)) as Q2. pose proof (p2_le 426 430 ltac:(lia)) as Q3. pose proof (p2_le 430 900 ltac:(lia)) as Q4.
  pose proof (p2_twice 900 901 ltac:(lia)) as W1. pose proof (p2_twice 901 902 ltac:(lia)) as W2. pose proof (p2_twice 902 903 ltac:(lia)) as W3. pose proof (p2_pos 900) as P9.
  assert (A1 : Rabs (k1 + n) <= p2 901) by (eapply Rle_trans; [apply Rabs_triang|]; lra).
  assert (R2 : rep (nadd (nmul eps (nopp g)) (nmul (rel_noise_scale c eps) x)) (rnd64 (k1 + n))) by (apply rep_add; auto; now apply (below 901)).
  pose proof (still_big k1 n ltac:(lra) ltac:(lra)) as L2. pose proof (rnd64_bound 901 _ ltac:(lia) A1) as U2. fold (p2 901) in U2. set (k2 := rnd64 (k1 + n)) in *.
  assert (A2 : Rabs (k2 - w) <= p2 902) by (eapply Rle_trans; [apply Rabs_triang|]; rewrite Rabs_Ropp; lra).
  assert (R3 : rep (nsub (nadd (nmul eps (nopp g)) (nmul (rel_noise_scale c eps) x)) (nmul (r_D c) (rel_velocity c eps p))) (rnd64 (k2 - w))) by (apply rep_sub; auto; now apply (below 902)).
  pose proof (still_big k2 (- w) ltac:(lra) ltac:(rewrite Rabs_Ropp; lra)) as L3. change (k2 + - w) with (k2 - w) in L3. pose proof (rnd64_bound 902 _ ltac:(lia) A2) as U3. fold (p2 902) in U3. set (k3 := rnd64 (k2 - w)) in *.
  assert (A3 : Rabs (value p + k3) <= p2 903) by (eapply Rle_trans; [apply Rabs_triang|]; lra).
  assert (R4 : rep (nadd p (nsub (nadd (nmul eps (nopp g)) (nmul (rel_noise_scale c eps) x)) (nmul (r_D c) (rel_velocity c eps p)))) (rnd64 (value p + k3))) by (apply rep_add; [now split|exact R3|]; now apply (below 903)).
  pose proof (still_big k3 (value p) ltac:(lra) ltac:(lra)) as L4. rewrite Rplus_comm in L4. pose proof (rnd64_bound 903 _ ltac:(lia) A3) as U4. fold (p2 903) in U4. pose proof (p2_le 903 1000 ltac:(lia)).
  split; [exact (proj1 R4)|]. rewrite (proj2 R4). lra.
Qed.

(** One gradient entry with 2^513 <= eps |g| <= 2^900 stops its parameter for good: the square of the momentum
    overflows, the velocity becomes 0, and with it the friction. *)
Theorem C106_large_gradients_freeze :
  forall stream reserve c eps0 params momenta ops cg B bg sc k us s' b0 c0 pre ca mid cc post f o cst gs y smp cost j v,
  moderate_config c -> Forall (bounded_tensor 500) params -> Forall (bounded64 420) momenta ->
  (forall key i, bounded64 10 (stream key i)) -> Forall moderate_feed us ->
  let K := rel_kernel c in let E := sampler_env stream reserve K cg B bg sc in
  drive E (next_of E k) us (initial_state E b0 c0 (rel_session c eps0 params momenta ops)) = (pre ++ ca :: mid ++ cc :: post, s') -> (Z.of_nat (length us) < 2 ^ 21)%Z ->
  (forall c f r, In c (pre ++ mid ++ [cc]) -> In (f, r) (runs (cr_events E c)) -> calm K cg (s_sess E (cr_pre E c)) f /\ 0 <= value (fed_eps K f (s_sess E (cr_pre E c)))) ->
  runs (cr_events E ca) = [(f, Ok o)] -> cg (values K (s_sess E (cr_pre E ca))) (fun n => lookup f (KUser n)) = Ok (cst, gs) ->
  nth_error gs j = Some [y] -> finite y -> between64 0 1 (fed_eps K f (s_sess E (cr_pre E ca))) ->
  bpow radix2 513 <= Rabs (value (fed_eps K f (s_sess E (cr_pre E ca))) * value y) <= bpow radix2 900 ->
  nth_error (values K (s_sess E (cr_pre E ca))) j = Some v -> cr_res E cc = Ok (smp, cost) ->
  exists v', nth_error (values_of smp) j = Some v' /\ map value (data v') = map value (data v).
Proof.
  intros stream reserve cf eps0 params momenta ops cg B bg sc k us s' b0 c0 pre ca mid cc post f o cst gs y smp cost j v HM HP HQ Hxi HU K E HD HL HC Ra Hcg Hgj Fy [Fe He] Hy Hv Hr.
  assert (HUs : map (cr_user E) (pre ++ ca :: mid ++ cc :: post) = us) by exact (drive_users _ E _ _ _ _ _ HD).
  assert (HC' : Forall (calm_call stream reserve K cg B bg sc forward) pre).
  { apply Forall_forall. intros c' Hc'. split; [|intros f' r Hf; apply (HC c' f' r); [apply in_or_app; now left|exact Hf]]. rewrite Forall_forall in HU. apply HU. rewrite <- HUs. apply in_map, in_or_app. now left. }
  assert (HLp : (Z.of_nat (S (length pre)) < 2 ^ 21)%Z) by (rewrite <- HUs, map_length, app_length in HL; cbn [length] in HL; lia).
  pose proof (few_calls _ HLp) as HF.
  destruct (drive_split E _ _ _ _ _ _ _ HD) as (_ & us1 & D1 & _).
  destruct (hist_good_all stream reserve K cg B bg sc forward rel_inv (fun _ => rel_good) (rel_steady _ HM) Hxi _ (rel_start cf eps0 params momenta ops HP HQ) k us1 pre (cr_pre E ca) b0 c0 D1) as [burn HI].
  destruct (HI HC' (fewd_le _ _ (Nat.le_succ_diag_r _) HF)) as ((t & Ht & HGt) & _).
  assert (HFt : fewd t) by (apply (fewd_le _ (S (length pre))); [exact (le_S _ _ Ht)|exact HF]).
  assert (Ia : In ca (pre ++ ca :: mid ++ cc :: post)) by (apply in_or_app; right; now left).
  assert (Ic : In cc (pre ++ ca :: mid ++ cc :: post)) by (apply in_or_app; right; right; apply in_or_app; right; now left).
  pose proof (kernel_call_run stream reserve K cg B bg sc k us _ s' b0 c0 _ HD ca f o Ia Ra) as Ea. fold E in Ea.
  assert (SA : stuck cf j (map value (data v)) (s_sess E (cr_post E ca))).
  { unfold session_run_model in Ea. rewrite Hcg in Ea. destruct (run_params _ _ _ _ _ _ _ _) as [[ms ps]|e] eqn:Er; [|discriminate Ea]. apply pair_equal_spec in Ea as [_ Ez]. rewrite <- Ez.
    unfold values in Hv. rewrite nth_error_map in Hv. destruct (nth_error (z_params K (s_sess E (cr_pre E ca))) j) as [[s op]|] eqn:Hj; [|discriminate Hv]. cbn [option_map fst] in Hv. apply some_inj in Hv. subst v.
    destruct (run_params_nth _ _ _ _ _ _ _ _ _ _ Er) as (_ & _ & HN). destruct (HN j s op Hj) as (g & Hg & Hs & Hq & _). cbn [Nat.add] in *. rewrite Hgj in Hg. apply some_inj in Hg. subst g. cbn zeta in Hs, Hq.
    destruct (HGt j s op Hj) as [[Hi1 Hi2] [GM GV]]. set (inp := StepInput _ _ _ _) in *. destruct Hs as (L1 & L2 & _). cbn [i_grad inp length] in L1.
    assert (HX : Forall (bounded64 10) (i_xi inp)).
    { unfold inp, draw. cbn [fst i_xi]. apply Forall_forall. intros z Hz. apply in_map_iff in Hz as (n & <- & _). apply Hxi. }
    destruct (i_xi inp) as [|x [|]] eqn:Exi; [cbn [length] in L2; rewrite <- L1 in L2; discriminate L2| |cbn [length] in L2; rewrite <- L1 in L2; discriminate L2].
    inversion HX as [|? ? Hx _]; subst. destruct (rmom_small _ _ HFt GM) as [Fp Bp].
    destruct (huge_kick cf (i_eps inp) (r_mom s) y x HM Fe He Fp Bp (proj2 (small_bounded _ _) Hx) Fy Hy) as [Fk Bk].
    set (s2 := k_step K (i_eps inp) (i_grad inp) [x] (i_fed inp) s) in *.
    assert (Em : r_mom s2 = nadd (r_mom s) (kick cf (i_eps inp) (r_mom s) (nopp y) x)) by reflexivity.
    assert (Ev : r_vec s2 = map (fun x => nadd x (rel_velocity cf (i_eps inp) (r_mom s2))) (r_vec s)) by reflexivity.
    rewrite <- Em in Fk, Bk. pose proof (velocity_frozen cf _ _ HM Fe He Fk Bk) as V2.
    assert (Hb : Forall (bounded64 503) (r_vec s)) by (eapply Forall_impl; [|exact GV]; cbn beta; intros z Hz; apply small_bounded; now apply (vec_small t)).
    destruct (still_vec _ _ V2 Hb) as [Sb Sx]. exists s2. eexists. split; [exact Hq|]. split; [split; reflexivity|]. split; [exact Fk|]. split; [exact Bk|].
    split; [|exact Sb]. etransitivity; [exact Sx|]. change (k_value K s) with (r_val s). now rewrite Hi2. }
  assert (HD' : drive E (next_of E k) us (initial_state E b0 c0 (rel_session cf eps0 params momenta ops)) = ((pre ++ ca :: mid) ++ cc :: post, s')) by (rewrite <- app_assoc; exact HD).
  destruct (drive_split E _ _ _ _ _ _ _ HD') as (_ & _ & _ & us2 & D2). rewrite <- app_assoc in D2.
  assert (SC : stuck cf j (map value (data v)) (s_sess E (cr_post E cc))).
  { apply (holds_while stream reserve K cg B bg sc (stuck cf j (map value (data v))) (fun z f => calm K cg z f /\ 0 <= value (fed_eps K f z)) k b0 c0 (rel_session cf eps0 params momenta ops) pre ca) with (mid := mid ++ [cc]) (us := us2) (s' := cr_post E cc).
    - intros f' z r z' Hz Cz Er. exact (stuck_run stream reserve cf cg HM Hxi j _ f' z r z' Hz Cz Er).
    - exact SA.
    - exact D2.
    - intros c' f' r Hc' Hf'. apply (HC c' f' r); [apply in_or_app; now right|exact Hf']. }
  destruct (success_run E k us _ s' b0 c0 _ cc smp cost HD Ic Hr) as (f' & o' & Hf & Ho).
  pose proof (kernel_call_run stream reserve K cg B bg sc k us _ s' b0 c0 _ HD cc f' o' Ic Hf) as Ec. fold E in Ec.
  destruct SC as (s & op & Hj & [_ Hi] & _ & _ & Hxs & _). exists (r_val s). split; [|now rewrite Hi].
  rewrite Ho. unfold session_run_model in Ec. destruct (cg (values K (s_sess E (cr_pre E cc))) (fun n => lookup f' (KUser n))) as [[cst' gs']|e]; [|discriminate Ec]. destruct (run_params _ _ _ _ _ _ _ _) as [[ms ps]|e]; [|discriminate Ec].
  apply pair_equal_spec in Ec as [Eo Ez]. assert (Eo' : o_theta o' = values K (s_sess E (cr_post E cc))) by (rewrite <- Ez; injection Eo as <-; reflexivity).
  rewrite Eo'. unfold values. rewrite nth_error_map. unfold K in *. rewrite Hj. reflexivity.
Qed.

(** *** Examples *)
(** The cost x^2/2, whose gradient is 2^600 at calls at which placeholder 0 is fed. *)
Definition jumpy : @objective f64 := fun vs u =>
  match vs with
  | [v] => match data v with
           | [x] => Ok (x, [[match u 0%nat with Some _ => f_of_Z (2 ^ 600) | None => x end]])
           | _ => Raise ValueError
           end
  | _ => Raise ValueError
  end.
Definition unit_light : rconfig f64 := RConfig n1 n1 n1 n0.
Definition jumpy_env := sampler_env (fun _ _ => n1) (fun n => n) (rel_kernel unit_light) jumpy unit None
  (constant_schedule (tensor f64) (sample (tensor f64) * tensor f64)).
Definition jumpy_start : state jumpy_env := initial_state jumpy_env tt (Tensor [] [nfrac 1 2])
  (rel_session unit_light n0 [Tensor [1%nat] [f_of_Z 3]] [n1] (noise_ops (Some 3%Z) (Some 4%Z) [7%nat] (fun _ => (0, 0)%Z) 1)).
Definition jumpy_feeds : list (option (feed (tensor f64))) := [None; Some [(KUser 0, Tensor [] [n1])]; None; None; None].
Definition jumpy_run := fst (drive jumpy_env (next_of jumpy_env Plain) jumpy_feeds jumpy_start).
Definition single (r : res (sample (tensor f64) * tensor f64)) : list f64 := match r with Ok (s, _) => concat (map (@data f64) (values_of s)) | Raise _ => [] end.

Lemma unit_light_moderate : moderate_config unit_light.
Proof.
  destruct rep_1 as [F1 V1]. destruct rep_0 as [F0 V0]. unfold moderate_config, unit_light. cbn [r_mass r_c r_D r_bhat].
  assert (B : bpow radix2 (-20) <= 1 <= bpow radix2 20) by (change 1 with (bpow radix2 0); split; apply bpow_le; lia).
  assert (B' : 1 <= bpow radix2 10) by (change 1 with (bpow radix2 0); apply bpow_le; lia).
  repeat split; try exact F1; try exact F0; try rewrite V1; try rewrite V0; lra.
Qed.
(** Five calls, with a gradient of 2^600 at the second one: calls 1, 3, 4, 5 are calm, and the samples of calls 1
    to 5 are all the same number (about 3.07), although the gradient at calls 3 to 5 pulls it to 0. *)
Example C106_example :
  moderate_config unit_light /\ bounded_tensor 500 (Tensor [1%nat] [f_of_Z 3]) /\ bounded64 420 (@n1 f64 _) /\ Forall moderate_feed jumpy_feeds /\
  map (succeeded jumpy_env) jumpy_run = repeat true 5 /\
  (forall c f r, In c (firstn 1 jumpy_run ++ skipn 2 jumpy_run) -> In (f, r) (runs (cr_events _ c)) -> calm _ jumpy (s_sess _ (cr_pre _ c)) f) /\
  exists x, map (fun c => map (@BinarySingleNaN.B2SF 53 1024) (single (cr_res jumpy_env c))) jumpy_run = repeat [x] 5.
Proof.
  split; [apply unit_light_moderate|]. split; [constructor; [|constructor]; apply ok64_bounded; [lia|vm_compute; reflexivity]|]. split; [apply ok64_bounded; [lia|vm_compute; reflexivity]|].
  split; [repeat constructor; intros f i m Hf Hl; try discriminate Hf; apply some_inj in Hf; subst f; discriminate Hl|].
  split; [vm_compute; reflexivity|]. split; [|eexists; vm_compute; reflexivity].
  refine (calm_runs_ok (fun _ _ => n1) (rel_kernel unit_light) jumpy _ _). vm_compute. reflexivity.
Qed.
