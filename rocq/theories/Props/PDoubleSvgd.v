(** C108: Stein variational gradient descent in double precision. *)
From Coq Require Import List Arith Lia ZArith Bool Reals Lra.
From Flocq Require Import Core.Core.
From Flocq Require IEEE754.BinarySingleNaN.
From Verif.Proofs Require Import FloatCell SafeFloat FloatAdapt.
From Verif.Base Require Import Py Num Float64 Vec Lists.
From Verif.Model Require Import TensorUtils SVGD Stepsize BaseClasses SvgdSession.
From Verif.Spec Require Import Sampler Trajectory Doubles DoubleParticles.
From Verif.Proofs Require Import Sampler SamplerHistory DoubleCell DoubleRun DoubleStein.
From Verif.Props Require Import PSampler PSvgdChain PSpoilt PRange.
Import ListNotations.
Local Open Scope R_scope.

(** *** Histories of any sampler *)
Section Count.
Context {V : Type}.
Variable E : env V.
Lemma one_run : forall base fmt r ev, step_outcome E base fmt r ev -> runs ev = [] \/ exists f ro, runs ev = [(f, ro)].
Proof.
  intros base fmt r ev HO. assert (P : forall evb b rest, batch_events E evb b -> runs (evb ++ rest) = runs rest).
  { intros evb b rest Hb. unfold runs. rewrite flat_map_app. unfold batch_events in Hb. destruct (bg_next E); [|destruct Hb as [Hb _]]; subst evb; reflexivity. }
  inversion HO as [e Hne Hr He|evb bb e Hbe Hr He|evb bb eps ff e Hbe Hfe Hr He|evb bb eps ff o e Hbe Hfe Hr He|evb bb eps ff o Hbe Hfe Hr He]; subst;
    [left; reflexivity|rewrite (P _ _ _ Hbe); left; reflexivity|rewrite (P _ _ _ Hbe); right; cbn; eauto..].
Qed.
(** An invariant that may depend on the number of calls since [pre]. *)
Lemma counted : forall (Inv : nat -> sess_state E -> Prop) (Cond : call_record E -> Prop) (Fed : feed V -> Prop) k b0 c0 z0 pre,
  (forall t z, Inv t z -> Inv (S t) z) ->
  (forall t f z r z', Inv t z -> Fed f -> run E f z = (r, z') -> Inv (S t) z') ->
  (forall c f r, Cond c -> In (f, r) (runs (cr_events E c)) -> Fed f) ->
  (forall us s, drive E (next_of E k) us (initial_state E b0 c0 z0) = (pre, s) -> Inv 0%nat (s_sess E s)) ->
  forall mid us s', drive E (next_of E k) us (initial_state E b0 c0 z0) = (pre ++ mid, s') -> Forall Cond mid ->
  Inv (length mid) (s_sess E s').
Proof.
  intros Inv Cond Fed k b0 c0 z0 pre HS HR HF H0 mid. induction mid as [|c mid IH] using rev_ind; intros us s' HD HC.
  - rewrite app_nil_r in HD. eapply H0; exact HD.
  - rewrite app_assoc in HD. rewrite (drive_last E _ _ _ _ _ _ HD). destruct (drive_split E _ _ _ _ _ _ _ HD) as (_ & us1 & D1 & _).
    apply Forall_app in HC as [HC1 HC2]. inversion HC2 as [|? ? HC3 _]; subst. specialize (IH _ _ D1 HC1). rewrite app_length, Nat.add_1_r.
    destruct (outcome_of _ E _ _ _ _ _ _ _ _ _ HD) as (base & fmt & [SO _ _ _ SS] & _).
    destruct (one_run _ _ _ _ SO) as [Er|(f & ro & Er)]; rewrite Er in SS; cbn [map fst snd run_all] in SS.
    + apply pair_equal_spec in SS as [_ SS]. rewrite <- SS. now apply HS.
    + destruct (run E f (s_sess E (cr_pre E c))) as [r' z'] eqn:Ez. apply pair_equal_spec in SS as [_ SS]. rewrite <- SS. eapply HR; [exact IH| |exact Ez].
      apply (HF c f ro); [exact HC3|rewrite Er; now left].
Qed.
End Count.

(** *** Entries *)
Lemma entry_mmap2 : forall (f : f64 -> f64 -> f64) A B a k, entry (mmap2 f A B) a k = match entry A a k, entry B a k with Some x, Some y => Some (f x y) | _, _ => None end.
Proof.
  intros f A B a k. unfold entry, mmap2. rewrite nth_error_vmap2. destruct (nth_error A a) as [r|]; [|reflexivity]. destruct (nth_error B a) as [q|]; [|now destruct (nth_error r k)].
  apply nth_error_vmap2.
Qed.
Lemma entry_grid : forall n d M a k, grid n d M -> (a < n)%nat -> (k < d)%nat -> exists x, entry M a k = Some x.
Proof.
  intros n d M a k HM Ha Hk. destruct (grid_row _ _ _ _ HM Ha) as (r & Hr & Lr). unfold entry. rewrite Hr. destruct (nth_error r k) eqn:En; [eauto|]. apply nth_error_None in En. lia.
Qed.
Lemma grid_entry : forall n d M a k (x : f64), grid n d M -> entry M a k = Some x -> (a < n)%nat /\ (k < d)%nat.
Proof.
  intros n d M a k x [L F] H. unfold entry in H. destruct (nth_error M a) as [r|] eqn:Er; [|discriminate H]. split; [rewrite <- L; apply nth_error_Some; congruence|].
  rewrite Forall_forall in F. rewrite <- (F r) by (eapply nth_error_In; eauto). apply nth_error_Some. congruence.
Qed.

Section Run.
Context {NT : NumT f64}.
Variable c : sconfig f64.
Variable d : nat.
Variable target : @particle_cost f64.
Hypothesis target_sized : forall x user v g, length x = d -> target x user = Ok (v, g) -> length g = d.
Variable n : nat.
Hypothesis Hn : (1 <= n)%nat.
Hypothesis Hc : moderate_stein c.
Let alpha := s_alpha c.
Let fudge := s_fudge c.

Lemma step_at : forall eps X L H X' H', grid n d X -> grid n d L -> grid n d H -> svgd_step c eps n d X L H = Ok (X', H') ->
  exists g, grid n d g /\ svgd_grad n d X L = Ok g /\ grid n d X' /\ grid n d H' /\
  forall a k, (a < n)%nat -> (k < d)%nat -> exists x y h, entry X a k = Some x /\ entry g a k = Some y /\ entry H a k = Some h /\
    entry H' a k = Some (hist_next alpha y h) /\ entry X' a k = Some (entry_next alpha fudge eps x y h).
Proof.
  intros eps X L H X' H' HX HL HH HS. destruct (stein_step _ _ _ _ _ _ _ _ _ HX HL HH Hn HS) as (GX' & GH' & _).
  unfold svgd_step in HS. destruct (svgd_grad n d X L) as [g|e] eqn:Eg; [|discriminate HS]. cbn [bind] in HS. cbv zeta in HS.
  assert (Gg : grid n d g).
  { unfold svgd_grad in Eg. destruct (svgd_kernel n d X) as [[[h K] G]|e] eqn:Ek; [|discriminate Eg]. cbn [bind] in Eg. apply ok_inj in Eg. destruct (kernel_grids _ _ _ _ _ _ HX Hn Ek) as (GK & GG & _).
    rewrite <- Eg. apply grid_mmap, grid_mmap2; [apply grid_matmul; exact (proj1 GK)|exact GG]. }
  apply ok_inj in HS. apply pair_equal_spec in HS as [HS1 HS2]. exists g. split; [exact Gg|]. split; [reflexivity|]. split; [exact GX'|]. split; [exact GH'|].
  intros a k Ha Hk. destruct (entry_grid _ _ _ _ _ HX Ha Hk) as [x Ex], (entry_grid _ _ _ _ _ Gg Ha Hk) as [y Ey], (entry_grid _ _ _ _ _ HH Ha Hk) as [h Eh].
  exists x, y, h. split; [exact Ex|]. split; [exact Ey|]. split; [exact Eh|]. rewrite <- HS1, <- HS2. rewrite !entry_mmap2. rewrite Ex, Ey, Eh. split; reflexivity.
Qed.

(** What one run of the graph does. *)
Definition uppers (M : list (list f64)) : Prop := forall a k h, entry M a k = Some h -> upper h.
Lemma run_at : forall f z r z', stein_ok d n z -> uppers (v_hist z) -> svgd_session_run c d target f z = (r, z') ->
  stein_ok d n z' /\ uppers (v_hist z') /\
  match r with
  | Raise _ => z' = z
  | Ok o => o_theta o = map (fun x => {| shape := [d]; data := x |}) (v_particles z') /\
    exists L g, each (fun x => target x (fun m => lookup f (KUser m))) (v_particles z) = Ok L /\ svgd_grad n d (v_particles z) (map snd L) = Ok g /\ grid n d g /\
    forall a k, (a < n)%nat -> (k < d)%nat -> exists x y h, entry (v_particles z) a k = Some x /\ entry g a k = Some y /\ entry (v_hist z) a k = Some h /\
      entry (v_hist z') a k = Some (hist_next alpha y h) /\
      entry (v_particles z') a k = Some (entry_next alpha fudge (match lookup f KEps with Some t => hd n0 (data t) | None => v_eps z end) x y h)
  end.
Proof.
  intros f z r z' HZ HU HR. destruct HZ as [GX GH].
  unfold svgd_session_run in HR. pose proof (each_spec _ _ (fun x => target x (fun m => lookup f (KUser m))) (v_particles z)) as ES.
  destruct (each _ (v_particles z)) as [cgs|e]; [|apply pair_equal_spec in HR as [<- <-]; split; [now split|split; [exact HU|reflexivity]]].
  destruct ES as [EL EN]. assert (GL : grid n d (map snd cgs)).
  { apply grid_intro; [rewrite map_length; destruct GX; congruence|]. intros a r' Hr. rewrite nth_error_map in Hr. destruct (nth_error cgs a) as [[v g]|] eqn:Eg; [|discriminate Hr].
    cbn [option_map snd] in Hr. apply some_inj in Hr. subst r'. assert (Ha : (a < n)%nat) by (rewrite <- (proj1 GX), <- EL; apply nth_error_Some; congruence).
    destruct (grid_row _ _ _ _ GX Ha) as (x & Hx & Lx). destruct (EN a x Hx) as (b & Hb & Ht). rewrite Eg in Hb. apply some_inj in Hb. subst b. eapply target_sized; eauto. }
  rewrite (proj1 GX) in HR. destruct (svgd_step _ _ _ _ _ _ _) as [[X' H']|e] eqn:Es; [|apply pair_equal_spec in HR as [<- <-]; split; [now split|split; [exact HU|reflexivity]]].
  destruct (step_at _ _ _ _ _ _ GX GL GH Es) as (g & Gg & Eg & GX' & GH' & HE). apply pair_equal_spec in HR as [<- <-]. cbn [v_particles v_hist o_theta].
  split; [now split|]. split.
  - intros a k h Hh. destruct (grid_entry _ _ _ _ _ _ GH' Hh) as [Ha Hk]. destruct (HE a k Ha Hk) as (x & y & h0 & _ & _ & E0 & E1 & _). rewrite Hh in E1. apply some_inj in E1. subst h.
    destruct Hc as [H1 _]. apply hist_upper; [exact H1|]. eapply HU; exact E0.
  - split; [reflexivity|]. exists cgs, g. auto.
Qed.

Variable B : Type.
Variable bg : option (B -> res (list (nat * tensor f64)) * B).
Variable sc : schedule (tensor f64) (sample (tensor f64) * tensor f64).
Let E := svgd_env c d target B bg sc.
Variable X0 : list (list f64).
Variable eps0 : f64.
Hypothesis HX0 : grid n d X0.
Let z0 := svgd_session d eps0 X0.
Variable b0 : B.
Variable c0 : sch_state sc.

Definition sound (z : vsess f64) : Prop := stein_ok d n z /\ uppers (v_hist z).
Lemma sound_start : sound z0.
Proof.
  split; [apply stein_start; exact HX0|]. unfold z0, svgd_session, svgd_history. cbn [v_hist]. intros a k h Hh. unfold entry in Hh. destruct (nth_error _ a) as [r|] eqn:Er; [|discriminate Hh].
  apply nth_error_In, repeat_spec in Er. subst r. apply nth_error_In, repeat_spec in Hh. subst h. exact I.
Qed.
Lemma sound_run : forall f z r z', sound z -> run E f z = (r, z') -> sound z'.
Proof. intros f z r z' [H1 H2] Er. destruct (run_at f z r z' H1 H2 Er) as (H3 & H4 & _). now split. Qed.
Lemma sound_reached : forall us rs s, drive E (mcmc_next E) us (initial_state E b0 c0 z0) = (rs, s) -> sound (s_sess E s).
Proof.
  intros us rs s HD. apply (counted E (fun _ z => sound z) (fun _ => True) (fun _ => True) Plain b0 c0 z0 [] (fun _ z H => H)) with (mid := rs) (us := us).
  - intros _ f z r z' Hz _ Er. eapply sound_run; eauto.
  - auto.
  - intros us' s'' HD'. destruct us' as [|u us']; [cbn in HD'; apply pair_equal_spec in HD' as [_ <-]; exact sound_start|]. cbn in HD'. destruct (call E _ u _) as [[r1 s1] ev]. destruct (drive E _ us' s1). discriminate HD'.
  - exact HD.
  - apply Forall_forall. auto.
Qed.
(** A successful call: one run, from a sound session. *)
Lemma call_at : forall us rs s' cl smp cost, drive E (mcmc_next E) us (initial_state E b0 c0 z0) = (rs, s') -> In cl rs -> cr_res E cl = Ok (smp, cost) ->
  exists f o, runs (cr_events E cl) = [(f, Ok o)] /\ svgd_session_run c d target f (s_sess E (cr_pre E cl)) = (Ok o, s_sess E (cr_post E cl)) /\
    sound (s_sess E (cr_pre E cl)) /\ sound (s_sess E (cr_post E cl)) /\ rows_shown smp = v_particles (s_sess E (cr_post E cl)).
Proof.
  intros us rs s' cl smp cost HD Hin Hr. destruct (stein_call c d target target_sized B bg sc n Hn X0 eps0 HX0 us rs s' b0 c0 cl smp cost HD Hin Hr) as (f & o & Hf & Er & _ & Hv).
  exists f, o. split; [exact Hf|]. split; [exact Er|]. apply in_split in Hin as (pre & post & ->). destruct (drive_split E _ _ _ _ _ _ _ HD) as (_ & us1 & D1 & _).
  pose proof (sound_reached _ _ _ D1) as S1. split; [exact S1|]. pose proof (sound_run f _ _ _ S1 Er) as S2. split; [exact S2|].
  destruct S1 as [H1 H2]. destruct (run_at f _ _ _ H1 H2 Er) as (_ & _ & T & _). unfold rows_shown. rewrite Hv, T, map_map. apply map_id.
Qed.
End Run.

(** *** C108 *)
(** No sample is further than [reach] from the one before it, in any coordinate, whatever the cost, the gradients and
    the functions exp and ln. *)
Theorem C108_steps_are_bounded :
  forall (NT : NumT f64) c d target B bg sc n eps0 X0 us s' b0 c0 pre c1 c2 post smp1 cost1 smp2 cost2 e a k x x',
  (forall x user v g, length x = d -> target x user = Ok (v, g) -> length g = d) -> (1 <= n)%nat -> grid n d X0 -> moderate_stein c ->
  let E := svgd_env c d target B bg sc in
  drive E (mcmc_next E) us (initial_state E b0 c0 (svgd_session d eps0 X0)) = (pre ++ c1 :: c2 :: post, s') ->
  cr_res E c1 = Ok (smp1, cost1) -> cr_res E c2 = Ok (smp2, cost2) ->
  0 <= e <= bpow radix2 400 -> stepsize_in E (between64 0 e) c2 ->
  entry (rows_shown smp1) a k = Some x -> entry (rows_shown smp2) a k = Some x' -> finite x' ->
  finite x /\ Rabs (value x' - value x) <= reach c e (value x).
Proof.
  intros NT c d target B bg sc n eps0 X0 us s' b0 c0 pre c1 c2 post smp1 cost1 smp2 cost2 e a k x x' Ht Hn HX Hc E HD R1 R2 He HE E1 E2 Fx'.
  assert (I1 : In c1 (pre ++ c1 :: c2 :: post)) by (apply in_or_app; right; now left).
  assert (I2 : In c2 (pre ++ c1 :: c2 :: post)) by (apply in_or_app; right; right; now left).
  destruct (call_at c d target Ht n Hn Hc B bg sc X0 eps0 HX b0 c0 us _ s' c1 smp1 cost1 HD I1 R1) as (f1 & o1 & _ & _ & _ & _ & V1).
  destruct (call_at c d target Ht n Hn Hc B bg sc X0 eps0 HX b0 c0 us _ s' c2 smp2 cost2 HD I2 R2) as (f2 & o2 & Hf & Er & [OK UP] & _ & V2).
  fold E in V1, V2, Hf, Er, OK, UP. rewrite V1 in E1. rewrite V2 in E2.
  assert (Same : cr_pre E c2 = cr_post E c1).
  { assert (HD' : drive E (mcmc_next E) us (initial_state E b0 c0 (svgd_session d eps0 X0)) = ((pre ++ [c1]) ++ c2 :: post, s')) by (rewrite <- app_assoc; exact HD).
    destruct (drive_split E _ _ _ _ _ _ _ HD') as (_ & us1 & D1 & _). exact (drive_last E _ _ _ _ _ _ D1). }
  rewrite <- Same in E1. destruct (run_at c d target Ht n Hn Hc f2 _ _ _ OK UP Er) as (_ & _ & _ & L & g & _ & _ & _ & HA).
  destruct (grid_entry _ _ _ _ _ _ (proj1 OK) E1) as [La Lk]. destruct (HA a k La Lk) as (x1 & y & h & X1 & _ & Hh & _ & X2).
  rewrite E1 in X1. apply some_inj in X1. subst x1. rewrite E2 in X2. apply some_inj in X2.
  destruct (HE f2 (Ok o2)) as (t & Hl & Fe & Re); [rewrite Hf; now left|]. rewrite Hl in X2. set (ev := hd n0 (data t)) in *.
  destruct Hc as [Ha Hfd]. rewrite X2 in Fx'. split; [exact (proj1 (step_parts _ _ _ _ _ _ Fx'))|].
  rewrite X2. eapply Rle_trans; [apply (entry_moves (s_alpha c) (s_fudge c) ev Ha Hfd)|].
  - split; [exact Fe|]. unfold p2. lra.
  - eapply UP; exact Hh.
  - exact Fx'.
  - unfold reach. apply Rplus_le_compat_r, Rplus_le_compat_r. apply Rmult_le_compat_l; [pose proof (bpow_gt_0 radix2 (-46)); unfold p2; lra|].
    apply Rmult_le_compat_r; [|lra]. destruct Ha as [_ Ra]. left. apply Rinv_0_lt_compat, sqrt_lt_R0. lra.
Qed.

(** Hence the size of a finite coordinate after T calls with stepsizes of at most [e]. *)
Theorem C108_runs_are_bounded :
  forall (NT : NumT f64) c d target B bg sc n eps0 X0 us s' b0 c0 pre cl post smp cost e a k x0 x,
  (forall x user v g, length x = d -> target x user = Ok (v, g) -> length g = d) -> (1 <= n)%nat -> grid n d X0 -> moderate_stein c ->
  let E := svgd_env c d target B bg sc in
  drive E (mcmc_next E) us (initial_state E b0 c0 (svgd_session d eps0 X0)) = (pre ++ cl :: post, s') ->
  cr_res E cl = Ok (smp, cost) -> 0 <= e <= bpow radix2 400 -> Forall (stepsize_in E (between64 0 e)) (pre ++ [cl]) ->
  entry X0 a k = Some x0 -> entry (rows_shown smp) a k = Some x -> finite x ->
  let T := S (length pre) in
  finite x0 /\ Rabs (value x) <= (1 + bpow radix2 (-53)) ^ T * (Rabs (value x0) + INR T * reach c e 0).
Proof.
  intros NT c d target B bg sc n eps0 X0 us s' b0 c0 pre cl post smp cost e a k x0 x Ht Hn HX Hc E HD Hr He HC E0 Ex Fx T.
  assert (Hin : In cl (pre ++ cl :: post)) by (apply in_or_app; right; now left).
  destruct (call_at c d target Ht n Hn Hc B bg sc X0 eps0 HX b0 c0 us _ s' cl smp cost HD Hin Hr) as (f & o & _ & _ & _ & _ & V). fold E in V. rewrite V in Ex.
  destruct (drive_split E _ _ _ _ _ _ _ HD) as (_ & _ & _ & us2 & D2).
  set (st := reach c e 0). set (u := bpow radix2 (-53)). assert (Pu : 0 < u) by apply bpow_gt_0.
  assert (Pst : 0 <= st).
  { unfold st, reach. rewrite Rabs_R0, Rmult_0_r, Rplus_0_r. pose proof (bpow_gt_0 radix2 (-46)). pose proof (bpow_gt_0 radix2 (-1074)). destruct Hc as [[_ Ra] _].
    assert (0 <= e / sqrt (1 - value (s_alpha c))) by (apply Rmult_le_pos; [lra|left; apply Rinv_0_lt_compat, sqrt_lt_R0; lra]).
    assert (0 <= (1 + bpow radix2 (-46)) * (e / sqrt (1 - value (s_alpha c)))) by (apply Rmult_le_pos; lra). lra. }
  set (Bd := fun t : nat => (1 + u) ^ t * (Rabs (value x0) + INR t * st)).
  assert (Pw : forall t, 1 <= (1 + u) ^ t) by (intros; apply pow_R1_Rle; lra).
  assert (NX : forall t, (1 + u) * Bd t + st <= Bd (S t)).
  { intros t. unfold Bd. rewrite S_INR. pose proof (Pw (S t)) as W. cbn [pow] in W |- *. set (w := (1 + u) * (1 + u) ^ t) in *. assert (st <= w * st) by (rewrite <- (Rmult_1_l st) at 1; apply Rmult_le_compat_r; lra).
    replace ((1 + u) * ((1 + u) ^ t * (Rabs (value x0) + INR t * st))) with (w * (Rabs (value x0) + INR t * st)) by (unfold w; ring). nra. }
  assert (BP : forall t, 0 <= Bd t) by (intros t; unfold Bd; pose proof (Pw t); pose proof (Rabs_pos (value x0)); pose proof (pos_INR t); apply Rmult_le_pos; [lra|]; assert (0 <= INR t * st) by (apply Rmult_le_pos; lra); lra).
  assert (INV : sound d n (s_sess E (cr_post E cl)) /\ exists x1, entry (v_particles (s_sess E (cr_post E cl))) a k = Some x1 /\ (finite x1 -> finite x0 /\ Rabs (value x1) <= Bd T)).
  { replace T with (length (pre ++ [cl])) by (unfold T; rewrite app_length; cbn [length]; lia).
    apply (counted E (fun t z => sound d n z /\ exists x1, entry (v_particles z) a k = Some x1 /\ (finite x1 -> finite x0 /\ Rabs (value x1) <= Bd t))
      (stepsize_in E (between64 0 e)) (fun f => exists t, lookup f KEps = Some t /\ between64 0 e (hd n0 (data t))) Plain b0 c0 (svgd_session d eps0 X0) []) with (us := us2).
    - intros t z (S0 & x1 & E1 & HB). split; [exact S0|]. exists x1. split; [exact E1|]. intros F. destruct (HB F) as [F0 B0]. split; [exact F0|]. pose proof (NX t). pose proof (BP t). assert (0 <= u * Bd t) by (apply Rmult_le_pos; lra). lra.
    - intros t f' z r z' ([OK UP] & x1 & E1 & HB) (tt & Hl & Fe & Re) Er. destruct (run_at c d target Ht n Hn Hc f' z r z' OK UP Er) as (OK' & UP' & HA). split; [now split|].
      destruct r as [o'|er].
      2:{ subst z'. exists x1. split; [exact E1|]. intros F. destruct (HB F) as [F0 B0]. split; [exact F0|]. pose proof (NX t). pose proof (BP t). assert (0 <= u * Bd t) by (apply Rmult_le_pos; lra). lra. }
      destruct HA as (_ & L & g & _ & _ & _ & HA). destruct (grid_entry _ _ _ _ _ _ (proj1 OK) E1) as [La Lk]. destruct (HA a k La Lk) as (x2 & y & h & X1 & _ & Hh & _ & X2).
      rewrite E1 in X1. apply some_inj in X1. subst x2. rewrite Hl in X2. eexists. split; [exact X2|]. intros F. destruct Hc as [Ha Hfd].
      destruct (step_parts _ _ _ _ _ _ F) as (F1 & _ & _). destruct (HB F1) as [F0 B0]. split; [exact F0|].
      assert (MV : Rabs (value (entry_next (s_alpha c) (s_fudge c) (hd n0 (data tt)) x1 y h) - value x1) <= st + u * Rabs (value x1)).
      { eapply Rle_trans; [apply (entry_moves _ _ _ Ha Hfd); [split; [exact Fe|unfold p2; lra]|eapply UP; exact Hh|exact F]|].
        unfold st, reach, p2, u. rewrite Rabs_R0, Rmult_0_r, Rplus_0_r. pose proof (bpow_gt_0 radix2 (-46)).
        assert ((1 + bpow radix2 (-46)) * (value (hd n0 (data tt)) / sqrt (1 - value (s_alpha c))) <= (1 + bpow radix2 (-46)) * (e / sqrt (1 - value (s_alpha c)))); [|lra].
        apply Rmult_le_compat_l; [lra|]. apply Rmult_le_compat_r; [|lra]. destruct Ha as [_ Ra]. left. apply Rinv_0_lt_compat, sqrt_lt_R0. lra. }
      set (x' := value (entry_next _ _ _ x1 y h)) in *. pose proof (Rabs_triang (x' - value x1) (value x1)) as TR. replace (x' - value x1 + value x1) with x' in TR by ring.
      assert (u * Rabs (value x1) <= u * Bd t) by (apply Rmult_le_compat_l; lra). pose proof (NX t). lra.
    - intros c' f' r HS HI. exact (HS f' r HI).
    - intros us' s'' HD'. destruct us' as [|v us']; [|cbn in HD'; destruct (call E _ v _) as [[r1 s1] ev]; destruct (drive E _ us' s1); discriminate HD'].
      cbn in HD'. apply pair_equal_spec in HD' as [_ <-]. split; [apply sound_start; exact HX|]. exists x0. split; [exact E0|]. intros F. split; [exact F|]. unfold Bd. cbn [pow INR]. lra.
    - exact D2.
    - exact HC. }
  destruct INV as (_ & x1 & E1 & HB). rewrite Ex in E1. apply some_inj in E1. subst x1. exact (HB Fx).
Qed.

(** *** Overflow *)
Definition frozen (d n a k : nat) (v : R) (z : vsess f64) : Prop :=
  sound d n z /\ exists x h, entry (v_particles z) a k = Some x /\ entry (v_hist z) a k = Some h /\ (finite x -> value x = v /\ h = inf64).
(** One direction of size 2^512 or more, whose square overflows, makes the coordinate immovable: from then on it is what it was before
    that step, or infinite or NaN. *)
Theorem C108_overflow_freezes :
  forall (NT : NumT f64) c d target B bg sc n eps0 X0 us s' b0 c0 pre c1 mid f o L g a k x y,
  (forall x user v g, length x = d -> target x user = Ok (v, g) -> length g = d) -> (1 <= n)%nat -> grid n d X0 -> moderate_stein c -> 0 < value (s_alpha c) ->
  let E := svgd_env c d target B bg sc in
  drive E (mcmc_next E) us (initial_state E b0 c0 (svgd_session d eps0 X0)) = (pre ++ c1 :: mid, s') ->
  Forall (stepsize_in E (between64 0 (bpow radix2 400))) (c1 :: mid) ->
  runs (cr_events E c1) = [(f, Ok o)] ->
  let X := v_particles (s_sess E (cr_pre E c1)) in
  each (fun x => target x (fun m => lookup f (KUser m))) X = Ok L -> svgd_grad n d X (map snd L) = Ok g ->
  entry X a k = Some x -> entry g a k = Some y -> finite y -> bpow radix2 512 <= Rabs (value y) ->
  forall c2 smp cost x2, In c2 (c1 :: mid) -> cr_res E c2 = Ok (smp, cost) -> entry (rows_shown smp) a k = Some x2 -> finite x2 -> value x2 = value x.
Proof.
  intros NT c d target B bg sc n eps0 X0 us s' b0 c0 pre c1 mid f o L g a k x y Ht Hn HX Hc Pa E HD HC Hf X HL Hg Ex Ey Fy Ly c2 smp cost x2 H2 Hr2 E2 F2.
  pose proof Hc as [Ha Hfd].
  assert (Step : forall f' z r z' v t, frozen d n a k v z -> lookup f' KEps = Some t -> between64 0 (bpow radix2 400) (hd n0 (data t)) -> svgd_session_run c d target f' z = (r, z') -> frozen d n a k v z').
  { intros f' z r z' v t ([OK UP] & x1 & h & E1 & Eh & HB) Hl He Er. destruct (run_at c d target Ht n Hn Hc f' z r z' OK UP Er) as (OK' & UP' & HA). split; [now split|].
    destruct r as [o'|er]; [|subst z'; exists x1, h; auto]. destruct HA as (_ & L' & g' & _ & _ & _ & HA). destruct (grid_entry _ _ _ _ _ _ (proj1 OK) E1) as [La Lk].
    destruct (HA a k La Lk) as (x3 & y' & h' & X1 & _ & Hh & H3 & X3). rewrite E1 in X1. apply some_inj in X1. subst x3. rewrite Eh in Hh. apply some_inj in Hh. subst h'. rewrite Hl in X3.
    eexists _, _. split; [exact X3|]. split; [exact H3|]. intros F. destruct (step_parts _ _ _ _ _ _ F) as (F1 & Fy' & _). destruct (HB F1) as [HV ->].
    pose proof (hist_stays (s_alpha c) Ha y' inf64 eq_refl Pa Fy') as HI. split; [|exact HI].
    destruct (frozen_entry (s_alpha c) (s_fudge c) (hd n0 (data t)) Hfd He x1 y' inf64 F1 Fy' HI) as [_ ->]. exact HV. }
  assert (S1 : frozen d n a k (value x) (s_sess E (cr_post E c1))).
  { destruct (drive_split E _ _ _ _ _ _ _ HD) as (_ & us1 & D1 & _). destruct (sound_reached c d target Ht n Hn Hc B bg sc X0 eps0 HX b0 c0 _ _ _ D1) as [OK UP]. fold E in OK, UP.
    destruct (outcome_of _ E Plain _ _ _ _ _ _ _ _ HD) as (base & fmt & [_ _ _ _ SS] & _). rewrite Hf in SS. cbn [map fst snd run_all] in SS.
    destruct (run E f (s_sess E (cr_pre E c1))) as [r z1] eqn:Er. apply pair_equal_spec in SS as [SS1 SS2]. assert (r = Ok o) by congruence. subst r z1.
    destruct (run_at c d target Ht n Hn Hc f _ _ _ OK UP Er) as (OK' & UP' & _ & L' & g' & HL' & Hg' & _ & HA). split; [now split|].
    fold X in HL', Hg', HA. rewrite HL in HL'. apply ok_inj in HL'. subst L'. rewrite Hg in Hg'. apply ok_inj in Hg'. subst g'.
    destruct (grid_entry _ _ _ _ _ _ (proj1 OK) Ex) as [La Lk]. destruct (HA a k La Lk) as (x3 & y' & h' & X1 & Y1 & Hh & H3 & X3). rewrite Ex in X1. apply some_inj in X1. subst x3. rewrite Ey in Y1. apply some_inj in Y1. subst y'.
    inversion HC as [|? ? C1 _]; subst. destruct (C1 f (Ok o)) as (t & Hl & He); [rewrite Hf; now left|]. rewrite Hl in X3. eexists _, _. split; [exact X3|]. split; [exact H3|]. intros F.
    destruct (step_parts _ _ _ _ _ _ F) as (F1 & _ & FQ). assert (HI : hist_next (s_alpha c) y h' = inf64).
    { destruct (upper_cases h' (UP _ _ _ Hh)) as [[Fh Ph]|[-> | ->]]; [now apply hist_overflows|now apply hist_stays|exfalso].
      apply (hist_not_nan _ _ Hfd _ _ FQ). unfold hist_next. replace (nmul (s_alpha c) not_a_number) with not_a_number by (destruct (s_alpha c); reflexivity). destruct (nmul (nsub n1 (s_alpha c)) (npow y 2)); reflexivity. }
    split; [|exact HI]. apply (frozen_entry (s_alpha c) (s_fudge c) (hd n0 (data t)) Hfd He x y h' F1 Fy HI). }
  assert (Ic2 : In c2 (pre ++ c1 :: mid)) by (apply in_or_app; right; exact H2).
  destruct (call_at c d target Ht n Hn Hc B bg sc X0 eps0 HX b0 c0 us _ s' c2 smp cost HD Ic2 Hr2) as (f2 & o2 & Hf2 & Er2 & _ & _ & V2). fold E in Hf2, Er2, V2. rewrite V2 in E2.
  assert (S2 : frozen d n a k (value x) (s_sess E (cr_post E c2))).
  { apply in_split in H2 as (q & p & Eq). destruct q as [|c1' q]; cbn [app] in Eq.
    - inversion Eq; subst. exact S1.
    - inversion Eq; subst c1' mid. assert (HD' : drive E (mcmc_next E) us (initial_state E b0 c0 (svgd_session d eps0 X0)) = ((pre ++ c1 :: q) ++ c2 :: p, s')) by (rewrite <- app_assoc; exact HD).
      destruct (drive_split E _ _ _ _ _ _ _ HD') as (_ & _ & _ & us2 & D2). inversion HC as [|? ? C1 C2]; subst.
      assert (HDq : drive E (mcmc_next E) us2 (initial_state E b0 c0 (svgd_session d eps0 X0)) = ((pre ++ [c1]) ++ (q ++ [c2]), cr_post E c2)) by (rewrite <- !app_assoc in *; exact D2).
      refine (counted E (fun _ z => frozen d n a k (value x) z) (stepsize_in E (between64 0 (bpow radix2 400))) (fun f => exists t, lookup f KEps = Some t /\ between64 0 (bpow radix2 400) (hd n0 (data t))) Plain b0 c0 (svgd_session d eps0 X0) (pre ++ [c1]) (fun _ _ H => H) _ _ _ (q ++ [c2]) us2 _ HDq _).
      + intros _ f' z r z' Hz (t & Hl & He) Er. eapply Step; eauto.
      + intros c' f' r HS HI. exact (HS f' r HI).
      + intros us' s'' HD''. rewrite (drive_last E _ _ _ _ _ _ HD''). exact S1.
      + change (q ++ c2 :: p) with (q ++ [c2] ++ p) in C2. rewrite app_assoc in C2. now apply Forall_app in C2 as [C2 _]. }
  destruct S2 as (_ & x1 & h & E1 & _ & HB). rewrite E2 in E1. apply some_inj in E1. subst x1. exact (proj1 (HB F2)).
Qed.

(** *** Examples *)
(** Stand-ins for exp and ln with the right size: 1 / (1 - x + x^2/2) for exp x at x <= 0, and 11/10 for ln 3. *)
Definition rough_functions : NumT f64 :=
  {| nexp := fun x => ndiv n1 (nadd (nsub n1 x) (nmul (nfrac 1 2) (nmul x x))); nln := fun _ => nfrac 11 10; nsin := fun x => x; ncos := fun _ => n1; npi := n1 |}.
Definition default_stein : sconfig f64 := SConfig (nfrac 9 10) (nfrac 1 1000000).
(** The cost x^2/2, whose gradient is 2^600 at calls at which placeholder 0 is fed. *)
Definition jolted : @particle_cost f64 := fun x u =>
  match x with [a] => Ok (a, [match u 0%nat with Some _ => f_of_Z (2 ^ 600) | None => a end]) | _ => Raise ValueError end.
Definition jolted_env := @svgd_env f64 _ rough_functions default_stein 1 jolted unit None (constant_schedule (tensor f64) (sample (tensor f64) * tensor f64)).
Definition jolted_start : state jolted_env := initial_state jolted_env tt (Tensor [] [nfrac 1 2]) (svgd_session 1 n1 [[n1]; [n2]]).
Definition jolts (l : list bool) : list (option (feed (tensor f64))) := map (fun b : bool => if b then Some [(KUser 0%nat, Tensor [] [n1])] else None) l.
Definition shown_rows (rs : list (call_record jolted_env)) : list (list (list SpecFloat.spec_float)) :=
  map (fun r => match cr_res jolted_env r with Ok (s, _) => map (map BinarySingleNaN.B2SF) (rows_shown s) | Raise _ => [] end) rs.
Lemma lt_true : forall a b : f64, finite a -> finite b -> nltb a b = true -> value a < value b.
Proof. intros a b Fa Fb H. rewrite (rep_ltb _ _ _ _ (conj Fa eq_refl) (conj Fb eq_refl)) in H. unfold Rltb in H. destruct (Rlt_dec _ _) as [L|]; [exact L|discriminate H]. Qed.
Lemma default_moderate : moderate_stein default_stein.
Proof.
  assert (F1 : finite (nfrac 9 10)) by (vm_compute; reflexivity). assert (F2 : finite (nfrac 1 1000000)) by (vm_compute; reflexivity). assert (F3 : finite (@n1 f64 _)) by (vm_compute; reflexivity). assert (F0 : finite (@n0 f64 _)) by (vm_compute; reflexivity).
  destruct rep_1 as [_ V1]. destruct rep_0 as [_ V0].
  assert (L1 : value (nfrac 9 10) < value n1) by (apply lt_true; [exact F1|exact F3|vm_compute; reflexivity]).
  assert (L0 : value n0 < value (nfrac 9 10)) by (apply lt_true; [exact F0|exact F1|vm_compute; reflexivity]).
  split; (split; [assumption|]).
  - cbn [s_alpha default_stein]. lra.
  - cbn [s_fudge default_stein]. assert (M : value (nmul (f_of_Z (2 ^ 20)) (nfrac 1 1000000)) > value n1) by (apply lt_true; [exact F3|vm_compute; reflexivity|vm_compute; reflexivity]).
    rewrite V1 in M. rewrite mul_value in M by (vm_compute; reflexivity). destruct (rep_pow 20 ltac:(lia)) as [_ V20]. rewrite V20 in M.
    destruct (Rle_dec (bpow radix2 (-400)) (value (nfrac 1 1000000))) as [L|L]; [exact L|exfalso]. apply Rnot_le_lt in L.
    assert (rnd64 (bpow radix2 20 * value (nfrac 1 1000000)) <= rnd64 (bpow radix2 20 * bpow radix2 (-400))) by (apply rnd64_mono, Rmult_le_compat_l; [apply bpow_ge_0|lra]).
    rewrite <- bpow_plus in H. rewrite (rnd64_id _ (format64_bpow (20 + -400) ltac:(lia))) in H. pose proof (bpow_le radix2 (20 + -400) 0 ltac:(lia)) as H0. cbn [bpow] in H0. change (bpow radix2 0) with 1 in H0. lra.
Qed.
(** One jolt at the second call and the particles never move again, though the gradients at all other calls are the
    coordinates themselves, finite and not zero; without the jolt the second step moves them. *)
Theorem C108_progress_refuted : exists x1 x2 y1 y2,
  finite x1 /\ finite x2 /\ value x1 < 0 < value x2 /\ value y1 <> value x1 /\ value y2 <> value x2 /\
  shown_rows (fst (drive jolted_env (mcmc_next jolted_env) (jolts [false; true; false; false; false]) jolted_start)) = repeat (map (map BinarySingleNaN.B2SF) [[x1]; [x2]]) 5 /\
  shown_rows (fst (drive jolted_env (mcmc_next jolted_env) (jolts [false; false]) jolted_start)) = map (map (map BinarySingleNaN.B2SF)) [[[x1]; [x2]]; [[y1]; [y2]]].
Proof.
  pose (x1 := (BinarySingleNaN.B754_finite true 5234276032573740 (-53) (eq_refl : SpecFloat.bounded 53 1024 5234276032573740 (-53) = true) : f64)). pose (x2 := (BinarySingleNaN.B754_finite false 7545592876780100 (-54) (eq_refl : SpecFloat.bounded 53 1024 7545592876780100 (-54) = true) : f64)).
  pose (y1 := (BinarySingleNaN.B754_finite false 7889086405286426 (-53) (eq_refl : SpecFloat.bounded 53 1024 7889086405286426 (-53) = true) : f64)). pose (y2 := (BinarySingleNaN.B754_finite true 5655076876033712 (-55) (eq_refl : SpecFloat.bounded 53 1024 5655076876033712 (-55) = true) : f64)). exists x1, x2, y1, y2.
  assert (F1 : finite x1) by reflexivity. assert (F2 : finite x2) by reflexivity. assert (G1 : finite y1) by reflexivity. assert (G2 : finite y2) by reflexivity. destruct rep_0 as [F0 V0].
  assert (L1 : value x1 < value n0) by (apply lt_true; [exact F1|exact F0|vm_compute; reflexivity]). assert (L2 : value n0 < value x2) by (apply lt_true; [exact F0|exact F2|vm_compute; reflexivity]).
  assert (M1 : value n0 < value y1) by (apply lt_true; [exact F0|exact G1|vm_compute; reflexivity]). assert (M2 : value y2 < value n0) by (apply lt_true; [exact G2|exact F0|vm_compute; reflexivity]).
  rewrite V0 in *. split; [exact F1|]. split; [exact F2|]. split; [split; assumption|]. split; [lra|]. split; [lra|]. split; vm_compute; reflexivity.
Qed.
Definition stepsizes_check (rs : list (call_record jolted_env)) : bool :=
  forallb (fun cl => forallb (fun fr => match lookup (fst fr) KEps with
    | Some t => BinarySingleNaN.is_finite (hd n0 (data t) : f64) && nltb n0 (hd n0 (data t)) && nltb (hd n0 (data t)) n1
    | None => false end) (runs (cr_events jolted_env cl))) rs.
Lemma stepsizes_ok : forall rs, stepsizes_check rs = true -> Forall (stepsize_in jolted_env (between64 0 1)) rs.
Proof.
  intros rs H. apply Forall_forall. intros cl Hin f r Hf. unfold stepsizes_check in H. rewrite forallb_forall in H. specialize (H cl Hin). rewrite forallb_forall in H. specialize (H _ Hf). cbn [fst] in H.
  destruct (lookup f KEps) as [t|]; [|discriminate H]. exists t. split; [reflexivity|]. generalize dependent (hd n0 (data t) : f64). intros e He. rewrite !andb_true_iff in He. destruct He as [[H1 H2] H3]. destruct rep_0 as [F0 V0], rep_1 as [F1 V1].
  pose proof (lt_true _ _ F0 H1 H2). pose proof (lt_true _ _ H1 F1 H3). split; [exact H1|lra].
Qed.
(** The theorems apply to the run of the refutation: the constants, the grids and the stepsizes are in range, and the
    jolt gives a direction above 2^512. *)
Example C108_example :
  moderate_stein default_stein /\ grid 2 1 [[n1]; [n2 : f64]] /\ (forall x user v g, length x = 1%nat -> jolted x user = Ok (v, g) -> length g = 1%nat) /\ 0 < value (s_alpha default_stein) /\
  (let rs := fst (drive jolted_env (mcmc_next jolted_env) (jolts [false; true; false; false; false]) jolted_start) in
   Forall (stepsize_in jolted_env (between64 0 1)) rs /\
   match nth_error rs 1 with
   | Some c1 => match @svgd_grad f64 _ rough_functions 2 1 (v_particles (s_sess jolted_env (cr_pre jolted_env c1))) [[f_of_Z (2 ^ 600)]; [f_of_Z (2 ^ 600)]] with
                | Ok [[y1]; [y2]] => nltb (f_of_Z (2 ^ 512)) y1 && nltb (f_of_Z (2 ^ 512)) y2
                | _ => false
                end
   | None => false
   end = true).
Proof.
  split; [exact default_moderate|]. split; [split; [reflexivity|repeat constructor]|]. split.
  { intros x user v g Hx H. destruct x as [|a [|? ?]]; try discriminate Hx. apply ok_inj in H. apply pair_equal_spec in H as [_ <-]. reflexivity. }
  assert (F0 : finite (@n0 f64 _)) by (vm_compute; reflexivity). destruct rep_0 as [_ V0].
  split; [rewrite <- V0; apply lt_true; [exact F0|vm_compute; reflexivity|vm_compute; reflexivity]|].
  cbv zeta. split; [apply stepsizes_ok; vm_compute; reflexivity|vm_compute; reflexivity].
Qed.
