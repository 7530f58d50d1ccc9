(** C109: SVGD in double precision, particles that stay apart and particles that coincide. *)
From Coq Require Import List Arith Lia ZArith Bool Reals Lra.
From Flocq Require Import Core.Core.
From Flocq Require IEEE754.BinarySingleNaN.
From Verif.Proofs Require Import FloatCell SafeFloat FloatAdapt.
From Verif.Base Require Import Py Num Float64 Vec Lists.
From Verif.Model Require Import TensorUtils SVGD Stepsize BaseClasses SvgdSession.
From Verif.Spec Require Import Sampler Trajectory Tensor Doubles DoubleParticles.
From Verif.Proofs Require Import Sampler SamplerHistory DoubleCell DoubleRun DoubleStein DoubleKernel DoubleBandwidth.
From Verif.Props Require Import PSampler PSvgdChain PSpoilt PRange PDoubleSvgd.
Import ListNotations.
Local Open Scope R_scope.

(** *** One entry *)
Lemma format_scaled : forall (t : nat) e, (Z.of_nat t < 2 ^ 53)%Z -> (-1074 <= e)%Z -> generic_format radix2 (FLT_exp (-1074) 53) (INR t * p2 e).
Proof.
  intros t e Ht He. apply generic_format_FLT. exists (Float radix2 (Z.of_nat t) e); cbn [Fnum Fexp]; [|rewrite Z.abs_eq by lia; exact Ht|exact He].
  unfold F2R. cbn [Fnum Fexp]. now rewrite INR_IZR_INZ.
Qed.
Lemma times_le : forall t : nat, (Z.of_nat t <= 2 ^ 20)%Z -> INR t <= p2 20.
Proof. intros t Ht. rewrite INR_IZR_INZ. change (p2 20) with (IZR (2 ^ 20)). now apply IZR_le. Qed.
Lemma entry_stays : forall c eps x y h t, moderate_stein c -> between64 0 1 eps -> bounded64 395 x -> bounded64 484 y -> finite h -> 0 <= value h <= INR t * p2 968 -> (Z.of_nat (S t) <= 2 ^ 20)%Z ->
  let h' := hist_next (s_alpha c) y h in
  finite h' /\ 0 <= value h' <= INR (S t) * p2 968 /\ finite (entry_next (s_alpha c) (s_fudge c) eps x y h) /\
  Rabs (value (entry_next (s_alpha c) (s_fudge c) eps x y h)) <= Rabs (value x) + p2 345.
Proof.
  intros c eps x y h t [Ha Hf] [Fe Re] [Fx Bx] [Fy By] Fh Rh Ht. cbv zeta. pose proof Ha as [Fa Ra]. destruct (oma_rep (s_alpha c) Ha) as (o & [Fo Vo] & Ro & Po). pose proof (p2_pos (-54)) as P54.
  pose proof (times_le (S t) Ht) as T20. pose proof (pos_INR t) as T0. pose proof (p2_pos 968) as P968.
  assert (FT : forall s, (s <= S t)%nat -> generic_format radix2 (FLT_exp (-1074) 53) (INR s * p2 968)) by (intros s Hs; apply format_scaled; lia).
  assert (BT : INR (S t) * p2 968 <= p2 988) by (change 988%Z with (20 + 968)%Z; rewrite p2_plus; apply Rmult_le_compat_r; lra).
  rewrite S_INR in *.
  assert (Y2 : finite (npow y 2) /\ 0 <= value (npow y 2) <= p2 968).
  { change (npow y 2) with (nmul y y). assert (B : 0 <= value y * value y <= p2 968) by (split; [apply Rle_0_sqr|]; rewrite <- (Rabs_right (value y * value y)) by (apply Rle_ge, Rle_0_sqr); rewrite Rabs_mult; change 968%Z with (484 + 484)%Z; rewrite p2_plus; apply Rmult_le_compat; try apply Rabs_pos; exact By).
    destruct (rep_mul y y _ _ (conj Fy eq_refl) (conj Fy eq_refl)) as [FM VM]; [apply (below_huge 968); [lia|rewrite Rabs_right by lra; exact (proj2 B)]|]. split; [exact FM|]. rewrite VM. split; [rewrite <- rnd64_0; apply rnd64_mono; exact (proj1 B)|].
    unfold p2. rewrite <- (rnd64_id _ (format64_bpow 968 ltac:(lia))). apply rnd64_mono; exact (proj2 B). }
  destruct Y2 as [FY RY].
  assert (AH : rep (nmul (s_alpha c) h) (rnd64 (value (s_alpha c) * value h)) /\ 0 <= rnd64 (value (s_alpha c) * value h) <= INR t * p2 968).
  { assert (B : 0 <= value (s_alpha c) * value h <= INR t * p2 968) by (split; [apply Rmult_le_pos; lra|]; rewrite <- (Rmult_1_l (INR t * p2 968)); apply Rmult_le_compat; lra). split.
    - apply rep_mul; [now split|now split|]. apply (below_huge 988); [lia|]. rewrite Rabs_right by lra. fold (p2 988). lra.
    - split; [rewrite <- rnd64_0; apply rnd64_mono; exact (proj1 B)|]. rewrite <- (rnd64_id _ (FT t ltac:(lia))). apply rnd64_mono; exact (proj2 B). }
  assert (OY : rep (nmul (nsub n1 (s_alpha c)) (npow y 2)) (rnd64 (o * value (npow y 2))) /\ 0 <= rnd64 (o * value (npow y 2)) <= p2 968).
  { assert (B : 0 <= o * value (npow y 2) <= p2 968) by (split; [apply Rmult_le_pos; lra|]; rewrite <- (Rmult_1_l (p2 968)); apply Rmult_le_compat; lra). split.
    - apply rep_mul; [now split|now split|]. apply (below_huge 968); [lia|]. rewrite Rabs_right by lra. exact (proj2 B).
    - split; [rewrite <- rnd64_0; apply rnd64_mono; exact (proj1 B)|]. unfold p2. rewrite <- (rnd64_id _ (format64_bpow 968 ltac:(lia))). apply rnd64_mono; exact (proj2 B). }
  destruct AH as [AH BA], OY as [OY BO]. set (u1 := rnd64 (value (s_alpha c) * value h)) in *. set (u2 := rnd64 (o * value (npow y 2))) in *.
  assert (B : 0 <= u1 + u2 <= (INR t + 1) * p2 968) by lra. destruct (rep_add _ _ u1 u2 AH OY) as [FH VH]; [apply (below_huge 988); [lia|rewrite Rabs_right by lra; fold (p2 988); lra]|].
  fold (hist_next (s_alpha c) y h) in FH, VH. split; [exact FH|]. assert (RH : 0 <= value (hist_next (s_alpha c) y h) <= (INR t + 1) * p2 968).
  { rewrite VH. split; [rewrite <- rnd64_0; apply rnd64_mono; lra|]. pose proof (FT (S t) ltac:(lia)) as G. rewrite S_INR in G. rewrite <- (rnd64_id _ G). apply rnd64_mono. lra. }
  split; [exact RH|]. assert (He : between64 0 (p2 400) eps) by (split; [exact Fe|pose proof (p2_le 0 400 ltac:(lia)); change (p2 0) with 1 in *; lra]).
  assert (NN : hist_next (s_alpha c) y h <> not_a_number) by (intros E; rewrite E in FH; discriminate FH).
  destruct (quotient_bound (s_alpha c) (s_fudge c) Ha Hf y h Fy (upper_finite h Fh (proj1 Rh)) NN) as (q & [Fq Vq] & Bq).
  assert (Q28 : Rabs q <= p2 28).
  { eapply Rle_trans; [exact Bq|]. assert (L : p2 (-54) <= 1 - value (s_alpha c)).
    { assert (value (s_alpha c) <= pred radix2 (FLT_exp (-1074) 53) 1).
      { apply pred_ge_gt; [auto with typeclass_instances|apply value_format|change 1 with (bpow radix2 0); apply format64_bpow; lia|lra]. }
      change 1 with (bpow radix2 0) in H. rewrite pred_bpow in H. change (FLT_exp (-1074) 53 0) with (-53)%Z in H. change (bpow radix2 0) with 1 in H. pose proof (p2_le (-54) (-53) ltac:(lia)). unfold p2 in *. lra. }
    assert (S27 : p2 (-27) <= sqrt (1 - value (s_alpha c))) by (rewrite <- (sqrt_square (p2 (-27))) by (left; apply p2_pos); apply sqrt_le_1_alt; rewrite <- p2_plus; exact L).
    pose proof (p2_pos (-27)) as P27. apply (Rmult_le_reg_r (sqrt (1 - value (s_alpha c)))); [lra|]. unfold Rdiv. rewrite Rmult_assoc, Rinv_l, Rmult_1_r by lra.
    apply Rle_trans with (p2 28 * p2 (-27)); [rewrite <- p2_plus; change (p2 (28 + -27)) with 2; pose proof (p2_le (-48) 0 ltac:(lia)); change (p2 0) with 1 in *; lra|]. apply Rmult_le_compat_l; [left; apply p2_pos|exact S27]. }
  assert (BM : Rabs (value eps * q) <= p2 28) by (rewrite Rabs_mult, <- (Rmult_1_l (p2 28)); apply Rmult_le_compat; try apply Rabs_pos; [rewrite Rabs_right; lra|exact Q28]).
  destruct (rep_mul eps _ _ q (conj Fe eq_refl) (conj Fq Vq)) as [FM VM]; [apply (below_huge 28); [lia|exact BM]|].
  assert (BV : Rabs (rnd64 (value eps * q)) <= p2 28) by (apply rnd64_bound; [lia|exact BM]). set (w := rnd64 (value eps * q)) in *.
  pose proof (Rabs_triang (value x) (- w)) as TR. rewrite Rabs_Ropp in TR. fold (value x - w) in TR. assert (BS : Rabs (value x - w) <= p2 396).
  { pose proof (p2_le 28 395 ltac:(lia)). change (p2 396) with (p2 (1 + 395)). rewrite p2_plus. change (p2 1) with 2. fold (p2 395) in Bx. lra. }
  destruct (rep_sub x _ (value x) w (conj Fx eq_refl) (conj FM VM)) as [FS VS]; [apply (below_huge 396); [lia|exact BS]|]. fold (entry_next (s_alpha c) (s_fudge c) eps x y h) in FS, VS. split; [exact FS|]. rewrite VS.
  pose proof (rnd64_err 396 (value x - w) ltac:(lia) BS) as ER. change (396 - 52)%Z with 344%Z in ER.
  pose proof (Rabs_triang (rnd64 (value x - w) - (value x - w)) (value x - w)) as T2. replace (rnd64 (value x - w) - (value x - w) + (value x - w)) with (rnd64 (value x - w)) in T2 by ring.
  pose proof (p2_le 28 344 ltac:(lia)). change (p2 345) with (p2 (1 + 344)). rewrite p2_plus. change (p2 1) with 2. lra.
Qed.

(** *** Histories *)
(** [counted] with conditions on the session before the run. *)
Lemma counted_at : forall V (E : env V) (Inv : nat -> sess_state E -> Prop) (Cond : call_record E -> Prop) (Fed : sess_state E -> feed V -> Prop) k b0 c0 z0,
  (forall t z, Inv t z -> Inv (S t) z) ->
  (forall t f z r z', Inv t z -> Fed z f -> run E f z = (r, z') -> Inv (S t) z') ->
  (forall c f r, Cond c -> In (f, r) (runs (cr_events E c)) -> Fed (s_sess E (cr_pre E c)) f) ->
  Inv 0%nat z0 ->
  forall rs us s', drive E (next_of E k) us (initial_state E b0 c0 z0) = (rs, s') -> Forall Cond rs -> Inv (length rs) (s_sess E s').
Proof.
  intros V E Inv Cond Fed k b0 c0 z0 HS HR HF H0 rs. induction rs as [|c rs IH] using rev_ind; intros us s' HD HC.
  - destruct us as [|v us]; [cbn in HD; apply pair_equal_spec in HD as [_ <-]; exact H0|]. cbn in HD. destruct (call E _ v _) as [[r1 s1] ev]. destruct (drive E _ us s1). discriminate HD.
  - rewrite (drive_last E _ _ _ _ _ _ HD). destruct (drive_split E _ _ _ _ _ _ _ HD) as (_ & us1 & D1 & _).
    apply Forall_app in HC as [HC1 HC2]. inversion HC2 as [|? ? HC3 _]; subst. specialize (IH _ _ D1 HC1). rewrite app_length, Nat.add_1_r.
    destruct (outcome_of _ E _ _ _ _ _ _ _ _ _ HD) as (base & fmt & [SO _ _ _ SS] & _).
    destruct (one_run _ _ _ _ _ SO) as [Er|(f & ro & Er)]; rewrite Er in SS; cbn [map fst snd run_all] in SS.
    + apply pair_equal_spec in SS as [_ SS]. rewrite <- SS. now apply HS.
    + destruct (run E f (s_sess E (cr_pre E c))) as [r' z'] eqn:Ez. apply pair_equal_spec in SS as [_ SS]. rewrite <- SS. eapply HR; [exact IH| |exact Ez].
      apply (HF c f ro); [exact HC3|rewrite Er; now left].
Qed.
Lemma entries_forall : forall (P : f64 -> Prop) M, (forall a k x, entry M a k = Some x -> P x) <-> Forall (Forall P) M.
Proof.
  intros P M. split; intros H.
  - apply Forall_forall. intros r Hr. apply Forall_forall. intros x Hx. apply In_nth_error in Hr as [a Ha]. apply In_nth_error in Hx as [k Hk]. apply (H a k). unfold entry. now rewrite Ha.
  - intros a k x Hx. unfold entry in Hx. destruct (nth_error M a) as [r|] eqn:Er; [|discriminate Hx]. rewrite Forall_forall in H. pose proof (H r (nth_error_In _ _ Er)) as Hr. rewrite Forall_forall in Hr. apply Hr. eapply nth_error_In; exact Hx.
Qed.

(** The state after t calm calls. *)
Definition roomy (d n t : nat) (z : vsess f64) : Prop :=
  sound d n z /\ Forall (Forall (fun x => finite x /\ Rabs (value x) <= p2 390 + INR t * p2 345)) (v_particles z) /\
  Forall (Forall (fun h => finite h /\ 0 <= value h <= INR t * p2 968)) (v_hist z).
Lemma roomy_more : forall d n t z, roomy d n t z -> roomy d n (S t) z.
Proof.
  intros d n t z (S0 & HX & HH). split; [exact S0|]. rewrite S_INR. pose proof (p2_pos 345). pose proof (p2_pos 968). split.
  - eapply Forall_impl; [|exact HX]. intros r Hr. eapply Forall_impl; [|exact Hr]. intros x [F B]. cbv beta. split; [exact F|lra].
  - eapply Forall_impl; [|exact HH]. intros r Hr. eapply Forall_impl; [|exact Hr]. intros x [F B]. cbv beta. split; [exact F|lra].
Qed.
Lemma room : forall t, (Z.of_nat t <= 2 ^ 20)%Z -> p2 390 + INR t * p2 345 <= p2 391.
Proof.
  intros t Ht. pose proof (times_le t Ht) as T. assert (INR t * p2 345 <= p2 365) by (change 365%Z with (20 + 345)%Z; rewrite p2_plus; apply Rmult_le_compat_r; [left; apply p2_pos|exact T]).
  pose proof (p2_le 365 390 ltac:(lia)). change (p2 391) with (p2 (1 + 390)). rewrite p2_plus. change (p2 1) with 2. lra.
Qed.

Section Calm.
Context {NT : NumT f64}.
Variable c : sconfig f64.
Variable d : nat.
Variable target : @particle_cost f64.
Hypothesis target_sized : forall x user v g, length x = d -> target x user = Ok (v, g) -> length g = d.
Variable n : nat.
Hypothesis Hn : (2 <= n)%nat.
Hypothesis Hn20 : INR n <= p2 20.
Hypothesis Hd20 : INR d <= p2 20.
Hypothesis Hc : moderate_stein c.
Hypothesis Hexp : usual_exp NT.
Hypothesis Hln : usual_ln NT n.
Definition fed_calmly (z : vsess f64) (f : feed (tensor f64)) : Prop :=
  (exists t, lookup f KEps = Some t /\ between64 0 1 (hd n0 (data t))) /\
  (forall x v g, In x (v_particles z) -> target x (fun m => lookup f (KUser m)) = Ok (v, g) -> Forall (bounded64 400) g) /\ apart (bpow radix2 (-20)) (v_particles z).
Lemma roomy_run : forall t f z r z', (Z.of_nat (S t) <= 2 ^ 20)%Z -> roomy d n t z -> fed_calmly z f -> svgd_session_run c d target f z = (r, z') -> roomy d n (S t) z'.
Proof.
  intros t f z r z' Ht HZ ((tt & Hl & He) & HG & HA) Er. pose proof HZ as ([OK UP] & HX & HH). destruct (run_at c d target target_sized n ltac:(lia) Hc f z r z' OK UP Er) as (OK' & UP' & HS).
  destruct r as [o|e]; [|subst z'; now apply roomy_more]. destruct HS as (_ & L & g & HL & Hg & Gg & HE).
  assert (B400 : Forall (Forall (bounded64 395)) (v_particles z)).
  { eapply Forall_impl; [|exact HX]. intros q Hq. eapply Forall_impl; [|exact Hq]. intros x [F B]. split; [exact F|]. pose proof (room t ltac:(lia)). pose proof (p2_le 391 395 ltac:(lia)). unfold p2 in *. lra. }
  assert (BX : Forall (Forall (bounded64 400)) (v_particles z)).
  { eapply Forall_impl; [|exact B400]. intros q Hq. eapply Forall_impl; [|exact Hq]. intros x H. eapply b_weaken; [exact H|lia]. }
  pose proof (each_spec _ _ (fun x => target x (fun m => lookup f (KUser m))) (v_particles z)) as ES. rewrite HL in ES. destruct ES as [EL EN]. pose proof (proj1 OK) as GX.
  assert (GB : grid n d (map snd L) /\ Forall (Forall (bounded64 400)) (map snd L)).
  { assert (A : forall a q, nth_error (map snd L) a = Some q -> length q = d /\ Forall (bounded64 400) q).
    { intros a q Hq. rewrite nth_error_map in Hq. destruct (nth_error L a) as [[v q']|] eqn:El; [|discriminate Hq]. cbn [option_map snd] in Hq. apply some_inj in Hq. subst q'.
      assert (La : (a < n)%nat) by (rewrite <- (proj1 GX), <- EL; apply nth_error_Some; congruence). destruct (grid_row _ _ _ _ GX La) as (x & Hx & Lx). destruct (EN a x Hx) as (b & Hb & Ht'). rewrite El in Hb. apply some_inj in Hb. subst b.
      split; [eapply target_sized; eauto|]. eapply HG; [eapply nth_error_In; exact Hx|exact Ht']. }
    split; [apply grid_intro; [rewrite map_length, EL; exact (proj1 GX)|intros a q Hq; exact (proj1 (A a q Hq))]|]. apply Forall_forall. intros q Hq. apply In_nth_error in Hq as [a Hq]. exact (proj2 (A a q Hq)). }
  destruct GB as [GL BL]. assert (BY : Forall (Forall (bounded64 484)) g).
  { pose proof Hg as Hg'. unfold svgd_grad in Hg'. destruct (svgd_kernel n d (v_particles z)) as [[[h K] G]|e] eqn:Ek; [|discriminate Hg'].
    destruct (bandwidth_lower n d Hn Hd20 (v_particles z) GX BX Hln h K G Ek HA) as [Fh Lh]. eapply (direction_range Hexp n d ltac:(lia) Hn20 Hd20 (v_particles z) GX BX); eauto. }
  split; [now split|]. rewrite <- !entries_forall. rewrite <- entries_forall in HX, HH, BY, B400.
  split.
  - intros a k x' Hx'. destruct (grid_entry _ _ _ _ _ _ (proj1 OK') Hx') as [La Lk]. destruct (HE a k La Lk) as (x & y & h & E1 & E2 & E3 & _ & E5). rewrite Hl in E5. rewrite Hx' in E5. apply some_inj in E5. subst x'.
    destruct (HH _ _ _ E3) as [Fh Rh]. destruct (entry_stays c (hd n0 (data tt)) x y h t Hc He (B400 _ _ _ E1) (BY _ _ _ E2) Fh Rh Ht) as (_ & _ & F & B). split; [exact F|]. destruct (HX _ _ _ E1) as [_ BB]. rewrite S_INR. lra.
  - intros a k h' Hh'. destruct (grid_entry _ _ _ _ _ _ (proj2 OK') Hh') as [La Lk]. destruct (HE a k La Lk) as (x & y & h & E1 & E2 & E3 & E4 & _). rewrite Hh' in E4. apply some_inj in E4. subst h'.
    destruct (HH _ _ _ E3) as [Fh Rh]. destruct (entry_stays c (hd n0 (data tt)) x y h t Hc He (B400 _ _ _ E1) (BY _ _ _ E2) Fh Rh Ht) as (F & R & _). now split.
Qed.
Lemma roomy_start : forall eps0 X0, grid n d X0 -> Forall (Forall (bounded64 390)) X0 -> roomy d n 0 (svgd_session d eps0 X0).
Proof.
  intros eps0 X0 GX BX. split; [apply sound_start; exact GX|]. cbn [INR]. split.
  - unfold svgd_session. cbn [v_particles]. eapply Forall_impl; [|exact BX]. intros q Hq. eapply Forall_impl; [|exact Hq]. intros x [F B]. split; [exact F|]. rewrite Rmult_0_l, Rplus_0_r. exact B.
  - unfold svgd_session, svgd_history. cbn [v_hist]. apply Forall_forall. intros q Hq. apply repeat_spec in Hq. subst q. apply Forall_forall. intros x Hx. apply repeat_spec in Hx. subst x. destruct rep_0 as [F V]. split; [exact F|]. rewrite V. lra.
Qed.
End Calm.

(** *** C109 *)
(** Particles that stay 2^-20 apart stay finite, for up to 2^20 calls. *)
Theorem C109_separated_particles_stay_finite :
  forall (NT : NumT f64) c d target B bg sc n eps0 X0 us rs s' b0 c0,
  (forall x user v g, length x = d -> target x user = Ok (v, g) -> length g = d) -> (2 <= n)%nat -> INR n <= bpow radix2 20 -> INR d <= bpow radix2 20 ->
  grid n d X0 -> Forall (Forall (bounded64 390)) X0 -> moderate_stein c -> usual_exp NT -> usual_ln NT n ->
  let E := svgd_env c d target B bg sc in
  drive E (mcmc_next E) us (initial_state E b0 c0 (svgd_session d eps0 X0)) = (rs, s') ->
  INR (length rs) <= bpow radix2 20 -> Forall (calm_stein c d target B bg sc) rs ->
  forall cl smp cost, In cl rs -> cr_res E cl = Ok (smp, cost) -> bounded_sample 391 smp.
Proof.
  intros NT c d target B bg sc n eps0 X0 us rs s' b0 c0 Ht Hn Hn20 Hd20 GX BX Hc Hexp Hln E HD HL HC cl smp cost Hin Hr.
  destruct (call_at c d target Ht n ltac:(lia) Hc B bg sc X0 eps0 GX b0 c0 us rs s' cl smp cost HD Hin Hr) as (f & o & _ & _ & _ & _ & HV). fold E in HV.
  apply in_split in Hin as (pre & post & ->). destruct (drive_split E _ _ _ _ _ _ _ HD) as (_ & _ & _ & us2 & D2).
  assert (LZ : (Z.of_nat (length (pre ++ [cl])) <= 2 ^ 20)%Z).
  { apply le_IZR. rewrite <- INR_IZR_INZ. eapply Rle_trans; [|change (IZR (2 ^ 20)) with (bpow radix2 20); exact HL]. apply le_INR. rewrite !app_length. cbn [length]. lia. }
  assert (RM : (Z.of_nat (length (pre ++ [cl])) <= 2 ^ 20)%Z -> roomy d n (length (pre ++ [cl])) (s_sess E (cr_post E cl))).
  { refine (counted_at _ E (fun t z => (Z.of_nat t <= 2 ^ 20)%Z -> roomy d n t z) (calm_stein c d target B bg sc) (fed_calmly target) Plain b0 c0 (svgd_session d eps0 X0) _ _ _ _ (pre ++ [cl]) us2 _ D2 _).
    - intros t z H Hlt. apply roomy_more, H. lia.
    - intros t f' z r z' H HF Er Hlt. eapply (roomy_run c d target Ht n Hn Hn20 Hd20 Hc Hexp Hln); eauto. apply H. lia.
    - intros c' f' r HS HI. exact (HS f' r HI).
    - intros _. now apply roomy_start.
    - replace (pre ++ cl :: post) with ((pre ++ [cl]) ++ post) in HC by now rewrite <- app_assoc. now apply Forall_app in HC as [HC _]. }
  destruct (RM LZ) as (_ & HX & _). unfold bounded_sample, bounded_tensor. unfold rows_shown in HV. rewrite <- HV in HX. rewrite Forall_map in HX. eapply Forall_impl; [|exact HX].
  intros v Hv. cbv beta in *. eapply Forall_impl; [|exact Hv]. intros x [F Bd]. split; [exact F|]. pose proof (room _ LZ) as RR. unfold p2 in RR, Bd. lra.
Qed.

(** If more than half of the pairs of particles coincide, every coordinate of every particle is infinite or NaN from the next
    sample on. *)
Theorem C109_coinciding_particles_are_lost :
  forall (NT : NumT f64) c d target B bg sc n eps0 X0 us s' b0 c0 pre c1 mid smp1 cost1,
  (forall x user v g, length x = d -> target x user = Ok (v, g) -> length g = d) -> (2 <= n)%nat -> INR d <= bpow radix2 20 ->
  grid n d X0 -> usual_ln NT n -> spoilt (nexp (not_a_number : f64)) ->
  let E := svgd_env c d target B bg sc in
  drive E (mcmc_next E) us (initial_state E b0 c0 (svgd_session d eps0 X0)) = (pre ++ c1 :: mid, s') ->
  cr_res E c1 = Ok (smp1, cost1) ->
  let X := v_particles (s_sess E (cr_pre E c1)) in
  Forall (Forall (bounded64 400)) X -> (n * n < 2 * coinciding X)%nat ->
  forall c2 smp cost a k, In c2 (c1 :: mid) -> cr_res E c2 = Ok (smp, cost) -> (a < n)%nat -> (k < d)%nat -> spoilt_entry smp a k.
Proof.
  intros NT c d target B bg sc n eps0 X0 us s' b0 c0 pre c1 mid smp1 cost1 Ht Hn Hd20 GX Hln Hnan E HD R1 X BX HC.
  assert (S1 : forall a k, (a < n)%nat -> (k < d)%nat -> spoilt_entry smp1 a k).
  { intros a k La Lk. assert (I1 : In c1 (pre ++ c1 :: mid)) by (apply in_or_app; right; now left).
    destruct (stein_call c d target Ht B bg sc n ltac:(lia) X0 eps0 GX us _ s' b0 c0 c1 smp1 cost1 HD I1 R1) as (f & o & _ & Er & [GP GH] & HV). fold E in Er, GP, GH. fold X in GP.
    pose proof Er as Er'. unfold svgd_session_run in Er'. fold X in Er'. pose proof (each_spec _ _ (fun x => target x (fun m => lookup f (KUser m))) X) as ES. destruct (each _ X) as [cgs|e]; [|discriminate Er'].
    destruct ES as [EL EN]. assert (GL : grid n d (map snd cgs)).
    { apply grid_intro; [rewrite map_length; destruct GP; congruence|]. intros b q Hq. rewrite nth_error_map in Hq. destruct (nth_error cgs b) as [[v g]|] eqn:Eg; [|discriminate Hq].
      cbn [option_map snd] in Hq. apply some_inj in Hq. subst q. assert (Hb : (b < n)%nat) by (rewrite <- (proj1 GP), <- EL; apply nth_error_Some; congruence).
      destruct (grid_row _ _ _ _ GP Hb) as (x & Hx & Lx). destruct (EN b x Hx) as (p & Hp & Htp). rewrite Eg in Hp. apply some_inj in Hp. subst p. eapply Ht; eauto. }
    rewrite (proj1 GP) in Er'. destruct (svgd_step _ _ _ _ _ _ _) as [[X' H']|e] eqn:Es; [|discriminate Er']. apply pair_equal_spec in Er' as [Eo _]. apply ok_inj in Eo. subst o. cbn [o_theta] in HV.
    rewrite (stein_entry d _ _ _ _ HV). exact (coinciding_step n d Hn Hd20 X GP BX Hln Hnan c _ _ _ _ _ GL GH Es HC a k La Lk). }
  intros c2 smp cost a k [<-|H2] R2 La Lk.
  - assert (smp = smp1) as -> by (rewrite R1 in R2; apply ok_inj in R2; now apply pair_equal_spec in R2 as [-> _]). now apply S1.
  - apply in_split in H2 as (q & p & ->). eapply (C101_stein_particles_infect_each_other NT c d target B bg sc n eps0 X0 us s' b0 c0 pre c1 q c2 p smp1 cost1 smp cost a a k); eauto. lia.
Qed.

(** *** Examples *)
(** Stand-ins for exp and ln: max (0, 1 + x), which is NaN at NaN, and 11/10. *)
Definition hinge_functions : NumT f64 :=
  {| nexp := fun x => if nltb x (nopp n1) then n0 else nadd n1 x; nln := fun _ => nfrac 11 10; nsin := fun x => x; ncos := fun _ => n1; npi := n1 |}.
Lemma hinge_exp : usual_exp hinge_functions.
Proof.
  destruct rep_0 as [F0 V0], rep_1 as [F1 V1]. assert (FO : finite (nopp n1 : f64)) by (vm_compute; reflexivity). assert (VO : value (nopp n1) = -1) by (destruct (rep_opp _ _ rep_1) as [_ E]; rewrite E; lra).
  assert (Z : between64 0 1 n0) by (split; [exact F0|rewrite V0; lra]).
  intros x [[F N]| ->]; unfold nexp, hinge_functions.
  - rewrite (rep_ltb _ _ _ _ (conj F eq_refl) (conj FO VO)). unfold Rltb. destruct (Rlt_dec _ _) as [L|L]; [exact Z|].
    assert (B : 0 <= 1 + value x <= 1) by lra. destruct (rep_add n1 x 1 (value x) (conj F1 V1) (conj F eq_refl)) as [FA VA]; [apply (below_huge 0); [lia|rewrite Rabs_right by lra; cbn; lra]|]. split; [exact FA|]. rewrite VA.
    split; [rewrite <- rnd64_0; apply rnd64_mono; lra|]. change 1 with (bpow radix2 0) at 2. rewrite <- (rnd64_id _ (format64_bpow 0 ltac:(lia))). apply rnd64_mono. cbn. lra.
  - replace (nltb (BinarySingleNaN.B754_infinity true : f64) (nopp n1)) with true by (vm_compute; reflexivity). exact Z.
Qed.
Lemma hinge_ln : forall n, usual_ln hinge_functions n.
Proof.
  intros n. unfold usual_ln, nln, hinge_functions. assert (F : finite (nfrac 11 10 : f64)) by (vm_compute; reflexivity). split; [exact F|]. destruct rep_1 as [F1 V1], rep_2 as [F2 V2].
  pose proof (lt_true _ _ F1 F ltac:(vm_compute; reflexivity)). pose proof (lt_true _ _ F F2 ltac:(vm_compute; reflexivity)). lra.
Qed.
(** The cost x^2/2 in one dimension. *)
Definition plain_target : @particle_cost f64 := fun x _ => match x with [a] => Ok (a, [a]) | _ => Raise ValueError end.
Definition hinge_env := @svgd_env f64 _ hinge_functions default_stein 1 plain_target unit None (constant_schedule (tensor f64) (sample (tensor f64) * tensor f64)).
Definition hinge_start (X : list (list f64)) : state hinge_env := initial_state hinge_env tt (Tensor [] [nfrac 1 64]) (svgd_session 1 n1 X).
Definition calm_check (rs : list (call_record hinge_env)) : bool :=
  forallb (fun cl =>
    match v_particles (s_sess hinge_env (cr_pre hinge_env cl)) with
    | [[a]; [b]] => BinarySingleNaN.is_finite (a : f64) && BinarySingleNaN.is_finite (b : f64) && BinarySingleNaN.is_finite (nsub b a : f64) &&
                    nltb (nfrac 1 1024) (nsub b a) && nltb (nint (-1024)) a && nltb b (nint 1024)
    | _ => false
    end &&
    forallb (fun fr => match lookup (fst fr) KEps with
    | Some t => BinarySingleNaN.is_finite (hd n0 (data t) : f64) && nltb n0 (hd n0 (data t)) && nltb (hd n0 (data t)) n1
    | None => false end) (runs (cr_events hinge_env cl))) rs.
Lemma calm_ok : forall rs, calm_check rs = true -> Forall (calm_stein default_stein 1 plain_target unit None (constant_schedule (tensor f64) (sample (tensor f64) * tensor f64))) rs.
Proof.
  intros rs H. apply Forall_forall. intros cl Hin f r Hf. unfold calm_check in H. rewrite forallb_forall in H. specialize (H cl Hin). apply andb_true_iff in H as [HX HE]. rewrite forallb_forall in HE. specialize (HE _ Hf). cbn [fst] in HE.
  fold hinge_env. set (X := v_particles (s_sess hinge_env (cr_pre hinge_env cl))) in *. change (v_particles (s_sess _ (cr_pre _ cl))) with X. clearbody X.
  destruct X as [|[|a [|? ?]] [|[|b [|? ?]] [|? ?]]]; try discriminate HX. rewrite !andb_true_iff in HX. destruct HX as [[[[[Fa Fb] Fs] L1] L2] L3].
  destruct (rep_int (-1024) ltac:(lia)) as [FN VN]. destruct (rep_int 1024 ltac:(lia)) as [FP VP]. pose proof (lt_true _ _ FN Fa L2) as A1. pose proof (lt_true _ _ Fb FP L3) as A2. rewrite VN in A1. rewrite VP in A2.
  assert (FQ : finite (nfrac 1 1024 : f64)) by (vm_compute; reflexivity). assert (VQ : value (nfrac 1 1024) = p2 (-10)) by (unfold value; vm_compute; lra). pose proof (lt_true _ _ FQ Fs L1) as A3. rewrite VQ, (sub_value _ _ Fb Fa Fs) in A3.
  assert (GP : bpow radix2 (-20) <= value b - value a).
  { destruct (Rle_dec (bpow radix2 (-20)) (value b - value a)) as [|N]; [assumption|exfalso]. pose proof (rnd64_mono (value b - value a) (bpow radix2 (-20)) ltac:(lra)) as M. rewrite (rnd64_id _ (format64_bpow (-20) ltac:(lia))) in M. pose proof (p2_le (-20) (-10) ltac:(lia)). unfold p2 in *. lra. }
  pose proof (bpow_gt_0 radix2 (-20)) as P20.
  split; [|split].
  - destruct (lookup f KEps) as [t|]; [|discriminate HE]. exists t. split; [reflexivity|]. generalize dependent (hd n0 (data t) : f64). intros e He. rewrite !andb_true_iff in He. destruct He as [[H1 H2] H3]. destruct rep_0 as [F0 V0], rep_1 as [F1 V1].
    pose proof (lt_true _ _ F0 H1 H2). pose proof (lt_true _ _ H1 F1 H3). split; [exact H1|lra].
  - intros x v g Hx Hg. destruct Hx as [<-|[<-|[]]]; apply ok_inj in Hg; apply pair_equal_spec in Hg as [_ <-]; (constructor; [|constructor]); (split; [assumption|]); (eapply Rle_trans; [|apply (bpow_le radix2 10 400); lia]); change (bpow radix2 10) with 1024; apply Rabs_le; lra.
  - intros i j q q' Hij Hi Hj. destruct i as [|[|i]]; [|destruct j as [|[|j]]; [lia|lia|destruct j; discriminate Hj]|destruct i; discriminate Hi]. destruct j as [|[|j]]; [lia| |destruct j; discriminate Hj].
    cbn [nth_error] in Hi, Hj. apply some_inj in Hi, Hj. subst q q'. unfold dist2. cbn [map sqdist]. replace ((value a - value b) ^ 2 + 0) with (Rsqr (value a - value b)) by (unfold Rsqr; ring). rewrite sqrt_Rsqr_abs, Rabs_minus_sym.
    eapply Rle_trans; [|apply Rle_abs]. exact GP.
Qed.
(** Two particles one apart, five calls: the hypotheses hold, and the particles move. *)
Definition apart_start : list (list f64) := [[n1]; [n2]].
Definition rows_of_run (rs : list (call_record hinge_env)) : list (list (list SpecFloat.spec_float)) :=
  map (fun r => match cr_res hinge_env r with Ok (s, _) => map (map BinarySingleNaN.B2SF) (rows_shown s) | Raise _ => [] end) rs.
Example C109_example :
  usual_exp hinge_functions /\ usual_ln hinge_functions 2 /\ moderate_stein default_stein /\ grid 2 1 apart_start /\ Forall (Forall (bounded64 390)) apart_start /\
  (forall x user v g, length x = 1%nat -> plain_target x user = Ok (v, g) -> length g = 1%nat) /\
  let rs := fst (drive hinge_env (mcmc_next hinge_env) [None; None; None; None; None] (hinge_start apart_start)) in
  Forall (calm_stein default_stein 1 plain_target unit None (constant_schedule (tensor f64) (sample (tensor f64) * tensor f64))) rs /\
  NoDup (rows_of_run rs) /\ length rs = 5%nat.
Proof.
  destruct rep_1 as [F1 V1], rep_2 as [F2 V2].
  split; [exact hinge_exp|]. split; [apply hinge_ln|]. split; [exact default_moderate|]. split; [split; [reflexivity|repeat constructor]|]. split.
  { pose proof (bpow_le radix2 1 390 ltac:(lia)) as B. change (bpow radix2 1) with 2 in B. assert (B1 : bounded64 390 n1) by (split; [exact F1|rewrite V1, Rabs_right; lra]). assert (B2 : bounded64 390 n2) by (split; [exact F2|rewrite V2, Rabs_right; lra]). unfold apart_start. constructor; [constructor; [exact B1|constructor]|]. constructor; [constructor; [exact B2|constructor]|constructor]. }
  split; [intros x user v g Hx H; destruct x as [|a [|? ?]]; try discriminate Hx; apply ok_inj in H; apply pair_equal_spec in H as [_ <-]; reflexivity|].
  cbv zeta. split; [apply calm_ok; vm_compute; reflexivity|]. split; [|vm_compute; reflexivity].
  vm_compute. repeat (constructor; [cbn; intuition discriminate|]). constructor.
Qed.
(** Three particles, two of them equal, are enough to lose all three; so are particles that all start at the same point. *)
Theorem C109_equal_particles_separate_refuted :
  (3 * 3 < 2 * coinciding [[n1]; [n1]; [n2]])%nat /\
  finite_flags (fst (drive hinge_env (mcmc_next hinge_env) [None; None] (hinge_start [[n1]; [n1]; [n2]]))) (cr_res hinge_env) = repeat [[false]; [false]; [false]] 2 /\
  finite_flags (fst (drive hinge_env (mcmc_next hinge_env) [None; None] (hinge_start [[n1]; [n1]]))) (cr_res hinge_env) = repeat [[false]; [false]] 2 /\
  finite_flags (fst (drive hinge_env (mcmc_next hinge_env) [None; None] (hinge_start [[n1]; [n2]]))) (cr_res hinge_env) = repeat [[true]; [true]] 2 /\
  spoilt (@nexp f64 hinge_functions not_a_number).
Proof.
  split; [|repeat split; vm_compute; reflexivity]. destruct rep_1 as [_ V1], rep_2 as [_ V2]. unfold coinciding. cbn [list_prod map app filter]. rewrite !V1, !V2.
  assert (Same : forall x : R, (if list_eq_dec Req_EM_T [x] [x] then true else false) = true) by (intros x; destruct (list_eq_dec Req_EM_T [x] [x]); congruence).
  rewrite !Same. cbn [length]. destruct (list_eq_dec Req_EM_T [1] [2]) as [E12|_]; [exfalso; inversion E12; lra|]. destruct (list_eq_dec Req_EM_T [2] [1]) as [E21|_]; [exfalso; inversion E21; lra|]. cbn [length]. lia.
Qed.

Print Assumptions C109_separated_particles_stay_finite.
Print Assumptions C109_coinciding_particles_are_lost.
Print Assumptions C109_equal_particles_separate_refuted.
