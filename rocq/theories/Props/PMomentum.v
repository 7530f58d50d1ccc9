(** C98: SGHMC on strongly convex costs. *)
From Coq Require Import List Arith Lia ZArith Bool Reals Lra Psatz.
From Verif.Base Require Import Py Num Vec Lists.
From Verif.Model Require Import TensorUtils BurnIn SGHMC SGLD Stepsize BaseClasses Session.
From Verif.Spec Require Import Sampler Dynamics Trajectory Chain Convex.
From Verif.Proofs Require Import Sampler SamplerHistory Dynamics Convex Momentum.
From Verif.Props Require Import PSampler PSession PChain PErgodic PConvex.
Import ListNotations.
Local Open Scope R_scope.

Lemma minus_self : forall x, minus x x = repeat 0 (length x).
Proof. induction x as [|a x IH]; cbn; auto. rewrite IH. f_equal. ring. Qed.
Lemma clock_moves : forall rule variate reserve sizes eps keys k qs qs' b gss, clock reserve sizes keys k qs -> map (@length R) gss = sizes ->
  moves rule variate reserve eps b gss qs = Some qs' -> clock reserve sizes keys (S k) qs'.
Proof.
  intros rule variate reserve sizes eps keys k qs qs' b gss (H1 & H2 & H3) HG HM.
  destruct (moves_some variate reserve rule eps b gss qs) as (q2 & E1 & E4 & E5 & E6); [congruence|].
  assert (q2 = qs') by congruence. subst q2.
  split; [congruence|]. split; [congruence|]. rewrite E6. clear -H1 H3. revert H1 H3. generalize sizes as sz. induction qs as [|q qs IH]; intros [|d sz] H1 H3; try discriminate H1; auto.
  cbn in *. injection H1 as A1 A2. injection H3 as B1 B2. rewrite B1, A1. f_equal; [lia|]. now apply IH.
Qed.

(** A complete run with burn-in, in terms of the points it visits: from the last step of the burn-in on, all masses are
    fixed; the momentum is the difference of the last two points. *)
Lemma momentum_recursion :
  forall variate reserve al s target U G eps burn B bg us rs s1 b0 e0 params gseed seed ids entropy,
  let sizes := map (fun v => length (data v)) params in
  computes sizes target U G -> 0 < s -> (0 < burn)%Z -> Forall no_fed_mass us ->
  let E := sampler_env variate reserve (kernel_of (Sghmc (Config al s))) target B bg
             (constant_schedule (tensor R) (sample (tensor R) * tensor R)) in
  let ops := noise_ops gseed seed ids entropy (length params) in
  drive E (burnin_next E burn (length params)) us (initial_state E b0 (number eps)
     (session_of (Sghmc (Config al s)) e0 params ops)) = (rs, s1) ->
  let visited k := nth k (flat params :: points E rs) [] in
  exists ms, length ms = list_sum sizes /\ Forall (fun m => 0 < m) ms /\
  (burn = 1%Z -> ms = repeat (inverse_mass 1) (list_sum sizes)) /\
  (forall k, (k <= length (points E rs))%nat -> length (visited k) = list_sum sizes) /\
  forall k, (k < length (points E rs))%nat -> 
    length (normals variate reserve (map op_key ops) sizes k) = list_sum sizes /\
    ((burn <= Z.of_nat (S k))%Z ->
     visited (S k) = plus (plus (visited k) (push al (eps ^ 2) ms (G (visited k)) (minus (visited k) (visited (pred k)))))
      (jolts (spread al s eps) ms (normals variate reserve (map op_key ops) sizes k))).
Proof.
  intros variate reserve al s target U G eps burn B bg us rs s1 b0 e0 params gseed seed ids entropy sizes HT Hs Hburn HU E ops HD visited.
  pose proof (constant_steady variate reserve (Sghmc (Config al s)) target B bg burn (length params) us rs s1 b0 eps _ HD) as HY.
  assert (LO : length ops = length params) by (unfold ops, noise_ops; now rewrite map_length, seq_length).
  assert (HP : Forall (fun o => op_pos o = 0%nat) ops).
  { apply Forall_forall. intros o Ho. unfold ops, noise_ops in Ho. now apply in_map_iff in Ho as (i & <- & _). }
  apply (chain_of_ops variate reserve (Sghmc (Config al s))) in HD; [|exact Hs|exact LO|exact HU|exact HP].
  cbn [rule_of mdecay scale_grad] in HD. set (ps0 := map _ (combine params ops)) in HD.
  assert (CK : clock reserve sizes (map op_key ops) 0 ps0 /\ flat (map value ps0) = flat params /\
               masses true ps0 = repeat (inverse_mass 1) (length (flat params)) /\ momenta ps0 = repeat 0 (length (flat params))).
  { unfold ps0, clock, sizes, sizes_of. clear -LO. clearbody ops. revert ops LO. induction params as [|v params IH]; intros [|o ops] LO; try discriminate LO.
    - repeat split.
    - cbn in LO. destruct (IH ops ltac:(lia)) as ((I1 & I2 & I3) & I4 & I5 & I6). cbn [combine]. split; [|split; [|split]].
      + cbn. rewrite I1, I2, I3, map_length. auto.
      + rewrite (map_cons (fun '(v, o) => fresh 0 v (op_key o))), flat_value, I4. unfold flat. cbn. f_equal. rewrite map_map. cbn. apply map_id.
      + unfold masses, flat in *. cbn [map concat fresh entries]. rewrite I5, app_length, repeat_app. f_equal.
        rewrite map_map. cbn. clear. induction (data v); cbn; congruence.
      + unfold momenta, flat in *. cbn [map concat fresh entries]. rewrite I6, app_length, repeat_app. f_equal.
        rewrite map_map. cbn. clear. induction (data v); cbn; congruence. }
  destruct CK as (CK & FV & MV & PV).
  apply (follows_path (sghmc_entry al s) eps variate reserve target sizes U G HT) in HD; [|exact HY|apply CK].
  fold E in HD. unfold visited. set (pts := points E rs) in *. clearbody pts. clear HY HU. clearbody ps0. clear rs E B bg us b0 s1 e0 visited.
  set (n := list_sum sizes) in *.
  destruct (path_states eps variate reserve sizes G burn (sghmc_entry al s) pts 0 ps0 HD) as (Q & Q0 & QS). cbn [Nat.add] in QS.
  assert (CL : forall k, (k <= length pts)%nat -> clock reserve sizes (map op_key ops) k (Q k)).
  { induction k as [|k IH]; intros Hk; [now rewrite Q0|].
    destruct (nth_error pts k) as [x|] eqn:Ex; [|apply nth_error_None in Ex; lia].
    destruct (QS k x Ex) as (gss & R1 & R2 & R3 & R4). eapply (clock_moves _ variate); [apply IH; lia|exact R1|exact R3]. }
  assert (SL : forall k, (k <= length pts)%nat -> length (flat (map value (Q k))) = n).
  { intros k Hk. rewrite sizes_flat. destruct (CL k Hk) as (-> & _). reflexivity. }
  assert (VQ : forall k, (k <= length pts)%nat -> nth k (flat params :: pts) [] = flat (map value (Q k))).
  { intros [|k] Hk; [now rewrite Q0, FV|]. cbn [nth]. destruct (nth_error pts k) as [x|] eqn:Ex; [|apply nth_error_None in Ex; lia].
    destruct (QS k x Ex) as (_ & _ & _ & _ & Ex2). rewrite <- Ex2. now apply nth_error_nth. }
  (* one step *)
  assert (ST : forall k, (k < length pts)%nat ->
     let b := adapts (burn_in_plan burn) k in
     let kicks := jolts (spread al s eps) (masses b (Q k)) (normals variate reserve (map op_key ops) sizes k) in
     let pushed := push al (eps ^ 2) (masses b (Q k)) (G (flat (map value (Q k)))) (momenta (Q k)) in
     length (normals variate reserve (map op_key ops) sizes k) = n /\ length pushed = n /\ length kicks = n /\
     momenta (Q (S k)) = plus pushed kicks /\ flat (map value (Q (S k))) = plus (plus (flat (map value (Q k))) pushed) kicks /\
     masses false (Q (S k)) = masses b (Q k)).
  { intros k Hk b. destruct (nth_error pts k) as [x|] eqn:Ex; [|apply nth_error_None in Ex; lia].
    destruct (QS k x Ex) as (gss & R1 & R2 & R3 & R4). fold b in R3.
    destruct (moves_momentum al s variate reserve eps b gss (Q k)) as (q2 & F1 & F2 & F3 & F4 & F5 & _).
    { destruct (CL k ltac:(lia)) as (H1 & _). congruence. }
    assert (q2 = Q (S k)) by congruence. subst q2. cbv zeta in F2, F3.
    rewrite (clock_noise variate reserve sizes _ _ _ (CL k ltac:(lia))), R2 in F2, F3. 
    assert (LNN : length (normals variate reserve (map op_key ops) sizes k) = n).
    { rewrite <- (clock_noise variate reserve sizes _ _ _ (CL k ltac:(lia))), noises_length. apply SL. lia. }
    assert (LM : length (masses b (Q k)) = n) by (rewrite flat_length; apply SL; lia).
    assert (LG : length (G (flat (map value (Q k)))) = n) by (apply (computes_length sizes target U); [exact HT|apply SL; lia]).
    assert (LP : length (momenta (Q k)) = n) by (rewrite momenta_length; apply SL; lia).
    split; [exact LNN|]. split; [rewrite push_length; congruence|]. split; [rewrite jolts_length; congruence|].
    split; [exact F2|]. split; [exact F3|exact F4]. }
  assert (MO : forall k, (k <= length pts)%nat -> momenta (Q k) = minus (nth k (flat params :: pts) []) (nth (pred k) (flat params :: pts) [])).
  { intros [|k] Hk; [cbn [pred nth]; now rewrite minus_self, Q0|]. cbn [pred].
    rewrite !VQ by lia. destruct (ST k ltac:(lia)) as (_ & T1 & T2 & T3 & T4 & _). rewrite T4, minus_plus; [exact T3| |]; rewrite SL by lia; assumption. }
  set (bn := Z.to_nat burn).
  assert (AF : forall k, (bn <= k)%nat -> adapts (burn_in_plan burn) k = false).
  { intros k Hk. cbn [adapts burn_in_plan]. apply orb_false_iff. split; [apply Z.ltb_ge; lia|apply Z.leb_gt; lia]. }
  destruct (le_lt_dec bn (length pts)) as [Hbn|Hbn].
  2:{ exists (repeat (inverse_mass 1) n). split; [apply repeat_length|]. pose proof inverse_mass_1.
      split; [apply Forall_forall; intros m Hm; apply repeat_spec in Hm; lra|]. split; [auto|].
      split; [intros k Hk; rewrite VQ by exact Hk; now apply SL|].
      intros k Hk. split; [now apply (ST k Hk)|]. intros Hk2. exfalso. lia. }
  assert (exists b1, bn = S b1) as [b1 Eb] by (exists (bn - 1)%nat; unfold bn; lia).
  exists (masses false (Q bn)). split; [rewrite flat_length; now apply SL|].
  assert (MF : forall k, (bn <= k <= length pts)%nat -> masses false (Q k) = masses false (Q bn)).
  { intros k [H1 H2]. revert H2. induction H1 as [|k H1 IH]; intros H2; auto. rewrite <- IH by lia.
    destruct (ST k ltac:(lia)) as (_ & _ & _ & _ & _ & ->). now rewrite AF. }
  assert (MT : masses false (Q bn) = masses true (Q b1)).
  { rewrite Eb. destruct (ST b1 ltac:(lia)) as (_ & _ & _ & _ & _ & ->).
    replace (adapts (burn_in_plan burn) b1) with true; auto. symmetry. cbn [adapts burn_in_plan].
    apply orb_true_iff. left. apply Z.ltb_lt. lia. }
  split; [rewrite MT; apply masses_adapting|].
  split. { intros E1. assert (b1 = 0%nat) by (unfold bn in Eb; lia). rewrite MT, H, Q0, MV. f_equal. rewrite <- FV, <- Q0. apply SL. lia. }
  split; [intros k Hk; rewrite VQ by exact Hk; now apply SL|].
  intros k Hk. destruct (ST k Hk) as (T0 & T1 & T2 & T3 & T4 & T5). split; [exact T0|]. intros Hk2.
  rewrite <- MO by lia. rewrite !VQ by lia. rewrite T4.
  replace (masses false (Q bn)) with (masses (adapts (burn_in_plan burn) k) (Q k)); [reflexivity|].
  rewrite <- T5. apply MF. unfold bn. lia.
Qed.

Lemma seeded_keys : forall gseed sd ids entropy ids' entropy' n,
  map op_key (noise_ops gseed (Some sd) ids entropy n) = map op_key (noise_ops gseed (Some sd) ids' entropy' n).
Proof. intros. unfold noise_ops. rewrite !map_map. apply map_ext. intros i. destruct gseed; reflexivity. Qed.

(** Two complete seeded runs of SGHMC with one step of burn-in and a constant stepsize, from any two starts: whatever
    the noise, the distance between their k-th samples shrinks geometrically. *)
Theorem C98_sghmc_forgets_its_start :
  forall variate reserve al s target U G mu L eps B bg us rs s1 b0 e0 params B' bg' us' rs' s1' b0' e0' params' gseed sd ids entropy ids' entropy',
  let sizes := map (fun v => length (data v)) params in
  computes sizes target U G -> strongly_convex (list_sum sizes) mu U G -> lipschitz (list_sum sizes) L G ->
  map (fun v => length (data v)) params' = sizes ->
  0 < mu -> 0 < L -> 0 < s -> 0 < al <= 1 -> eps <> 0 -> let h := eps ^ 2 * inverse_mass 1 in h * L <= al ^ 2 / 10 ->
  Forall no_fed_mass us -> Forall no_fed_mass us' ->
  let sc := constant_schedule (tensor R) (sample (tensor R) * tensor R) in
  let E := sampler_env variate reserve (kernel_of (Sghmc (Config al s))) target B bg sc in
  let E' := sampler_env variate reserve (kernel_of (Sghmc (Config al s))) target B' bg' sc in
  drive E (burnin_next E 1 (length params)) us (initial_state E b0 (number eps)
     (session_of (Sghmc (Config al s)) e0 params (noise_ops gseed (Some sd) ids entropy (length params)))) = (rs, s1) ->
  drive E' (burnin_next E' 1 (length params')) us' (initial_state E' b0' (number eps)
     (session_of (Sghmc (Config al s)) e0' params' (noise_ops gseed (Some sd) ids' entropy' (length params')))) = (rs', s1') ->
  forall k x y, nth_error (points E rs) k = Some x -> nth_error (points E' rs') k = Some y ->
  dist2 x y <= 2 * (1 - h * mu / (2 * al)) ^ S k * dist2 (flat params) (flat params').
Proof.
  intros variate reserve al s target U G mu L eps B bg us rs s1 b0 e0 params B' bg' us' rs' s1' b0' e0' params' gseed sd ids entropy ids' entropy'
    sizes HT HC HL HS' Hmu HLp Hs Hal Heps h Hb HU HU' sc E E' HD HD' k x y Hx Hy.
  assert (HT' : computes (map (fun v => length (data v)) params') target U G) by (rewrite HS'; exact HT).
  apply (momentum_recursion variate reserve al s target U G eps 1) in HD; [|exact HT|exact Hs|lia|exact HU].
  apply (momentum_recursion variate reserve al s target U G eps 1) in HD'; [|exact HT'|exact Hs|lia|exact HU'].
  fold sizes in HD. rewrite HS' in HD'. fold sc E in HD. fold sc E' in HD'.
  destruct HD as (ms & M1 & M2 & M3 & M4 & M5). destruct HD' as (ms' & M1' & _ & M3' & M4' & M5').
  specialize (M3 eq_refl). specialize (M3' eq_refl). rewrite <- M3 in M3'. subst ms'.
  assert (LP : length params' = length params) by (rewrite <- (map_length (fun v => length (data v)) params'), HS'; apply map_length).
  rewrite LP in M5'. rewrite (seeded_keys gseed sd ids' entropy' ids entropy) in M5'.
  set (X := fun j => nth j (flat params :: points E rs) []) in *. set (Y := fun j => nth j (flat params' :: points E' rs') []) in *.
  assert (KX : (k < length (points E rs))%nat) by (apply nth_error_Some; congruence).
  assert (KY : (k < length (points E' rs'))%nat) by (apply nth_error_Some; congruence).
  assert (EX : x = X (S k)) by (unfold X; cbn [nth]; symmetry; now apply nth_error_nth).
  assert (EY : y = Y (S k)) by (unfold Y; cbn [nth]; symmetry; now apply nth_error_nth).
  set (n := list_sum sizes) in *. set (m := inverse_mass 1) in *. pose proof inverse_mass_1 as Hm. fold m in Hm.
  assert (HG : forall z, length z = n -> length (G z) = n) by (now apply (computes_length sizes target U)).
  assert (MM : Forall (fun q => q = m) ms) by (rewrite M3; apply Forall_forall; intros q Hq; now apply repeat_spec in Hq).
  assert (MB : Forall (fun q => m <= q <= m) ms) by (eapply Forall_impl; [|exact MM]; cbn; intros; lra).
  assert (H0 : 0 < eps ^ 2) by (rewrite <- Rsqr_pow2; now apply Rsqr_pos_lt).
  set (vx := fun j => minus (X j) (X (pred j))). set (vy := fun j => minus (Y j) (Y (pred j))).
  assert (LX : forall j, (j <= S k)%nat -> length (X j) = n) by (intros; apply M4; lia).
  assert (LY : forall j, (j <= S k)%nat -> length (Y j) = n) by (intros; apply M4'; lia).
  assert (LVX : forall j, (j <= S k)%nat -> length (vx j) = n) by (intros j Hj; unfold vx; rewrite minus_length; rewrite !LX by lia; auto).
  assert (LVY : forall j, (j <= S k)%nat -> length (vy j) = n) by (intros j Hj; unfold vy; rewrite minus_length; rewrite !LY by lia; auto).
  assert (RHO : 0 <= decay al (eps ^ 2) m mu \/ n = 0%nat).
  { destruct (Nat.eq_dec n 0) as [|Hn]; [now right|left]. pose proof (mu_le_L n mu L U G HC HL HG HLp ltac:(lia)) as ML. unfold decay.
    assert (Q : eps ^ 2 * mu * m <= h * L) by (unfold h; rewrite !Rmult_assoc; apply Rmult_le_compat_l; [lra|]; rewrite Rmult_comm; apply Rmult_le_compat_l; lra).
    assert (eps ^ 2 * mu * m / (2 * al) <= al ^ 2 / 10 / (2 * al)) by (apply Rmult_le_compat_r; [apply Rlt_le, Rinv_0_lt_compat; lra|lra]).
    replace (al ^ 2 / 10 / (2 * al)) with (al / 20) in H by (field; lra). lra. }
  assert (EN : forall j, (j <= S k)%nat -> energy al ms (vx j) (X j) (vy j) (Y j) <= decay al (eps ^ 2) m mu ^ j * energy al ms (vx O) (X O) (vy O) (Y O)).
  { induction j as [|j IH]; intros Hj; [cbn [pow]; lra|]. specialize (IH ltac:(lia)).
    destruct (M5 j ltac:(lia)) as (N1 & N2). destruct (M5' j ltac:(lia)) as (N1' & N2'). specialize (N2 ltac:(lia)). specialize (N2' ltac:(lia)).
    set (ks := jolts (spread al s eps) ms (normals variate reserve (map op_key (noise_ops gseed (Some sd) ids entropy (length params))) sizes j)) in *.
    assert (LK : length ks = n) by (unfold ks; rewrite jolts_length; congruence).
    change (X (S j) = plus (plus (X j) (push al (eps ^ 2) ms (G (X j)) (vx j))) ks) in N2.
    change (Y (S j) = plus (plus (Y j) (push al (eps ^ 2) ms (G (Y j)) (vy j))) ks) in N2'.
    set (px := push al (eps ^ 2) ms (G (X j)) (vx j)) in *. set (py := push al (eps ^ 2) ms (G (Y j)) (vy j)) in *.
    assert (LPX : length px = n) by (unfold px; rewrite push_length; rewrite ?HG by (apply LX; lia); rewrite ?LVX by lia; auto).
    assert (LPY : length py = n) by (unfold py; rewrite push_length; rewrite ?HG by (apply LY; lia); rewrite ?LVY by lia; auto).
    assert (VX : vx (S j) = plus px ks) by (unfold vx; cbn [pred]; rewrite N2; apply minus_plus; rewrite LX by lia; assumption).
    assert (VY : vy (S j) = plus py ks) by (unfold vy; cbn [pred]; rewrite N2'; apply minus_plus; rewrite LY by lia; assumption).
    rewrite VX, VY, N2, N2'.
    assert (LXX : length (plus (X j) px) = n) by (rewrite plus_length; rewrite LX by lia; auto).
    assert (LYY : length (plus (Y j) py) = n) by (rewrite plus_length; rewrite LY by lia; auto).
    rewrite energy_same by congruence.
    pose proof (energy_contracts al Hal n (eps ^ 2) m m mu L U G ms (vx j) (X j) (vy j) (Y j) HC HL HG Hmu HLp Hm MB H0 ltac:(exact Hb) M1
      (LVX j ltac:(lia)) (LX j ltac:(lia)) (LVY j ltac:(lia)) (LY j ltac:(lia))) as C. fold px py in C.
    destruct RHO as [RHO|RHO].
    - apply Rle_trans with (1 := C). cbn [pow]. rewrite Rmult_assoc. now apply Rmult_le_compat_l.
    - assert (ms = []) by (destruct ms; [auto|cbn in M1; lia]). rewrite H. cbn [energy]. lra. }
  specialize (EN (S k) (le_n _)). rewrite EX, EY.
  assert (E0 : energy al ms (vx O) (X O) (vy O) (Y O) = scaled_dist2 ms (X O) (Y O)).
  { unfold vx, vy. cbn [pred]. rewrite !minus_self. rewrite LX, LY by lia. apply energy_rest; auto; rewrite ?repeat_length, ?LX, ?LY by lia; auto. }
  rewrite E0 in EN.
  pose proof (energy_lower al Hal ms (vx (S k)) (X (S k)) (vy (S k)) (Y (S k)) M2 ltac:(rewrite LVX; auto) ltac:(rewrite LX; auto) ltac:(rewrite LVY; auto) ltac:(rewrite LY; auto)) as EL.
  rewrite (scaled_const m) in EL, EN by (auto; rewrite LX by lia; auto).
  change (flat params) with (X O). change (flat params') with (Y O).
  replace (1 - h * mu / (2 * al)) with (decay al (eps ^ 2) m mu) by (unfold decay, h; field; lra).
  apply Rmult_le_reg_r with (/ m); [now apply Rinv_0_lt_compat|]. unfold Rdiv in EL, EN. lra.
Qed.

Lemma scaled_upper : forall lo hi ms xs ys, 0 < lo -> Forall (fun m => lo <= m <= hi) ms -> length xs = length ms ->
  dist2 xs ys <= hi * scaled_dist2 ms xs ys.
Proof.
  intros lo hi ms xs ys Hlo HM. revert xs ys. induction HM as [|m ms [B1 B2] _ IH]; intros [|a x] [|c z] HL; cbn [dist2 scaled_dist2]; try discriminate HL; try lra.
  injection HL as HL. specialize (IH x z HL). rewrite Rmult_plus_distr_l.
  assert ((a - c) ^ 2 <= hi * ((a - c) ^ 2 / m)); [|lra].
  replace (hi * ((a - c) ^ 2 / m)) with ((a - c) ^ 2 * (hi / m)) by (field; lra). rewrite <- (Rmult_1_r ((a - c) ^ 2)) at 1.
  apply Rmult_le_compat_l; [apply pow2_ge_0|]. apply Rmult_le_reg_r with m; [lra|]. unfold Rdiv. rewrite Rmult_assoc, Rinv_l by lra. lra.
Qed.

(** Every complete run of SGHMC with burn-in: with the masses [ms] its burn-in ends with, the energy of the last two
    samples shrinks by a fixed factor per call, up to the noise of that call; and it bounds the distance to the
    minimiser [z]. *)
Theorem C98_sghmc_returns_to_the_minimiser :
  forall variate reserve al s target U G mu L z eps burn B bg us rs s1 b0 e0 params gseed seed ids entropy,
  let sizes := map (fun v => length (data v)) params in
  computes sizes target U G -> strongly_convex (list_sum sizes) mu U G -> lipschitz (list_sum sizes) L G ->
  length z = list_sum sizes -> Forall (fun g => g = 0) (G z) ->
  0 < mu -> 0 < L -> 0 < s -> 0 < al <= 1 -> eps <> 0 -> (0 < burn)%Z -> Forall no_fed_mass us ->
  let E := sampler_env variate reserve (kernel_of (Sghmc (Config al s))) target B bg
             (constant_schedule (tensor R) (sample (tensor R) * tensor R)) in
  let ops := noise_ops gseed seed ids entropy (length params) in
  drive E (burnin_next E burn (length params)) us (initial_state E b0 (number eps)
     (session_of (Sghmc (Config al s)) e0 params ops)) = (rs, s1) ->
  exists ms, length ms = list_sum sizes /\ Forall (fun m => 0 < m) ms /\
  forall lo hi, 0 < lo -> Forall (fun m => lo <= m <= hi) ms -> eps ^ 2 * hi * L <= al ^ 2 / 10 ->
  forall k x x' x'', (burn <= Z.of_nat (S (S k)))%Z ->
  nth_error (points E rs) k = Some x -> nth_error (points E rs) (S k) = Some x' -> nth_error (points E rs) (S (S k)) = Some x'' ->
  sqrt (restless al ms x' x'' z) <=
    sqrt (1 - eps ^ 2 * mu * lo / (2 * al)) * sqrt (restless al ms x x' z) +
    sqrt (2 / al ^ 2 * (2 * eps ^ 2 * al / s + / 10000000000000000 / lo) * sum_squares (normals variate reserve (map op_key ops) sizes (S (S k)))) /\
  dist2 x'' z <= 2 * hi * restless al ms x' x'' z.
Proof.
  intros variate reserve al s target U G mu L z eps burn B bg us rs s1 b0 e0 params gseed seed ids entropy sizes HT HC HL Hz Hgz Hmu HLp Hs Hal Heps Hburn HU E ops HD.
  apply (momentum_recursion variate reserve al s target U G eps burn) in HD; [|exact HT|exact Hs|exact Hburn|exact HU].
  fold sizes ops E in HD. destruct HD as (ms & M1 & M2 & _ & M4 & M5). exists ms. split; [exact M1|]. split; [exact M2|].
  intros lo hi Hlo HM Hb k x x' x'' Hk Hx Hx' Hx''.
  set (X := fun j => nth j (flat params :: points E rs) []) in *.
  assert (KX : (S (S k) < length (points E rs))%nat) by (apply nth_error_Some; congruence).
  assert (EX : x = X (S k)) by (unfold X; cbn [nth]; symmetry; now apply nth_error_nth).
  assert (EX' : x' = X (S (S k))) by (unfold X; cbn [nth]; symmetry; now apply nth_error_nth).
  assert (EX'' : x'' = X (S (S (S k)))) by (unfold X; cbn [nth]; symmetry; now apply nth_error_nth).
  set (n := list_sum sizes) in *.
  assert (HG : forall z, length z = n -> length (G z) = n) by (now apply (computes_length sizes target U)).
  assert (H0 : 0 < eps ^ 2) by (rewrite <- Rsqr_pow2; now apply Rsqr_pos_lt).
  destruct (M5 (S (S k)) KX) as (N1 & N2). specialize (N2 ltac:(lia)). cbn [pred] in N2.
  assert (LX : forall j, (j <= S (S (S k)))%nat -> length (X j) = n) by (intros; apply M4; lia).
  change (X (S (S (S k))) = plus (plus (X (S (S k))) (push al (eps ^ 2) ms (G (X (S (S k)))) (minus (X (S (S k))) (X (S k)))))
    (jolts (spread al s eps) ms (normals variate reserve (map op_key ops) sizes (S (S k))))) in N2.
  rewrite <- EX, <- EX', <- EX'' in N2.
  assert (L1 : length x = n) by (rewrite EX; apply LX; lia). assert (L2 : length x' = n) by (rewrite EX'; apply LX; lia). assert (L3 : length x'' = n) by (rewrite EX''; apply LX; lia).
  set (xis := normals variate reserve (map op_key ops) sizes (S (S k))) in *.
  set (ks := jolts (spread al s eps) ms xis) in *.
  assert (LK : length ks = n) by (unfold ks; rewrite jolts_length; congruence).
  assert (LV : length (minus x' x) = n) by (rewrite minus_length; congruence).
  set (px := push al (eps ^ 2) ms (G x') (minus x' x)) in *.
  assert (LPX : length px = n) by (unfold px; rewrite push_length; rewrite ?HG; congruence).
  assert (VX : minus x'' x' = plus px ks) by (rewrite N2; apply minus_plus; congruence).
  assert (LXX : length (plus x' px) = n) by (rewrite plus_length; congruence).
  rewrite !restless_energy by congruence. rewrite M1. rewrite VX. 
  assert (HZ : length (repeat 0 n) = n) by apply repeat_length.
  split.
  - rewrite N2. eapply Rle_trans; [apply energy_kick; auto; congruence|]. apply Rplus_le_compat.
    + pose proof (energy_contracts al Hal n (eps ^ 2) lo hi mu L U G ms (minus x' x) x' (repeat 0 n) z HC HL HG Hmu HLp Hlo HM H0 Hb M1 LV L2 HZ Hz) as C.
      rewrite (push_rest al (eps ^ 2) ms (G z) n M1 ltac:(rewrite HG; congruence) Hgz) in C.
      assert (PR : plus z (repeat 0 n) = z) by (rewrite <- Hz; apply plus_rest). rewrite PR in C. fold px in C.
      fold (decay al (eps ^ 2) lo mu).
      assert (P0 : 0 <= energy al ms (minus x' x) x' (repeat 0 n) z) by (now apply energy_pos).
      destruct (Rle_or_lt 0 (decay al (eps ^ 2) lo mu)) as [F|F].
      * rewrite <- sqrt_mult by assumption. now apply sqrt_le_1_alt.
      * assert (P1 : 0 <= energy al ms px (plus x' px) (repeat 0 n) z) by (now apply energy_pos).
        assert (H : energy al ms px (plus x' px) (repeat 0 n) z = 0) by nra. rewrite H, sqrt_0. apply Rmult_le_pos; apply sqrt_pos.
    + apply sqrt_le_1_alt. rewrite Rmult_assoc. apply Rmult_le_compat_l; [apply Rlt_le, Rdiv_lt_0_compat; [lra|apply pow_lt; lra]|].
      apply weighted_bound; try lra; [|congruence]. eapply Forall_impl; [|exact HM]. cbn. intros; lra.
  - pose proof (energy_lower al Hal ms (plus px ks) x'' (repeat 0 n) z M2 ltac:(rewrite plus_length; congruence) ltac:(congruence) ltac:(congruence) ltac:(congruence)) as EL.
    assert (SU : dist2 x'' z <= hi * scaled_dist2 ms x'' z).
    { apply (scaled_upper lo); [exact Hlo|exact HM|congruence]. }
    destruct ms as [|m ms].
    { cbn in M1. rewrite <- M1 in *. destruct x'' as [|? ?]; [|discriminate L3]. cbn [dist2 energy]. lra. }
    assert (0 < hi) by (inversion HM; subst; lra). apply (Rmult_le_compat_l hi) in EL; [|lra]. lra.
Qed.

(** Complete runs over random streams of normals, one step of burn-in, constant stepsize: the mean squared distance of
    the samples to the minimiser approaches its bound geometrically. *)
Theorem C98_sghmc_mean_square :
  forall O (P : expectation O) (stream : O -> Z * Z -> nat -> R) reserve al s target U G mu L z eps B bg us b0 e0 params gseed seed ids entropy N,
  let sizes := map (fun v => length (data v)) params in let n := list_sum sizes in
  computes sizes target U G -> strongly_convex n mu U G -> lipschitz n L G ->
  length z = n -> Forall (fun g => g = 0) (G z) ->
  0 < mu -> 0 < L -> 0 < s -> 0 < al <= 1 -> eps <> 0 ->
  let m := inverse_mass 1 in eps ^ 2 * m * L <= al ^ 2 / 10 -> Forall no_fed_mass us ->
  let E w := sampler_env (stream w) reserve (kernel_of (Sghmc (Config al s))) target B bg
             (constant_schedule (tensor R) (sample (tensor R) * tensor R)) in
  let ops := noise_ops gseed seed ids entropy (length params) in
  let run w := fst (drive (E w) (burnin_next (E w) 1 (length params)) us (initial_state (E w) b0 (number eps)
     (session_of (Sghmc (Config al s)) e0 params ops))) in
  (forall w, length (points (E w) (run w)) = N) ->
  let visited k w := nth k (flat params :: points (E w) (run w)) [] in
  let xi k w := normals (stream w) reserve (map op_key ops) sizes k in
  (forall f, (forall w, 0 <= f w) -> 0 <= ex P f) ->
  (forall k i, (k < N)%nat -> (i < n)%nat -> ex P (fun w => nth i (xi k w) 0 ^ 2) = 1) ->
  (forall k i (phi : list R -> list R -> R), (k < N)%nat -> (i < n)%nat ->
     ex P (fun w => phi (visited k w) (visited (pred k) w) * nth i (xi k w) 0) = 0) ->
  let bound := 16 * INR n / (s * mu) + 8 * INR n / (10000000000000000 * (al * eps ^ 2 * mu * m)) in
  forall k, (k <= N)%nat ->
  ex P (fun w => dist2 (visited k w) z) - bound <=
    (1 - eps ^ 2 * m * mu / (2 * al)) ^ k * (2 * dist2 (flat params) z - bound).
Proof.
  intros O P stream reserve al s target U G mu L z eps B bg us b0 e0 params gseed seed ids entropy N sizes n HT HC HL Hz Hgz Hmu HLp Hs Hal Heps m Hb HU E ops run HN visited xi HP HV HX bound k Hk.
  assert (HG : forall x, length x = n -> length (G x) = n) by (now apply (computes_length sizes target U)).
  pose proof inverse_mass_1 as Hm. fold m in Hm.
  assert (H0 : 0 < eps ^ 2) by (rewrite <- Rsqr_pow2; now apply Rsqr_pos_lt).
  assert (REC : forall w, (forall t, (t <= N)%nat -> length (visited t w) = n) /\ forall t, (t < N)%nat -> length (xi t w) = n /\
     visited (S t) w = plus (plus (visited t w) (push al (eps ^ 2) (repeat m n) (G (visited t w)) (minus (visited t w) (visited (pred t) w)))) (jolts (spread al s eps) (repeat m n) (xi t w))).
  { intros w. pose proof (HN w) as HNw. unfold visited, run in *.
    destruct (drive (E w) (burnin_next (E w) 1 (length params)) us _) as [rs s1] eqn:HD. cbn [fst] in *.
    destruct (momentum_recursion (stream w) reserve al s target U G eps 1 B bg us rs s1 b0 e0 params gseed seed ids entropy HT Hs ltac:(lia) HU HD) as (ms & M1 & _ & M3 & M4 & M5).
    specialize (M3 eq_refl). fold sizes n m in M3. subst ms. fold (E w) in M4, M5. fold sizes n ops in M4, M5. rewrite HNw in M4, M5.
    split; [exact M4|]. intros t Ht. destruct (M5 t Ht) as (N1 & N2). split; [exact N1|]. apply N2. lia. }
  assert (MM : Forall (fun q => q = m) (repeat m n)) by (apply Forall_forall; intros q Hq; now apply repeat_spec in Hq).
  assert (MP : Forall (fun q => 0 < q) (repeat m n)) by (eapply Forall_impl; [|exact MM]; cbn; intros; lra).
  assert (M := mom_bound P HP al s eps n m m mu L U G (repeat m n) z Hal Hs HC HL HG Hmu HLp Hm ltac:(eapply Forall_impl; [|exact MM]; cbn; intros; lra) H0 Hb
    (repeat_length _ _) Hz Hgz N visited xi (fun w => proj1 (REC w) 0%nat ltac:(lia)) (fun t w Ht => proj1 (proj2 (REC w) t Ht))
    (fun t w Ht => proj2 (proj2 (REC w) t Ht)) HV HX k Hk).
  set (vel := fun t w => minus (visited t w) (visited (pred t) w)).
  set (Bd := 2 / al ^ 2 * (INR n * (2 * eps ^ 2 * al / s + guard / m)) / (eps ^ 2 * mu * m / (2 * al))).
  change (ex P (fun w => energy al (repeat m n) (vel k w) (visited k w) (repeat 0 n) z) - Bd <=
    decay al (eps ^ 2) m mu ^ k * (ex P (fun w => energy al (repeat m n) (vel 0%nat w) (visited 0%nat w) (repeat 0 n) z) - Bd)) in M.
  assert (LV : forall t w, (t <= N)%nat -> length (vel t w) = n).
  { intros t w Ht. unfold vel. rewrite minus_length; rewrite !(proj1 (REC w)) by lia; auto. }
  assert (mono : forall f g, (forall w, f w <= g w) -> ex P f <= ex P g).
  { intros f g H. assert (Q : 0 <= ex P (fun w => g w + (-1) * f w)) by (apply HP; intros w; specialize (H w); lra).
    rewrite ex_add, (ex_scale P (-1)) in Q. lra. }
  assert (D1 : ex P (fun w => dist2 (visited k w) z) <= 2 * m * ex P (fun w => energy al (repeat m n) (vel k w) (visited k w) (repeat 0 n) z)).
  { rewrite <- ex_scale. apply mono. intros w.
    pose proof (energy_lower al Hal (repeat m n) (vel k w) (visited k w) (repeat 0 n) z MP ltac:(rewrite repeat_length; auto) ltac:(rewrite repeat_length; now apply (proj1 (REC w)))
      ltac:(now rewrite !repeat_length) ltac:(now rewrite repeat_length)) as EL.
    rewrite (scaled_const m) in EL by (auto; rewrite repeat_length; now apply (proj1 (REC w))).
    apply (Rmult_le_compat_l m) in EL; [|lra]. unfold Rdiv in EL. replace (m * (dist2 (visited k w) z * / m)) with (dist2 (visited k w) z) in EL by (field; lra). lra. }
  assert (E0 : ex P (fun w => energy al (repeat m n) (vel 0%nat w) (visited 0%nat w) (repeat 0 n) z) = dist2 (flat params) z / m).
  { rewrite (ex_ext P _ (fun w => dist2 (flat params) z / m * 1)).
    - rewrite (ex_scale P _ (fun _ => 1)), ex_one. ring.
    - intros w. unfold vel. cbn [pred]. rewrite minus_self. rewrite (proj1 (REC w)) by lia.
      rewrite energy_rest; auto; rewrite ?repeat_length; auto; [|now apply (proj1 (REC w)); lia].
      rewrite (scaled_const m); auto; [unfold visited; cbn [nth]; ring|]. rewrite repeat_length. apply (proj1 (REC w)). lia. }
  rewrite E0 in M.
  replace (1 - eps ^ 2 * m * mu / (2 * al)) with (decay al (eps ^ 2) m mu) by (unfold decay; field; lra).
  assert (EB : 2 * m * Bd = bound).
  { unfold Bd, bound, guard. field. repeat split; try lra; apply pow_nonzero; exact Heps || lra. }
  rewrite <- EB. apply (Rmult_le_compat_l (2 * m)) in M; [|lra].
  set (e := ex P (fun w => energy al (repeat m n) (vel k w) (visited k w) (repeat 0 n) z)) in *.
  replace (2 * m * (decay al (eps ^ 2) m mu ^ k * (dist2 (flat params) z / m - Bd)))
    with (decay al (eps ^ 2) m mu ^ k * (2 * dist2 (flat params) z - 2 * m * Bd)) in M by (field; lra).
  lra.
Qed.

(** *** Concrete cases: x^2 + x y + y^2, friction 1/2, stepsize 1/20 *)
Definition swing_env (variate : Z * Z -> nat -> R) :=
  sampler_env variate (fun n => n) (kernel_of (Sghmc (Config (1 / 2) 1))) bowl_target unit None
    (constant_schedule (tensor R) (sample (tensor R) * tensor R)).
Definition swing_drive (variate : Z * Z -> nat -> R) (burn : Z) (start : list R) (N : nat) :=
  (drive (swing_env variate) (burnin_next (swing_env variate) burn 1) (repeat None N)
    (initial_state (swing_env variate) tt (number (1 / 20))
       (session_of (Sghmc (Config (1 / 2) 1)) 0 [Tensor [2%nat] start] (noise_ops None (Some 7%Z) [0%nat] (fun _ => (0, 0)%Z) 1)))).
Definition swing_run (variate : Z * Z -> nat -> R) (burn : Z) (start : list R) (N : nat) := fst (swing_drive variate burn start N).
Lemma swing_length : forall variate burn x y N, length (points (swing_env variate) (swing_run variate burn [x; y] N)) = N.
Proof.
  intros variate burn x y N. unfold swing_run. destruct (swing_drive variate burn [x; y] N) as [rs s1] eqn:HD. cbn [fst].
  etransitivity; [|apply (repeat_length (@None (feed (tensor R))) N)].
  apply (all_succeed variate (fun n => n) (Sghmc (Config (1 / 2) 1)) bowl_target [2%nat] bowl bowl_gradient (1 / 20) burn (repeat None N) rs s1 tt 0 [Tensor [2%nat] [x; y]] None (Some 7%Z) [0%nat] (fun _ => (0, 0)%Z));
    [reflexivity|apply bowl_computes|cbn; lra|apply no_feeds|exact HD].
Qed.
Lemma swing_step : (1 / 20) ^ 2 * inverse_mass 1 * 3 <= (1 / 2) ^ 2 / 10.
Proof. pose proof bowl_step. lra. Qed.

(** Runs of every length from (3, -1) and (0, 5). *)
Example C98_example_start : forall variate N,
  let X := points (swing_env variate) (swing_run variate 1 [3; -1] N) in
  let Y := points (swing_env variate) (swing_run variate 1 [0; 5] N) in
  length X = N /\ length Y = N /\
  let h := (1 / 20) ^ 2 * inverse_mass 1 in
  forall k, (k < N)%nat -> dist2 (nth k X []) (nth k Y []) <= 2 * (1 - h * 1 / (2 * (1 / 2))) ^ S k * 45.
Proof.
  intros variate N X Y. split; [apply swing_length|]. split; [apply swing_length|]. intros h k Hk.
  pose proof (swing_length variate 1 3 (-1) N) as LX. pose proof (swing_length variate 1 0 5 N) as LY.
  replace 45 with (dist2 (flat [Tensor [2%nat] [3; -1]]) (flat [Tensor [2%nat] [0; 5]])) by (cbn; ring).
  unfold X, Y, swing_run in *. destruct (swing_drive variate 1 [3; -1] N) as [rs s1] eqn:HD.
  destruct (swing_drive variate 1 [0; 5] N) as [rs' s1'] eqn:HD'. cbn [fst] in *.
  apply (C98_sghmc_forgets_its_start variate (fun n => n) (1 / 2) 1 bowl_target bowl bowl_gradient 1 3 (1 / 20) unit None (repeat None N) rs s1 tt 0 [Tensor [2%nat] [3; -1]]
    unit None (repeat None N) rs' s1' tt 0 [Tensor [2%nat] [0; 5]] None 7%Z [0%nat] (fun _ => (0, 0)%Z) [0%nat] (fun _ => (0, 0)%Z)); auto using no_feeds, swing_step; try lra.
  - apply bowl_computes.
  - apply bowl_convex.
  - apply bowl_lipschitz.
  - apply nth_error_nth'. eapply Nat.lt_le_trans; [exact Hk|]. apply Nat.eq_le_incl. symmetry. exact LX.
  - apply nth_error_nth'. eapply Nat.lt_le_trans; [exact Hk|]. apply Nat.eq_le_incl. symmetry. exact LY.
Qed.

(** Runs of every length after three steps of burn-in. *)
Example C98_example_burn_in : forall variate N,
  exists ms, length ms = 2%nat /\ Forall (fun m => 0 < m) ms /\
  length (points (swing_env variate) (swing_run variate 3 [3; -1] N)) = N /\
  forall lo hi, 0 < lo -> Forall (fun m => lo <= m <= hi) ms -> (1 / 20) ^ 2 * hi * 3 <= (1 / 2) ^ 2 / 10 ->
  forall k, (3 <= S (S k) < N)%nat ->
  let x j := nth j (points (swing_env variate) (swing_run variate 3 [3; -1] N)) [] in
  sqrt (restless (1 / 2) ms (x (S k)) (x (S (S k))) [0; 0]) <=
    sqrt (1 - (1 / 20) ^ 2 * 1 * lo / (2 * (1 / 2))) * sqrt (restless (1 / 2) ms (x k) (x (S k)) [0; 0]) +
    sqrt (2 / (1 / 2) ^ 2 * (2 * (1 / 20) ^ 2 * (1 / 2) / 1 + / 10000000000000000 / lo) * sum_squares (normals variate (fun n => n) [(87654321, 7)%Z] [2%nat] (S (S k)))).
Proof.
  intros variate N. pose proof (swing_length variate 3 3 (-1) N) as LX.
  unfold swing_run in *. destruct (swing_drive variate 3 [3; -1] N) as [rs s1] eqn:HD. cbn [fst] in *.
  destruct (C98_sghmc_returns_to_the_minimiser variate (fun n => n) (1 / 2) 1 bowl_target bowl bowl_gradient 1 3 [0; 0] (1 / 20) 3 unit None (repeat None N) rs s1 tt 0 [Tensor [2%nat] [3; -1]]
    None (Some 7%Z) [0%nat] (fun _ => (0, 0)%Z)) as (ms & M1 & M2 & M3); auto using no_feeds; try lra; try lia.
  - apply bowl_computes.
  - apply bowl_convex.
  - apply bowl_lipschitz.
  - cbn. repeat constructor; lra.
  - exists ms. split; [exact M1|]. split; [exact M2|]. split; [exact LX|]. intros lo hi Hlo HM Hb k Hk.
    apply (M3 lo hi Hlo HM Hb k); [lia| | |]; apply nth_error_nth'; (eapply Nat.lt_le_trans; [|apply Nat.eq_le_incl; symmetry; exact LX]); lia.
Qed.

(** Normals replaced by independent fair signs (two per call): all hypotheses of the mean square bound hold, for every
    length of the run. *)
Example C98_example_mean : forall N,
  let stream w (_ : Z * Z) p := draw p w in
  let x k w := nth k ([3; -1] :: points (swing_env (stream w)) (swing_run (stream w) 1 [3; -1] N)) [] in
  let m := inverse_mass 1 in
  let bound := 16 * INR 2 / (1 * 1) + 8 * INR 2 / (10000000000000000 * (1 / 2 * (1 / 20) ^ 2 * 1 * m)) in
  forall k, (k <= N)%nat ->
  ex (fair (2 * N)) (fun w => dist2 (x k w) [0; 0]) - bound <= (1 - (1 / 20) ^ 2 * m * 1 / (2 * (1 / 2))) ^ k * (2 * 10 - bound).
Proof.
  intros N stream x m bound k Hk.
  assert (XI : forall w j i, (i < 2)%nat -> nth i (normals (stream w) (fun n => n) [(87654321, 7)%Z] [2%nat] j) 0 = draw (j * 2 + i) w).
  { intros w j [|[|i]] Hi; try lia; reflexivity. }
  assert (REC : forall w j, (j < N)%nat -> x (S j) w =
     plus (plus (x j w) (push (1 / 2) ((1 / 20) ^ 2) (repeat m 2) (bowl_gradient (x j w)) (minus (x j w) (x (pred j) w))))
       (jolts (spread (1 / 2) 1 (1 / 20)) (repeat m 2) [draw (j * 2 + 0) w; draw (j * 2 + 1) w])).
  { intros w j Hj. pose proof (swing_length (stream w) 1 3 (-1) N) as LX. unfold x, swing_run in *.
    destruct (swing_drive (stream w) 1 [3; -1] N) as [rs s1] eqn:HD. cbn [fst] in *.
    destruct (momentum_recursion (stream w) (fun n => n) (1 / 2) 1 bowl_target bowl bowl_gradient (1 / 20) 1 unit None (repeat None N) rs s1 tt 0 [Tensor [2%nat] [3; -1]]
      None (Some 7%Z) [0%nat] (fun _ => (0, 0)%Z)) as (ms & _ & _ & M3 & _ & M5); [apply bowl_computes|lra|lia|apply no_feeds|exact HD|].
    specialize (M3 eq_refl). subst ms. apply M5; [|lia].
    eapply Nat.lt_le_trans; [exact Hj|apply Nat.eq_le_incl; symmetry; exact LX]. }
  assert (DEC : forall j, (j <= N)%nat -> forall w w', (forall i, (i < j * 2)%nat -> w i = w' i) -> x j w = x j w' /\ x (pred j) w = x (pred j) w').
  { induction j as [|j IH]; intros Hj w w' Hw; [split; reflexivity|]. destruct (IH ltac:(lia) w w') as [I1 I2]; [intros; apply Hw; lia|].
    split; [|exact I1]. rewrite !REC by lia. rewrite I1, I2. unfold draw. now rewrite !Hw by lia. }
  replace 10 with (dist2 (flat [Tensor [2%nat] [3; -1]]) [0; 0]) by (cbn; ring).
  apply (C98_sghmc_mean_square (nat -> bool) (fair (2 * N)) stream (fun n => n) (1 / 2) 1 bowl_target bowl bowl_gradient 1 3 [0; 0] (1 / 20) unit None (repeat None N) tt 0 [Tensor [2%nat] [3; -1]]
    None (Some 7%Z) [0%nat] (fun _ => (0, 0)%Z) N); auto using no_feeds, swing_step; try lra.
  - apply bowl_computes.
  - apply bowl_convex.
  - apply bowl_lipschitz.
  - cbn. repeat constructor; lra.
  - intros w. apply (swing_length (stream w) 1 3 (-1) N).
  - apply fair_positive.
  - intros j i Hj Hi. etransitivity; [|apply (fair_var (2 * N) (j * 2 + i))]. apply ex_ext. intros w. f_equal. exact (XI w j i Hi).
  - intros j i phi Hj Hi. etransitivity; [|apply (fair_next (2 * N) (j * 2 + i) (fun w => phi (x j w) (x (pred j) w)))].
    + apply ex_ext. intros w. f_equal. exact (XI w j i Hi).
    + cbn in Hi. lia.
    + intros w w' Hw. destruct (DEC j ltac:(lia) w w') as [-> ->]; [intros; apply Hw; lia|reflexivity].
Qed.

Print Assumptions C98_sghmc_forgets_its_start.
Print Assumptions C98_sghmc_returns_to_the_minimiser.
Print Assumptions C98_sghmc_mean_square.
