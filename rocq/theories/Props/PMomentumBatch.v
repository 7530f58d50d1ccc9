(** C113: SGHMC with minibatch gradients. *)
From Coq Require Import List Arith Lia ZArith Bool Reals Lra Psatz.
From Verif.Base Require Import Py Num Vec Lists.
From Verif.Model Require Import DataBatches BNN TensorUtils BurnIn SGLD SGHMC Stepsize BaseClasses Session.
From Verif.Spec Require Import Batches Sampler Dynamics Trajectory Chain Convex.
From Verif.Proofs Require Import Sampler SamplerHistory Dynamics Convex Momentum.
From Verif.Props Require Import PBatches PSampler PSession PChain PErgodic PConvex PMinibatch PMomentum.
Import ListNotations.
Local Open Scope R_scope.

(** A complete run with burn-in, in terms of the points it visits: from the last step of the burn-in on, all masses are
    fixed; the momentum is the difference of the last two points. *)
Lemma rough_momentum :
  forall variate reserve al s target batches delta G eps burn B nx us rs s1 b0 e0 params gseed seed ids entropy,
  let sizes := map (fun v => length (data v)) params in
  (forall z, length z = list_sum sizes -> length (G z) = list_sum sizes) -> estimates sizes target batches G delta -> 0 < s -> (0 < burn)%Z -> Forall no_fed_mass us ->
  let E := sampler_env variate reserve (kernel_of (Sghmc (Config al s))) target B (Some nx)
             (constant_schedule (tensor R) (sample (tensor R) * tensor R)) in
  let ops := noise_ops gseed seed ids entropy (length params) in
  drive E (burnin_next E burn (length params)) us (initial_state E b0 (number eps)
     (session_of (Sghmc (Config al s)) e0 params ops)) = (rs, s1) ->
  given_batches batches E rs ->
  let visited k := nth k (flat params :: points E rs) [] in
  exists ms, length ms = list_sum sizes /\ Forall (fun m => 0 < m) ms /\
  (burn = 1%Z -> ms = repeat (inverse_mass 1) (list_sum sizes)) /\
  (forall k, (k <= length (points E rs))%nat -> length (visited k) = list_sum sizes) /\
  forall k, (k < length (points E rs))%nat -> 
    length (normals variate reserve (map op_key ops) sizes k) = list_sum sizes /\
    ((burn <= Z.of_nat (S k))%Z ->
     exists g, length g = list_sum sizes /\ dist2 g (G (visited k)) <= delta ^ 2 /\
     visited (S k) = plus (plus (visited k) (push al (eps ^ 2) ms g (minus (visited k) (visited (pred k)))))
      (jolts (spread al s eps) ms (normals variate reserve (map op_key ops) sizes k))).
Proof.
  intros variate reserve al s target batches delta G eps burn B nx us rs s1 b0 e0 params gseed seed ids entropy sizes HG HT Hs Hburn HU E ops HD HB visited.
  pose proof (constant_steady variate reserve (Sghmc (Config al s)) target B (Some nx) burn (length params) us rs s1 b0 eps _ HD) as HY.
  assert (LO : length ops = length params) by (unfold ops, noise_ops; now rewrite map_length, seq_length).
  assert (HP : Forall (fun o => op_pos o = 0%nat) ops).
  { apply Forall_forall. intros o Ho. unfold ops, noise_ops in Ho. now apply in_map_iff in Ho as (i & <- & _). }
  apply (chain_of_ops variate reserve (Sghmc (Config al s))) in HD; [|exact Hs|exact LO|exact HU|exact HP].
  cbn [rule_of mdecay scale_grad] in HD. set (ps0 := map _ (combine params ops)) in HD.
  assert (CK : clock reserve sizes (map op_key ops) 0 ps0 /\ flat (map value ps0) = flat params /\
               masses true ps0 = repeat (inverse_mass 1) (length (flat params)) /\ momenta ps0 = repeat 0 (length (flat params))).
  { unfold ps0, clock, sizes, sizes_of. clear -LO. clearbody ops. revert ops LO. induction params as [|v params IH]; intros [|o ops] LO; try discriminate LO.
    - repeat split.
    - cbn in LO. destruct (IH ops ltac:(lia)) as ((I1 & I2 & I3) & I4 & I5 & I6). cbn [combine]. split; [|split; [|split]].
      + cbn. rewrite I1, I2, I3, map_length. auto.
      + rewrite (map_cons (fun '(v, o) => fresh 0 v (op_key o))), flat_value, I4. unfold flat. cbn. f_equal. rewrite map_map. cbn. apply map_id.
      + unfold masses, flat in *. cbn [map concat fresh entries]. rewrite I5, app_length, repeat_app. f_equal.
        rewrite map_map. cbn. clear. induction (data v); cbn; congruence.
      + unfold momenta, flat in *. cbn [map concat fresh entries]. rewrite I6, app_length, repeat_app. f_equal.
        rewrite map_map. cbn. clear. induction (data v); cbn; congruence. }
  destruct CK as (CK & FV & MV & PV).
  apply (follows_rough (sghmc_entry al s) eps variate reserve target sizes batches G delta HT) in HD; [|discriminate|exact HY|exact HB|apply CK].
  fold E in HD. unfold visited. set (pts := points E rs) in *. clearbody pts. clear HY HU HB. clearbody ps0. clear rs E B nx us b0 s1 e0 visited.
  set (n := list_sum sizes) in *.
  destruct (rough_states (sghmc_entry al s) eps variate reserve sizes G delta burn pts 0 ps0 HD) as (Q & Q0 & QS). cbn [Nat.add] in QS.
  assert (CL : forall k, (k <= length pts)%nat -> clock reserve sizes (map op_key ops) k (Q k)).
  { induction k as [|k IH]; intros Hk; [now rewrite Q0|].
    destruct (nth_error pts k) as [x|] eqn:Ex; [|apply nth_error_None in Ex; lia].
    destruct (QS k x Ex) as (gss & R1 & R2 & R3 & R4). eapply (clock_moves _ variate); [apply IH; lia|exact R1|exact R3]. }
  assert (SL : forall k, (k <= length pts)%nat -> length (flat (map value (Q k))) = n).
  { intros k Hk. rewrite sizes_flat. destruct (CL k Hk) as (-> & _). reflexivity. }
  assert (VQ : forall k, (k <= length pts)%nat -> nth k (flat params :: pts) [] = flat (map value (Q k))).
  { intros [|k] Hk; [now rewrite Q0, FV|]. cbn [nth]. destruct (nth_error pts k) as [x|] eqn:Ex; [|apply nth_error_None in Ex; lia].
    destruct (QS k x Ex) as (_ & _ & _ & _ & Ex2). rewrite <- Ex2. now apply nth_error_nth. }
  (* one step *)
  assert (ST : forall k, (k < length pts)%nat ->
     let b := adapts (burn_in_plan burn) k in
     let kicks := jolts (spread al s eps) (masses b (Q k)) (normals variate reserve (map op_key ops) sizes k) in
     exists g, length g = n /\ dist2 g (G (flat (map value (Q k)))) <= delta ^ 2 /\
     let pushed := push al (eps ^ 2) (masses b (Q k)) g (momenta (Q k)) in
     length (normals variate reserve (map op_key ops) sizes k) = n /\ length pushed = n /\ length kicks = n /\
     momenta (Q (S k)) = plus pushed kicks /\ flat (map value (Q (S k))) = plus (plus (flat (map value (Q k))) pushed) kicks /\
     masses false (Q (S k)) = masses b (Q k)).
  { intros k Hk b. destruct (nth_error pts k) as [x|] eqn:Ex; [|apply nth_error_None in Ex; lia].
    destruct (QS k x Ex) as (gss & R1 & R2 & R3 & R4). fold b in R3.
    destruct (moves_momentum al s variate reserve eps b gss (Q k)) as (q2 & F1 & F2 & F3 & F4 & F5 & _).
    { destruct (CL k ltac:(lia)) as (H1 & _). congruence. }
    assert (q2 = Q (S k)) by congruence. subst q2. cbv zeta in F2, F3.
    rewrite (clock_noise variate reserve sizes _ _ _ (CL k ltac:(lia))) in F2, F3.
    assert (LNN : length (normals variate reserve (map op_key ops) sizes k) = n).
    { rewrite <- (clock_noise variate reserve sizes _ _ _ (CL k ltac:(lia))), noises_length. apply SL. lia. }
    assert (LM : length (masses b (Q k)) = n) by (rewrite flat_length; apply SL; lia).
    assert (LG : length (concat gss) = n) by (unfold n; rewrite <- R1; clear; induction gss as [|g gss IH]; auto; cbn; now rewrite app_length, IH).
    assert (LP : length (momenta (Q k)) = n) by (rewrite momenta_length; apply SL; lia).
    exists (concat gss). split; [exact LG|]. split; [exact R2|]. cbv zeta.
    split; [exact LNN|]. split; [rewrite push_length; congruence|]. split; [rewrite jolts_length; congruence|].
    split; [exact F2|]. split; [exact F3|exact F4]. }
  assert (MO : forall k, (k <= length pts)%nat -> momenta (Q k) = minus (nth k (flat params :: pts) []) (nth (pred k) (flat params :: pts) [])).
  { intros [|k] Hk; [cbn [pred nth]; now rewrite minus_self, Q0|]. cbn [pred].
    rewrite !VQ by lia. destruct (ST k ltac:(lia)) as (g & _ & _ & _ & T1 & T2 & T3 & T4 & _). rewrite T4, minus_plus; [exact T3| |]; rewrite SL by lia; assumption. }
  set (bn := Z.to_nat burn).
  assert (AF : forall k, (bn <= k)%nat -> adapts (burn_in_plan burn) k = false).
  { intros k Hk. cbn [adapts burn_in_plan]. apply orb_false_iff. split; [apply Z.ltb_ge; lia|apply Z.leb_gt; lia]. }
  destruct (le_lt_dec bn (length pts)) as [Hbn|Hbn].
  2:{ exists (repeat (inverse_mass 1) n). split; [apply repeat_length|]. pose proof inverse_mass_1.
      split; [apply Forall_forall; intros m Hm; apply repeat_spec in Hm; lra|]. split; [auto|].
      split; [intros k Hk; rewrite VQ by exact Hk; now apply SL|].
      intros k Hk. split; [destruct (ST k Hk) as (g & _ & _ & T & _); exact T|]. intros Hk2. exfalso. lia. }
  assert (exists b1, bn = S b1) as [b1 Eb] by (exists (bn - 1)%nat; unfold bn; lia).
  exists (masses false (Q bn)). split; [rewrite flat_length; now apply SL|].
  assert (MF : forall k, (bn <= k <= length pts)%nat -> masses false (Q k) = masses false (Q bn)).
  { intros k [H1 H2]. revert H2. induction H1 as [|k H1 IH]; intros H2; auto. rewrite <- IH by lia.
    destruct (ST k ltac:(lia)) as (g & _ & _ & _ & _ & _ & _ & _ & ->). now rewrite AF. }
  assert (MT : masses false (Q bn) = masses true (Q b1)).
  { rewrite Eb. destruct (ST b1 ltac:(lia)) as (g & _ & _ & _ & _ & _ & _ & _ & ->).
    replace (adapts (burn_in_plan burn) b1) with true; auto. symmetry. cbn [adapts burn_in_plan].
    apply orb_true_iff. left. apply Z.ltb_lt. lia. }
  split; [rewrite MT; apply masses_adapting|].
  split. { intros E1. assert (b1 = 0%nat) by (unfold bn in Eb; lia). rewrite MT, H, Q0, MV. f_equal. rewrite <- FV, <- Q0. apply SL. lia. }
  split; [intros k Hk; rewrite VQ by exact Hk; now apply SL|].
  intros k Hk. destruct (ST k Hk) as (g & G1 & G2 & T0 & T1 & T2 & T3 & T4 & T5). split; [exact T0|]. intros Hk2. exists g. split; [exact G1|]. split; [rewrite VQ by lia; exact G2|].
  rewrite <- MO by lia. rewrite !VQ by lia. rewrite T4.
  replace (masses false (Q bn)) with (masses (adapts (burn_in_plan burn) k) (Q k)); [reflexivity|].
  rewrite <- T5. apply MF. unfold bn. lia.
Qed.

(** *** One step with inexact gradients *)
Lemma energy_sym : forall al ms vs xs ws ys, energy al ms vs xs ws ys = energy al ms ws ys vs xs.
Proof.
  intros al. induction ms as [|m ms IH]; intros [|v vs] [|x xs] [|w ws] [|y ys]; cbn [energy]; auto. rewrite IH. f_equal. f_equal. rewrite <- !Rsqr_pow2.
  rewrite (Rsqr_neg_minus v w). f_equal. rewrite Rsqr_neg. f_equal. ring.
Qed.
Fixpoint misled (h : R) (ms gs hs : list R) : list R :=
  match ms, gs, hs with m :: ms, g :: gs, k :: hs => - (h * m * (g - k)) :: misled h ms gs hs | _, _, _ => [] end.
Lemma misled_length : forall h ms gs hs, length gs = length ms -> length hs = length ms -> length (misled h ms gs hs) = length ms.
Proof. induction ms as [|m ms IH]; intros [|g gs] [|k hs] H1 H2; cbn in *; try discriminate; auto. Qed.
Lemma push_misled : forall al h ms gs hs vs, length gs = length ms -> length hs = length ms -> length vs = length ms ->
  push al h ms gs vs = plus (push al h ms hs vs) (misled h ms gs hs).
Proof. induction ms as [|m ms IH]; intros [|g gs] [|k hs] [|v vs] H1 H2 H3; cbn in *; try discriminate; auto. rewrite (IH gs hs vs) by lia. f_equal. ring. Qed.
Lemma plus_assoc : forall a b c, length b = length a -> length c = length a -> plus a (plus b c) = plus (plus a b) c.
Proof. induction a as [|x a IH]; intros [|y b] [|z c] H1 H2; cbn in *; try discriminate; auto. rewrite IH by lia. f_equal. ring. Qed.
Lemma misled_weighted : forall h hi ms gs hs, Forall (fun m => 0 < m <= hi) ms -> length gs = length ms -> length hs = length ms ->
  weighted ms (misled h ms gs hs) <= h ^ 2 * hi * dist2 gs hs.
Proof.
  intros h hi ms gs hs H. revert gs hs. induction H as [|m ms [B1 B2] _ IH]; intros [|g gs] [|k hs] H1 H2; try discriminate; cbn [misled weighted dist2]; [lra|].
  cbn in H1, H2. specialize (IH gs hs ltac:(lia) ltac:(lia)). replace ((- (h * m * (g - k))) ^ 2 / m) with (h ^ 2 * m * (g - k) ^ 2) by (field; lra).
  assert (h ^ 2 * m * (g - k) ^ 2 <= h ^ 2 * hi * (g - k) ^ 2); [|lra]. apply Rmult_le_compat_r; [apply pow2_ge_0|]. apply Rmult_le_compat_l; [apply pow2_ge_0|lra].
Qed.
Section Step.
Variables (al : R) (n : nat) (h lo hi mu L : R) (U : list R -> R) (G : list R -> list R) (ms : list R).
Hypothesis Hal : 0 < al <= 1.
Hypothesis HC : strongly_convex n mu U G.
Hypothesis HL : lipschitz n L G.
Hypothesis HG : forall z, length z = n -> length (G z) = n.
Hypothesis Hmu : 0 < mu.
Hypothesis HLp : 0 < L.
Hypothesis Hlo : 0 < lo.
Hypothesis HM : Forall (fun m => lo <= m <= hi) ms.
Hypothesis Hh : 0 < h.
Hypothesis Hb : h * hi * L <= al ^ 2 / 10.
Hypothesis Lm : length ms = n.
Lemma energy_misled : forall delta gs hs vs xs ws ys, 0 <= delta -> dist2 gs hs <= delta ^ 2 ->
  length gs = n -> length hs = n -> length vs = n -> length xs = n -> length ws = n -> length ys = n ->
  sqrt (energy al ms (push al h ms gs vs) (plus xs (push al h ms gs vs)) ws ys) <=
    sqrt (energy al ms (push al h ms hs vs) (plus xs (push al h ms hs vs)) ws ys) + sqrt (2 * hi) * h / al * delta.
Proof.
  intros delta gs hs vs xs ws ys Hd D Lg Lh Lv Lx Lw Ly. assert (P : Forall (fun m => 0 < m) ms) by (eapply Forall_impl; [|exact HM]; cbn; intros; lra). assert (P2 : Forall (fun m => 0 < m <= hi) ms) by (eapply Forall_impl; [|exact HM]; cbn; intros; lra).
  rewrite (push_misled al h ms gs hs vs) by congruence. assert (LP : length (push al h ms hs vs) = n) by (rewrite push_length; congruence). assert (LK : length (misled h ms gs hs) = n) by (rewrite misled_length; congruence).
  rewrite plus_assoc by congruence. eapply Rle_trans; [apply (energy_kick al Hal); auto; rewrite ?plus_length; congruence|]. apply Rplus_le_compat_l.
  pose proof (misled_weighted h hi ms gs hs P2 ltac:(congruence) ltac:(congruence)) as W.
  destruct ms as [|m ms']. { cbn [misled weighted]. rewrite Rmult_0_r, sqrt_0. apply Rmult_le_pos; [|exact Hd]. apply Rmult_le_pos; [|apply Rlt_le, Rinv_0_lt_compat; lra]. apply Rmult_le_pos; [apply sqrt_pos|lra]. }
  assert (H0 : 0 < hi) by (inversion HM; subst; lra). assert (Q : sqrt (2 * hi) * sqrt (2 * hi) = 2 * hi) by (apply sqrt_sqrt; lra). pose proof (sqrt_pos (2 * hi)) as Q0.
  rewrite <- (sqrt_pow2 (sqrt (2 * hi) * h / al * delta)). 2:{ apply Rmult_le_pos; [|exact Hd]. apply Rmult_le_pos; [|apply Rlt_le, Rinv_0_lt_compat; lra]. apply Rmult_le_pos; [exact Q0|lra]. }
  apply sqrt_le_1_alt. replace ((sqrt (2 * hi) * h / al * delta) ^ 2) with (2 / al ^ 2 * (h ^ 2 * (sqrt (2 * hi) * sqrt (2 * hi) / 2) * delta ^ 2)) by (field; lra). rewrite Q. replace (2 * hi / 2) with hi by field.
  apply Rmult_le_compat_l; [apply Rlt_le, Rdiv_lt_0_compat; [lra|apply pow_lt; lra]|]. eapply Rle_trans; [exact W|]. apply Rmult_le_compat_l; [|exact D]. apply Rmult_le_pos; [apply pow2_ge_0|lra].
Qed.
Lemma energy_root : forall vs xs ws ys, length vs = n -> length xs = n -> length ws = n -> length ys = n ->
  sqrt (energy al ms (push al h ms (G xs) vs) (plus xs (push al h ms (G xs) vs)) (push al h ms (G ys) ws) (plus ys (push al h ms (G ys) ws))) <= sqrt (decay al h lo mu) * sqrt (energy al ms vs xs ws ys).
Proof.
  intros vs xs ws ys Lv Lx Lw Ly. assert (P : Forall (fun m => 0 < m) ms) by (eapply Forall_impl; [|exact HM]; cbn; intros; lra).
  pose proof (energy_contracts al Hal n h lo hi mu L U G ms vs xs ws ys HC HL HG Hmu HLp Hlo HM Hh Hb Lm Lv Lx Lw Ly) as C. pose proof (energy_pos al Hal ms vs xs ws ys P) as P0.
  destruct (Rle_or_lt 0 (decay al h lo mu)) as [F|F]; [rewrite <- sqrt_mult by assumption; now apply sqrt_le_1_alt|].
  pose proof (energy_pos al Hal ms (push al h ms (G xs) vs) (plus xs (push al h ms (G xs) vs)) (push al h ms (G ys) ws) (plus ys (push al h ms (G ys) ws)) P) as P1. set (E1 := energy al ms (push _ _ _ _ _) _ _ _) in *. assert (Z : E1 = 0) by nra. rewrite Z, sqrt_0. apply Rmult_le_pos; apply sqrt_pos.
Qed.
Lemma energy_rough : forall delta delta' gs hs vs xs ws ys, 0 <= delta -> 0 <= delta' -> dist2 gs (G xs) <= delta ^ 2 -> dist2 hs (G ys) <= delta' ^ 2 ->
  length gs = n -> length hs = n -> length vs = n -> length xs = n -> length ws = n -> length ys = n ->
  sqrt (energy al ms (push al h ms gs vs) (plus xs (push al h ms gs vs)) (push al h ms hs ws) (plus ys (push al h ms hs ws))) <=
    sqrt (decay al h lo mu) * sqrt (energy al ms vs xs ws ys) + sqrt (2 * hi) * h / al * (delta + delta').
Proof.
  intros delta delta' gs hs vs xs ws ys H1 H2 D1 D2 Lg Lh Lv Lx Lw Ly. assert (LP : length (push al h ms hs ws) = n) by (rewrite push_length; congruence). assert (LP2 : length (push al h ms (G xs) vs) = n) by (rewrite push_length; rewrite ?HG; congruence).
  pose proof (energy_misled delta gs (G xs) vs xs (push al h ms hs ws) (plus ys (push al h ms hs ws)) H1 D1 Lg (HG _ Lx) Lv Lx LP ltac:(rewrite plus_length; congruence)) as K1.
  pose proof (energy_misled delta' hs (G ys) ws ys (push al h ms (G xs) vs) (plus xs (push al h ms (G xs) vs)) H2 D2 Lh (HG _ Ly) Lw Ly LP2 ltac:(rewrite plus_length; congruence)) as K2.
  rewrite (energy_sym al ms (push al h ms hs ws)), (energy_sym al ms (push al h ms (G ys) ws)) in K2. pose proof (energy_root vs xs ws ys Lv Lx Lw Ly) as K3. rewrite Rmult_plus_distr_l. lra.
Qed.
End Step.
Lemma geometric : forall r e (a : nat -> R) N, 0 <= r < 1 -> (forall j, (j < N)%nat -> a (S j) <= r * a j + e) -> forall j, (j <= N)%nat -> a j <= r ^ j * a O + (1 - r ^ j) * (e / (1 - r)).
Proof.
  intros r e a N Hr H. induction j as [|j IH]; intros Hj; [cbn [pow]; lra|]. specialize (IH ltac:(lia)). specialize (H j ltac:(lia)). cbn [pow]. eapply Rle_trans; [exact H|]. apply (Rmult_le_compat_l r) in IH; [|lra].
  replace (r * r ^ j * a O + (1 - r * r ^ j) * (e / (1 - r))) with (r * (r ^ j * a O + (1 - r ^ j) * (e / (1 - r))) + e) by (field; lra). lra.
Qed.

(** Two complete seeded runs of SGHMC with one step of burn-in and a constant stepsize, fed with different minibatches (or with cost functions that subsample differently): whatever the noise, the batches and the starts, the distance of their
    k-th samples is at most a multiple of the errors of the gradients, plus what is left of the distance of the starts. *)
Theorem C113_minibatches_keep_samples_close :
  forall variate reserve al s target batches delta target' batches' delta' U G mu L eps B nx us rs s1 b0 e0 params B' nx' us' rs' s1' b0' e0' params' gseed sd ids entropy ids' entropy',
  let sizes := map (fun v => length (data v)) params in let n := list_sum sizes in
  (forall z, length z = n -> length (G z) = n) -> strongly_convex n mu U G -> lipschitz n L G ->
  0 <= delta -> estimates sizes target batches G delta -> 0 <= delta' -> estimates sizes target' batches' G delta' ->
  map (fun v => length (data v)) params' = sizes ->
  0 < mu -> 0 < L -> 0 < s -> 0 < al <= 1 -> eps <> 0 -> let h := eps ^ 2 * inverse_mass 1 in h * L <= al ^ 2 / 10 ->
  Forall no_fed_mass us -> Forall no_fed_mass us' ->
  let sc := constant_schedule (tensor R) (sample (tensor R) * tensor R) in
  let E := sampler_env variate reserve (kernel_of (Sghmc (Config al s))) target B (Some nx) sc in
  let E' := sampler_env variate reserve (kernel_of (Sghmc (Config al s))) target' B' (Some nx') sc in
  drive E (burnin_next E 1 (length params)) us (initial_state E b0 (number eps)
     (session_of (Sghmc (Config al s)) e0 params (noise_ops gseed (Some sd) ids entropy (length params)))) = (rs, s1) ->
  drive E' (burnin_next E' 1 (length params')) us' (initial_state E' b0' (number eps)
     (session_of (Sghmc (Config al s)) e0' params' (noise_ops gseed (Some sd) ids' entropy' (length params')))) = (rs', s1') ->
  given_batches batches E rs -> given_batches batches' E' rs' ->
  let r := sqrt (1 - h * mu / (2 * al)) in
  let radius := 2 * h * (delta + delta') / (al * (1 - r)) in
  r < 1 /\
  forall k x y, nth_error (points E rs) k = Some x -> nth_error (points E' rs') k = Some y ->
  sqrt (dist2 x y) <= r ^ S k * (sqrt 2 * sqrt (dist2 (flat params) (flat params'))) + (1 - r ^ S k) * radius.
Proof.
  intros variate reserve al s target batches delta target' batches' delta' U G mu L eps B nx us rs s1 b0 e0 params B' nx' us' rs' s1' b0' e0' params' gseed sd ids entropy ids' entropy'
    sizes n HG HC HL Hd HT Hd' HT' HS' Hmu HLp Hs Hal Heps h Hb HU HU' sc E E' HD HD' HB HB' r radius.
  assert (HG' : forall z, length z = list_sum (map (fun v => length (data v)) params') -> length (G z) = list_sum (map (fun v => length (data v)) params')) by (rewrite HS'; exact HG).
  rewrite <- HS' in HT'.
  pose proof (rough_momentum variate reserve al s target batches delta G eps 1 B nx us rs s1 b0 e0 params gseed (Some sd) ids entropy HG HT Hs ltac:(lia) HU HD HB) as HX.
  pose proof (rough_momentum variate reserve al s target' batches' delta' G eps 1 B' nx' us' rs' s1' b0' e0' params' gseed (Some sd) ids' entropy' HG' HT' Hs ltac:(lia) HU' HD' HB') as HY.
  clear HD HD'. cbv zeta in HX, HY. fold sizes in HX. rewrite HS' in HY. fold sc in HX, HY. fold E in HX. fold E' in HY.
  destruct HX as (ms & M1 & M2 & M3 & M4 & M5). destruct HY as (ms' & M1' & _ & M3' & M4' & M5').
  specialize (M3 eq_refl). specialize (M3' eq_refl). rewrite <- M3 in M3'. subst ms'.
  assert (LP : length params' = length params) by (rewrite <- (map_length (fun v => length (data v)) params'), HS'; apply map_length).
  rewrite LP in M5'. rewrite (seeded_keys gseed sd ids' entropy' ids entropy) in M5'.
  set (X := fun j => nth j (flat params :: points E rs) []) in *. set (Y := fun j => nth j (flat params' :: points E' rs') []) in *.
  fold n in M1, M3, M4, M5, M4', M5'. set (m := inverse_mass 1) in *. pose proof inverse_mass_1 as Hm. fold m in Hm.
  assert (H0 : 0 < eps ^ 2) by (rewrite <- Rsqr_pow2; now apply Rsqr_pos_lt).
  assert (R1 : 0 <= r < 1).
  { split; [apply sqrt_pos|]. unfold r. assert (K : 0 < h * mu / (2 * al)) by (apply Rdiv_lt_0_compat; [|lra]; apply Rmult_lt_0_compat; [unfold h; now apply Rmult_lt_0_compat|lra]).
    set (q := h * mu / (2 * al)) in *. clearbody q. destruct (Rle_or_lt 0 (1 - q)) as [F|F]; [rewrite <- sqrt_1 at 2; apply sqrt_lt_1_alt; split; lra|rewrite sqrt_neg_0 by lra; lra]. }
  split; [apply R1|]. intros k x y Hx Hy.
  assert (KX : (k < length (points E rs))%nat) by (apply nth_error_Some; congruence).
  assert (KY : (k < length (points E' rs'))%nat) by (apply nth_error_Some; congruence).
  assert (EX : x = X (S k)) by (unfold X; cbn [nth]; symmetry; now apply nth_error_nth).
  assert (EY : y = Y (S k)) by (unfold Y; cbn [nth]; symmetry; now apply nth_error_nth).
  assert (MM : Forall (fun q => q = m) ms) by (rewrite M3; apply Forall_forall; intros q Hq; now apply repeat_spec in Hq).
  assert (MB : Forall (fun q => m <= q <= m) ms) by (eapply Forall_impl; [|exact MM]; cbn; intros; lra).
  set (vx := fun j => minus (X j) (X (pred j))). set (vy := fun j => minus (Y j) (Y (pred j))).
  assert (LX : forall j, (j <= S k)%nat -> length (X j) = n) by (intros; apply M4; lia).
  assert (LY : forall j, (j <= S k)%nat -> length (Y j) = n) by (intros; apply M4'; lia).
  assert (LVX : forall j, (j <= S k)%nat -> length (vx j) = n) by (intros j Hj; unfold vx; rewrite minus_length; rewrite !LX by lia; auto).
  assert (LVY : forall j, (j <= S k)%nat -> length (vy j) = n) by (intros j Hj; unfold vy; rewrite minus_length; rewrite !LY by lia; auto).
  set (a := fun j => sqrt (energy al ms (vx j) (X j) (vy j) (Y j))). set (e := sqrt (2 * m) * eps ^ 2 / al * (delta + delta')).
  assert (ER : r = sqrt (decay al (eps ^ 2) m mu)) by (unfold r, decay, h; f_equal; field; lra).
  assert (ST : forall j, (j < S k)%nat -> a (S j) <= r * a j + e).
  { intros j Hj. unfold a.
    destruct (M5 j ltac:(lia)) as (N1 & N2). destruct (M5' j ltac:(lia)) as (N1' & N2'). destruct (N2 ltac:(lia)) as (g & Lg & Dg & Eg). destruct (N2' ltac:(lia)) as (g' & Lg' & Dg' & Eg'). clear N2 N2'.
    set (ks := jolts (spread al s eps) ms (normals variate reserve (map op_key (noise_ops gseed (Some sd) ids entropy (length params))) sizes j)) in *.
    assert (LK : length ks = n) by (unfold ks; rewrite jolts_length; congruence).
    change (X (S j) = plus (plus (X j) (push al (eps ^ 2) ms g (vx j))) ks) in Eg.
    change (Y (S j) = plus (plus (Y j) (push al (eps ^ 2) ms g' (vy j))) ks) in Eg'.
    set (px := push al (eps ^ 2) ms g (vx j)) in *. set (py := push al (eps ^ 2) ms g' (vy j)) in *.
    assert (LPX : length px = n) by (unfold px; rewrite push_length; rewrite ?LVX by lia; congruence).
    assert (LPY : length py = n) by (unfold py; rewrite push_length; rewrite ?LVY by lia; congruence).
    assert (VX : vx (S j) = plus px ks) by (unfold vx; cbn [pred]; rewrite Eg; apply minus_plus; rewrite LX by lia; assumption).
    assert (VY : vy (S j) = plus py ks) by (unfold vy; cbn [pred]; rewrite Eg'; apply minus_plus; rewrite LY by lia; assumption).
    rewrite VX, VY, Eg, Eg'.
    assert (LXX : length (plus (X j) px) = n) by (rewrite plus_length; rewrite LX by lia; auto).
    assert (LYY : length (plus (Y j) py) = n) by (rewrite plus_length; rewrite LY by lia; auto).
    rewrite energy_same by congruence. rewrite ER. unfold e.
    apply (energy_rough al n (eps ^ 2) m m mu L U G ms Hal HC HL HG Hmu HLp Hm MB H0 ltac:(exact Hb) M1); auto; try (apply LVX; lia); try (apply LVY; lia); try (apply LX; lia); apply LY; lia. }
  pose proof (geometric r e a (S k) R1 ST (S k) (le_n _)) as EN. unfold a in EN.
  assert (E0 : energy al ms (vx O) (X O) (vy O) (Y O) = scaled_dist2 ms (X O) (Y O)).
  { unfold vx, vy. cbn [pred]. rewrite !minus_self. rewrite LX, LY by lia. apply energy_rest; auto; rewrite ?repeat_length, ?LX, ?LY by lia; auto. }
  rewrite E0 in EN.
  pose proof (energy_lower al Hal ms (vx (S k)) (X (S k)) (vy (S k)) (Y (S k)) M2 ltac:(rewrite LVX; auto) ltac:(rewrite LX; auto) ltac:(rewrite LVY; auto) ltac:(rewrite LY; auto)) as EL.
  rewrite (scaled_const m) in EL, EN by (auto; rewrite LX by lia; auto).
  change (flat params) with (X O). change (flat params') with (Y O). rewrite EX, EY.
  set (d := dist2 (X (S k)) (Y (S k))) in *. set (d0 := dist2 (X O) (Y O)) in *. set (en := energy al ms (vx (S k)) (X (S k)) (vy (S k)) (Y (S k))) in *.
  assert (P0 : 0 <= en) by (apply energy_pos; auto). assert (Pd : 0 <= d) by apply dist2_pos. assert (Pd0 : 0 <= d0) by apply dist2_pos. clearbody d d0 en. clear ST a.
  assert (Sm : 0 < sqrt m) by (now apply sqrt_lt_R0). assert (Em : sqrt m * sqrt m = m) by (apply sqrt_sqrt; lra). assert (S2 : 0 < sqrt 2) by (apply sqrt_lt_R0; lra). assert (E2 : sqrt 2 * sqrt 2 = 2) by (apply sqrt_sqrt; lra).
  assert (K1 : sqrt d <= sqrt 2 * sqrt m * sqrt en).
  { rewrite <- sqrt_mult by lra. rewrite <- sqrt_mult by lra. apply sqrt_le_1_alt. apply (Rmult_le_compat_r m) in EL; [|lra]. unfold Rdiv in EL. rewrite Rmult_assoc, Rinv_l, Rmult_1_r in EL by lra. lra. }
  rewrite sqrt_div in EN by assumption. unfold e in EN. rewrite (sqrt_mult 2 m) in EN by lra.
  apply (Rmult_le_compat_l (sqrt 2 * sqrt m)) in EN; [|apply Rlt_le, Rmult_lt_0_compat; assumption]. eapply Rle_trans; [exact K1|]. eapply Rle_trans; [exact EN|]. apply Req_le.
  rewrite Rmult_plus_distr_l. f_equal; [field; lra|]. unfold radius, h. set (w := 1 - r ^ S k). clearbody w.
  transitivity ((sqrt 2 * sqrt 2) * (sqrt m * sqrt m) * (w * (eps ^ 2 / al * (delta + delta') / (1 - r)))); [field; lra|]. rewrite E2, Em. field. lra.
Qed.

(** Every complete run of SGHMC with burn-in and minibatches: with the masses [ms] its burn-in ends with, the energy of the last two
    samples shrinks by a fixed factor per call, up to the noise of that call and the error of its
    gradient; and it bounds the distance to the
    minimiser [z]. *)
Theorem C113_minibatch_sghmc_returns_to_the_minimiser :
  forall variate reserve al s target batches delta U G mu L z eps burn B nx us rs s1 b0 e0 params gseed seed ids entropy,
  let sizes := map (fun v => length (data v)) params in
  (forall z, length z = list_sum sizes -> length (G z) = list_sum sizes) -> 0 <= delta -> estimates sizes target batches G delta -> strongly_convex (list_sum sizes) mu U G -> lipschitz (list_sum sizes) L G ->
  length z = list_sum sizes -> Forall (fun g => g = 0) (G z) ->
  0 < mu -> 0 < L -> 0 < s -> 0 < al <= 1 -> eps <> 0 -> (0 < burn)%Z -> Forall no_fed_mass us ->
  let E := sampler_env variate reserve (kernel_of (Sghmc (Config al s))) target B (Some nx)
             (constant_schedule (tensor R) (sample (tensor R) * tensor R)) in
  let ops := noise_ops gseed seed ids entropy (length params) in
  drive E (burnin_next E burn (length params)) us (initial_state E b0 (number eps)
     (session_of (Sghmc (Config al s)) e0 params ops)) = (rs, s1) ->
  given_batches batches E rs ->
  exists ms, length ms = list_sum sizes /\ Forall (fun m => 0 < m) ms /\
  forall lo hi, 0 < lo -> Forall (fun m => lo <= m <= hi) ms -> eps ^ 2 * hi * L <= al ^ 2 / 10 ->
  forall k x x' x'', (burn <= Z.of_nat (S (S k)))%Z ->
  nth_error (points E rs) k = Some x -> nth_error (points E rs) (S k) = Some x' -> nth_error (points E rs) (S (S k)) = Some x'' ->
  sqrt (restless al ms x' x'' z) <=
    sqrt (1 - eps ^ 2 * mu * lo / (2 * al)) * sqrt (restless al ms x x' z) + sqrt (2 * hi) * eps ^ 2 / al * delta +
    sqrt (2 / al ^ 2 * (2 * eps ^ 2 * al / s + / 10000000000000000 / lo) * sum_squares (normals variate reserve (map op_key ops) sizes (S (S k)))) /\
  dist2 x'' z <= 2 * hi * restless al ms x' x'' z.
Proof.
  intros variate reserve al s target batches delta U G mu L z eps burn B nx us rs s1 b0 e0 params gseed seed ids entropy sizes HG Hdl HT HC HL Hz Hgz Hmu HLp Hs Hal Heps Hburn HU E ops HD HBT.
  apply (rough_momentum variate reserve al s target batches delta G eps burn) in HD; [|exact HG|exact HT|exact Hs|exact Hburn|exact HU|exact HBT].
  fold sizes ops E in HD. destruct HD as (ms & M1 & M2 & _ & M4 & M5). exists ms. split; [exact M1|]. split; [exact M2|].
  intros lo hi Hlo HM Hb k x x' x'' Hk Hx Hx' Hx''.
  set (X := fun j => nth j (flat params :: points E rs) []) in *.
  assert (KX : (S (S k) < length (points E rs))%nat) by (apply nth_error_Some; congruence).
  assert (EX : x = X (S k)) by (unfold X; cbn [nth]; symmetry; now apply nth_error_nth).
  assert (EX' : x' = X (S (S k))) by (unfold X; cbn [nth]; symmetry; now apply nth_error_nth).
  assert (EX'' : x'' = X (S (S (S k)))) by (unfold X; cbn [nth]; symmetry; now apply nth_error_nth).
  set (n := list_sum sizes) in *.
  assert (H0 : 0 < eps ^ 2) by (rewrite <- Rsqr_pow2; now apply Rsqr_pos_lt).
  destruct (M5 (S (S k)) KX) as (N1 & N2). destruct (N2 ltac:(lia)) as (g & Lg & Dg & Eg). clear N2. rename Eg into N2. cbn [pred] in N2.
  assert (LX : forall j, (j <= S (S (S k)))%nat -> length (X j) = n) by (intros; apply M4; lia).
  change (dist2 g (G (X (S (S k)))) <= delta ^ 2) in Dg. rewrite <- EX' in Dg.
  change (X (S (S (S k))) = plus (plus (X (S (S k))) (push al (eps ^ 2) ms g (minus (X (S (S k))) (X (S k)))))
    (jolts (spread al s eps) ms (normals variate reserve (map op_key ops) sizes (S (S k))))) in N2.
  rewrite <- EX, <- EX', <- EX'' in N2.
  assert (L1 : length x = n) by (rewrite EX; apply LX; lia). assert (L2 : length x' = n) by (rewrite EX'; apply LX; lia). assert (L3 : length x'' = n) by (rewrite EX''; apply LX; lia).
  set (xis := normals variate reserve (map op_key ops) sizes (S (S k))) in *.
  set (ks := jolts (spread al s eps) ms xis) in *.
  assert (LK : length ks = n) by (unfold ks; rewrite jolts_length; congruence).
  assert (LV : length (minus x' x) = n) by (rewrite minus_length; congruence).
  set (px := push al (eps ^ 2) ms g (minus x' x)) in *.
  assert (LPX : length px = n) by (unfold px; rewrite push_length; congruence).
  assert (VX : minus x'' x' = plus px ks) by (rewrite N2; apply minus_plus; congruence).
  assert (LXX : length (plus x' px) = n) by (rewrite plus_length; congruence).
  rewrite !restless_energy by congruence. rewrite M1. rewrite VX. 
  assert (HZ : length (repeat 0 n) = n) by apply repeat_length.
  split.
  - rewrite N2. eapply Rle_trans; [apply energy_kick; auto; congruence|]. apply Rplus_le_compat.
    + pose proof (energy_rough al n (eps ^ 2) lo hi mu L U G ms Hal HC HL HG Hmu HLp Hlo HM H0 Hb M1 delta 0 g (G z) (minus x' x) x' (repeat 0 n) z Hdl (Rle_refl 0) Dg) as C.
      rewrite (push_rest al (eps ^ 2) ms (G z) n M1 ltac:(rewrite HG; congruence) Hgz) in C.
      assert (PR : plus z (repeat 0 n) = z) by (rewrite <- Hz; apply plus_rest). rewrite PR in C. fold px in C. rewrite Rplus_0_r in C. unfold decay in C.
      assert (ZZ : dist2 (G z) (G z) <= 0 ^ 2) by (rewrite dist2_inner, minus_self; clear; induction (length (G z)) as [|k IH]; cbn [repeat inner]; lra).
      apply C; auto.
    + apply sqrt_le_1_alt. rewrite Rmult_assoc. apply Rmult_le_compat_l; [apply Rlt_le, Rdiv_lt_0_compat; [lra|apply pow_lt; lra]|].
      apply weighted_bound; try lra; [|congruence]. eapply Forall_impl; [|exact HM]. cbn. intros; lra.
  - pose proof (energy_lower al Hal ms (plus px ks) x'' (repeat 0 n) z M2 ltac:(rewrite plus_length; congruence) ltac:(congruence) ltac:(congruence) ltac:(congruence)) as EL.
    assert (SU : dist2 x'' z <= hi * scaled_dist2 ms x'' z).
    { apply (scaled_upper lo); [exact Hlo|exact HM|congruence]. }
    destruct ms as [|m ms].
    { cbn in M1. rewrite <- M1 in *. destruct x'' as [|? ?]; [|discriminate L3]. cbn [dist2 energy]. lra. }
    assert (0 < hi) by (inversion HM; subst; lra). apply (Rmult_le_compat_l hi) in EL; [|lra]. lra.
Qed.

Lemma generated_momentum : forall variate reserve al s target px py delta (D : list (list R * R)) eps burn
    rg Gl g a bsize us rs s1 e0 params gseed seed ids entropy (G : list R -> list R),
  let sizes := map (fun v => length (data v)) params in let n := list_sum sizes in
  estimates sizes target (fun b => exists w, w <> [] /\ incl w D /\ b = batch_of px py w) G delta ->
  D <> [] -> valid_args a (arrays_of D) -> valid_batch_size (ga_batch_size a) bsize -> 0 < s -> Forall no_fed_mass us ->
  let E := sampler_env variate reserve (kernel_of (Sghmc (Config al s))) target _ (Some (feeding (gb_source rg Gl g) px py)) (constant_schedule (tensor R) (sample (tensor R) * tensor R)) in
  drive E (burnin_next E burn (length params)) us (initial_state E ((GNew a, g), arrays_of D) (number eps)
     (session_of (Sghmc (Config al s)) e0 params (noise_ops gseed seed ids entropy (length params)))) = (rs, s1) ->
  length (points E rs) = length us.
Proof.
  intros variate reserve al s target px py delta D eps burn rg Gl g a bsize us rs s1 e0 params gseed seed ids entropy G sizes n HE HN HV HB Hs HU E HD.
  pose proof (constant_steady variate reserve (Sghmc (Config al s)) target _ (Some (feeding (gb_source rg Gl g) px py)) burn (length params) us rs s1 _ eps _ HD) as HY. fold E in HY.
  assert (OUT : Forall (fun c => exists base fmt, step_outcome E base fmt (cr_res E c) (cr_events E c)) rs).
  { apply Forall_forall. intros c Hc. apply in_split in Hc as (pre & post & ->).
    destruct (outcome_of _ E (BurnIn burn (length params)) _ _ _ _ _ _ _ _ HD) as (base & fmt & SS & _).
    exists base, fmt. exact (ss_outcome E _ _ _ _ _ _ SS). }
  pose proof (drive_length _ _ _ _ _ _ HD) as LR.
  rewrite <- LR.
  assert (GB : given_batches (fun b => exists w, w <> [] /\ incl w D /\ b = batch_of px py w) E rs).
  { refine (stream_given E (BurnIn burn (length params)) us rs s1 _ _ _ (feeding (gb_source rg Gl g) px py) _ HD eq_refl _). intros j. now apply (generated_windows rg Gl D a bsize). }
  assert (GO : Forall (fun c => Forall (fun r => is_ok r = true) (batch_results (cr_events E c))) rs).
  { refine (stream_results E (BurnIn burn (length params)) us rs s1 _ _ _ (feeding (gb_source rg Gl g) px py) _ HD eq_refl _). intros j. now apply (generated_ok rg Gl D a bsize). }
  set (ops := noise_ops gseed seed ids entropy (length params)) in *.
  assert (LO : length ops = length params) by (unfold ops, noise_ops; now rewrite map_length, seq_length).
  assert (HP : Forall (fun o => op_pos o = 0%nat) ops).
  { apply Forall_forall. intros o Ho. unfold ops, noise_ops in Ho. now apply in_map_iff in Ho as (i & <- & _). }
  apply (chain_of_ops variate reserve (Sghmc (Config al s))) in HD; [|exact Hs|exact LO|exact HU|exact HP].
  fold E in HD. apply (follows_all _ eps _ _ _ _ _ G delta HE) in HD; auto; [discriminate|].
  unfold sizes, sizes_of. clear -LO. clearbody ops. revert ops LO. induction params as [|v params IH]; intros [|o ops] LO; try discriminate LO; auto.
  cbn in *. rewrite map_length. f_equal. apply IH. lia.
Qed.
Lemma radius_twice : forall h d r p al c, r < 1 -> 0 < al -> p * (c * 0) + (1 - p) * (2 * h * (d + d) / (al * (1 - r))) = 4 * h * d * (1 - p) / (al * (1 - r)).
Proof. intros. field. split; lra. Qed.

(** Runs on the same data with different batch sizes and batch seeds: if the gradients of single datapoints differ from
    the gradient over all of them by at most delta, then so close stay the samples. *)
Theorem C113_generated_batches_keep_samples_close :
  forall variate reserve al s target U mu L eps px py gradient delta (D : list (list R * R))
    rg Gl g a bsize us rs s1 e0 rg' Gl' g' a' bsize' us' rs' s1' e0' params gseed sd ids entropy ids' entropy',
  let sizes := map (fun v => length (data v)) params in let n := list_sum sizes in
  let G z := mean_vector n (map (fun p => gradient p z) D) in
  averages_batch sizes target px py gradient -> (forall p z, In p D -> length z = n -> length (gradient p z) = n) ->
  strongly_convex n mu U G -> lipschitz n L G ->
  0 <= delta -> (forall p z, In p D -> length z = n -> dist2 (gradient p z) (G z) <= delta ^ 2) ->
  D <> [] -> valid_args a (arrays_of D) -> valid_batch_size (ga_batch_size a) bsize ->
  valid_args a' (arrays_of D) -> valid_batch_size (ga_batch_size a') bsize' ->
  0 < mu -> 0 < L -> 0 < s -> 0 < al <= 1 -> eps <> 0 -> let h := eps ^ 2 * inverse_mass 1 in h * L <= al ^ 2 / 10 ->
  Forall no_fed_mass us -> Forall no_fed_mass us' ->
  let sc := constant_schedule (tensor R) (sample (tensor R) * tensor R) in
  let E := sampler_env variate reserve (kernel_of (Sghmc (Config al s))) target _ (Some (feeding (gb_source rg Gl g) px py)) sc in
  let E' := sampler_env variate reserve (kernel_of (Sghmc (Config al s))) target _ (Some (feeding (gb_source rg' Gl' g') px py)) sc in
  drive E (burnin_next E 1 (length params)) us (initial_state E ((GNew a, g), arrays_of D) (number eps)
     (session_of (Sghmc (Config al s)) e0 params (noise_ops gseed (Some sd) ids entropy (length params)))) = (rs, s1) ->
  drive E' (burnin_next E' 1 (length params)) us' (initial_state E' ((GNew a', g'), arrays_of D) (number eps)
     (session_of (Sghmc (Config al s)) e0' params (noise_ops gseed (Some sd) ids' entropy' (length params)))) = (rs', s1') ->
  let r := sqrt (1 - h * mu / (2 * al)) in
  length (points E rs) = length us /\ length (points E' rs') = length us' /\ r < 1 /\
  forall k x y, nth_error (points E rs) k = Some x -> nth_error (points E' rs') k = Some y ->
  sqrt (dist2 x y) <= 4 * h * delta * (1 - r ^ S k) / (al * (1 - r)).
Proof.
  intros variate reserve al s target U mu L eps px py gradient delta D rg Gl g a bsize us rs s1 e0 rg' Gl' g' a' bsize' us' rs' s1' e0' params gseed sd ids entropy ids' entropy'
    sizes n G HA HL HC HLi Hd HD HN HV HB HV' HB' Hmu HLp Hs Hal Heps h Hb HU HU' sc E E' HR HR' r.
  assert (HG : forall z, length z = n -> length (G z) = n) by (intros; unfold G, mean_vector; now rewrite map_length, seq_length).
  pose proof (averages_estimate sizes target px py gradient D G delta HA HL HG HD) as HE.
  destruct (C113_minibatches_keep_samples_close variate reserve al s target _ delta target _ delta U G mu L eps _ (feeding (gb_source rg Gl g) px py) us rs s1
    ((GNew a, g), arrays_of D) e0 params _ (feeding (gb_source rg' Gl' g') px py) us' rs' s1' ((GNew a', g'), arrays_of D) e0' params gseed sd ids entropy ids' entropy'
    HG HC HLi Hd HE Hd HE eq_refl Hmu HLp Hs Hal Heps Hb HU HU' HR HR') as [R1 Q].
  1: refine (stream_given E (BurnIn 1 (length params)) us rs s1 _ _ _ (feeding (gb_source rg Gl g) px py) _ HR eq_refl _). intros j. now apply (generated_windows rg Gl D a bsize).
  1: refine (stream_given E' (BurnIn 1 (length params)) us' rs' s1' _ _ _ (feeding (gb_source rg' Gl' g') px py) _ HR' eq_refl _). intros j. now apply (generated_windows rg' Gl' D a' bsize').
  split; [now apply (generated_momentum variate reserve al s target px py delta D eps 1 rg Gl g a bsize us rs s1 e0 params gseed (Some sd) ids entropy G)|].
  split; [now apply (generated_momentum variate reserve al s target px py delta D eps 1 rg' Gl' g' a' bsize' us' rs' s1' e0' params gseed (Some sd) ids' entropy' G)|].
  split; [exact R1|]. intros k x y Hx Hy. specialize (Q k x y Hx Hy). fold h in Q. fold r in Q, R1.
    assert (Z : dist2 (flat params) (flat params) = 0) by (clear; induction (flat params) as [|x l IH]; cbn [dist2]; [auto|rewrite IH; ring]).
    rewrite Z, sqrt_0 in Q. rewrite radius_twice in Q by (exact R1 || apply Hal). exact Q.
Qed.


Section Example.
Variables (rg : rng_ops) (Gl : global_ops) (g : glob_state Gl) (variate : Z * Z -> nat -> R).
Definition tossed_env := sampler_env variate (fun n => n) (kernel_of (Sghmc (Config (1 / 2) 1))) tilted_target _ (Some (feeding (gb_source rg Gl g) 0 1))
  (constant_schedule (tensor R) (sample (tensor R) * tensor R)).
Definition tossed_drive (burn size seed : Z) (N : nat) :=
  drive tossed_env (burnin_next tossed_env burn 1) (repeat None N)
    (initial_state tossed_env ((GNew {| ga_batch_size := PInt size; ga_seed := PInt seed |}, g), arrays_of four) (number (1 / 20))
       (session_of (Sghmc (Config (1 / 2) 1)) 0 [Tensor [2%nat] [3; -1]] (noise_ops None (Some 7%Z) [0%nat] (fun _ => (0, 0)%Z) 1))).
Definition tossed_points (burn size seed : Z) (N : nat) := points tossed_env (fst (tossed_drive burn size seed N)).

(** One run with batches of one datapoint, another one with batches of three: both yield N samples, close to each other. *)
Example C113_example_batch_sizes : forall N,
  let X := tossed_points 1 1 5 N in let Y := tossed_points 1 3 8 N in
  let h := (1 / 20) ^ 2 * inverse_mass 1 in let r := sqrt (1 - h * 1 / (2 * (1 / 2))) in
  length X = N /\ length Y = N /\ r < 1 /\
  forall k, (k < N)%nat -> sqrt (dist2 (nth k X []) (nth k Y [])) <= 4 * h * (3 / 2) * (1 - r ^ S k) / (1 / 2 * (1 - r)).
Proof.
  intros N X Y h r. unfold X, Y, tossed_points. destruct (tossed_drive 1 1 5 N) as [rs s1] eqn:HD. destruct (tossed_drive 1 3 8 N) as [rs' s1'] eqn:HD'. cbn [fst].
  pose proof swing_step as HB. destruct (tilted_valid 5 1) as [V1 V2]; [lia|lia|]. destruct (tilted_valid 8 3) as [V3 V4]; [lia|lia|].
  destruct (C113_generated_batches_keep_samples_close variate (fun n => n) (1 / 2) 1 tilted_target bowl 1 3 (1 / 20) 0 1 tilted (3 / 2) four
    rg Gl g _ 1%nat (repeat None N) rs s1 0 rg Gl g _ 3%nat (repeat None N) rs' s1' 0 [Tensor [2%nat] [3; -1]] None 7%Z [0%nat] (fun _ => (0, 0)%Z) [0%nat] (fun _ => (0, 0)%Z)
    tilted_averages tilted_length tilted_convex tilted_lipschitz ltac:(lra) tilted_near ltac:(discriminate) V1 V2 V3 V4 ltac:(lra) ltac:(lra) ltac:(lra) ltac:(lra) ltac:(lra) HB (no_feeds N) (no_feeds N) HD HD')
    as (L1 & L2 & R1 & Q). rewrite repeat_length in L1, L2.
  split; [exact L1|]. split; [exact L2|]. split; [exact R1|]. intros k Hk. apply Q; apply nth_error_nth'; (eapply Nat.lt_le_trans; [exact Hk|]); [rewrite <- L1 at 1|rewrite <- L2 at 1]; apply le_n.
Qed.
(** With three steps of burn-in. *)
Example C113_example_burn_in : forall N,
  let X := tossed_points 3 2 5 N in length X = N /\
  exists ms, length ms = 2%nat /\ Forall (fun m => 0 < m) ms /\
  forall lo hi, 0 < lo -> Forall (fun m => lo <= m <= hi) ms -> (1 / 20) ^ 2 * hi * 3 <= (1 / 2) ^ 2 / 10 ->
  forall k, (3 <= S (S k) < N)%nat ->
  sqrt (restless (1 / 2) ms (nth (S k) X []) (nth (S (S k)) X []) [0; 0]) <=
    sqrt (1 - (1 / 20) ^ 2 * 1 * lo / (2 * (1 / 2))) * sqrt (restless (1 / 2) ms (nth k X []) (nth (S k) X []) [0; 0]) + sqrt (2 * hi) * (1 / 20) ^ 2 / (1 / 2) * (3 / 2) +
    sqrt (2 / (1 / 2) ^ 2 * (2 * (1 / 20) ^ 2 * (1 / 2) / 1 + / 10000000000000000 / lo) * sum_squares (normals variate (fun n => n) (map op_key (noise_ops None (Some 7%Z) [0%nat] (fun _ => (0, 0)%Z) 1)) [2%nat] (S (S k)))).
Proof.
  intros N X. unfold X, tossed_points. destruct (tossed_drive 3 2 5 N) as [rs s1] eqn:HD. cbn [fst].
  destruct (tilted_valid 5 2) as [V1 V2]; [lia|lia|].
  assert (LX : length (points tossed_env rs) = N).
  { etransitivity; [|apply (repeat_length (@None (feed (tensor R))) N)].
    apply (generated_momentum variate (fun n => n) (1 / 2) 1 tilted_target 0 1 (3 / 2) four (1 / 20) 3 rg Gl g _ 2 (repeat None N) rs s1 0 [Tensor [2%nat] [3; -1]] None (Some 7%Z) [0%nat] (fun _ => (0, 0)%Z)
      _ tilted_estimates ltac:(discriminate) V1 V2 ltac:(lra) (no_feeds N) HD). }
  split; [exact LX|].
  destruct (C113_minibatch_sghmc_returns_to_the_minimiser variate (fun n => n) (1 / 2) 1 tilted_target _ (3 / 2) bowl _ 1 3 [0; 0] (1 / 20) 3 _ (feeding (gb_source rg Gl g) 0 1) (repeat None N) rs s1
    ((GNew {| ga_batch_size := PInt 2; ga_seed := PInt 5 |}, g), arrays_of four) 0 [Tensor [2%nat] [3; -1]] None (Some 7%Z) [0%nat] (fun _ => (0, 0)%Z)
    ltac:(intros; unfold mean_vector; now rewrite map_length, seq_length) ltac:(lra) tilted_estimates tilted_convex tilted_lipschitz eq_refl) as (ms & M1 & M2 & Q); auto; try lra; try lia.
  - change (Forall (fun g => g = 0) (mean_vector 2 (map (fun p => tilted p [0; 0]) four))). rewrite (tilted_mean [0; 0] eq_refl). cbn [bowl_gradient]. repeat constructor; ring.
  - apply no_feeds.
  - refine (stream_given tossed_env (BurnIn 3 1) (repeat None N) rs s1 _ _ _ (feeding (gb_source rg Gl g) 0 1) _ HD eq_refl _). intros j. now apply (generated_windows rg Gl four _ 2).
  - exists ms. split; [exact M1|]. split; [exact M2|]. intros lo hi H1 H2 H3 k Hk. apply (Q lo hi H1 H2 H3 k); [lia| | |]; apply nth_error_nth'; (eapply Nat.lt_le_trans; [|apply Nat.eq_le_incl; symmetry; exact LX]); lia.
Qed.
End Example.
Print Assumptions C113_minibatches_keep_samples_close.
Print Assumptions C113_minibatch_sghmc_returns_to_the_minimiser.
Print Assumptions C113_generated_batches_keep_samples_close.
Print Assumptions C113_example_batch_sizes.
Print Assumptions C113_example_burn_in.
