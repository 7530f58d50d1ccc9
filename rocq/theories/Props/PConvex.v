(** C97: SGLD on strongly convex costs. *)
From Coq Require Import List Arith Lia ZArith Bool Reals Lra Psatz.
From Verif.Base Require Import Py Num Vec Lists.
From Verif.Model Require Import TensorUtils BurnIn SGHMC SGLD Stepsize BaseClasses Session.
From Verif.Spec Require Import Sampler Dynamics Trajectory Chain Convex.
From Verif.Proofs Require Import Sampler SamplerHistory Dynamics Convex.
From Verif.Props Require Import PSampler PSession PChain PErgodic.
Import ListNotations.
Local Open Scope R_scope.

(** Calls that were given stepsize [eps] and whose update of the schedule succeeded. *)
Definition steady (eps : R) (E : env (tensor R)) (cs : list (call_record E)) : Prop :=
  Forall (fun c => Forall (fun r => r = Ok (number eps)) (stepsize_results (cr_events E c)) /\
                   Forall (fun u => snd u = Ok tt) (updates (cr_events E c))) cs.

Section Path.
Variable rule : R -> bool -> R -> R -> entry -> entry.
Variables (eps : R) (variate : Z * Z -> nat -> R) (reserve : nat -> nat).
Variable target : list (tensor R) -> (nat -> option (tensor R)) -> res (R * list (list R)).
Variables (sizes : list nat) (U : list R -> R) (G : list R -> list R).
Hypothesis Hcomp : computes sizes target U G.
Variable burn : Z.
Variable E : env (tensor R).
Notation pl := (burn_in_plan burn).

(** The points visited from the state [ps] after [t] successful calls. *)
Fixpoint path (t : nat) (ps : list parameter) (xs : list (list R)) : Prop :=
  match xs with
  | [] => True
  | x :: xs => exists gss ps', map (@length R) gss = sizes /\ concat gss = G (flat (map value ps)) /\
      moves rule variate reserve eps (adapts pl t) gss ps = Some ps' /\ x = flat (map value ps') /\ path (S t) ps' xs
  end.
Lemma value_sizes : forall ps, map (fun v => length (data v)) (map value ps) = sizes_of ps.
Proof. intros. unfold sizes_of. rewrite map_map. apply map_ext. intros p. cbn. apply map_length. Qed.
Lemma point_looks : forall t vs, point_of (looks pl t vs) = flat vs.
Proof.
  intros t vs. cbn [looks burn_in_plan]. destruct (Z.of_nat t <? burn)%Z; [reflexivity|].
  destruct vs as [|v [|]]; cbn; auto. unfold flat. cbn. now rewrite app_nil_r.
Qed.
Lemma follows_path : forall t ps rs, follows rule variate reserve target pl E t ps rs -> steady eps E rs ->
  sizes_of ps = sizes -> path t ps (points E rs).
Proof.
  induction 1 as [t ps|t ps c rest e Hr Hn HF IH|t ps c rest e b evb eps' f user Hr Hb He Hp Ht HF IH
    |t ps c rest e b evb eps' f o user cost ps' Hr Hb Ht He Hp HF IH|t ps c rest b evb eps' f o user cost ps' Hb Ht Hr He Hp HF IH];
    intros HS HL; [exact I| | | |]; inversion HS as [|? ? [HS1 HS2] HS3]; subst.
  - unfold points. cbn [flat_map]. rewrite Hr. now apply IH.
  - exfalso. unfold transition in Ht. destruct (Hcomp (map value ps) user) as (gss & E1 & E2 & E3); [rewrite value_sizes; exact HL|].
    rewrite E1 in Ht. destruct (moves_some variate reserve rule (hd 0 (data eps')) (adapts pl t) gss ps (eq_trans E2 (eq_sym HL))) as (ps' & E4 & _).
    rewrite E4 in Ht. discriminate Ht.
  - exfalso. rewrite He in HS2. unfold updates in HS2. rewrite flat_map_app in HS2. apply Forall_app in HS2 as [_ HS2].
    cbn in HS2. inversion HS2 as [|? ? Q _]; subst. discriminate Q.
  - unfold points. cbn [flat_map]. rewrite Hr. cbn [app path]. rewrite point_looks.
    assert (Heps : eps' = number eps).
    { rewrite He in HS1. unfold stepsize_results in HS1. rewrite flat_map_app in HS1. apply Forall_app in HS1 as [_ HS1].
      cbn in HS1. inversion HS1 as [|? ? Q _]; subst. now injection Q. }
    rewrite Heps in Ht. unfold number in Ht. cbn [data hd] in Ht.
    unfold transition in Ht. destruct (Hcomp (map value ps) user) as (gss & E1 & E2 & E3); [rewrite value_sizes; exact HL|].
    rewrite E1 in Ht. destruct (moves_some variate reserve rule eps (adapts pl t) gss ps (eq_trans E2 (eq_sym HL))) as (ps2 & E4 & E5 & _).
    rewrite E4 in Ht. cbn in Ht. injection Ht as <- <-.
    exists gss, ps2. split; [exact E2|]. split; [exact E3|]. split; [exact E4|]. split; [reflexivity|]. apply IH; auto; congruence.
Qed.
End Path.

Lemma constant_steady : forall variate reserve (w : which R) target B bg burn n us rs s' b0 eps z0,
  let E := sampler_env variate reserve (kernel_of w) target B bg (constant_schedule (tensor R) (sample (tensor R) * tensor R)) in
  drive E (burnin_next E burn n) us (initial_state E b0 (number eps) z0) = (rs, s') -> steady eps E rs.
Proof.
  intros variate reserve w target B bg burn n us rs s' b0 eps z0 E HD.
  pose proof (hi_sched E _ _ _ _ _ (hist_of _ E (BurnIn burn n) _ _ _ _ _ _ HD)) as HS.
  apply C08_constant_schedule_is_constant in HS as [_ HS].
  assert (EV : forall evs, sched_results evs = map (fun c => match c with CallNext => Ok (Some (number eps)) | CallUpdate _ => Ok None end) (sched_calls evs) ->
    Forall (fun r => r = Ok (number eps)) (stepsize_results evs) /\ Forall (fun u => snd u = Ok tt) (@updates (tensor R) evs)).
  { clear. induction evs as [|[r|r|f r|a b r] evs IH]; intros H; cbn in *; auto.
    - injection H as H1 H2. destruct (IH H2). split; auto. constructor; auto. destruct r; cbn in H1; congruence.
    - injection H as H1 H2. destruct (IH H2). split; auto. constructor; auto. cbn. destruct r as [[]|]; cbn in H1; congruence. }
  apply EV in HS as [H1 H2]. clear EV HD. unfold steady. revert H1 H2. unfold all_events.
  induction rs as [|c rs IH]; intros H1 H2; constructor.
  - cbn [flat_map] in H1, H2. unfold stepsize_results, updates in *. rewrite flat_map_app in H1, H2.
    apply Forall_app in H1 as [H1 _]. apply Forall_app in H2 as [H2 _]. auto.
  - apply IH; [clear H2; rename H1 into HH|rename H2 into HH]; cbn [flat_map] in HH; unfold stepsize_results, updates in *;
      rewrite flat_map_app in HH; apply Forall_app in HH as [_ HH]; exact HH.
Qed.

(** *** Two runs with the same noise and masses *)
Definition twins (b : bool) (ps qs : list parameter) : Prop :=
  masses b ps = masses b qs /\ sizes_of ps = sizes_of qs /\ map seeds ps = map seeds qs /\ map used ps = map used qs.
Lemma twins_noise : forall variate b ps qs, twins b ps qs -> noises variate ps = noises variate qs.
Proof.
  intros variate b ps qs (_ & H1 & H2 & H3). revert qs H1 H2 H3.
  induction ps as [|p ps IH]; intros [|q qs] H1 H2 H3; try discriminate H1; auto.
  cbn in H1, H2, H3. injection H1 as A1 A2. injection H2 as B1 B2. injection H3 as C1 C2.
  unfold noises in *. cbn. rewrite (IH qs A2 B2 C2). unfold noise_at. now rewrite A1, B1, C1.
Qed.
Lemma sizes_flat : forall ps, length (flat (map value ps)) = list_sum (sizes_of ps).
Proof. induction ps as [|p ps IH]; auto. rewrite flat_value, app_length, map_length, IH. reflexivity. Qed.

Section Contract.
Variables (A s eps : R) (variate : Z * Z -> nat -> R) (reserve : nat -> nat).
Variables (sizes : list nat) (U : list R -> R) (G : list R -> list R) (mu L lo hi : R) (burn : Z).
Let n := list_sum sizes.
Hypothesis HG : forall z, length z = n -> length (G z) = n.
Hypothesis HC : strongly_convex n mu U G.
Hypothesis HL : lipschitz n L G.
Hypothesis Hlo : 0 < lo.
Hypothesis Hh : 0 <= eps * A.
Hypothesis Hb : eps * A * hi * L ^ 2 <= 2 * mu.
Let rho := factor (eps * A) lo hi mu L.
Notation path := (path (sgld_entry A s) eps variate reserve sizes G burn).

Lemma factor_pos : forall ms x y, Forall (fun m => lo <= m <= hi) ms -> length ms = n -> length x = n -> length y = n ->
  0 < scaled_dist2 ms x y -> 0 <= rho.
Proof.
  intros ms x y HM Lm Lx Ly HW. unfold rho.
  pose proof (contraction n (eps * A) lo hi mu L U G ms x y HC HL HG Hlo HM Hh Hb Lm Lx Ly) as HK.
  assert (P : 0 <= scaled_dist2 ms (descend (eps * A) ms (G x) x) (descend (eps * A) ms (G y) y)).
  { apply scaled_pos. eapply Forall_impl; [|exact HM]. cbn; intros; lra. }
  destruct (Rle_or_lt 0 (factor (eps * A) lo hi mu L)) as [|Hn]; [assumption|]. nra.
Qed.

Lemma path_contracts : forall xs ys t ps qs, twins (adapts (burn_in_plan burn) t) ps qs -> sizes_of ps = sizes ->
  (forall t', (t <= t')%nat -> adapts (burn_in_plan burn) (S t') = false) ->
  let ms := masses (adapts (burn_in_plan burn) t) ps in
  Forall (fun m => lo <= m <= hi) ms -> path t ps xs -> path t qs ys ->
  forall k x y, nth_error xs k = Some x -> nth_error ys k = Some y -> length x = n /\ length y = n /\
  scaled_dist2 ms x y <= rho ^ S k * scaled_dist2 ms (flat (map value ps)) (flat (map value qs)).
Proof.
  induction xs as [|x0 xs IH]; intros ys t ps qs HT HS HB ms HM HX HY k x y Hx Hy; [destruct k; discriminate Hx|].
  destruct ys as [|y0 ys]; [destruct k; discriminate Hy|].
  destruct HX as (gss & ps' & X1 & X2 & X3 & X4 & X5). destruct HY as (hss & qs' & Y1 & Y2 & Y3 & Y4 & Y5).
  destruct HT as (T1 & T2 & T3 & T4). set (b := adapts (burn_in_plan burn) t) in *.
  destruct (moves_flat A s variate reserve eps b gss ps) as (ps2 & E1 & E2 & E3 & E4 & E5 & E6); [congruence|].
  destruct (moves_flat A s variate reserve eps b hss qs) as (qs2 & F1 & F2 & F3 & F4 & F5 & F6); [congruence|].
  assert (ps2 = ps') by congruence. assert (qs2 = qs') by congruence. subst ps2 qs2.
  assert (Lp : length (flat (map value ps)) = n) by (rewrite sizes_flat; unfold n; congruence).
  assert (Lq : length (flat (map value qs)) = n) by (rewrite sizes_flat; unfold n; congruence).
  assert (Lm : length ms = n) by (unfold ms; rewrite flat_length; exact Lp).
  assert (Step : scaled_dist2 ms x0 y0 <= rho * scaled_dist2 ms (flat (map value ps)) (flat (map value qs))).
  { subst x0 y0. rewrite E2, F2, X2, Y2, <- T1. fold ms. rewrite <- (twins_noise variate b ps qs (conj T1 (conj T2 (conj T3 T4)))).
    assert (Ln : length (noises variate ps) = n) by (rewrite noises_length; exact Lp).
    rewrite kick_dist by (rewrite ?descend_length; rewrite ?HG; congruence).
    unfold rho. apply (contraction n (eps * A) lo hi mu L U G); auto. }
  assert (L0 : length x0 = n /\ length y0 = n) by (subst x0 y0; rewrite !sizes_flat; unfold n; split; congruence).
  destruct k as [|k]; cbn [nth_error] in Hx, Hy.
  - injection Hx as <-. injection Hy as <-. split; [apply L0|]. split; [apply L0|]. cbn [pow]. rewrite Rmult_1_r. exact Step.
  - assert (Hms : masses (adapts (burn_in_plan burn) (S t)) ps' = ms) by (rewrite HB by lia; exact E3).
    assert (TW : twins (adapts (burn_in_plan burn) (S t)) ps' qs').
    { rewrite HB by lia. split; [|split; [|split]]; [congruence|congruence|congruence|].
      rewrite E6, F6. clear -T2 T4. revert qs T2 T4.
      induction ps as [|p ps IHp]; intros [|q qs] T2 T4; try discriminate T2; auto.
      cbn in T2, T4 |- *. injection T2 as A1 A2. injection T4 as B1 B2. rewrite A1, B1. f_equal. now apply IHp. }
    pose proof (IH ys (S t) ps' qs' TW ltac:(congruence) ltac:(intros; apply HB; lia)) as IH'. cbv zeta in IH'. rewrite Hms in IH'.
    specialize (IH' HM X5 Y5 k x y Hx Hy). rewrite <- X4, <- Y4 in IH'. destruct IH' as (I1 & I2 & I3).
    split; [exact I1|]. split; [exact I2|].
    assert (P : forall a b, 0 <= scaled_dist2 ms a b) by (intros; apply scaled_pos; eapply Forall_impl; [|exact HM]; cbn; intros; lra).
    destruct (Rle_or_lt (scaled_dist2 ms (flat (map value ps)) (flat (map value qs))) 0) as [Z|Z].
    + assert (Z0 : scaled_dist2 ms (flat (map value ps)) (flat (map value qs)) = 0) by (pose proof (P (flat (map value ps)) (flat (map value qs))); lra).
      rewrite Z0, Rmult_0_r in *. assert (scaled_dist2 ms x0 y0 = 0) by (pose proof (P x0 y0); lra). rewrite H, Rmult_0_r in I3. exact I3.
    + assert (R0 : 0 <= rho) by exact (factor_pos ms _ _ HM Lm Lp Lq Z).
      apply Rle_trans with (1 := I3). change (rho ^ S (S k)) with (rho * rho ^ S k).
      rewrite (Rmult_comm rho (rho ^ S k)), Rmult_assoc. apply Rmult_le_compat_l; [now apply pow_le|exact Step].
Qed.
End Contract.

(** Gradients have as many entries as there are parameters. *)
Fixpoint chop (sizes : list nat) (z : list R) : list (tensor R) :=
  match sizes with [] => [] | k :: sizes => Tensor [k] (firstn k z) :: chop sizes (skipn k z) end.
Lemma chop_spec : forall sizes z, length z = list_sum sizes ->
  map (fun v => length (data v)) (chop sizes z) = sizes /\ flat (chop sizes z) = z.
Proof.
  induction sizes as [|k sizes IH]; intros z Hz; cbn in *.
  - destruct z; [auto|discriminate Hz].
  - destruct (IH (skipn k z)) as [I1 I2]; [rewrite skipn_length; unfold list_sum; lia|].
    split; [rewrite I1, firstn_length; f_equal; lia|].
    unfold flat in *. cbn. rewrite I2. apply firstn_skipn.
Qed.
Lemma computes_length : forall sizes target U G, computes sizes target U G ->
  forall z, length z = list_sum sizes -> length (G z) = list_sum sizes.
Proof.
  intros sizes target U G HC z Hz. destruct (chop_spec sizes z Hz) as [C1 C2].
  destruct (HC (chop sizes z) (fun _ => None) C1) as (gss & _ & E2 & E3). rewrite C2 in E3. rewrite <- E3, <- E2.
  clear. induction gss as [|g gss IH]; auto. cbn. now rewrite app_length, IH.
Qed.

Lemma fresh_flat : forall k vs, flat (map value (map (fun v => fresh 0 v k) vs)) = flat vs.
Proof.
  intros k vs. unfold flat. f_equal. rewrite !map_map. apply map_ext. intros v. cbn.
  rewrite map_map. cbn. apply map_id.
Qed.
Lemma fresh_sizes : forall k vs, sizes_of (map (fun v => fresh 0 v k) vs) = map (fun v => length (data v)) vs.
Proof. intros. unfold sizes_of. rewrite map_map. apply map_ext. intros v. cbn. now rewrite map_length. Qed.
Lemma fresh_masses : forall k vs, masses true (map (fun v => fresh 0 v k) vs) = repeat (inverse_mass 1) (length (flat vs)).
Proof.
  intros k vs. unfold masses, flat. rewrite map_map. induction vs as [|v vs IH]; auto. cbn [map concat].
  rewrite IH, app_length, repeat_app. f_equal. cbn. rewrite map_map. cbn. clear.
  induction (data v); cbn; congruence.
Qed.
Lemma inverse_mass_1 : 0 < inverse_mass 1.
Proof. unfold inverse_mass. rewrite sqrt_1. apply Rdiv_lt_0_compat; [lra|]. pose proof guard_pos. lra. Qed.

(** Two complete seeded runs of SGLD with one step of burn-in and a constant stepsize, from any two starts: whatever
    the noise, the distance between their k-th samples shrinks geometrically. *)
Theorem C97_sgld_forgets_its_start :
  forall variate reserve A s target U G mu L eps B bg us rs s1 b0 e0 params B' bg' us' rs' s1' b0' e0' params' gseed sd ids entropy ids' entropy',
  let sizes := map (fun v => length (data v)) params in
  computes sizes target U G -> strongly_convex (list_sum sizes) mu U G -> lipschitz (list_sum sizes) L G ->
  map (fun v => length (data v)) params' = sizes ->
  0 < s -> 0 <= eps * A -> let h := eps * A * inverse_mass 1 in h * L ^ 2 <= 2 * mu ->
  Forall no_fed_mass us -> Forall no_fed_mass us' ->
  let sc := constant_schedule (tensor R) (sample (tensor R) * tensor R) in
  let E := sampler_env variate reserve (kernel_of (Sgld (LConfig A s))) target B bg sc in
  let E' := sampler_env variate reserve (kernel_of (Sgld (LConfig A s))) target B' bg' sc in
  drive E (burnin_next E 1 (length params)) us (initial_state E b0 (number eps)
     (session_of (Sgld (LConfig A s)) e0 params (noise_ops gseed (Some sd) ids entropy (length params)))) = (rs, s1) ->
  drive E' (burnin_next E' 1 (length params')) us' (initial_state E' b0' (number eps)
     (session_of (Sgld (LConfig A s)) e0' params' (noise_ops gseed (Some sd) ids' entropy' (length params')))) = (rs', s1') ->
  forall k x y, nth_error (points E rs) k = Some x -> nth_error (points E' rs') k = Some y ->
  dist2 x y <= (1 - 2 * h * mu + h ^ 2 * L ^ 2) ^ S k * dist2 (flat params) (flat params').
Proof.
  intros variate reserve A s target U G mu L eps B bg us rs s1 b0 e0 params B' bg' us' rs' s1' b0' e0' params' gseed sd ids entropy ids' entropy'
    sizes HT HC HL HS' Hs Hh h Hb HU HU' sc E E' HD HD' k x y Hx Hy.
  pose proof (constant_steady variate reserve (Sgld (LConfig A s)) target B bg 1 (length params) us rs s1 b0 eps _ HD) as HY.
  pose proof (constant_steady variate reserve (Sgld (LConfig A s)) target B' bg' 1 (length params') us' rs' s1' b0' eps _ HD') as HY'.
  apply C86_published_chain in HD; [|exact Hs|exact HU]. apply C86_published_chain in HD'; [|exact Hs|exact HU'].
  cbn [rule_of l_A l_scale_grad] in HD, HD'. set (key := (_, sd)) in HD, HD'.
  apply (follows_path (sgld_entry A s) eps variate reserve target sizes U G HT) in HD; [|exact HY|apply fresh_sizes].
  apply (follows_path (sgld_entry A s) eps variate reserve target sizes U G HT) in HD'; [|exact HY'|rewrite fresh_sizes; exact HS'].
  set (m := inverse_mass 1) in *. pose proof inverse_mass_1 as Hm. fold m in Hm.
  assert (FL : length (flat params) = list_sum sizes) by (unfold sizes, flat; clear; induction params; cbn; auto; now rewrite app_length, IHparams).
  assert (FL' : length (flat params') = list_sum sizes) by (rewrite <- HS'; unfold flat; clear; induction params'; cbn; auto; now rewrite app_length, IHparams').
  assert (MM : Forall (fun q => q = m) (repeat m (length (flat params)))) by (apply Forall_forall; intros q Hq; apply repeat_spec in Hq; exact Hq).
  assert (TW : twins (adapts (burn_in_plan 1) 0) (map (fun v => fresh 0 v key) params) (map (fun v => fresh 0 v key) params')).
  { change (adapts (burn_in_plan 1) 0) with true. split; [|split; [|split]].
    - rewrite !fresh_masses. congruence.
    - rewrite !fresh_sizes. symmetry. exact HS'.
    - rewrite !map_map. cbn. clear -HS'. assert (length params' = length params) by (rewrite <- (map_length (fun v => length (data v)) params'), HS'; apply map_length).
      revert params' H HS'. induction params; intros [|] HH HS'; try discriminate HH; cbn; auto. f_equal. apply IHparams; cbn in *; [lia|now injection HS'].
    - rewrite !map_map. cbn. clear -HS'. assert (length params' = length params) by (rewrite <- (map_length (fun v => length (data v)) params'), HS'; apply map_length).
      revert params' H HS'. induction params; intros [|] HH HS'; try discriminate HH; cbn; auto. f_equal. apply IHparams; cbn in *; [lia|now injection HS']. }
  destruct (path_contracts A s eps variate reserve sizes U G mu L m m 1) with (5 := Hh) (7 := TW) (11 := HD) (12 := HD') (k := k) (x := x) (y := y)
    as (L1 & L2 & Q); auto.
  - now apply (computes_length sizes target U).
  - apply fresh_sizes.
  - intros t' _. cbn [adapts burn_in_plan]. apply orb_false_iff. split; [apply Z.ltb_ge; lia|reflexivity].
  - change (adapts (burn_in_plan 1) 0) with true. rewrite fresh_masses. fold m. eapply Forall_impl; [|exact MM]. cbn. intros; lra.
  - change (adapts (burn_in_plan 1) 0) with true in Q. rewrite fresh_masses, !fresh_flat in Q. fold m in Q.
    rewrite !(scaled_const m) in Q by (auto; rewrite repeat_length; congruence).
    replace (1 - 2 * h * mu + h ^ 2 * L ^ 2) with (factor (eps * A) m m mu L) by (unfold factor, h; fold m; ring).
    unfold Rdiv in Q. rewrite <- Rmult_assoc in Q. apply Rmult_le_reg_r in Q; [exact Q|]. now apply Rinv_0_lt_compat.
Qed.

(** *** One run *)
Section States.
Variables (eps : R) (variate : Z * Z -> nat -> R) (reserve : nat -> nat).
Variables (sizes : list nat) (G : list R -> list R) (burn : Z).
Variable rule : R -> bool -> R -> R -> entry -> entry.
Notation path := (path rule eps variate reserve sizes G burn).
Notation pl := (burn_in_plan burn).
Variables (A s : R).
Let st := s + 3 * guard.

Lemma path_states : forall xs t ps, path t ps xs -> exists Q : nat -> list parameter, Q O = ps /\
  forall k x, nth_error xs k = Some x -> exists gss, map (@length R) gss = sizes /\ concat gss = G (flat (map value (Q k))) /\
    moves rule variate reserve eps (adapts pl (t + k)) gss (Q k) = Some (Q (S k)) /\ x = flat (map value (Q (S k))).
Proof.
  induction xs as [|x xs IH]; intros t ps HP.
  - exists (fun _ => ps). split; auto. intros [|]; discriminate.
  - destruct HP as (gss & ps' & P1 & P2 & P3 & P4 & P5). destruct (IH _ _ P5) as (Q & Q0 & QS).
    exists (fun k => match k with O => ps | S k => Q k end). split; auto. intros [|k] y Hy; cbn in Hy.
    + injection Hy as <-. exists gss. rewrite Nat.add_0_r, Q0. auto.
    + destruct (QS k y Hy) as (g & R1 & R2 & R3 & R4). exists g. replace (t + S k)%nat with (S t + k)%nat by lia. auto.
Qed.

Definition clock (keys : list (Z * Z)) (k : nat) (qs : list parameter) : Prop :=
  sizes_of qs = sizes /\ map seeds qs = keys /\ map used qs = map (fun d => k * reserve d)%nat sizes.
Lemma clock_noise : forall keys k qs, clock keys k qs -> noises variate qs = normals variate reserve keys sizes k.
Proof.
  intros keys k qs (H1 & H2 & H3). unfold noises, normals. f_equal. rewrite <- H2. rewrite <- H1 in H3 |- *. clear H1 H2.
  induction qs as [|q qs IH]; auto. cbn in *. injection H3 as E1 E2. rewrite (IH E2). f_equal.
  unfold noise_at. now rewrite E1.
Qed.
Lemma clock_step : forall keys k qs qs' b gss, clock keys k qs -> map (@length R) gss = sizes ->
  moves (sgld_entry A s) variate reserve eps b gss qs = Some qs' ->
  clock keys (S k) qs' /\ masses false qs' = masses b qs /\
  flat (map value qs') = kick (eps * A) st (masses b qs) (normals variate reserve keys sizes k)
     (descend (eps * A) (masses b qs) (concat gss) (flat (map value qs))).
Proof.
  intros keys k qs qs' b gss HC HG HM. pose proof (clock_noise _ _ _ HC) as HN. destruct HC as (H1 & H2 & H3).
  destruct (moves_flat A s variate reserve eps b gss qs) as (q2 & E1 & E2 & E3 & E4 & E5 & E6); [congruence|].
  assert (q2 = qs') by congruence. subst q2. split; [|split; [exact E3|rewrite <- HN; exact E2]].
  split; [congruence|]. split; [congruence|]. rewrite E6. clear -H1 H3. revert H1 H3. generalize sizes as sz. induction qs as [|q qs IH]; intros [|d sz] H1 H3; try discriminate H1; auto.
  cbn in *. injection H1 as A1 A2. injection H3 as B1 B2. rewrite B1, A1. f_equal; [lia|]. now apply IH.
Qed.
End States.

Lemma masses_adapting : forall qs, Forall (fun m => 0 < m) (masses true qs).
Proof.
  intros qs. apply Forall_forall. intros m Hm. unfold masses in Hm. apply in_concat in Hm as (l & Hl & Hm).
  apply in_map_iff in Hl as (p & <- & _). apply in_map_iff in Hm as (e & <- & _). cbn. unfold inverse_mass.
  apply Rdiv_lt_0_compat; [lra|]. pose proof guard_pos. pose proof (sqrt_pos (s_v (averages e))). lra.
Qed.

(** Every complete run of SGLD with burn-in: with the masses [ms] its burn-in ends with, each later sample is
    closer to the minimiser [z] by a fixed factor than the sample before it, up to the noise of that call. *)
Theorem C97_sgld_returns_to_the_minimiser :
  forall variate reserve A s target U G mu L z eps burn B bg us rs s1 b0 e0 params gseed seed ids entropy,
  let sizes := map (fun v => length (data v)) params in
  computes sizes target U G -> strongly_convex (list_sum sizes) mu U G -> lipschitz (list_sum sizes) L G ->
  length z = list_sum sizes -> Forall (fun g => g = 0) (G z) ->
  0 < s -> 0 <= eps * A -> (0 < burn)%Z -> Forall no_fed_mass us ->
  let E := sampler_env variate reserve (kernel_of (Sgld (LConfig A s))) target B bg
             (constant_schedule (tensor R) (sample (tensor R) * tensor R)) in
  let ops := noise_ops gseed seed ids entropy (length params) in
  drive E (burnin_next E burn (length params)) us (initial_state E b0 (number eps)
     (session_of (Sgld (LConfig A s)) e0 params ops)) = (rs, s1) ->
  exists ms, length ms = list_sum sizes /\ Forall (fun m => 0 < m) ms /\
  forall lo hi, 0 < lo -> Forall (fun m => lo <= m <= hi) ms -> eps * A * hi * L ^ 2 <= 2 * mu ->
  forall k x x', (burn <= Z.of_nat (S k))%Z ->
  nth_error (points E rs) k = Some x -> nth_error (points E rs) (S k) = Some x' ->
  sqrt (scaled_dist2 ms x' z) <=
    sqrt (1 - lo * (eps * A) * (2 * mu - eps * A * hi * L ^ 2)) * sqrt (scaled_dist2 ms x z) +
    sqrt (2 * (eps * A) / (s + 3 / 10000000000000000)) * sqrt (sum_squares (normals variate reserve (map op_key ops) sizes (S k))).
Proof.
  intros variate reserve A s target U G mu L z eps burn B bg us rs s1 b0 e0 params gseed seed ids entropy sizes HT HC HL Hz Hgz Hs Hh Hburn HU E ops HD.
  pose proof (constant_steady variate reserve (Sgld (LConfig A s)) target B bg burn (length params) us rs s1 b0 eps _ HD) as HY.
  assert (LO : length ops = length params) by (unfold ops, noise_ops; now rewrite map_length, seq_length).
  assert (HP : Forall (fun o => op_pos o = 0%nat) ops).
  { apply Forall_forall. intros o Ho. unfold ops, noise_ops in Ho. now apply in_map_iff in Ho as (i & <- & _). }
  apply (chain_of_ops variate reserve (Sgld (LConfig A s))) in HD; [|exact Hs|exact LO|exact HU|exact HP].
  cbn [rule_of l_A l_scale_grad] in HD. set (ps0 := map _ (combine params ops)) in HD.
  assert (CK : clock reserve sizes (map op_key ops) 0 ps0).
  { unfold ps0, clock, sizes, sizes_of. clear -LO. clearbody ops. revert ops LO. induction params as [|v params IH]; intros [|o ops] LO; try discriminate LO.
    - auto.
    - cbn in LO. destruct (IH ops ltac:(lia)) as (I1 & I2 & I3). cbn. rewrite I1, I2, I3, map_length. auto. }
  apply (follows_path (sgld_entry A s) eps variate reserve target sizes U G HT) in HD; [|exact HY|apply CK].
  fold E in HD. set (pts := points E rs) in *. clearbody pts. clear HY HU. clearbody ps0. clear rs E B bg us b0 s1 e0.
  set (n := list_sum sizes) in *.
  destruct (path_states eps variate reserve sizes G burn (sgld_entry A s) pts 0 ps0 HD) as (Q & Q0 & QS). cbn [plus] in QS.
  assert (HG : forall x, length x = n -> length (G x) = n) by (now apply (computes_length sizes target U)).
  assert (CL : forall k, (k <= length pts)%nat -> clock reserve sizes (map op_key ops) k (Q k)).
  { induction k as [|k IH]; intros Hk; [now rewrite Q0|].
    destruct (nth_error pts k) as [x|] eqn:Ex; [|apply nth_error_None in Ex; lia].
    destruct (QS k x Ex) as (gss & R1 & R2 & R3 & R4). eapply (clock_step eps variate); [apply IH; lia|exact R1|exact R3]. }
  assert (SL : forall k, (k <= length pts)%nat -> length (flat (map value (Q k))) = n).
  { intros k Hk. rewrite sizes_flat. destruct (CL k Hk) as (-> & _). reflexivity. }
  set (bn := Z.to_nat burn).
  destruct (le_lt_dec bn (length pts)) as [Hbn|Hbn].
  2:{ exists (repeat 1 n). split; [apply repeat_length|]. split; [apply Forall_forall; intros m Hm; apply repeat_spec in Hm; lra|].
      intros lo hi _ _ _ k x x' Hk Hx Hx'. exfalso. apply nth_error_Some_lt in Hx' || (assert (nth_error pts (S k) <> None) as Hx2 by congruence; apply nth_error_Some in Hx2).
      unfold bn in Hbn. lia. }
  exists (masses false (Q bn)). split; [rewrite flat_length; now apply SL|].
  assert (MF : forall k, (bn <= k <= length pts)%nat -> masses false (Q k) = masses false (Q bn)).
  { intros k [H1 H2]. revert H2. induction H1 as [|k H1 IH]; intros H2; auto. rewrite <- IH by lia.
    destruct (nth_error pts k) as [x|] eqn:Ex; [|apply nth_error_None in Ex; lia].
    destruct (QS k x Ex) as (gss & R1 & R2 & R3 & R4).
    destruct (clock_step eps variate reserve sizes A s _ k _ _ _ _ (CL k ltac:(lia)) R1 R3) as (_ & -> & _).
    replace (adapts (burn_in_plan burn) k) with false; auto. symmetry. cbn [adapts burn_in_plan].
    apply orb_false_iff. split; [apply Z.ltb_ge; lia|apply Z.leb_gt; lia]. }
  assert (MP : Forall (fun m => 0 < m) (masses false (Q bn))).
  { assert (exists k, bn = S k) as [k Ek] by (exists (bn - 1)%nat; unfold bn; lia). rewrite Ek.
    destruct (nth_error pts k) as [x|] eqn:Ex; [|apply nth_error_None in Ex; lia].
    destruct (QS k x Ex) as (gss & R1 & R2 & R3 & R4).
    destruct (clock_step eps variate reserve sizes A s _ k _ _ _ _ (CL k ltac:(lia)) R1 R3) as (_ & -> & _).
    replace (adapts (burn_in_plan burn) k) with true; [apply masses_adapting|]. symmetry. cbn [adapts burn_in_plan].
    apply orb_true_iff. left. apply Z.ltb_lt. lia. }
  split; [exact MP|]. intros lo hi Hlo HM Hb k x x' Hk Hx Hx'. set (ms := masses false (Q bn)) in *.
  assert (Hlt : (S k < length pts)%nat) by (apply nth_error_Some; congruence).
  destruct (QS k x Hx) as (_ & _ & _ & _ & Ex). destruct (QS (S k) x' Hx') as (gss & R1 & R2 & R3 & R4).
  destruct (clock_step eps variate reserve sizes A s _ (S k) _ _ _ _ (CL (S k) ltac:(lia)) R1 R3) as (_ & _ & FE).
  replace (adapts (burn_in_plan burn) (S k)) with false in FE.
  2:{ symmetry. cbn [adapts burn_in_plan]. apply orb_false_iff. split; [apply Z.ltb_ge; lia|apply Z.leb_gt; lia]. }
  rewrite MF in FE by (unfold bn; lia). fold ms in FE. rewrite <- R4, R2, <- Ex in FE. rewrite FE.
  assert (Lx : length x = n) by (rewrite Ex; apply SL; lia).
  assert (Lm : length ms = n) by (unfold ms; rewrite flat_length; now apply SL).
  assert (Ln : length (normals variate reserve (map op_key ops) sizes (S k)) = n).
  { rewrite <- (clock_noise variate reserve sizes _ _ _ (CL (S k) ltac:(lia))), noises_length. apply SL. lia. }
  assert (Hst : 0 < s + 3 * guard) by (pose proof guard_pos; lra).
  replace (s + 3 / 10000000000000000) with (s + 3 * guard) by (unfold guard; lra).
  eapply Rle_trans; [apply kick_norm; auto; rewrite ?descend_length; rewrite ?HG; congruence|].
  apply Rplus_le_compat_r.
  pose proof (contraction n (eps * A) lo hi mu L U G ms x z HC HL HG Hlo HM Hh Hb Lm Lx Hz) as K.
  rewrite (descend_zero _ _ (G z) z) in K by (auto; rewrite ?HG; congruence).
  fold (factor (eps * A) lo hi mu L).
  assert (P0 : 0 <= scaled_dist2 ms x z) by (now apply scaled_pos).
  destruct (Rle_or_lt 0 (factor (eps * A) lo hi mu L)) as [F|F].
  - rewrite <- sqrt_mult by assumption. now apply sqrt_le_1_alt.
  - assert (P1 : 0 <= scaled_dist2 ms (descend (eps * A) ms (G x) x) z) by (now apply scaled_pos).
    assert (scaled_dist2 ms (descend (eps * A) ms (G x) x) z = 0) by nra. rewrite H, sqrt_0.
    apply Rmult_le_pos; apply sqrt_pos.
Qed.

(** *** Mean squares *)
Lemma one_step_recursion :
  forall variate reserve A s target U G eps B bg us rs s1 b0 e0 params gseed seed ids entropy,
  let sizes := map (fun v => length (data v)) params in
  computes sizes target U G -> 0 < s -> Forall no_fed_mass us ->
  let E := sampler_env variate reserve (kernel_of (Sgld (LConfig A s))) target B bg
             (constant_schedule (tensor R) (sample (tensor R) * tensor R)) in
  let ops := noise_ops gseed seed ids entropy (length params) in
  drive E (burnin_next E 1 (length params)) us (initial_state E b0 (number eps)
     (session_of (Sgld (LConfig A s)) e0 params ops)) = (rs, s1) ->
  let visited k := nth k (flat params :: points E rs) [] in
  let ms := repeat (inverse_mass 1) (list_sum sizes) in
  forall k, (k < length (points E rs))%nat -> length (visited k) = list_sum sizes /\
    length (normals variate reserve (map op_key ops) sizes k) = list_sum sizes /\
    visited (S k) = kick (eps * A) (s + 3 * guard) ms (normals variate reserve (map op_key ops) sizes k)
      (descend (eps * A) ms (G (visited k)) (visited k)).
Proof.
  intros variate reserve A s target U G eps B bg us rs s1 b0 e0 params gseed seed ids entropy sizes HT Hs HU E ops HD visited ms.
  pose proof (constant_steady variate reserve (Sgld (LConfig A s)) target B bg 1 (length params) us rs s1 b0 eps _ HD) as HY.
  assert (LO : length ops = length params) by (unfold ops, noise_ops; now rewrite map_length, seq_length).
  assert (HP : Forall (fun o => op_pos o = 0%nat) ops).
  { apply Forall_forall. intros o Ho. unfold ops, noise_ops in Ho. now apply in_map_iff in Ho as (i & <- & _). }
  apply (chain_of_ops variate reserve (Sgld (LConfig A s))) in HD; [|exact Hs|exact LO|exact HU|exact HP].
  cbn [rule_of l_A l_scale_grad] in HD. set (ps0 := map _ (combine params ops)) in HD.
  assert (CK : clock reserve sizes (map op_key ops) 0 ps0 /\ flat (map value ps0) = flat params /\
               masses true ps0 = repeat (inverse_mass 1) (length (flat params))).
  { unfold ps0, clock, sizes, sizes_of. clear -LO. clearbody ops. revert ops LO. induction params as [|v params IH]; intros [|o ops] LO; try discriminate LO.
    - repeat split.
    - cbn in LO. destruct (IH ops ltac:(lia)) as ((I1 & I2 & I3) & I4 & I5). cbn [combine]. split; [|split].
      + cbn. rewrite I1, I2, I3, map_length. auto.
      + rewrite (map_cons (fun '(v, o) => fresh 0 v (op_key o))), flat_value, I4. unfold flat. cbn. f_equal. rewrite map_map. cbn. apply map_id.
      + unfold masses, flat in *. cbn [map concat fresh entries]. rewrite I5, app_length, repeat_app. f_equal.
        rewrite map_map. cbn. clear. induction (data v); cbn; congruence. }
  destruct CK as (CK & FV & MV).
  apply (follows_path (sgld_entry A s) eps variate reserve target sizes U G HT) in HD; [|exact HY|apply CK].
  fold E in HD. unfold visited. set (pts := points E rs) in *. clearbody pts. clear HY HU. clearbody ps0. clear rs E B bg us b0 s1 e0 visited.
  set (n := list_sum sizes) in *.
  destruct (path_states eps variate reserve sizes G 1 (sgld_entry A s) pts 0 ps0 HD) as (Q & Q0 & QS). cbn [plus] in QS.
  assert (CL : forall k, (k <= length pts)%nat -> clock reserve sizes (map op_key ops) k (Q k)).
  { induction k as [|k IH]; intros Hk; [now rewrite Q0|].
    destruct (nth_error pts k) as [x|] eqn:Ex; [|apply nth_error_None in Ex; lia].
    destruct (QS k x Ex) as (gss & R1 & R2 & R3 & R4). eapply (clock_step eps variate); [apply IH; lia|exact R1|exact R3]. }
  assert (SL : forall k, (k <= length pts)%nat -> length (flat (map value (Q k))) = n).
  { intros k Hk. rewrite sizes_flat. destruct (CL k Hk) as (-> & _). reflexivity. }
  assert (VQ : forall k, (k <= length pts)%nat -> nth k (flat params :: pts) [] = flat (map value (Q k))).
  { intros [|k] Hk; [now rewrite Q0, FV|]. cbn [nth]. destruct (nth_error pts k) as [x|] eqn:Ex; [|apply nth_error_None in Ex; lia].
    destruct (QS k x Ex) as (_ & _ & _ & _ & Ex2). rewrite <- Ex2. now apply nth_error_nth. }
  assert (MF : forall k, (k <= length pts)%nat -> masses (adapts (burn_in_plan 1) k) (Q k) = ms).
  { induction k as [|k IH]; intros Hk.
    - rewrite Q0. change (adapts (burn_in_plan 1) 0) with true. rewrite MV. unfold ms. rewrite <- FV, <- Q0, SL by lia. reflexivity.
    - rewrite <- IH by lia. destruct (nth_error pts k) as [x|] eqn:Ex; [|apply nth_error_None in Ex; lia].
      destruct (QS k x Ex) as (gss & R1 & R2 & R3 & R4).
      destruct (clock_step eps variate reserve sizes A s _ k _ _ _ _ (CL k ltac:(lia)) R1 R3) as (_ & <- & _).
      replace (adapts (burn_in_plan 1) (S k)) with false; auto. symmetry. cbn [adapts burn_in_plan].
      apply orb_false_iff. split; [apply Z.ltb_ge; lia|reflexivity]. }
  intros k Hk. rewrite !VQ by lia. split; [apply SL; lia|].
  split; [rewrite <- (clock_noise variate reserve sizes _ _ _ (CL k ltac:(lia))), noises_length; apply SL; lia|].
  destruct (nth_error pts k) as [x|] eqn:Ex; [|apply nth_error_None in Ex; lia].
  destruct (QS k x Ex) as (gss & R1 & R2 & R3 & R4).
  destruct (clock_step eps variate reserve sizes A s _ k _ _ _ _ (CL k ltac:(lia)) R1 R3) as (_ & _ & ->).
  rewrite MF by lia. now rewrite R2.
Qed.

(** Complete runs over random streams of normals, one step of burn-in, constant stepsize: the mean squared distance of
    the samples to the minimiser approaches its bound geometrically. *)
Theorem C97_sgld_mean_square :
  forall O (P : expectation O) (stream : O -> Z * Z -> nat -> R) reserve A s target U G mu L z eps B bg us b0 e0 params gseed seed ids entropy N,
  let sizes := map (fun v => length (data v)) params in let n := list_sum sizes in
  computes sizes target U G -> strongly_convex n mu U G -> lipschitz n L G ->
  length z = n -> Forall (fun g => g = 0) (G z) ->
  0 < s -> 0 < eps * A -> let h := eps * A * inverse_mass 1 in h * L ^ 2 < 2 * mu -> Forall no_fed_mass us ->
  let E w := sampler_env (stream w) reserve (kernel_of (Sgld (LConfig A s))) target B bg
             (constant_schedule (tensor R) (sample (tensor R) * tensor R)) in
  let ops := noise_ops gseed seed ids entropy (length params) in
  let run w := fst (drive (E w) (burnin_next (E w) 1 (length params)) us (initial_state (E w) b0 (number eps)
     (session_of (Sgld (LConfig A s)) e0 params ops))) in
  (forall w, length (points (E w) (run w)) = N) ->
  let visited k w := nth k (flat params :: points (E w) (run w)) [] in
  let xi k w := normals (stream w) reserve (map op_key ops) sizes k in
  (forall f, (forall w, 0 <= f w) -> 0 <= ex P f) ->
  (forall k i, (k < N)%nat -> (i < n)%nat -> ex P (fun w => nth i (xi k w) 0 ^ 2) = 1) ->
  (forall k i (phi : list R -> R), (k < N)%nat -> (i < n)%nat -> ex P (fun w => phi (visited k w) * nth i (xi k w) 0) = 0) ->
  let bound := 2 * INR n / ((s + 3 / 10000000000000000) * (2 * mu - h * L ^ 2)) in
  forall k, (k <= N)%nat ->
  ex P (fun w => dist2 (visited k w) z) - bound <=
    (1 - 2 * h * mu + h ^ 2 * L ^ 2) ^ k * (dist2 (flat params) z - bound).
Proof.
  intros O P stream reserve A s target U G mu L z eps B bg us b0 e0 params gseed seed ids entropy N sizes n HT HC HL Hz Hgz Hs Hh h Hb HU E ops run HN visited xi HP HV HX bound k Hk.
  assert (HG : forall x, length x = n -> length (G x) = n) by (now apply (computes_length sizes target U)).
  set (m := inverse_mass 1) in *. pose proof inverse_mass_1 as Hm. fold m in Hm.
  assert (REC : forall t w, (t < N)%nat -> length (visited t w) = n /\ length (xi t w) = n /\
     visited (S t) w = kick (eps * A) (s + 3 * guard) (repeat m n) (xi t w) (descend (eps * A) (repeat m n) (G (visited t w)) (visited t w))).
  { intros t w Ht. pose proof (HN w) as HNw. unfold visited, run in *.
    destruct (drive (E w) (burnin_next (E w) 1 (length params)) us _) as [rs s1] eqn:HD. cbn [fst] in *.
    apply (one_step_recursion (stream w) reserve A s target U G eps B bg us rs s1 b0 e0 params gseed seed ids entropy HT Hs HU HD t).
    unfold E in HNw. rewrite HNw. exact Ht. }
  assert (Hst : 0 < s + 3 * guard) by (pose proof guard_pos; lra).
  assert (MM : Forall (fun q => q = m) (repeat m n)) by (apply Forall_forall; intros q Hq; now apply repeat_spec in Hq).
  assert (FL : length (flat params) = n) by (unfold n, sizes, flat; clear; induction params; cbn; auto; now rewrite app_length, IHparams).
  assert (M := mean_bound P HP n (eps * A) (s + 3 * guard) m m mu L U G (repeat m n) z HC HL HG Hm ltac:(eapply Forall_impl; [|exact MM]; cbn; intros; lra) Hst Hh
    ltac:(unfold h in Hb; exact Hb) (repeat_length _ _) Hz Hgz N visited xi (fun w => FL) (fun t w Ht => proj1 (proj2 (REC t w Ht)))
    (fun t w Ht => proj2 (proj2 (REC t w Ht))) HV HX k Hk).
  assert (VL : forall t w, (t <= N)%nat -> length (visited t w) = n).
  { intros [|t] w Ht; [exact FL|]. destruct (REC t w ltac:(lia)) as (L1 & L2 & ->).
    rewrite kick_length; rewrite ?descend_length; rewrite ?repeat_length, ?HG; congruence. }
  assert (SC : forall t, (t <= N)%nat -> ex P (fun w => scaled_dist2 (repeat m n) (visited t w) z) = / m * ex P (fun w => dist2 (visited t w) z)).
  { intros t Ht. rewrite <- ex_scale. apply ex_ext. intros w. rewrite (scaled_const m); [unfold Rdiv; ring|exact MM|]. rewrite repeat_length. now apply VL. }
  rewrite !SC in M by lia.
  assert (E0 : ex P (fun w => dist2 (visited 0%nat w) z) = dist2 (flat params) z).
  { rewrite (ex_ext P _ (fun w => dist2 (flat params) z * 1)) by (intros; unfold visited; cbn [nth]; ring).
    rewrite (ex_scale P _ (fun _ => 1)), ex_one. ring. }
  rewrite E0 in M.
  replace (1 - 2 * h * mu + h ^ 2 * L ^ 2) with (factor (eps * A) m m mu L) by (unfold factor, h; ring).
  apply (Rmult_le_compat_l m) in M; [|lra].
  assert (Dpos : 2 * mu - h * L ^ 2 <> 0) by lra.
  assert (EB : m * (2 * INR n / ((s + 3 * guard) * m * (2 * mu - eps * A * m * L ^ 2))) = bound).
  { unfold bound. replace (s + 3 / 10000000000000000) with (s + 3 * guard) by (unfold guard; lra).
    unfold h in Dpos |- *. field. repeat split; lra. }
  set (D := 2 * INR n / ((s + 3 * guard) * m * (2 * mu - eps * A * m * L ^ 2))) in *.
  rewrite <- EB. set (e := ex P (fun w => dist2 (visited k w) z)) in *.
  replace (m * (/ m * e - D)) with (e - m * D) in M by (field; lra).
  replace (m * (factor (eps * A) m m mu L ^ k * (/ m * dist2 (flat params) z - D)))
    with (factor (eps * A) m m mu L ^ k * (dist2 (flat params) z - m * D)) in M by (field; lra).
  exact M.
Qed.

(** *** Concrete cases *)
(** Without a batch generator no call fails. *)
Lemma all_succeed : forall variate reserve (w : which R) target sizes U G eps burn us rs s1 b0 e0 params gseed seed ids entropy,
  sizes = map (fun v => length (data v)) params -> computes sizes target U G -> 0 < gradient_scale w -> Forall no_fed_mass us ->
  let E := sampler_env variate reserve (kernel_of w) target unit None
             (constant_schedule (tensor R) (sample (tensor R) * tensor R)) in
  let ops := noise_ops gseed seed ids entropy (length params) in
  drive E (burnin_next E burn (length params)) us (initial_state E b0 (number eps)
     (session_of w e0 params ops)) = (rs, s1) ->
  length (points E rs) = length us.
Proof.
  intros variate reserve w target sizes U G eps burn us rs s1 b0 e0 params gseed seed ids entropy Hsz HT Hs HU E ops HD.
  pose proof (constant_steady variate reserve w target unit None burn (length params) us rs s1 b0 eps _ HD) as HY. fold E in HY.
  assert (OUT : Forall (fun c => exists base fmt, step_outcome E base fmt (cr_res E c) (cr_events E c)) rs).
  { apply Forall_forall. intros c Hc. apply in_split in Hc as (pre & post & ->).
    destruct (outcome_of _ E (BurnIn burn (length params)) _ _ _ _ _ _ _ _ HD) as (base & fmt & SS & _).
    exists base, fmt. exact (ss_outcome E _ _ _ _ _ _ SS). }
  assert (LR : length rs = length us).
  { clear -HD. revert HD. generalize (initial_state E b0 (number eps) (session_of w e0 params ops)). revert rs s1.
    induction us as [|u us IH]; intros rs s1 st H; cbn [drive] in H; [injection H as <- _; reflexivity|].
    destruct (call E (burnin_next E burn (length params)) u st) as [[r s2] ev].
    destruct (drive E (burnin_next E burn (length params)) us s2) as [rs2 s3] eqn:Ed. injection H as <- _. cbn. f_equal. eapply IH; eauto. }
  rewrite <- LR.
  assert (LO : length ops = length params) by (unfold ops, noise_ops; now rewrite map_length, seq_length).
  assert (HP : Forall (fun o => op_pos o = 0%nat) ops).
  { apply Forall_forall. intros o Ho. unfold ops, noise_ops in Ho. now apply in_map_iff in Ho as (i & <- & _). }
  apply (chain_of_ops variate reserve w) in HD; [|exact Hs|exact LO|exact HU|exact HP].
  fold E in HD.
  assert (SZ : sizes_of (map (fun '(v, o) => fresh 0 v (op_key o)) (combine params ops)) = sizes).
  { rewrite Hsz. unfold sizes_of. clear -LO. clearbody ops. revert ops LO. induction params as [|v params IH]; intros [|o ops] LO; try discriminate LO; auto.
    cbn in *. rewrite map_length. f_equal. apply IH. lia. }
  revert SZ HD. generalize (map (fun '(v, o) => fresh 0 v (op_key o)) (combine params ops)) as ps. generalize 0%nat as t.
  clear -OUT HY HT. intros t ps SZ HD. revert OUT HY SZ.
  induction HD as [t ps|t ps c rest e Hr Hn HF IH|t ps c rest e b evb eps' f user Hr Hb He Hp Ht HF IH
    |t ps c rest e b evb eps' f o user cost ps' Hr Hb Ht He Hp HF IH|t ps c rest b evb eps' f o user cost ps' Hb Ht Hr He Hp HF IH];
    intros OUT HY SZ; [reflexivity| | | |]; inversion HY as [|? ? [HS1 HS2] HS3]; subst;
    inversion OUT as [|? ? (base & fmt & SO) OUT']; subst.
  - exfalso. rewrite Hr in SO. inversion SO as [e' HB E1 E2|evb b e' HB E1 E2|evb b eps' f e' HB HF' E1 E2|evb b eps' f o e' HB HF' E1 E2|]; subst.
    + now apply HB.
    + rewrite <- E2 in HS1. unfold stepsize_results in HS1. rewrite flat_map_app in HS1. apply Forall_app in HS1 as [_ HS1].
      cbn in HS1. inversion HS1 as [|? ? Q _]; subst. discriminate Q.
    + rewrite <- E2 in Hn. unfold runs in Hn. rewrite flat_map_app in Hn. apply app_eq_nil in Hn as [_ Hn]. discriminate Hn.
    + rewrite <- E2 in Hn. unfold runs in Hn. rewrite flat_map_app in Hn. apply app_eq_nil in Hn as [_ Hn]. discriminate Hn.
  - exfalso. unfold transition in Ht. destruct (HT (map value ps) user) as (gss & E1 & E2 & E3); [apply value_sizes|].
    rewrite E1 in Ht. destruct (moves_some variate reserve (rule_of w) (hd 0 (data eps')) (adapts (burn_in_plan burn) t) gss ps E2) as (ps' & E4 & _).
    rewrite E4 in Ht. discriminate Ht.
  - exfalso. rewrite He in HS2. unfold updates in HS2. rewrite flat_map_app in HS2. apply Forall_app in HS2 as [_ HS2].
    cbn in HS2. inversion HS2 as [|? ? Q _]; subst. discriminate Q.
  - unfold points. cbn [flat_map]. rewrite Hr. cbn [app length]. f_equal. apply IH; auto.
    unfold transition in Ht. destruct (HT (map value ps) user) as (gss & E1 & E2 & E3); [apply value_sizes|].
    rewrite E1 in Ht. destruct (moves_some variate reserve (rule_of w) (hd 0 (data eps')) (adapts (burn_in_plan burn) t) gss ps E2) as (ps2 & E4 & E5 & _).
    rewrite E4 in Ht. cbn in Ht. injection Ht as <- <-. exact E5.
Qed.

(** x^2 + x y + y^2 on one parameter of two entries. *)
Definition bowl (v : list R) : R := match v with [x; y] => x ^ 2 + x * y + y ^ 2 | _ => 0 end.
Definition bowl_gradient (v : list R) : list R := match v with [x; y] => [2 * x + y; x + 2 * y] | _ => [] end.
Definition bowl_target : @objective R := fun vs _ =>
  match vs with [v] => Ok (bowl (data v), [bowl_gradient (data v)]) | _ => Raise ValueError end.
Lemma bowl_computes : computes [2%nat] bowl_target bowl bowl_gradient.
Proof.
  intros [|v [|]] user H; try discriminate H. cbn in H. injection H as H.
  exists [bowl_gradient (data v)]. unfold flat. cbn [map concat]. rewrite app_nil_r. split; [reflexivity|].
  destruct (data v) as [|x [|y [|]]]; try discriminate H. split; reflexivity.
Qed.
Lemma bowl_convex : strongly_convex 2 1 bowl bowl_gradient.
Proof.
  intros [|x [|y [|]]] [|x' [|y' [|]]] H H'; try discriminate. cbn [bowl bowl_gradient minus inner dist2].
  pose proof (pow2_ge_0 ((x - x') + (y - y'))). nra.
Qed.
Lemma bowl_lipschitz : lipschitz 2 3 bowl_gradient.
Proof.
  intros [|x [|y [|]]] [|x' [|y' [|]]] H H'; try discriminate. cbn [bowl_gradient dist2].
  pose proof (pow2_ge_0 ((x - x') - (y - y'))). nra.
Qed.
Lemma bowl_step : 1 / 10 * 1 * inverse_mass 1 * 3 ^ 2 < 2 * 1.
Proof.
  unfold inverse_mass. rewrite sqrt_1. pose proof guard_pos.
  assert (1 / (1 + 3 * guard) < 1) by (apply Rmult_lt_reg_r with (1 + 3 * guard); [lra|]; unfold Rdiv; rewrite Rmult_assoc, Rinv_l by lra; lra). lra.
Qed.
Lemma no_feeds : forall N, Forall no_fed_mass (repeat (@None (feed (tensor R))) N).
Proof. intros N. apply Forall_forall. intros u Hu. apply repeat_spec in Hu as ->. repeat constructor. Qed.
Definition bowl_env (variate : Z * Z -> nat -> R) :=
  sampler_env variate (fun n => n) (kernel_of (Sgld (LConfig 1 1))) bowl_target unit None
    (constant_schedule (tensor R) (sample (tensor R) * tensor R)).
Definition bowl_drive (variate : Z * Z -> nat -> R) (burn : Z) (start : list R) (N : nat) :=
  (drive (bowl_env variate) (burnin_next (bowl_env variate) burn 1) (repeat None N)
    (initial_state (bowl_env variate) tt (number (1 / 10))
       (session_of (Sgld (LConfig 1 1)) 0 [Tensor [2%nat] start] (noise_ops None (Some 7%Z) [0%nat] (fun _ => (0, 0)%Z) 1)))).
Definition bowl_run (variate : Z * Z -> nat -> R) (burn : Z) (start : list R) (N : nat) := fst (bowl_drive variate burn start N).
Lemma bowl_length : forall variate burn x y N, length (points (bowl_env variate) (bowl_run variate burn [x; y] N)) = N.
Proof.
  intros variate burn x y N. unfold bowl_run. destruct (bowl_drive variate burn [x; y] N) as [rs s1] eqn:HD. cbn [fst].
  etransitivity; [|apply (repeat_length (@None (feed (tensor R))) N)].
  apply (all_succeed variate (fun n => n) (Sgld (LConfig 1 1)) bowl_target [2%nat] bowl bowl_gradient (1 / 10) burn (repeat None N) rs s1 tt 0 [Tensor [2%nat] [x; y]] None (Some 7%Z) [0%nat] (fun _ => (0, 0)%Z));
    [reflexivity|apply bowl_computes|cbn; lra|apply no_feeds|exact HD].
Qed.

(** Runs of every length from (3, -1) and (0, 5). *)
Example C97_example_start : forall variate N,
  let X := points (bowl_env variate) (bowl_run variate 1 [3; -1] N) in
  let Y := points (bowl_env variate) (bowl_run variate 1 [0; 5] N) in
  length X = N /\ length Y = N /\
  let h := 1 / 10 * 1 * inverse_mass 1 in
  forall k, (k < N)%nat -> dist2 (nth k X []) (nth k Y []) <= (1 - 2 * h * 1 + h ^ 2 * 3 ^ 2) ^ S k * 45.
Proof.
  intros variate N X Y. split; [apply bowl_length|]. split; [apply bowl_length|]. intros h k Hk.
  pose proof (bowl_length variate 1 3 (-1) N) as LX. pose proof (bowl_length variate 1 0 5 N) as LY.
  replace 45 with (dist2 (flat [Tensor [2%nat] [3; -1]]) (flat [Tensor [2%nat] [0; 5]])) by (cbn; ring).
  unfold X, Y, bowl_run in *. destruct (bowl_drive variate 1 [3; -1] N) as [rs s1] eqn:HD.
  destruct (bowl_drive variate 1 [0; 5] N) as [rs' s1'] eqn:HD'. cbn [fst] in *.
  pose proof bowl_step.
  apply (C97_sgld_forgets_its_start variate (fun n => n) 1 1 bowl_target bowl bowl_gradient 1 3 (1 / 10) unit None (repeat None N) rs s1 tt 0 [Tensor [2%nat] [3; -1]]
    unit None (repeat None N) rs' s1' tt 0 [Tensor [2%nat] [0; 5]] None 7%Z [0%nat] (fun _ => (0, 0)%Z) [0%nat] (fun _ => (0, 0)%Z)); auto using no_feeds; try lra.
  - apply bowl_computes.
  - apply bowl_convex.
  - apply bowl_lipschitz.
  - apply nth_error_nth'. eapply Nat.lt_le_trans; [exact Hk|]. apply Nat.eq_le_incl. symmetry. exact LX.
  - apply nth_error_nth'. eapply Nat.lt_le_trans; [exact Hk|]. apply Nat.eq_le_incl. symmetry. exact LY.
Qed.

(** Runs of every length after three steps of burn-in. *)
Example C97_example_burn_in : forall variate N,
  exists ms, length ms = 2%nat /\ Forall (fun m => 0 < m) ms /\
  length (points (bowl_env variate) (bowl_run variate 3 [3; -1] N)) = N /\
  forall lo hi, 0 < lo -> Forall (fun m => lo <= m <= hi) ms -> 1 / 10 * 1 * hi * 3 ^ 2 <= 2 * 1 ->
  forall k, (3 <= S k < N)%nat ->
  let x j := nth j (points (bowl_env variate) (bowl_run variate 3 [3; -1] N)) [] in
  sqrt (scaled_dist2 ms (x (S k)) [0; 0]) <=
    sqrt (1 - lo * (1 / 10 * 1) * (2 * 1 - 1 / 10 * 1 * hi * 3 ^ 2)) * sqrt (scaled_dist2 ms (x k) [0; 0]) +
    sqrt (2 * (1 / 10 * 1) / (1 + 3 / 10000000000000000)) * sqrt (sum_squares (normals variate (fun n => n) [(87654321, 7)%Z] [2%nat] (S k))).
Proof.
  intros variate N. pose proof (bowl_length variate 3 3 (-1) N) as LX.
  unfold bowl_run in *. destruct (bowl_drive variate 3 [3; -1] N) as [rs s1] eqn:HD. cbn [fst] in *.
  destruct (C97_sgld_returns_to_the_minimiser variate (fun n => n) 1 1 bowl_target bowl bowl_gradient 1 3 [0; 0] (1 / 10) 3 unit None (repeat None N) rs s1 tt 0 [Tensor [2%nat] [3; -1]]
    None (Some 7%Z) [0%nat] (fun _ => (0, 0)%Z)) as (ms & M1 & M2 & M3); auto using no_feeds; try lra; try lia.
  - apply bowl_computes.
  - apply bowl_convex.
  - apply bowl_lipschitz.
  - cbn. repeat constructor; lra.
  - exists ms. split; [exact M1|]. split; [exact M2|]. split; [exact LX|]. intros lo hi Hlo HM Hb k Hk.
    apply (M3 lo hi Hlo HM Hb k); [lia| |]; apply nth_error_nth'; (eapply Nat.lt_le_trans; [|apply Nat.eq_le_incl; symmetry; exact LX]); lia.
Qed.

(** Normals replaced by independent fair signs (two per call): all hypotheses of the mean square bound hold, for every
    length of the run. *)
Example C97_example_mean : forall N,
  let stream w (_ : Z * Z) p := draw p w in
  let x k w := nth k ([3; -1] :: points (bowl_env (stream w)) (bowl_run (stream w) 1 [3; -1] N)) [] in
  let h := 1 / 10 * 1 * inverse_mass 1 in
  let bound := 2 * INR 2 / ((1 + 3 / 10000000000000000) * (2 * 1 - h * 3 ^ 2)) in
  forall k, (k <= N)%nat ->
  ex (fair (2 * N)) (fun w => dist2 (x k w) [0; 0]) - bound <= (1 - 2 * h * 1 + h ^ 2 * 3 ^ 2) ^ k * (10 - bound).
Proof.
  intros N stream x h bound k Hk.
  assert (XI : forall w j i, (i < 2)%nat -> nth i (normals (stream w) (fun n => n) [(87654321, 7)%Z] [2%nat] j) 0 = draw (j * 2 + i) w).
  { intros w j [|[|i]] Hi; try lia; reflexivity. }
  assert (REC : forall w j, (j < N)%nat -> x (S j) w = kick (1 / 10 * 1) (1 + 3 * guard) (repeat (inverse_mass 1) 2)
     [draw (j * 2 + 0) w; draw (j * 2 + 1) w] (descend (1 / 10 * 1) (repeat (inverse_mass 1) 2) (bowl_gradient (x j w)) (x j w))).
  { intros w j Hj. pose proof (bowl_length (stream w) 1 3 (-1) N) as LX. unfold x, bowl_run in *.
    destruct (bowl_drive (stream w) 1 [3; -1] N) as [rs s1] eqn:HD. cbn [fst] in *.
    apply (one_step_recursion (stream w) (fun n => n) 1 1 bowl_target bowl bowl_gradient (1 / 10) unit None (repeat None N) rs s1 tt 0 [Tensor [2%nat] [3; -1]]
      None (Some 7%Z) [0%nat] (fun _ => (0, 0)%Z)); [apply bowl_computes|lra|apply no_feeds|exact HD|].
    eapply Nat.lt_le_trans; [exact Hj|apply Nat.eq_le_incl; symmetry; exact LX]. }
  assert (DEC : forall j, (j <= N)%nat -> forall w w', (forall i, (i < j * 2)%nat -> w i = w' i) -> x j w = x j w').
  { induction j as [|j IH]; intros Hj w w' Hw; [reflexivity|]. rewrite !REC by lia.
    rewrite (IH ltac:(lia) w w') by (intros; apply Hw; lia). unfold draw. now rewrite !Hw by lia. }
  replace 10 with (dist2 (flat [Tensor [2%nat] [3; -1]]) [0; 0]) by (cbn; ring).
  apply (C97_sgld_mean_square (nat -> bool) (fair (2 * N)) stream (fun n => n) 1 1 bowl_target bowl bowl_gradient 1 3 [0; 0] (1 / 10) unit None (repeat None N) tt 0 [Tensor [2%nat] [3; -1]]
    None (Some 7%Z) [0%nat] (fun _ => (0, 0)%Z) N); auto using no_feeds; try lra.
  - apply bowl_computes.
  - apply bowl_convex.
  - apply bowl_lipschitz.
  - cbn. repeat constructor; lra.
  - pose proof bowl_step. lra.
  - intros w. apply (bowl_length (stream w) 1 3 (-1) N).
  - apply fair_positive.
  - intros j i Hj Hi. etransitivity; [|apply (fair_var (2 * N) (j * 2 + i))]. apply ex_ext. intros w. f_equal. exact (XI w j i Hi).
  - intros j i phi Hj Hi. etransitivity; [|apply (fair_next (2 * N) (j * 2 + i) (fun w => phi (x j w)))].
    + apply ex_ext. intros w. f_equal. exact (XI w j i Hi).
    + cbn in Hi. lia.
    + intros w w' Hw. f_equal. apply DEC; [lia|]. intros; apply Hw; lia.
Qed.

Print Assumptions C97_sgld_forgets_its_start.
Print Assumptions C97_sgld_returns_to_the_minimiser.
Print Assumptions C97_sgld_mean_square.
