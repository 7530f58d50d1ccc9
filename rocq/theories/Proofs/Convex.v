(** Lemmas for C97. *)
From Coq Require Import List Arith Lia ZArith Reals Lra Psatz Bool.
From Verif.Base Require Import Py Lists.
From Verif.Model Require Import TensorUtils BaseClasses.
From Verif.Spec Require Import Dynamics Chain Convex.
Import ListNotations.
Local Open Scope R_scope.

Lemma dist2_pos : forall xs ys, 0 <= dist2 xs ys.
Proof. induction xs as [|x xs IH]; intros [|y ys]; cbn [dist2]; try lra. pose proof (pow2_ge_0 (x - y)). specialize (IH ys). lra. Qed.
Lemma dist2_sym : forall xs ys, dist2 xs ys = dist2 ys xs.
Proof. induction xs as [|x xs IH]; intros [|y ys]; cbn [dist2]; auto. rewrite IH. ring. Qed.
Lemma scaled_pos : forall ms xs ys, Forall (fun m => 0 < m) ms -> 0 <= scaled_dist2 ms xs ys.
Proof.
  intros ms xs ys H. revert xs ys. induction H as [|m ms Hm _ IH]; intros [|x xs] [|y ys]; cbn [scaled_dist2]; try lra.
  specialize (IH xs ys). assert (0 <= (x - y) ^ 2 / m); [|lra].
  apply Rmult_le_pos; [apply pow2_ge_0|]. now apply Rlt_le, Rinv_0_lt_compat.
Qed.
Lemma scaled_lower : forall lo ms xs ys, 0 < lo -> Forall (fun m => lo <= m) ms -> length xs = length ms ->
  lo * scaled_dist2 ms xs ys <= dist2 xs ys.
Proof.
  intros lo ms xs ys Hlo H. revert xs ys. induction H as [|m ms Hm _ IH]; intros [|x xs] [|y ys] HL; cbn [scaled_dist2 dist2]; try discriminate HL; try lra.
  injection HL as HL. specialize (IH xs ys HL). rewrite Rmult_plus_distr_l.
  assert (lo * ((x - y) ^ 2 / m) <= (x - y) ^ 2); [|lra].
  apply Rmult_le_reg_r with m; [lra|]. unfold Rdiv.
  replace (lo * ((x - y) ^ 2 * / m) * m) with ((x - y) ^ 2 * lo) by (field; lra).
  apply Rmult_le_compat_l; [apply pow2_ge_0|lra].
Qed.
Lemma scaled_const : forall m ms xs ys, Forall (fun q => q = m) ms -> length xs = length ms ->
  scaled_dist2 ms xs ys = dist2 xs ys / m.
Proof.
  intros m ms xs ys H. revert xs ys. induction H as [|q ms Hm _ IH]; intros [|x xs] [|y ys] HL; cbn [scaled_dist2 dist2]; try discriminate HL; try (unfold Rdiv; ring).
  injection HL as HL. rewrite (IH xs ys HL), Hm. unfold Rdiv. ring.
Qed.

(** One gradient step with stepsize h preconditioned by [ms]. *)
Fixpoint descend (h : R) (ms gs xs : list R) : list R :=
  match ms, gs, xs with m :: ms, g :: gs, x :: xs => x - h * m * g :: descend h ms gs xs | _, _, _ => [] end.
Lemma descend_length : forall h ms gs xs, length ms = length xs -> length gs = length xs -> length (descend h ms gs xs) = length xs.
Proof. induction ms as [|m ms IH]; intros [|g gs] [|x xs] H1 H2; cbn in *; try discriminate; auto. Qed.

Fixpoint scaled_up (ms xs ys : list R) : R :=
  match ms, xs, ys with m :: ms, x :: xs, y :: ys => m * (x - y) ^ 2 + scaled_up ms xs ys | _, _, _ => 0 end.
Lemma scaled_up_le : forall hi ms xs ys, Forall (fun m => m <= hi) ms -> length xs = length ms -> scaled_up ms xs ys <= hi * dist2 xs ys.
Proof.
  intros hi ms xs ys H. revert xs ys. induction H as [|m ms Hm _ IH]; intros [|x xs] [|y ys] HL; cbn [scaled_up dist2]; try discriminate HL; try lra.
  injection HL as HL. specialize (IH xs ys HL). pose proof (Rmult_le_compat_r _ _ _ (pow2_ge_0 (x - y)) Hm). lra.
Qed.
Lemma descend_dist : forall h ms gs hs xs ys, Forall (fun m => 0 < m) ms ->
  length gs = length ms -> length hs = length ms -> length xs = length ms -> length ys = length ms ->
  scaled_dist2 ms (descend h ms gs xs) (descend h ms hs ys) =
    scaled_dist2 ms xs ys - 2 * h * inner (minus gs hs) (minus xs ys) + h ^ 2 * scaled_up ms gs hs.
Proof.
  intros h ms gs hs xs ys H. revert gs hs xs ys.
  induction H as [|m ms Hm _ IH]; intros [|g gs] [|k hs] [|x xs] [|y ys] L1 L2 L3 L4; try discriminate; cbn [descend scaled_dist2 minus inner scaled_up]; [ring|].
  cbn in L1, L2, L3, L4. rewrite IH by lia. field. lra.
Qed.

Lemma inner_minus_l : forall a b c, length a = length c -> length b = length c -> inner (minus a b) c = inner a c - inner b c.
Proof. induction a as [|x a IH]; intros [|y b] [|z c] L1 L2; try discriminate; cbn [minus inner]; [ring|]. cbn in L1, L2. rewrite IH by lia. ring. Qed.
Lemma inner_minus_flip : forall a b c, inner a (minus b c) = - inner a (minus c b).
Proof. induction a as [|x a IH]; intros [|y b] [|z c]; cbn [minus inner]; try ring. rewrite IH. ring. Qed.
Lemma minus_length : forall a b, length a = length b -> length (minus a b) = length a.
Proof. induction a as [|x a IH]; intros [|y b] HL; try discriminate HL; cbn; auto. Qed.

(** Strong convexity makes the gradient strongly monotone. *)
Lemma monotone : forall n mu U G x y, strongly_convex n mu U G -> (forall z, length z = n -> length (G z) = n) ->
  length x = n -> length y = n -> mu * dist2 x y <= inner (minus (G x) (G y)) (minus x y).
Proof.
  intros n mu U G x y HC HG Hx Hy.
  pose proof (HC x y Hx Hy) as H1. pose proof (HC y x Hy Hx) as H2. rewrite (dist2_sym y x) in H2.
  rewrite inner_minus_l by (rewrite minus_length; rewrite ?HG; congruence).
  rewrite (inner_minus_flip (G x)) in H1. lra.
Qed.

(** The factor by which squared distances shrink. *)
Definition factor (h lo hi mu L : R) : R := 1 - lo * h * (2 * mu - h * hi * L ^ 2).
Lemma contraction : forall n h lo hi mu L U G ms x y,
  strongly_convex n mu U G -> lipschitz n L G -> (forall z, length z = n -> length (G z) = n) ->
  0 < lo -> Forall (fun m => lo <= m <= hi) ms -> 0 <= h -> h * hi * L ^ 2 <= 2 * mu ->
  length ms = n -> length x = n -> length y = n ->
  scaled_dist2 ms (descend h ms (G x) x) (descend h ms (G y) y) <= factor h lo hi mu L * scaled_dist2 ms x y.
Proof.
  intros n h lo hi mu L U G ms x y HC HL HG Hlo HM Hh Hb Lm Lx Ly.
  assert (P : Forall (fun m => 0 < m) ms) by (eapply Forall_impl; [|exact HM]; cbn; intros; lra).
  rewrite descend_dist by (auto; rewrite ?HG; congruence).
  pose proof (monotone n mu U G x y HC HG Lx Ly) as H1.
  assert (H2 : scaled_up ms (G x) (G y) <= hi * dist2 (G x) (G y)).
  { apply scaled_up_le; [|rewrite HG; congruence]. eapply Forall_impl; [|exact HM]. cbn. intros; lra. }
  pose proof (HL x y Lx Ly) as H3.
  assert (H4 : lo * scaled_dist2 ms x y <= dist2 x y).
  { apply scaled_lower; [exact Hlo| |congruence]. eapply Forall_impl; [|exact HM]. cbn. intros; lra. }
  pose proof (dist2_pos x y) as H5. pose proof (dist2_pos (G x) (G y)) as H7.
  destruct ms as [|m ms].
  { cbn in Lm. subst n. destruct x; [|discriminate Lx]. destruct y; [|discriminate Ly].
    cbn [scaled_dist2 minus inner scaled_up] in *. destruct (minus (G []) (G [])); cbn [inner]; lra. }
  assert (Hhi : 0 <= hi) by (inversion HM; subst; lra).
  set (W := scaled_dist2 (m :: ms) x y) in *. set (I := inner _ _) in *. set (S := scaled_up _ _ _) in *.
  set (D := dist2 x y) in *. set (DG := dist2 (G x) (G y)) in *.
  assert (HH : 0 <= h ^ 2) by apply pow2_ge_0.
  assert (A1 : h ^ 2 * S <= h ^ 2 * (hi * (L ^ 2 * D))).
  { apply Rmult_le_compat_l; [exact HH|]. apply Rle_trans with (hi * DG); [exact H2|]. apply Rmult_le_compat_l; assumption. }
  assert (A2 : 2 * h * (mu * D) <= 2 * h * I) by (apply Rmult_le_compat_l; lra).
  assert (A3 : h * (2 * mu - h * hi * L ^ 2) * (lo * W) <= h * (2 * mu - h * hi * L ^ 2) * D).
  { apply Rmult_le_compat_l; [|exact H4]. apply Rmult_le_pos; lra. }
  unfold factor. lra.
Qed.

(** Noise added to all entries. *)
Fixpoint kick (h st : R) (ms xis xs : list R) : list R :=
  match ms, xis, xs with
  | m :: ms, xi :: xis, x :: xs => x + sqrt (2 * (h * m) / st) * xi :: kick h st ms xis xs
  | _, _, _ => []
  end.
Lemma kick_length : forall h st ms xis xs, length ms = length xs -> length xis = length xs -> length (kick h st ms xis xs) = length xs.
Proof. induction ms as [|m ms IH]; intros [|g gs] [|x xs] H1 H2; cbn in *; try discriminate; auto. Qed.
Lemma kick_dist : forall h st ms xis xs ys, length ms = length xs -> length xis = length xs -> length ys = length xs ->
  scaled_dist2 ms (kick h st ms xis xs) (kick h st ms xis ys) = scaled_dist2 ms xs ys.
Proof.
  induction ms as [|m ms IH]; intros [|g gs] [|x xs] [|y ys] H1 H2 H3; try discriminate; cbn [kick scaled_dist2]; auto.
  cbn in H1, H2, H3. rewrite IH by lia. f_equal. f_equal. ring.
Qed.
Lemma descend_app : forall h m1 g1 x1 m2 g2 x2, length m1 = length x1 -> length g1 = length x1 ->
  descend h (m1 ++ m2) (g1 ++ g2) (x1 ++ x2) = descend h m1 g1 x1 ++ descend h m2 g2 x2.
Proof. induction m1 as [|m m1 IH]; intros [|g g1] [|x x1] m2 g2 x2 H1 H2; try discriminate; cbn; auto. cbn in H1, H2. now rewrite IH by lia. Qed.
Lemma kick_app : forall h st m1 g1 x1 m2 g2 x2, length m1 = length x1 -> length g1 = length x1 ->
  kick h st (m1 ++ m2) (g1 ++ g2) (x1 ++ x2) = kick h st m1 g1 x1 ++ kick h st m2 g2 x2.
Proof. induction m1 as [|m m1 IH]; intros [|g g1] [|x x1] m2 g2 x2 H1 H2; try discriminate; cbn; auto. cbn in H1, H2. now rewrite IH by lia. Qed.

(** *** The chain of SGLD on all entries at once *)
Section Chain.
Variables (A s : R).
Variable variate : Z * Z -> nat -> R.
Variable reserve : nat -> nat.
Notation rule := (sgld_entry A s).
Let st := s + 3 * guard.

Definition masses (b : bool) (ps : list parameter) : list R := concat (map (fun p => map (mass_of b) (entries p)) ps).
Definition noise_at (p : parameter) : list R :=
  map (fun i => variate (seeds p) (used p + i)%nat) (seq 0 (length (entries p))).
Definition noises (ps : list parameter) : list R := concat (map noise_at ps).
Definition sizes_of (ps : list parameter) : list nat := map (fun p => length (entries p)) ps.

Lemma moved_length : forall eps b noise gs es i, length gs = length es -> length (moved rule eps b noise i gs es) = length es.
Proof. induction gs as [|g gs IH]; intros [|e es] i H; try discriminate H; cbn in *; auto. Qed.
Lemma moved_theta : forall eps b noise gs es i, length gs = length es ->
  map theta (moved rule eps b noise i gs es) =
    kick (eps * A) st (map (mass_of b) es) (map noise (seq i (length es)))
      (descend (eps * A) (map (mass_of b) es) gs (map theta es)).
Proof.
  induction gs as [|g gs IH]; intros [|e es] i H; try discriminate H; auto.
  cbn [moved map length seq descend kick]. rewrite IH by (now injection H). f_equal.
  cbn [sgld_entry theta]. unfold sgld_theta, sgld_drift. fold st.
  replace (eps * A * mass_of b e) with (eps * mass_of b e * A) by ring. ring.
Qed.
Lemma moved_mass : forall eps b noise gs es i, length gs = length es ->
  map (mass_of false) (moved rule eps b noise i gs es) = map (mass_of b) es.
Proof.
  induction gs as [|g gs IH]; intros [|e es] i H; try discriminate H; auto.
  cbn [moved map]. rewrite IH by (now injection H). reflexivity.
Qed.

Lemma flat_value : forall p ps, flat (map value (p :: ps)) = map theta (entries p) ++ flat (map value ps).
Proof. reflexivity. Qed.
Lemma flat_length : forall b ps, length (masses b ps) = length (flat (map value ps)).
Proof. induction ps as [|p ps IH]; auto. cbn. rewrite !app_length, !map_length. unfold masses in IH. now rewrite IH. Qed.
Lemma noises_length : forall ps, length (noises ps) = length (flat (map value ps)).
Proof. induction ps as [|p ps IH]; auto. cbn. rewrite !app_length. unfold noise_at at 1. rewrite !map_length, seq_length. unfold noises in IH. now rewrite IH. Qed.

(** Any rule moves every state if there is a gradient for every entry. *)
Lemma moves_some : forall rule' eps b gss ps, map (@length R) gss = sizes_of ps ->
  exists ps', moves rule' variate reserve eps b gss ps = Some ps' /\ sizes_of ps' = sizes_of ps /\
    map seeds ps' = map seeds ps /\ map used ps' = map (fun p => used p + reserve (length (entries p)))%nat ps.
Proof.
  intros rule' eps b. induction gss as [|gs gss IH]; intros [|p ps] H; try discriminate H.
  - exists []. repeat split; reflexivity.
  - cbn in H. injection H as H1 H2. destruct (IH ps H2) as (ps' & E1 & E2 & E3 & E4).
    exists (move rule' variate reserve eps b gs p :: ps'). cbn [moves]. rewrite H1, Nat.eqb_refl, E1. split; [reflexivity|].
    split; [|split]; cbn; [f_equal|now rewrite E3|now rewrite E4]; [|exact E2].
    clear -H1. revert H1. generalize (used p) as i. generalize (entries p) as es. induction gs as [|g gs IH]; intros [|e es] i H; try discriminate H; cbn in *; auto.
Qed.

Definition tick (p : parameter) : parameter :=
  Param (dims p) (entries p) (seeds p) (used p + reserve (length (entries p)))%nat.
Lemma moves_flat : forall eps b gss ps, map (@length R) gss = sizes_of ps ->
  exists ps', moves rule variate reserve eps b gss ps = Some ps' /\
    flat (map value ps') = kick (eps * A) st (masses b ps) (noises ps) (descend (eps * A) (masses b ps) (concat gss) (flat (map value ps))) /\
    masses false ps' = masses b ps /\ sizes_of ps' = sizes_of ps /\
    map seeds ps' = map seeds ps /\ map used ps' = map (fun p => used p + reserve (length (entries p)))%nat ps.
Proof.
  induction gss as [|gs gss IH]; intros [|p ps] H; try discriminate H.
  - exists []. repeat split; reflexivity.
  - cbn in H. injection H as H1 H2. destruct (IH ps H2) as (ps' & E1 & E2 & E3 & E4 & E5 & E6).
    exists (move rule variate reserve eps b gs p :: ps'). cbn [moves]. rewrite H1, Nat.eqb_refl, E1. split; [reflexivity|].
    split; [|split; [|split; [|split]]].
    + rewrite !flat_value, E2. cbn [move entries]. rewrite moved_theta by exact H1.
      unfold masses at 3 4, noises at 2. cbn [map concat]. fold (masses b ps). fold (noises ps).
      rewrite descend_app by (now rewrite ?map_length). 
      rewrite kick_app.
      * f_equal. f_equal. unfold noise_at.
        clear. generalize (length (entries p)) as n. intros n. 
        assert (G : forall k j, map (variate (seeds p)) (seq (j + k) n) = map (fun i => variate (seeds p) (j + i)%nat) (seq k n)).
        { induction n as [|n IHn]; intros; auto. cbn. f_equal. replace (S (j + k)) with (j + S k)%nat by lia. apply IHn. }
        specialize (G 0%nat (used p)). now rewrite Nat.add_0_r in G.
      * rewrite descend_length; rewrite ?map_length; auto.
      * unfold noise_at. rewrite descend_length; rewrite ?map_length, ?seq_length; auto.
    + unfold masses in *. cbn [map concat move entries]. rewrite moved_mass by exact H1. now rewrite E3.
    + unfold sizes_of in *. cbn [map move entries]. now rewrite moved_length, E4.
    + cbn. now rewrite E5.
    + cbn. now rewrite E6.
Qed.
End Chain.

(** *** The effect of the noise on distances *)
Fixpoint cross (h st : R) (ms xis xs zs : list R) : R :=
  match ms, xis, xs, zs with
  | m :: ms, xi :: xis, x :: xs, z :: zs => (x - z) * sqrt (2 * (h * m) / st) * xi / m + cross h st ms xis xs zs
  | _, _, _, _ => 0
  end.
Lemma kick_expand : forall h st t ms xis xs zs, 0 <= h -> 0 < st -> Forall (fun m => 0 < m) ms ->
  length xis = length ms -> length xs = length ms -> length zs = length ms ->
  scaled_dist2 ms (kick h st ms (map (Rmult t) xis) xs) zs =
    scaled_dist2 ms xs zs + 2 * t * cross h st ms xis xs zs + t ^ 2 * (2 * h / st * sum_squares xis).
Proof.
  intros h st t ms xis xs zs Hh Hst H. revert xis xs zs.
  induction H as [|m ms Hm _ IH]; intros [|xi xis] [|x xs] [|z zs] L1 L2 L3; try discriminate; cbn [map kick scaled_dist2 cross sum_squares]; [ring|].
  cbn in L1, L2, L3. rewrite IH by lia.
  set (q := sqrt (2 * (h * m) / st)).
  assert (Hq : q ^ 2 = 2 * (h * m) / st).
  { unfold q. rewrite <- Rsqr_pow2. apply Rsqr_sqrt. apply Rmult_le_pos; [|now apply Rlt_le, Rinv_0_lt_compat].
    assert (0 <= h * m) by (apply Rmult_le_pos; lra). lra. }
  replace ((x + q * (t * xi) - z) ^ 2 / m) with ((x - z) ^ 2 / m + 2 * t * ((x - z) * q * xi / m) + t ^ 2 * (q ^ 2 / m * xi ^ 2)) by (field; lra).
  rewrite Hq. field. split; lra.
Qed.
Lemma map_one : forall l, map (Rmult 1) l = l.
Proof. intros l. rewrite <- (map_id l) at 2. apply map_ext. intros; ring. Qed.
Lemma sum_squares_pos : forall l, 0 <= sum_squares l.
Proof. induction l as [|x l IH]; cbn [sum_squares]; [lra|]. pose proof (pow2_ge_0 x). lra. Qed.
Lemma quadratic_bound : forall W C V, 0 <= V -> (forall t, 0 <= W + 2 * t * C + t ^ 2 * V) -> C <= sqrt W * sqrt V.
Proof.
  intros W C V HV HQ. assert (HW : 0 <= W) by (specialize (HQ 0); lra).
  destruct (Rle_or_lt C 0) as [Hc|Hc]. { pose proof (sqrt_pos W). pose proof (sqrt_pos V). assert (0 <= sqrt W * sqrt V) by (now apply Rmult_le_pos). lra. }
  rewrite <- sqrt_mult by assumption. rewrite <- (sqrt_pow2 C) by lra. apply sqrt_le_1_alt.
  destruct HV as [HV|HV].
  - specialize (HQ (- (C / V))). replace (W + 2 * - (C / V) * C + (- (C / V)) ^ 2 * V) with (W - C ^ 2 / V) in HQ by (field; lra).
    apply (Rmult_le_compat_r V) in HQ; [|lra]. replace ((W - C ^ 2 / V) * V) with (W * V - C ^ 2) in HQ by (field; lra). lra.
  - subst V. specialize (HQ (- ((W + 1) / (2 * C)))). replace (W + 2 * - ((W + 1) / (2 * C)) * C + (- ((W + 1) / (2 * C))) ^ 2 * 0) with (-1) in HQ by (field; lra). lra.
Qed.
Lemma kick_norm : forall h st ms xis xs zs, 0 <= h -> 0 < st -> Forall (fun m => 0 < m) ms ->
  length xis = length ms -> length xs = length ms -> length zs = length ms ->
  sqrt (scaled_dist2 ms (kick h st ms xis xs) zs) <= sqrt (scaled_dist2 ms xs zs) + sqrt (2 * h / st) * sqrt (sum_squares xis).
Proof.
  intros h st ms xis xs zs Hh Hst HM L1 L2 L3.
  assert (H0 : 0 <= 2 * h / st) by (apply Rmult_le_pos; [lra|now apply Rlt_le, Rinv_0_lt_compat]).
  pose proof (sum_squares_pos xis) as H1. rewrite <- sqrt_mult by assumption.
  set (V := 2 * h / st * sum_squares xis). assert (HV : 0 <= V) by (unfold V; now apply Rmult_le_pos).
  assert (HW : 0 <= scaled_dist2 ms xs zs) by (now apply scaled_pos).
  pose proof (quadratic_bound (scaled_dist2 ms xs zs) (cross h st ms xis xs zs) V HV) as Q.
  assert (QQ : forall t, 0 <= scaled_dist2 ms xs zs + 2 * t * cross h st ms xis xs zs + t ^ 2 * V).
  { intros t. unfold V. rewrite <- kick_expand by assumption. now apply scaled_pos. }
  specialize (Q QQ). pose proof (kick_expand h st 1 ms xis xs zs Hh Hst HM L1 L2 L3) as K. rewrite map_one in K. fold V in K.
  set (a := sqrt (scaled_dist2 ms xs zs)) in *. set (b := sqrt V) in *.
  assert (Ha : 0 <= a) by apply sqrt_pos. assert (Hb : 0 <= b) by apply sqrt_pos.
  assert (Ea : a * a = scaled_dist2 ms xs zs) by (now apply sqrt_sqrt). assert (Eb : b * b = V) by (now apply sqrt_sqrt).
  rewrite <- (sqrt_pow2 (a + b)) by lra. apply sqrt_le_1_alt. rewrite K. nra.
Qed.
(** A point where the gradient vanishes is fixed. *)
Lemma descend_zero : forall h ms gs zs, length ms = length zs -> length gs = length zs -> Forall (fun g => g = 0) gs -> descend h ms gs zs = zs.
Proof.
  induction ms as [|m ms IH]; intros [|g gs] [|z zs] L1 L2 H; try discriminate; auto. cbn in *. inversion H; subst.
  rewrite IH by (auto; lia). f_equal. ring.
Qed.

(** *** Expectations *)
Fixpoint sumn (n : nat) (f : nat -> R) : R := match n with O => 0 | S n => f O + sumn n (fun i => f (S i)) end.
Lemma sumn_ext : forall n f g, (forall i, (i < n)%nat -> f i = g i) -> sumn n f = sumn n g.
Proof. induction n as [|n IH]; intros f g H; cbn; auto. rewrite (H O) by lia. f_equal. apply IH. intros. apply H. lia. Qed.
Lemma sumn_zero : forall n, sumn n (fun _ => 0) = 0.
Proof. induction n as [|n IH]; cbn; [auto|rewrite IH; ring]. Qed.
Lemma sumn_one : forall n, sumn n (fun _ => 1) = INR n.
Proof. induction n as [|n IH]; [auto|]. rewrite S_INR. cbn [sumn]. rewrite IH. ring. Qed.
Lemma ex_sumn : forall O (P : expectation O) n (f : nat -> O -> R), ex P (fun w => sumn n (fun i => f i w)) = sumn n (fun i => ex P (f i)).
Proof.
  intros O P. induction n as [|n IH]; intros f; cbn [sumn].
  - rewrite (ex_ext P _ (fun w => 0 * 1)) by (intros; ring). rewrite (ex_scale P 0 (fun _ => 1)). ring.
  - rewrite (ex_add P (f 0%nat) (fun w => sumn n (fun i => f (S i) w))). now rewrite (IH (fun i => f (S i))).
Qed.
Lemma cross_sum : forall h st ms xis xs zs, length xis = length ms -> length xs = length ms -> length zs = length ms ->
  cross h st ms xis xs zs = sumn (length ms) (fun i => (nth i xs 0 - nth i zs 0) * sqrt (2 * (h * nth i ms 0) / st) / nth i ms 0 * nth i xis 0).
Proof.
  induction ms as [|m ms IH]; intros [|a xis] [|x xs] [|z zs] L1 L2 L3; try discriminate; auto.
  cbn [cross length sumn nth]. rewrite IH by (cbn in *; lia). unfold Rdiv. ring.
Qed.
Lemma squares_sum : forall l, sum_squares l = sumn (length l) (fun i => nth i l 0 ^ 2).
Proof. induction l as [|x l IH]; auto. cbn [sum_squares length sumn nth]. now rewrite IH. Qed.

Section Mean.
Context {O : Type} (P : expectation O).
Hypothesis HP : forall f, (forall w, 0 <= f w) -> 0 <= ex P f.
Variables (n : nat) (h st lo hi mu L : R) (U : list R -> R) (G : list R -> list R) (ms z : list R).
Hypothesis HC : strongly_convex n mu U G.
Hypothesis HL : lipschitz n L G.
Hypothesis HG : forall x, length x = n -> length (G x) = n.
Hypothesis Hlo : 0 < lo.
Hypothesis HM : Forall (fun m => lo <= m <= hi) ms.
Hypothesis Hst : 0 < st.
Hypothesis Hh : 0 < h.
Hypothesis Hb : h * hi * L ^ 2 < 2 * mu.
Hypothesis Lm : length ms = n.
Hypothesis Lz : length z = n.
Hypothesis Gz : Forall (fun g => g = 0) (G z).
Variables (N : nat) (x xi : nat -> O -> list R).
Hypothesis Lx : forall w, length (x 0%nat w) = n.
Hypothesis Lxi : forall t w, (t < N)%nat -> length (xi t w) = n.
Hypothesis Step : forall t w, (t < N)%nat -> x (S t) w = kick h st ms (xi t w) (descend h ms (G (x t w)) (x t w)).
Hypothesis Var : forall t i, (t < N)%nat -> (i < n)%nat -> ex P (fun w => nth i (xi t w) 0 ^ 2) = 1.
Hypothesis Unc : forall t i (phi : list R -> R), (t < N)%nat -> (i < n)%nat -> ex P (fun w => phi (x t w) * nth i (xi t w) 0) = 0.
Let rho := factor h lo hi mu L.
Let D := 2 * INR n / (st * lo * (2 * mu - h * hi * L ^ 2)).

Lemma mean_length : forall t w, (t <= N)%nat -> length (x t w) = n.
Proof.
  induction t as [|t IH]; intros w Ht; [apply Lx|]. rewrite Step by lia.
  rewrite kick_length; rewrite ?descend_length; rewrite ?HG, ?Lxi, ?IH by (try apply IH; lia); auto.
Qed.
Lemma mean_rho : (0 < n)%nat -> 0 <= rho.
Proof.
  intros Hn.
  assert (HK := contraction n h lo hi mu L U G ms (repeat 0 n) (repeat 1 n) HC HL HG Hlo HM (Rlt_le _ _ Hh) (Rlt_le _ _ Hb) Lm (repeat_length _ _) (repeat_length _ _)).
  fold rho in HK.
  assert (MP : Forall (fun m => 0 < m) ms) by (eapply Forall_impl; [|exact HM]; cbn; intros; lra).
  assert (P1 := scaled_pos ms (descend h ms (G (repeat 0 n)) (repeat 0 n)) (descend h ms (G (repeat 1 n)) (repeat 1 n)) MP).
  assert (P2 : 0 < scaled_dist2 ms (repeat 0 n) (repeat 1 n)).
  { rewrite <- Lm in *. clear -MP Hn. destruct MP as [|m ms Hm MP]; [cbn in Hn; lia|].
    cbn [length repeat scaled_dist2]. pose proof (scaled_pos ms (repeat 0 (length ms)) (repeat 1 (length ms)) MP).
    assert (0 < (0 - 1) ^ 2 / m) by (apply Rdiv_lt_0_compat; lra). lra. }
  destruct (Rle_or_lt 0 rho) as [|H]; [assumption|]. nra.
Qed.
Lemma mean_step : forall t, (t < N)%nat ->
  ex P (fun w => scaled_dist2 ms (x (S t) w) z) <= rho * ex P (fun w => scaled_dist2 ms (x t w) z) + 2 * h / st * INR n.
Proof.
  intros t Ht.
  assert (MP : Forall (fun m => 0 < m) ms) by (eapply Forall_impl; [|exact HM]; cbn; intros; lra).
  set (y := fun w => descend h ms (G (x t w)) (x t w)).
  assert (Ly : forall w, length (y w) = n) by (intros w; unfold y; rewrite descend_length; rewrite ?HG, ?mean_length by (try apply mean_length; lia); auto).
  assert (E1 : forall w, scaled_dist2 ms (x (S t) w) z =
     (scaled_dist2 ms (y w) z + 2 * sumn n (fun i => (nth i (y w) 0 - nth i z 0) * sqrt (2 * (h * nth i ms 0) / st) / nth i ms 0 * nth i (xi t w) 0))
       + 2 * h / st * sumn n (fun i => nth i (xi t w) 0 ^ 2)).
  { intros w. rewrite Step by exact Ht. fold (y w). rewrite <- (map_one (xi t w)) at 1.
    rewrite kick_expand by (auto; try lra; rewrite ?Lxi by exact Ht; rewrite ?Ly; congruence).
    rewrite cross_sum, squares_sum by (rewrite ?Lxi by exact Ht; rewrite ?Ly; congruence).
    rewrite Lm, Lxi by exact Ht. ring. }
  rewrite (ex_ext P _ _ E1).
  rewrite (ex_add P (fun w => scaled_dist2 ms (y w) z + 2 * sumn n (fun i => (nth i (y w) 0 - nth i z 0) * sqrt (2 * (h * nth i ms 0) / st) / nth i ms 0 * nth i (xi t w) 0))).
  rewrite (ex_add P (fun w => scaled_dist2 ms (y w) z)), !ex_scale.
  rewrite (ex_sumn O P n (fun i w => (nth i (y w) 0 - nth i z 0) * sqrt (2 * (h * nth i ms 0) / st) / nth i ms 0 * nth i (xi t w) 0)).
  rewrite (ex_sumn O P n (fun i w => nth i (xi t w) 0 ^ 2)).
  rewrite (sumn_ext n (fun i => ex P (fun w => (nth i (y w) 0 - nth i z 0) * sqrt (2 * (h * nth i ms 0) / st) / nth i ms 0 * nth i (xi t w) 0)) (fun _ => 0)).
  2:{ intros i Hi. apply (Unc t i (fun v => (nth i (descend h ms (G v) v) 0 - nth i z 0) * sqrt (2 * (h * nth i ms 0) / st) / nth i ms 0) Ht Hi). }
  rewrite (sumn_ext n (fun i => ex P (fun w => nth i (xi t w) 0 ^ 2)) (fun _ => 1)) by (intros; now apply Var).
  rewrite sumn_zero, sumn_one.
  assert (K : ex P (fun w => scaled_dist2 ms (y w) z) <= ex P (fun w => rho * scaled_dist2 ms (x t w) z)).
  { assert (Q : 0 <= ex P (fun w => rho * scaled_dist2 ms (x t w) z + (-1) * scaled_dist2 ms (y w) z)).
    { apply HP. intros w.
      pose proof (contraction n h lo hi mu L U G ms (x t w) z HC HL HG Hlo HM (Rlt_le _ _ Hh) (Rlt_le _ _ Hb) Lm (mean_length t w ltac:(lia)) Lz) as C.
      rewrite (descend_zero _ _ (G z) z) in C by (auto; rewrite ?HG; congruence). fold rho (y w) in C. lra. }
    rewrite (ex_add P (fun w => rho * scaled_dist2 ms (x t w) z)), (ex_scale P (-1)) in Q. lra. }
  rewrite ex_scale in K. lra.
Qed.
Lemma mean_bound : forall t, (t <= N)%nat ->
  ex P (fun w => scaled_dist2 ms (x t w) z) - D <= rho ^ t * (ex P (fun w => scaled_dist2 ms (x 0%nat w) z) - D).
Proof.
  induction t as [|t IH]; intros Ht; [cbn [pow]; lra|]. pose proof (mean_step t Ht) as S1. specialize (IH ltac:(lia)).
  destruct (Nat.eq_dec n 0) as [Hn|Hn].
  { assert (ms = []) by (destruct ms; [auto|cbn in Lm; lia]). unfold D. rewrite H, Hn. cbn [scaled_dist2 INR].
    rewrite (ex_ext P (fun _ => 0) (fun _ => 0 * 1)) by (intros; ring). rewrite (ex_scale P 0 (fun _ => 1)).
    unfold Rdiv. rewrite !Rmult_0_r, !Rmult_0_l. lra. }
  pose proof (mean_rho ltac:(lia)) as R0.
  assert (ED : rho * D + 2 * h / st * INR n = D).
  { unfold D, rho, factor. field. split; lra. }
  apply Rle_trans with (rho * (ex P (fun w => scaled_dist2 ms (x t w) z) - D)); [lra|].
  change (rho ^ S t) with (rho * rho ^ t). rewrite Rmult_assoc. now apply Rmult_le_compat_l.
Qed.
End Mean.
