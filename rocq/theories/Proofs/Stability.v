(** The linear recursions of Spec/Gaussian.v. *)
From Coq Require Import Reals Lra Lia Psatz.
From Verif.Spec Require Import Gaussian.
Local Open Scope R_scope.

(** *** Limits *)
Lemma tends_cv : forall u l, tends u l <-> Un_cv u l.
Proof.
  intros u l. unfold tends, Un_cv, R_dist. split; intros H e He.
  - destruct (H e He) as [N HN]. exists N. intros n Hn. apply HN. lia.
  - destruct (H e He) as [N HN]. exists N. intros n Hn. apply HN. lia.
Qed.
Lemma tends_ext : forall u v l, (forall n, u n = v n) -> tends u l -> tends v l.
Proof. intros u v l E H e He. destruct (H e He) as [N HN]. exists N. intros. rewrite <- E. auto. Qed.
Lemma tends_eq : forall u l m, tends u l -> l = m -> tends u m.
Proof. intros; subst; auto. Qed.
Lemma tends_const : forall a, tends (fun _ => a) a.
Proof. intros a e He. exists O. intros. rewrite Rminus_diag_eq by reflexivity. now rewrite Rabs_R0. Qed.
Lemma tends_plus : forall u v l m, tends u l -> tends v m -> tends (fun n => u n + v n) (l + m).
Proof. intros u v l m Hu Hv. apply tends_cv. apply CV_plus; now apply tends_cv. Qed.
Lemma tends_mult : forall u v l m, tends u l -> tends v m -> tends (fun n => u n * v n) (l * m).
Proof. intros u v l m Hu Hv. apply tends_cv. apply CV_mult; now apply tends_cv. Qed.
Lemma tends_scal : forall u l a, tends u l -> tends (fun n => a * u n) (a * l).
Proof. intros u l a Hu. apply tends_mult; auto. apply tends_const. Qed.
Lemma tends_shift : forall u l, tends u l -> tends (fun n => u (S n)) l.
Proof. intros u l H e He. destruct (H e He) as [N HN]. exists N. intros n Hn. apply HN. lia. Qed.
Lemma tends_unshift : forall u l, tends (fun n => u (S n)) l -> tends u l.
Proof.
  intros u l H e He. destruct (H e He) as [N HN]. exists (S N). intros n Hn.
  destruct n; [lia|]. apply HN. lia.
Qed.
Lemma tends_unique : forall u l m, tends u l -> tends u m -> l = m.
Proof. intros u l m Hl Hm. apply (UL_sequence u); now apply tends_cv. Qed.

(** A decreasing sequence bounded below has vanishing decrements. *)
Lemma decrements_vanish : forall e : nat -> R,
  (forall n, 0 <= e n) -> (forall n, e (S n) <= e n) -> tends (fun n => e n - e (S n)) 0.
Proof.
  intros e Hp Hd.
  assert (C : {l | Un_cv e l}).
  { apply decreasing_cv; [exact Hd|]. exists 0. intros x (n & ->). unfold opp_seq. specialize (Hp n). lra. }
  destruct C as [l Hl]. apply tends_cv in Hl.
  apply (tends_ext (fun n => e n + (-1) * e (S n))); [intros; ring|].
  replace 0 with (l + (-1) * l) by ring. apply tends_plus; auto.
  apply tends_scal, tends_shift, Hl.
Qed.
Lemma square_tends : forall u, tends (fun n => u n ^ 2) 0 -> tends u 0.
Proof.
  intros u H e He. destruct (H (e ^ 2)) as [N HN]; [nra|]. exists N. intros n Hn. specialize (HN n Hn).
  rewrite Rminus_0_r in *. rewrite <- RPow_abs in HN.
  pose proof (Rabs_pos (u n)). destruct (Rlt_le_dec (Rabs (u n)) e); auto. exfalso. nra.
Qed.

(** *** The mean recursion *)
Section Mean.
Variables d k : R.
Notation M := (mean_step d k).
Definition energy (ab : R * R) : R :=
  let '(a, b) := ab in k * (2 - d) / 2 * a ^ 2 - k * (1 - d) * a * b + (1 - d) ^ 2 * b ^ 2.
Lemma energy_step : forall ab, energy (M ab) = energy ab - d * (2 - d - k / 2) * snd (M ab) ^ 2.
Proof. intros [a b]. unfold energy, mean_step. cbn [snd]. field. Qed.
Lemma energy_pos : stable d k -> forall ab, 0 <= energy ab.
Proof.
  intros [Hd Hk] [a b]. unfold energy.
  replace (k * (2 - d) / 2 * a ^ 2 - k * (1 - d) * a * b + (1 - d) ^ 2 * b ^ 2)
    with (((1 - d) * b - k * a / 2) ^ 2 + k / 2 * (2 - d - k / 2) * a ^ 2) by field.
  apply Rplus_le_le_0_compat; [apply pow2_ge_0|].
  apply Rmult_le_pos; [|apply pow2_ge_0]. apply Rmult_le_pos; lra.
Qed.

Lemma mean_converges : stable d k -> forall ab,
  tends (fun n => fst (iterate M n ab)) 0 /\ tends (fun n => snd (iterate M n ab)) 0.
Proof.
  intros HS ab. pose proof (energy_pos HS) as HE. destruct HS as [Hd Hk].
  set (x := fun n => iterate M n ab).
  set (kap := d * (2 - d - k / 2)). assert (Hkap : 0 < kap) by (unfold kap; apply Rmult_lt_0_compat; lra).
  assert (Es : forall n, energy (x (S n)) = energy (x n) - kap * snd (x (S n)) ^ 2).
  { intros n. unfold x. cbn [iterate]. apply energy_step. }
  assert (U : tends (fun n => snd (x n)) 0).
  { apply tends_unshift. apply square_tends.
    apply (tends_ext (fun n => / kap * (energy (x n) - energy (x (S n))))).
    { intros n. rewrite Es. field. lra. }
    replace 0 with (/ kap * 0) by ring. apply tends_scal.
    apply (decrements_vanish (fun n => energy (x n))); [intros; apply HE|].
    intros n. rewrite Es. pose proof (pow2_ge_0 (snd (x (S n)))). nra. }
  split; [|exact U].
  apply (tends_ext (fun n => / k * ((1 - d) * snd (x n) + (-1) * snd (x (S n))))).
  { intros n. unfold x. cbn [iterate]. destruct (iterate M n ab) as [a b]. cbn [mean_step fst snd]. field. lra. }
  replace 0 with (/ k * ((1 - d) * 0 + (-1) * 0)) by ring.
  apply tends_scal, tends_plus; apply tends_scal; [exact U|exact (tends_shift (fun n => snd (x n)) 0 U)].
Qed.

(** *** Necessity of stability *)
Lemma eigen : forall r, r ^ 2 - (2 - d - k) * r + (1 - d) = 0 ->
  forall n, iterate M n (r, r - 1) = (r ^ n * r, r ^ n * (r - 1)).
Proof.
  intros r Hr. induction n as [|n IH]; [cbn; f_equal; ring|].
  cbn [iterate]. rewrite IH. unfold mean_step. cbn [pow].
  assert (E : (1 - d) * (r - 1) - k * r = r * (r - 1)) by nra.
  f_equal.
  - replace (r ^ n * r + ((1 - d) * (r ^ n * (r - 1)) - k * (r ^ n * r))) with
      (r ^ n * r + r ^ n * ((1 - d) * (r - 1) - k * r)) by ring. rewrite E. ring.
  - replace ((1 - d) * (r ^ n * (r - 1)) - k * (r ^ n * r)) with (r ^ n * ((1 - d) * (r - 1) - k * r)) by ring.
    rewrite E. ring.
Qed.
Lemma big_powers : forall r, 1 <= Rabs r -> forall n, 1 <= Rabs (r ^ n * r).
Proof.
  intros r Hr n. rewrite Rabs_mult, <- RPow_abs. pose proof (pow_R1_Rle (Rabs r) n Hr). nra.
Qed.
Lemma eigen_diverges : forall r, r ^ 2 - (2 - d - k) * r + (1 - d) = 0 -> 1 <= Rabs r ->
  ~ tends (fun n => fst (iterate M n (r, r - 1))) 0.
Proof.
  intros r Hr Hb H. destruct (H 1 Rlt_0_1) as [N HN]. specialize (HN N (le_n _)).
  rewrite eigen in HN by exact Hr. cbn [fst] in HN. rewrite Rminus_0_r in HN.
  pose proof (big_powers r Hb N). lra.
Qed.

(** The product of the two eigenvalues: the determinant of the n-th iterate. *)
Lemma det_iterate : forall n,
  let p := iterate M n (1, 0) in let q := iterate M n (0, 1) in
  fst p * snd q - snd p * fst q = (1 - d) ^ n.
Proof.
  induction n as [|n IH]; cbn [iterate pow]; [cbn; ring|].
  destruct (iterate M n (1, 0)) as [a b], (iterate M n (0, 1)) as [a' b'].
  cbn [fst snd mean_step] in *. rewrite <- IH. ring.
Qed.
Lemma converges_stable :
  (forall ab, tends (fun n => fst (iterate M n ab)) 0 /\ tends (fun n => snd (iterate M n ab)) 0) -> stable d k.
Proof.
  intros H. split.
  - destruct (H (1, 0)) as [P1 P2]. destruct (H (0, 1)) as [Q1 Q2].
    assert (D : tends (fun n => (1 - d) ^ n) 0).
    { apply (tends_ext (fun n => fst (iterate M n (1, 0)) * snd (iterate M n (0, 1)) +
        (-1) * (snd (iterate M n (1, 0)) * fst (iterate M n (0, 1))))).
      { intros n. pose proof (det_iterate n) as E. cbv zeta in E. rewrite <- E. ring. }
      eapply tends_eq; [exact (tends_plus _ _ _ _ (tends_mult _ _ _ _ P1 Q2) (tends_scal _ _ (-1) (tends_mult _ _ _ _ P2 Q1)))|ring]. }
    assert (Hr : Rabs (1 - d) < 1).
    { destruct (Rlt_le_dec (Rabs (1 - d)) 1) as [|Hb]; auto. exfalso.
      destruct (D 1 Rlt_0_1) as [N HN]. specialize (HN N (le_n _)). rewrite Rminus_0_r, <- RPow_abs in HN.
      pose proof (pow_R1_Rle _ N Hb). lra. }
    apply Rabs_def2 in Hr. lra.
  - set (t := 2 - d - k). split.
    + destruct (Rlt_le_dec 0 k) as [|Hk]; auto. exfalso.
      assert (Hdisc : (t - 2) ^ 2 <= t ^ 2 - 4 * (1 - d)) by (unfold t; nra).
      set (r := (t + sqrt (t ^ 2 - 4 * (1 - d))) / 2).
      assert (S2 : sqrt (t ^ 2 - 4 * (1 - d)) ^ 2 = t ^ 2 - 4 * (1 - d)).
      { rewrite <- Rsqr_pow2. apply Rsqr_sqrt. pose proof (pow2_ge_0 (t - 2)). lra. }
      assert (Sg : Rabs (t - 2) <= sqrt (t ^ 2 - 4 * (1 - d))).
      { rewrite <- (sqrt_Rsqr_abs (t - 2)). apply sqrt_le_1_alt. rewrite Rsqr_pow2. exact Hdisc. }
      assert (R1 : 1 <= r). { unfold r. unfold Rabs in Sg. destruct (Rcase_abs (t - 2)); lra. }
      apply (eigen_diverges r); [|rewrite Rabs_pos_eq; lra|apply H].
      fold t. unfold r. nra.
    + destruct (Rlt_le_dec k (2 * (2 - d))) as [|Hk]; auto. exfalso.
      assert (Hdisc : (t + 2) ^ 2 <= t ^ 2 - 4 * (1 - d)) by (unfold t; nra).
      set (r := (t - sqrt (t ^ 2 - 4 * (1 - d))) / 2).
      assert (S2 : sqrt (t ^ 2 - 4 * (1 - d)) ^ 2 = t ^ 2 - 4 * (1 - d)).
      { rewrite <- Rsqr_pow2. apply Rsqr_sqrt. pose proof (pow2_ge_0 (t + 2)). lra. }
      assert (Sg : Rabs (t + 2) <= sqrt (t ^ 2 - 4 * (1 - d))).
      { rewrite <- (sqrt_Rsqr_abs (t + 2)). apply sqrt_le_1_alt. rewrite Rsqr_pow2. exact Hdisc. }
      assert (R1 : r <= -1). { unfold r. unfold Rabs in Sg. destruct (Rcase_abs (t + 2)); lra. }
      apply (eigen_diverges r); [|rewrite Rabs_left1; lra|apply H].
      fold t. unfold r. nra.
Qed.
End Mean.

(** *** The covariance recursion *)
Lemma cov_eq : forall a b c a' b' c', a = a' -> b = b' -> c = c' -> Cov a b c = Cov a' b' c'.
Proof. intros; subst; reflexivity. Qed.

Section Cov.
Variables d k q : R.

Lemma stationary_fixed : stable d k -> cov_step d k q (stationary d k q) = stationary d k q.
Proof.
  intros [Hd Hk]. unfold cov_step, stationary. cbn [c_xx c_xv c_vv]. apply cov_eq; field; repeat split; nra.
Qed.

Definition minus (s t : cov) : cov := Cov (c_xx s - c_xx t) (c_xv s - c_xv t) (c_vv s - c_vv t).
Lemma cov_step_minus : forall s t, minus (cov_step d k q s) (cov_step d k q t) = cov_step d k 0 (minus s t).
Proof. intros s t. unfold minus, cov_step. cbn [c_xx c_xv c_vv]. apply cov_eq; ring. Qed.
Lemma iterate_minus : forall s t n,
  minus (iterate (cov_step d k q) n s) (iterate (cov_step d k q) n t) = iterate (cov_step d k 0) n (minus s t).
Proof. intros s t. induction n as [|n IH]; [reflexivity|]. cbn [iterate]. now rewrite cov_step_minus, IH. Qed.

(** Without noise the covariance is a combination of products of means. *)
Definition outer (ab : R * R) : cov := let '(a, b) := ab in Cov (a * a) (a * b) (b * b).
Definition comb (p : R) (s : cov) (r : R) (t : cov) (z : R) (u : cov) : cov :=
  Cov (p * c_xx s + r * c_xx t + z * c_xx u) (p * c_xv s + r * c_xv t + z * c_xv u) (p * c_vv s + r * c_vv t + z * c_vv u).
Lemma outer_step : forall ab, cov_step d k 0 (outer ab) = outer (mean_step d k ab).
Proof. intros [a b]. unfold cov_step, outer, mean_step. cbn [c_xx c_xv c_vv]. apply cov_eq; ring. Qed.
Lemma comb_step : forall p s r t z u,
  cov_step d k 0 (comb p s r t z u) = comb p (cov_step d k 0 s) r (cov_step d k 0 t) z (cov_step d k 0 u).
Proof. intros. unfold cov_step, comb. cbn [c_xx c_xv c_vv]. apply cov_eq; ring. Qed.
Lemma comb_of : forall s, s = comb (c_xx s - c_xv s) (outer (1, 0)) (c_vv s - c_xv s) (outer (0, 1)) (c_xv s) (outer (1, 1)).
Proof. intros [a b c]. unfold comb, outer. cbn [c_xx c_xv c_vv]. apply cov_eq; ring. Qed.
Lemma iterate_comb : forall n s, iterate (cov_step d k 0) n s =
  comb (c_xx s - c_xv s) (outer (iterate (mean_step d k) n (1, 0))) (c_vv s - c_xv s)
       (outer (iterate (mean_step d k) n (0, 1))) (c_xv s) (outer (iterate (mean_step d k) n (1, 1))).
Proof.
  induction n as [|n IH]; intros s; [apply comb_of|].
  cbn [iterate]. now rewrite IH, comb_step, !outer_step.
Qed.

Definition cov_tends (s : nat -> cov) (l : cov) : Prop :=
  tends (fun n => c_xx (s n)) (c_xx l) /\ tends (fun n => c_xv (s n)) (c_xv l) /\ tends (fun n => c_vv (s n)) (c_vv l).

Lemma outer_tends : stable d k -> forall ab, cov_tends (fun n => outer (iterate (mean_step d k) n ab)) (Cov 0 0 0).
Proof.
  intros HS ab. destruct (mean_converges d k HS ab) as [A B]. unfold cov_tends. cbn [c_xx c_xv c_vv].
  replace 0 with (0 * 0) by ring.
  repeat split;
    [apply (tends_ext (fun n => fst (iterate (mean_step d k) n ab) * fst (iterate (mean_step d k) n ab)))
    |apply (tends_ext (fun n => fst (iterate (mean_step d k) n ab) * snd (iterate (mean_step d k) n ab)))
    |apply (tends_ext (fun n => snd (iterate (mean_step d k) n ab) * snd (iterate (mean_step d k) n ab)))];
    try (intros n; destruct (iterate (mean_step d k) n ab); reflexivity); now apply tends_mult.
Qed.
Lemma homogeneous_tends : stable d k -> forall s, cov_tends (fun n => iterate (cov_step d k 0) n s) (Cov 0 0 0).
Proof.
  intros HS s.
  destruct (outer_tends HS (1, 0)) as (A1 & A2 & A3). destruct (outer_tends HS (0, 1)) as (B1 & B2 & B3).
  destruct (outer_tends HS (1, 1)) as (C1 & C2 & C3). cbn [c_xx c_xv c_vv] in *.
  assert (Z : forall u v w p r z, tends u 0 -> tends v 0 -> tends w 0 -> tends (fun n => p * u n + r * v n + z * w n) 0).
  { intros u v w p r z Hu Hv Hw. replace 0 with (p * 0 + r * 0 + z * 0) by ring.
    apply tends_plus; [apply tends_plus|]; now apply tends_scal. }
  unfold cov_tends. cbn [c_xx c_xv c_vv].
  repeat split; eapply tends_ext; try (intros n; rewrite iterate_comb; cbn [comb c_xx c_xv c_vv]; reflexivity);
    apply Z; assumption.
Qed.
Lemma cov_converges : stable d k -> forall s, cov_tends (fun n => iterate (cov_step d k q) n s) (stationary d k q).
Proof.
  intros HS s. set (l := stationary d k q).
  assert (F : forall n, iterate (cov_step d k q) n l = l).
  { induction n as [|n IH]; [reflexivity|]. cbn [iterate]. rewrite IH. now apply stationary_fixed. }
  destruct (homogeneous_tends HS (minus s l)) as (A1 & A2 & A3). cbn [c_xx c_xv c_vv] in *.
  assert (Z : forall u v a, tends v 0 -> (forall n, u n = v n + a) -> tends u a).
  { intros u v a Hv E. apply (tends_ext (fun n => v n + a)); [auto|]. rewrite <- (Rplus_0_l a) at 1.
    apply tends_plus; auto. apply tends_const. }
  repeat split; [apply (Z _ _ _ A1)|apply (Z _ _ _ A2)|apply (Z _ _ _ A3)]; intros n; cbv beta;
    pose proof (iterate_minus s l n) as E; rewrite (F n) in E; rewrite <- E; cbn [minus c_xx c_xv c_vv]; ring.
Qed.
Lemma fixed_unique : stable d k -> forall s, cov_step d k q s = s -> s = stationary d k q.
Proof.
  intros HS s Hf. destruct (cov_converges HS s) as (A1 & A2 & A3).
  assert (F : forall n, iterate (cov_step d k q) n s = s).
  { induction n as [|n IH]; [reflexivity|]. cbn [iterate]. now rewrite IH. }
  assert (K : forall (f : cov -> R) l, tends (fun n => f (iterate (cov_step d k q) n s)) l -> f s = l).
  { intros f l Ht. apply (tends_unique (fun _ => f s)); [apply tends_const|].
    apply (tends_ext (fun n => f (iterate (cov_step d k q) n s))); auto. intros n. now rewrite F. }
  apply (K c_xx) in A1. apply (K c_xv) in A2. apply (K c_vv) in A3.
  destruct s as [a b c], (stationary d k q) as [a' b' c']. cbn [c_xx c_xv c_vv] in *. now apply cov_eq.
Qed.
End Cov.
