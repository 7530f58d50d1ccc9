(** C95: what sharing the noise (C33) does to samples of independent parameters. *)
From Coq Require Import List Arith Lia ZArith Reals Lra Psatz Bool.
From Verif.Base Require Import Py Num Vec Lists.
From Verif.Model Require Import TensorUtils BurnIn SGHMC SGLD Session.
From Verif.Spec Require Import Dynamics Gaussian Averages.
From Verif.Proofs Require Import Dynamics Trajectory Stability.
From Verif.Props Require Import PDynamics PGaussian PNoise PErgodic.
Import ListNotations.
Local Open Scope R_scope.

Lemma cov_moments : forall O (P : expectation O) f g,
  PGaussian.covariance P f g = ex P (fun w => f w * g w) - ex P f * ex P g.
Proof.
  intros. unfold PGaussian.covariance. set (a := ex P f). set (b := ex P g).
  rewrite (ex_ext P _ (fun w => f w * g w + ((- a) * g w + ((- b) * f w + a * b)))) by (intros; ring).
  rewrite (ex_add P (fun w => f w * g w)), (ex_add P (fun w => (- a) * g w)), (ex_add P (fun w => (- b) * f w)), !ex_scale.
  rewrite PDynamics.ex_const. fold a b. ring.
Qed.

(** Two recursions side by side, with noise of correlation [c]. *)
Section Pair.
Context {O : Type} (P : expectation O).
Variables (r1 r2 a1 a2 s1 s2 c : R) (N : nat).
Variables (x y xi nu : nat -> O -> R).
Hypothesis Hx : forall t w, (t < N)%nat -> x (S t) w = r1 * x t w + (a1 + s1 * xi t w).
Hypothesis Hy : forall t w, (t < N)%nat -> y (S t) w = r2 * y t w + (a2 + s2 * nu t w).
Hypothesis Mx : forall t, (t < N)%nat -> ex P (xi t) = 0.
Hypothesis My : forall t, (t < N)%nat -> ex P (nu t) = 0.
Hypothesis Xn : forall t, (t < N)%nat -> ex P (fun w => x t w * nu t w) = 0.
Hypothesis Yx : forall t, (t < N)%nat -> ex P (fun w => y t w * xi t w) = 0.
Hypothesis Xy : forall t, (t < N)%nat -> ex P (fun w => xi t w * nu t w) = c.
Lemma pair_step : forall t, (t < N)%nat ->
  PGaussian.covariance P (x (S t)) (y (S t)) = r1 * r2 * PGaussian.covariance P (x t) (y t) + s1 * s2 * c.
Proof.
  intros t Ht. rewrite !cov_moments.
  assert (E1 : ex P (x (S t)) = r1 * ex P (x t) + a1).
  { rewrite (ex_ext P _ (fun w => r1 * x t w + (a1 + s1 * xi t w))) by (intros; now apply Hx).
    rewrite (ex_add P (fun w => r1 * x t w)), (ex_add P (fun _ => a1)), !ex_scale, PDynamics.ex_const, Mx by auto. ring. }
  assert (E2 : ex P (y (S t)) = r2 * ex P (y t) + a2).
  { rewrite (ex_ext P _ (fun w => r2 * y t w + (a2 + s2 * nu t w))) by (intros; now apply Hy).
    rewrite (ex_add P (fun w => r2 * y t w)), (ex_add P (fun _ => a2)), !ex_scale, PDynamics.ex_const, My by auto. ring. }
  rewrite E1, E2.
  rewrite (ex_ext P _ (fun w => (r1 * r2) * (x t w * y t w) + ((r1 * a2) * x t w + ((r2 * a1) * y t w + (a1 * a2 +
     ((r1 * s2) * (x t w * nu t w) + ((r2 * s1) * (y t w * xi t w) + ((a1 * s2) * nu t w + ((a2 * s1) * xi t w +
     (s1 * s2) * (xi t w * nu t w)))))))))).
  2:{ intros w. rewrite Hx, Hy by exact Ht. ring. }
  rewrite (ex_add P (fun w => (r1 * r2) * (x t w * y t w))), (ex_scale P _ (fun w => x t w * y t w)).
  rewrite (ex_add P (fun w => (r1 * a2) * x t w)), ex_scale.
  rewrite (ex_add P (fun w => (r2 * a1) * y t w)), ex_scale.
  rewrite (ex_add P (fun _ => a1 * a2)), PDynamics.ex_const.
  rewrite (ex_add P (fun w => (r1 * s2) * (x t w * nu t w))), (ex_scale P _ (fun w => x t w * nu t w)), Xn by exact Ht.
  rewrite (ex_add P (fun w => (r2 * s1) * (y t w * xi t w))), (ex_scale P _ (fun w => y t w * xi t w)), Yx by exact Ht.
  rewrite (ex_add P (fun w => (a1 * s2) * nu t w)), ex_scale, My by exact Ht.
  rewrite (ex_add P (fun w => (a2 * s1) * xi t w)), ex_scale, Mx by exact Ht.
  rewrite (ex_scale P _ (fun w => xi t w * nu t w)), Xy by exact Ht. ring.
Qed.
Lemma pair_run : r1 * r2 <> 1 -> forall t, (t <= N)%nat ->
  let l := s1 * s2 * c / (1 - r1 * r2) in
  PGaussian.covariance P (x t) (y t) - l = (r1 * r2) ^ t * (PGaussian.covariance P (x 0%nat) (y 0%nat) - l).
Proof.
  intros Hr t Ht l. induction t as [|t IH]; [cbn; ring|].
  rewrite pair_step by lia. cbn [pow].
  rewrite (Rmult_assoc (r1 * r2) ((r1 * r2) ^ t)), <- IH by lia. unfold l. field. lra.
Qed.
End Pair.

Lemma sgld_recursion : forall O (P : expectation O) A s eps m lam mu N st xi,
  0 < s -> 0 < eps * m * A -> gaussian_chain P A s eps m lam mu N st xi -> forall t w, (t < N)%nat ->
  theta_of st (S t) w = (1 - eps * m * A * lam) * theta_of st t w +
    (eps * m * A * lam * mu + sqrt (2 * (eps * m * A) / (s + 3 / 10000000000000000)) * xi t w).
Proof.
  intros O P A s eps m lam mu N st xi Hs Hh HC t w Ht.
  destruct (PDynamics.chain_step _ _ _ _ _ _ _ _ _ _ _ Hs (Rlt_le _ _ Hh) HC t w Ht) as (_ & _ & ->).
  replace (3 / 10000000000000000) with (3 * guard) by (unfold guard; lra). ring.
Qed.

Lemma seeded_noise_equal : forall O (stream : O -> Z * Z -> nat -> R) reserve gs ids ent np seed t m i j k,
  (i < np)%nat -> (j < np)%nat -> (k < m)%nat -> forall w,
  noise_of O stream reserve gs ids ent np (Some seed) t m j k w = noise_of O stream reserve gs ids ent np (Some seed) t m i k w.
Proof. intros. rewrite !noise_of_eq by assumption. unfold make_noise_op. destruct gs; reflexivity. Qed.

(** With a seed: two scalar parameters of one SGLD sampler whose joint target is a product of two
    Gaussians.  Their covariance converges to a positive limit, which is the product of the
    stationary deviations times a correlation coefficient [rho] in (0, 1]. *)
Theorem C95_seeded_sgld_correlates_independent_parameters :
  forall O (P : expectation O) stream reserve gs ids ent np (seed : Z) A s eps m1 lam1 mu1 m2 lam2 mu2 N X Y i j,
  (i < np)%nat -> (j < np)%nat -> 0 < s -> 0 < lam1 -> 0 < lam2 ->
  let h1 := eps * m1 * A in let h2 := eps * m2 * A in
  0 < h1 -> 0 < h2 -> h1 * lam1 < 2 -> h2 * lam2 < 2 ->
  let xi l t w := noise_of O stream reserve gs ids ent np (Some seed) t 1 l 0 w in
  gaussian_chain P A s eps m1 lam1 mu1 N X (xi i) -> gaussian_chain P A s eps m2 lam2 mu2 N Y (xi j) ->
  let st' := s + 3 / 10000000000000000 in
  let limit := 2 * sqrt (h1 * h2) / (st' * (h1 * lam1 + h2 * lam2 - h1 * lam1 * (h2 * lam2))) in
  let var1 := 1 / (st' * lam1 * (1 - h1 * lam1 / 2)) in
  let var2 := 1 / (st' * lam2 * (1 - h2 * lam2 / 2)) in
  0 < limit /\ limit ^ 2 <= var1 * var2 /\ (h1 * lam1 = h2 * lam2 -> limit ^ 2 = var1 * var2) /\
  forall t, (t <= N)%nat ->
  PGaussian.covariance P (theta_of X t) (theta_of Y t) - limit =
    ((1 - h1 * lam1) * (1 - h2 * lam2)) ^ t * (PGaussian.covariance P (theta_of X 0) (theta_of Y 0) - limit).
Proof.
  intros O P stream reserve gs ids ent np seed A s eps m1 lam1 mu1 m2 lam2 mu2 N X Y i j Hi Hj Hs L1 L2 h1 h2 H1 H2 B1 B2 xi C1 C2 st' limit var1 var2.
  assert (Hst : 0 < st') by (unfold st'; lra).
  set (u := h1 * lam1) in *. set (v := h2 * lam2) in *.
  assert (Hu : 0 < u) by (unfold u; now apply Rmult_lt_0_compat).
  assert (Hv : 0 < v) by (unfold v; now apply Rmult_lt_0_compat).
  assert (Den : 0 < u + v - u * v) by nra.
  assert (Hh : 0 < h1 * h2) by (now apply Rmult_lt_0_compat).
  assert (Sq : sqrt (h1 * h2) ^ 2 = h1 * h2) by (rewrite <- Rsqr_pow2; apply Rsqr_sqrt; lra).
  assert (Hl : 0 < limit).
  { unfold limit. apply Rdiv_lt_0_compat; [|now apply Rmult_lt_0_compat].
    apply Rmult_lt_0_compat; [lra|]. now apply sqrt_lt_R0. }
  assert (EL : limit ^ 2 = 4 * (h1 * h2) / (st' ^ 2 * (u + v - u * v) ^ 2)).
  { unfold limit. replace (4 * (h1 * h2)) with (4 * sqrt (h1 * h2) ^ 2) by (rewrite Sq; ring). field. split; lra. }
  assert (EV : var1 * var2 = 4 * (h1 * h2) / (st' ^ 2 * (u * (2 - u) * (v * (2 - v))))).
  { unfold var1, var2, u, v in *. field. unfold u, v in *. repeat split; try lra. }
  split; [exact Hl|]. split; [|split].
  - rewrite EL, EV. unfold Rdiv. apply Rmult_le_compat_l; [lra|].
    assert (0 < st' ^ 2) by nra. assert (0 < u * (2 - u)) by nra. assert (0 < v * (2 - v)) by nra.
    assert (0 < u * (2 - u) * (v * (2 - v))) by (now apply Rmult_lt_0_compat).
    apply Rinv_le_contravar; [now apply Rmult_lt_0_compat|]. apply Rmult_le_compat_l; [lra|].
    replace ((u + v - u * v) ^ 2) with (u * (2 - u) * (v * (2 - v)) + (u - v) ^ 2) by ring.
    pose proof (pow2_ge_0 (u - v)). lra.
  - intros E. rewrite EL, EV. f_equal. f_equal. f_equal. rewrite E. ring.
  - intros t Ht.
    assert (Same : forall t w, xi j t w = xi i t w) by (intros; apply seeded_noise_equal; auto).
    set (sg l := sqrt (2 * l / st')).
    assert (EL' : limit = sg h1 * sg h2 * 1 / (1 - (1 - u) * (1 - v))).
    { unfold sg. rewrite <- sqrt_mult by (apply Rlt_le, Rdiv_lt_0_compat; lra).
      replace (2 * h1 / st' * (2 * h2 / st')) with ((2 / st') ^ 2 * (h1 * h2)) by (field; lra).
      rewrite sqrt_mult by nra. rewrite <- (Rsqr_pow2 (2 / st')), sqrt_Rsqr by (apply Rlt_le, Rdiv_lt_0_compat; lra).
      unfold limit. field. split; [lra|]. replace (1 - (1 - u) * (1 - v)) with (u + v - u * v) by ring. lra. }
    rewrite EL'.
    apply (pair_run P (1 - u) (1 - v) (u * mu1) (v * mu2) (sg h1) (sg h2) 1 N (theta_of X) (theta_of Y) (xi i) (xi j)); auto.
    + intros t' w Ht'. now apply (sgld_recursion O P A s eps m1 lam1 mu1 N X (xi i)).
    + intros t' w Ht'. now apply (sgld_recursion O P A s eps m2 lam2 mu2 N Y (xi j)).
    + intros. now apply (gc_mean _ _ _ _ _ _ _ _ _ _ C1).
    + intros. now apply (gc_mean _ _ _ _ _ _ _ _ _ _ C2).
    + intros t' Ht'. rewrite (ex_ext P _ (fun w => hd 0 (l_vec (X t' w)) * xi i t' w)) by (intros; now rewrite Same).
      now apply (gc_uncorrelated _ _ _ _ _ _ _ _ _ _ C1).
    + intros t' Ht'. rewrite (ex_ext P _ (fun w => hd 0 (l_vec (Y t' w)) * xi j t' w)) by (intros; now rewrite <- Same).
      now apply (gc_uncorrelated _ _ _ _ _ _ _ _ _ _ C2).
    + intros t' Ht'. rewrite (ex_ext P _ (fun w => xi i t' w ^ 2)) by (intros; rewrite Same; ring).
      now apply (gc_var _ _ _ _ _ _ _ _ _ _ C1).
    + nra.
Qed.

(** Without a seed, when the generator's streams are uncorrelated, the covariance vanishes. *)
Theorem C95_unseeded_sgld_decorrelates :
  forall O (P : expectation O) stream reserve gs ids ent np A s eps m1 lam1 mu1 m2 lam2 mu2 N X Y i j,
  (i < np)%nat -> (j < np)%nat -> 0 < s -> 0 < lam1 -> 0 < lam2 ->
  let h1 := eps * m1 * A in let h2 := eps * m2 * A in
  0 < h1 -> 0 < h2 -> h1 * lam1 < 2 -> h2 * lam2 < 2 ->
  let xi l t w := noise_of O stream reserve gs ids ent np None t 1 l 0 w in
  gaussian_chain P A s eps m1 lam1 mu1 N X (xi i) -> gaussian_chain P A s eps m2 lam2 mu2 N Y (xi j) ->
  (forall t, (t < N)%nat -> let key l := op_key (make_noise_op gs None (nth l ids 0%nat) (ent l)) in key i <> key j ->
     ex P (fun o => stream o (key i) (t * reserve 1)%nat * stream o (key j) (t * reserve 1)%nat) = 0) ->
  match gs with None => ent i <> ent j | Some _ => nth i ids 0%nat <> nth j ids 0%nat end ->
  (forall t, (t < N)%nat -> ex P (fun w => theta_of X t w * xi j t w) = 0 /\ ex P (fun w => theta_of Y t w * xi i t w) = 0) ->
  forall t, (t <= N)%nat ->
  PGaussian.covariance P (theta_of X t) (theta_of Y t) =
    ((1 - h1 * lam1) * (1 - h2 * lam2)) ^ t * PGaussian.covariance P (theta_of X 0) (theta_of Y 0).
Proof.
  intros O P stream reserve gs ids ent np A s eps m1 lam1 mu1 m2 lam2 mu2 N X Y i j Hi Hj Hs L1 L2 h1 h2 H1 H2 B1 B2 xi C1 C2 HU HD HX t Ht.
  set (u := h1 * lam1) in *. set (v := h2 * lam2) in *.
  assert (Hu : 0 < u) by (unfold u; now apply Rmult_lt_0_compat).
  assert (Hv : 0 < v) by (unfold v; now apply Rmult_lt_0_compat).
  set (sg l := sqrt (2 * l / (s + 3 / 10000000000000000))).
  pose proof (pair_run P (1 - u) (1 - v) (u * mu1) (v * mu2) (sg h1) (sg h2) 0 N (theta_of X) (theta_of Y) (xi i) (xi j)) as HR.
  cbv zeta in HR. replace (sg h1 * sg h2 * 0 / (1 - (1 - u) * (1 - v))) with 0 in HR.
  2:{ unfold Rdiv. rewrite Rmult_0_r. now rewrite Rmult_0_l. }
  rewrite <- (Rminus_0_r (PGaussian.covariance P (theta_of X t) (theta_of Y t))).
  rewrite <- (Rminus_0_r (PGaussian.covariance P (theta_of X 0) (theta_of Y 0))). apply HR; auto.
  - intros t' w Ht'. now apply (sgld_recursion O P A s eps m1 lam1 mu1 N X (xi i)).
  - intros t' w Ht'. now apply (sgld_recursion O P A s eps m2 lam2 mu2 N Y (xi j)).
  - intros. now apply (gc_mean _ _ _ _ _ _ _ _ _ _ C1).
  - intros. now apply (gc_mean _ _ _ _ _ _ _ _ _ _ C2).
  - intros t' Ht'. apply HX. exact Ht'.
  - intros t' Ht'. apply HX. exact Ht'.
  - intros t' Ht'. erewrite (ex_ext P); [apply (HU t' Ht')|].
    + destruct gs; cbn; [|exact HD]. intros Q. injection Q as Q. lia.
    + intros o. cbn beta. unfold xi. rewrite !noise_of_eq by (auto; lia). now rewrite Nat.add_0_r.
  - nra.
Qed.

(** With equal settings the two parameters coalesce, in every outcome: with a seed the samples
    end up on a line. *)
Theorem C95_seeded_sgld_coalesces :
  forall O (P : expectation O) stream reserve gs ids ent np (seed : Z) A s eps m lam mu1 mu2 N X Y i j,
  (i < np)%nat -> (j < np)%nat -> 0 < s -> 0 < eps * m * A ->
  let xi l t w := noise_of O stream reserve gs ids ent np (Some seed) t 1 l 0 w in
  gaussian_chain P A s eps m lam mu1 N X (xi i) -> gaussian_chain P A s eps m lam mu2 N Y (xi j) ->
  forall t w, (t <= N)%nat ->
  (theta_of X t w - mu1) - (theta_of Y t w - mu2) =
    (1 - eps * m * A * lam) ^ t * ((theta_of X 0 w - mu1) - (theta_of Y 0 w - mu2)).
Proof.
  intros O P stream reserve gs ids ent np seed A s eps m lam mu1 mu2 N X Y i j Hi Hj Hs Hh xi C1 C2 t w.
  induction t as [|t IH]; intros Ht; [cbn; ring|].
  rewrite (sgld_recursion O P A s eps m lam mu1 N X (xi i)), (sgld_recursion O P A s eps m lam mu2 N Y (xi j)) by (auto; lia).
  cbn [pow]. rewrite (Rmult_assoc (1 - eps * m * A * lam) ((1 - eps * m * A * lam) ^ t)), <- IH by lia.
  replace (xi j t w) with (xi i t w) by (symmetry; apply seeded_noise_equal; auto). ring.
Qed.
Theorem C95_seeded_sghmc_coalesces :
  forall O (P : expectation O) stream reserve gs ids ent np (seed : Z) d s eps m lam mu1 mu2 i j,
  (i < np)%nat -> (j < np)%nat -> 0 < s -> 0 < d < 2 -> 0 < eps ^ 2 * m * lam < 2 * (2 - d) ->
  let xi l t w := noise_of O stream reserve gs ids ent np (Some seed) t 1 l 0 w in
  forall dx0 dv0 delta, 0 < delta -> exists T, forall N X Y,
  hmc_chain P d s eps m lam mu1 N X (xi i) -> hmc_chain P d s eps m lam mu2 N Y (xi j) ->
  forall w, (pos_of X 0 w - mu1) - (pos_of Y 0 w - mu2) = dx0 -> vel_of X 0 w - vel_of Y 0 w = dv0 ->
  forall t, (T <= t <= N)%nat ->
  Rabs ((pos_of X t w - mu1) - (pos_of Y t w - mu2)) < delta /\ Rabs (vel_of X t w - vel_of Y t w) < delta.
Proof.
  intros O P stream reserve gs ids ent np seed d s eps m lam mu1 mu2 i j Hi Hj Hs Hd Hk xi dx0 dv0 delta Hdelta.
  destruct (mean_converges d (eps ^ 2 * m * lam) (conj Hd Hk) (dx0, dv0)) as [T1 T2].
  destruct (T1 delta Hdelta) as [n1 N1]. destruct (T2 delta Hdelta) as [n2 N2].
  exists (n1 + n2)%nat. intros N X Y C1 C2 w E1 E2 t Ht.
  assert (G : forall t, (t <= N)%nat -> ((pos_of X t w - mu1) - (pos_of Y t w - mu2), vel_of X t w - vel_of Y t w) =
     iterate (mean_step d (eps ^ 2 * m * lam)) t (dx0, dv0)).
  { clear t Ht. induction t as [|t IH]; intros Ht; [cbn; now rewrite E1, E2|].
    cbn [iterate]. rewrite <- IH by lia.
    destruct (PGaussian.chain_step P d s eps m lam mu1 N X (xi i) Hs C1 t w ltac:(lia)) as (_ & _ & A1).
    destruct (PGaussian.chain_step P d s eps m lam mu2 N Y (xi j) Hs C2 t w ltac:(lia)) as (_ & _ & A2).
    destruct A1 as [V1 X1]; [lia|]. destruct A2 as [V2 X2]; [lia|].
    assert (Ex : xi j t w = xi i t w) by (apply seeded_noise_equal; auto). rewrite Ex in V2.
    unfold mean_step. rewrite X1, X2, V1, V2. f_equal; ring. }
  specialize (N1 t ltac:(lia)). specialize (N2 t ltac:(lia)). rewrite <- G in N1, N2 by lia. cbn [fst snd] in N1, N2.
  now rewrite !Rminus_0_r in N1, N2.
Qed.

(** *** Concrete cases: signs of every length (C94) behind the generator *)
Section Signs.
Variable N : nat.
Fixpoint sgld_run (x0 lam mu : R) (xi : nat -> (nat -> bool) -> R) (t : nat) (w : nat -> bool) : lstate R :=
  match t with
  | O => linit (Tensor [] [x0])
  | S t' => let p := sgld_run x0 lam mu xi t' w in
      sgld_step (LConfig 1 1) (1/10) [lam * (hd 0 (l_vec p) - mu)] [xi t' w] (Some [1]) p
  end.
Lemma sgld_run_decided : forall x0 lam mu xi b, (forall t s, (s < t)%nat -> decided (b t) (xi s)) ->
  forall t, decided (b t) (fun w => theta_of (sgld_run x0 lam mu xi) t w).
Proof.
  intros x0 lam mu xi b Hb t w w' Hw. unfold theta_of.
  assert (G : forall k, (k <= t)%nat -> sgld_run x0 lam mu xi k w = sgld_run x0 lam mu xi k w').
  { induction k as [|k IH]; intros Hk; [reflexivity|]. cbn [sgld_run]. rewrite IH by lia.
    rewrite (Hb t k ltac:(lia) w w' Hw). reflexivity. }
  now rewrite (G t).
Qed.
Lemma sgld_run_chain : forall x0 lam mu (b : nat -> nat), (forall t, (t < N)%nat -> (b t < N + N)%nat) ->
  (forall t s, (s < t)%nat -> (b s < b t)%nat) ->
  gaussian_chain (fair (N + N)) 1 1 (1/10) 1 lam mu N (sgld_run x0 lam mu (fun t => draw (b t))) (fun t => draw (b t)).
Proof.
  intros x0 lam mu b Hb Hm. constructor.
  - reflexivity.
  - reflexivity.
  - intros. apply fair_mean. now apply Hb.
  - intros. apply fair_var.
  - intros t Ht. apply (fair_next (N + N) (b t) (fun w => theta_of (sgld_run x0 lam mu (fun t => draw (b t))) t w)); [now apply Hb|].
    apply sgld_run_decided. intros t' s' H. apply draw_decided. now apply Hm.
Qed.
End Signs.

Lemma chain_noise_ext : forall O (P : expectation O) A s eps m lam mu N X xi xi', (forall t w, xi t w = xi' t w) ->
  gaussian_chain P A s eps m lam mu N X xi -> gaussian_chain P A s eps m lam mu N X xi'.
Proof.
  intros O P A s eps m lam mu N X xi xi' E HC. destruct HC as [A1 A2 A3 A4 A5]. constructor; [exact A1| | | |].
  - intros t w Ht. rewrite <- E. now apply A2.
  - intros t Ht. etransitivity; [|apply (A3 t Ht)]. apply ex_ext. intros; now rewrite E.
  - intros t Ht. etransitivity; [|apply (A4 t Ht)]. apply ex_ext. intros; now rewrite E.
  - intros t Ht. etransitivity; [|apply (A5 t Ht)]. apply ex_ext. intros; now rewrite E.
Qed.

(** Two parameters under seed 1: starts 5 and -1, precisions 2 and 3. *)
Example C95_seeded_nontrivial : forall N,
  let noise j t w := noise_of _ (fun w (_ : Z * Z) p => draw p w) (fun _ => 1%nat) None [0; 1]%nat (fun _ => (0, 0)%Z) 2 (Some 1%Z) t 1 j 0 w in
  exists X Y, gaussian_chain (fair (N + N)) 1 1 (1/10) 1 2 3 N X (noise 0%nat) /\
              gaussian_chain (fair (N + N)) 1 1 (1/10) 1 3 4 N Y (noise 1%nat) /\
  theta_of X 0 (fun _ => true) = 5 /\ theta_of Y 0 (fun _ => true) = -1.
Proof.
  intros N noise.
  assert (Hn : forall j t w, (j < 2)%nat -> noise j t w = draw t w).
  { intros j t w Hj. unfold noise. rewrite noise_of_eq by (auto; lia). f_equal. lia. }
  exists (sgld_run 5 2 3 (fun t => draw t)), (sgld_run (-1) 3 4 (fun t => draw t)).
  split; [|split; [|split; reflexivity]].
  - apply (chain_noise_ext _ _ _ _ _ _ 2 3 _ _ (fun t => draw t)); [intros; symmetry; apply Hn; lia|]. apply (sgld_run_chain N 5 2 3 (fun t => t)); intros; lia.
  - apply (chain_noise_ext _ _ _ _ _ _ 3 4 _ _ (fun t => draw t)); [intros; symmetry; apply Hn; lia|]. apply (sgld_run_chain N (-1) 3 4 (fun t => t)); intros; lia.
Qed.

(** The same parameters without a seed, keys (0,0) and (1,1): even and odd signs. *)
Example C95_unseeded_nontrivial : forall N,
  let stream w (key : Z * Z) p := draw (2 * p + Z.to_nat (fst key)) w in
  let ent (l : nat) := (Z.of_nat l, Z.of_nat l) in
  let noise j t w := noise_of _ stream (fun _ => 1%nat) None [0; 1]%nat ent 2 None t 1 j 0 w in
  exists X Y, gaussian_chain (fair (N + N)) 1 1 (1/10) 1 2 3 N X (noise 0%nat) /\
              gaussian_chain (fair (N + N)) 1 1 (1/10) 1 3 4 N Y (noise 1%nat) /\
  (forall t, (t < N)%nat -> let key l := op_key (make_noise_op None None (nth l [0; 1]%nat 0%nat) (ent l)) in
     ex (fair (N + N)) (fun o => stream o (key 0%nat) (t * 1)%nat * stream o (key 1%nat) (t * 1)%nat) = 0) /\
  (forall t, (t < N)%nat -> ex (fair (N + N)) (fun w => theta_of X t w * noise 1%nat t w) = 0 /\
              ex (fair (N + N)) (fun w => theta_of Y t w * noise 0%nat t w) = 0).
Proof.
  intros N stream ent noise.
  assert (Hn : forall j t w, (j < 2)%nat -> noise j t w = draw (2 * t + j) w).
  { intros j t w Hj. unfold noise. rewrite noise_of_eq by (auto; lia). unfold stream, ent, make_noise_op, get_seed.
    cbn [op_key fst]. f_equal. lia. }
  exists (sgld_run 5 2 3 (fun t => draw (2 * t + 0))), (sgld_run (-1) 3 4 (fun t => draw (2 * t + 1))).
  split; [|split; [|split]].
  - apply (chain_noise_ext _ _ _ _ _ _ 2 3 _ _ (fun t => draw (2 * t + 0))); [intros; symmetry; apply Hn; lia|].
    apply (sgld_run_chain N 5 2 3 (fun t => 2 * t + 0)%nat); intros; lia.
  - apply (chain_noise_ext _ _ _ _ _ _ 3 4 _ _ (fun t => draw (2 * t + 1))); [intros; symmetry; apply Hn; lia|].
    apply (sgld_run_chain N (-1) 3 4 (fun t => 2 * t + 1)%nat); intros; lia.
  - intros t Ht. unfold stream, ent, make_noise_op, get_seed. cbn [op_key fst]. apply fair_white; lia.
  - intros t Ht. split.
    + rewrite (ex_ext _ _ (fun w => theta_of (sgld_run 5 2 3 (fun t => draw (2 * t + 0))) t w * draw (2 * t + 1) w)) by (intros; now rewrite Hn by lia).
      apply (fair_next (N + N)); [lia|].
      apply (sgld_run_decided 5 2 3 (fun t => draw (2 * t + 0)) (fun t => 2 * t + 1)%nat).
      intros t' s' H. apply draw_decided. lia.
    + rewrite (ex_ext _ _ (fun w => theta_of (sgld_run (-1) 3 4 (fun t => draw (2 * t + 1))) t w * draw (2 * t + 0) w)) by (intros; now rewrite Hn by lia).
      apply (fair_next (N + N)); [lia|].
      apply (sgld_run_decided (-1) 3 4 (fun t => draw (2 * t + 1)) (fun t => 2 * t + 0)%nat).
      intros t' s' H. apply draw_decided. lia.
Qed.
