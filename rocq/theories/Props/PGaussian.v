(** C77: SGHMC on a Gaussian target. *)
From Coq Require Import List Arith Lia ZArith Reals Lra Psatz Bool.
From Verif.Base Require Import Py Num Vec Lists.
From Verif.Model Require Import TensorUtils BurnIn SGHMC.
From Verif.Spec Require Import Dynamics Gaussian.
From Verif.Proofs Require Import Dynamics Trajectory Stability.
Import ListNotations.
Local Open Scope R_scope.

(** A chain driven by the model's SGHMC step, started at a random scalar position and velocity, on
    the quadratic cost lam/2 (x - mu)^2, with frozen inverse mass [m]; up to step [N] the
    noise is standardised and uncorrelated with the current state. *)
Record hmc_chain {O} (P : expectation O) (d s eps m lam mu : R) (N : nat)
    (st : nat -> O -> pstate R) (xi : nat -> O -> R) : Prop := {
  hc_pos : forall w, length (p_vec (st 0%nat w)) = 1%nat;
  hc_vel : forall w, length (p_mom (st 0%nat w)) = 1%nat;
  hc_step : forall t w, (t < N)%nat ->
    st (S t) w = sghmc_step {| mdecay := d; scale_grad := s |} eps
                   [lam * (hd 0 (p_vec (st t w)) - mu)] [xi t w] (Some [m]) (st t w);
  hc_mean : forall t, (t < N)%nat -> ex P (xi t) = 0;
  hc_var : forall t, (t < N)%nat -> ex P (fun w => xi t w ^ 2) = 1;
  hc_uncorrelated : forall t, (t < N)%nat ->
    ex P (fun w => hd 0 (p_vec (st t w)) * xi t w) = 0 /\ ex P (fun w => hd 0 (p_mom (st t w)) * xi t w) = 0
}.
Definition pos_of {O} (st : nat -> O -> pstate R) (t : nat) (w : O) : R := hd 0 (p_vec (st t w)).
Definition vel_of {O} (st : nat -> O -> pstate R) (t : nat) (w : O) : R := hd 0 (p_mom (st t w)).
Definition covariance {O} (P : expectation O) (f g : O -> R) : R :=
  ex P (fun w => (f w - ex P f) * (g w - ex P g)).
Definition covariances {O} (P : expectation O) (st : nat -> O -> pstate R) (t : nat) : cov :=
  Cov (covariance P (pos_of st t) (pos_of st t)) (covariance P (pos_of st t) (vel_of st t))
      (covariance P (vel_of st t) (vel_of st t)).
(** Variance of the injected noise (C19). *)
Definition noise_var (d s eps m : R) : R :=
  Rmax (2 * (eps ^ 2 / s) * d * m - (eps ^ 2 / s) ^ 2) (/ 10000000000000000).

Section Ex.
Context {O : Type} (P : expectation O).
Lemma ex_const : forall a, ex P (fun _ => a) = a.
Proof.
  intros. rewrite (ex_ext P _ (fun _ => a * 1)) by (intros; ring).
  rewrite (ex_scale P a (fun _ => 1)), ex_one. ring.
Qed.
Lemma ex_lin3 : forall a b c f g h,
  ex P (fun w => a * f w + b * g w + c * h w) = a * ex P f + b * ex P g + c * ex P h.
Proof.
  intros. rewrite (ex_add P (fun w => a * f w + b * g w) (fun w => c * h w)).
  rewrite (ex_add P (fun w => a * f w) (fun w => b * g w)), !ex_scale. ring.
Qed.
Lemma ex_bilin : forall a b c a' b' c' f g h,
  ex P (fun w => (a * f w + b * g w + c * h w) * (a' * f w + b' * g w + c' * h w)) =
  a * a' * ex P (fun w => f w * f w) + (a * b' + b * a') * ex P (fun w => f w * g w) + b * b' * ex P (fun w => g w * g w)
  + ((a * c' + c * a') * ex P (fun w => f w * h w) + (b * c' + c * b') * ex P (fun w => g w * h w) + c * c' * ex P (fun w => h w ^ 2)).
Proof.
  intros. rewrite <- ex_lin3, <- ex_lin3, <- ex_add. apply ex_ext. intros. ring.
Qed.
End Ex.

Section Chain.
Context {O : Type} (P : expectation O).
Variables d s eps m lam mu : R.
Variable N : nat.
Variables (st : nat -> O -> pstate R) (xi : nat -> O -> R).
Hypothesis Hs : 0 < s.
Hypothesis HC : hmc_chain P d s eps m lam mu N st xi.
Let k := eps ^ 2 * m * lam.
Let sg := sqrt (noise_var d s eps m).

Lemma sg_sq : sg ^ 2 = noise_var d s eps m.
Proof.
  unfold sg. rewrite <- Rsqr_pow2. apply Rsqr_sqrt. unfold noise_var.
  eapply Rle_trans; [|apply Rmax_r]. lra.
Qed.

Lemma chain_step : forall t w, (t <= N)%nat ->
  length (p_vec (st t w)) = 1%nat /\ length (p_mom (st t w)) = 1%nat /\
  ((t < N)%nat -> 
   vel_of st (S t) w = (1 - d) * vel_of st t w - k * (pos_of st t w - mu) + sg * xi t w /\
   pos_of st (S t) w = pos_of st t w + vel_of st (S t) w).
Proof.
  assert (St : forall t w, (t < N)%nat -> length (p_vec (st t w)) = 1%nat -> length (p_mom (st t w)) = 1%nat ->
    length (p_vec (st (S t) w)) = 1%nat /\ length (p_mom (st (S t) w)) = 1%nat /\
    vel_of st (S t) w = (1 - d) * vel_of st t w - k * (pos_of st t w - mu) + sg * xi t w /\
    pos_of st (S t) w = pos_of st t w + vel_of st (S t) w).
  { intros t w Ht L1 L2. unfold vel_of, pos_of.
    rewrite (hc_step _ _ _ _ _ _ _ _ _ _ HC t w Ht).
    destruct (p_vec (st t w)) as [|x [|]] eqn:Ev; try discriminate.
    destruct (p_mom (st t w)) as [|v [|]] eqn:Em; try discriminate.
    unfold sghmc_step. rewrite Ev, Em.
    cbn [p_vec p_mom hd length minv_used map combine vmap2 fst snd Num_R nadd nsub nmul nopp npow].
    rewrite sigma_R by exact Hs. cbn [mdecay scale_grad].
    replace (sqrt (Rmax (sghmc_noise_var eps d s m) guard)) with sg.
    2:{ unfold sg, noise_var, sghmc_noise_var, guard. reflexivity. }
    repeat split; unfold k; cbn; ring. }
  assert (L : forall t, (t <= N)%nat -> forall w, length (p_vec (st t w)) = 1%nat /\ length (p_mom (st t w)) = 1%nat).
  { induction t as [|t IH]; intros Ht w.
    - split; [apply (hc_pos _ _ _ _ _ _ _ _ _ _ HC)|apply (hc_vel _ _ _ _ _ _ _ _ _ _ HC)].
    - destruct (IH ltac:(lia) w) as [L1 L2]. destruct (St t w ltac:(lia) L1 L2) as (A & B & _). auto. }
  intros t w Ht. destruct (L t Ht w) as [L1 L2]. split; auto. split; auto. intros Hlt.
  destruct (St t w Hlt L1 L2) as (_ & _ & A). exact A.
Qed.

Lemma means_step : forall t, (t < N)%nat ->
  (ex P (pos_of st (S t)) - mu, ex P (vel_of st (S t))) = mean_step d k (ex P (pos_of st t) - mu, ex P (vel_of st t)).
Proof.
  intros t Ht.
  assert (V : ex P (vel_of st (S t)) = (1 - d) * ex P (vel_of st t) - k * (ex P (pos_of st t) - mu)).
  { rewrite (ex_ext P _ (fun w => (1 - d) * vel_of st t w + (- k) * pos_of st t w + 1 * (k * mu + sg * xi t w))).
    2:{ intros w. destruct (chain_step t w (Nat.lt_le_incl _ _ Ht)) as (_ & _ & A). destruct (A Ht) as [-> _]. ring. }
    rewrite ex_lin3, (ex_add P (fun _ => k * mu)), ex_const, ex_scale, (hc_mean _ _ _ _ _ _ _ _ _ _ HC t Ht). ring. }
  assert (X : ex P (pos_of st (S t)) = ex P (pos_of st t) + ex P (vel_of st (S t))).
  { rewrite <- ex_add. apply ex_ext. intros w. destruct (chain_step t w (Nat.lt_le_incl _ _ Ht)) as (_ & _ & A).
    apply (A Ht). }
  unfold mean_step. rewrite X, V. f_equal. ring.
Qed.

Lemma covs_step : forall t, (t < N)%nat ->
  covariances P st (S t) = cov_step d k (noise_var d s eps m) (covariances P st t).
Proof.
  intros t Ht. pose proof (means_step t Ht) as M. unfold mean_step in M. apply pair_equal_spec in M as [M1 M2].
  set (f := fun w => pos_of st t w - ex P (pos_of st t)).
  set (g := fun w => vel_of st t w - ex P (vel_of st t)).
  assert (V : forall w, vel_of st (S t) w - ex P (vel_of st (S t)) = (- k) * f w + (1 - d) * g w + sg * xi t w).
  { intros w. destruct (chain_step t w (Nat.lt_le_incl _ _ Ht)) as (_ & _ & A). destruct (A Ht) as [-> _].
    rewrite M2. unfold f, g. ring. }
  assert (X : forall w, pos_of st (S t) w - ex P (pos_of st (S t)) = (1 - k) * f w + (1 - d) * g w + sg * xi t w).
  { intros w. destruct (chain_step t w (Nat.lt_le_incl _ _ Ht)) as (_ & _ & A). destruct (A Ht) as [_ ->].
    assert (E : ex P (pos_of st (S t)) = ex P (pos_of st t) + ex P (vel_of st (S t))) by (rewrite M2; lra).
    rewrite E. replace (pos_of st t w + vel_of st (S t) w - (ex P (pos_of st t) + ex P (vel_of st (S t))))
      with (f w + (vel_of st (S t) w - ex P (vel_of st (S t)))) by (unfold f; ring).
    rewrite V. ring. }
  assert (Z : forall u e, ex P (fun w => u w * xi t w) = 0 ->
     ex P (fun w => (u w - e) * xi t w) = 0).
  { intros u e H0. rewrite (ex_ext P _ (fun w => u w * xi t w + (- e) * xi t w)) by (intros; ring).
    rewrite ex_add, ex_scale, H0, (hc_mean _ _ _ _ _ _ _ _ _ _ HC t Ht). ring. }
  destruct (hc_uncorrelated _ _ _ _ _ _ _ _ _ _ HC t Ht) as [U1 U2].
  assert (Fx : ex P (fun w => f w * xi t w) = 0) by (apply Z; auto).
  assert (Gx : ex P (fun w => g w * xi t w) = 0) by (apply Z; auto).
  pose proof (hc_var _ _ _ _ _ _ _ _ _ _ HC t Ht) as Vx.
  unfold covariances, covariance, cov_step. cbn [c_xx c_xv c_vv]. fold f. fold g.
  apply cov_eq.
  - rewrite (ex_ext P _ (fun w => ((1 - k) * f w + (1 - d) * g w + sg * xi t w) * ((1 - k) * f w + (1 - d) * g w + sg * xi t w)))
      by (intros w; now rewrite X).
    rewrite ex_bilin, Fx, Gx, Vx, <- sg_sq. unfold f, g. ring.
  - rewrite (ex_ext P _ (fun w => ((1 - k) * f w + (1 - d) * g w + sg * xi t w) * ((- k) * f w + (1 - d) * g w + sg * xi t w)))
      by (intros w; now rewrite X, V).
    rewrite ex_bilin, Fx, Gx, Vx, <- sg_sq. unfold f, g. ring.
  - rewrite (ex_ext P _ (fun w => ((- k) * f w + (1 - d) * g w + sg * xi t w) * ((- k) * f w + (1 - d) * g w + sg * xi t w)))
      by (intros w; now rewrite V).
    rewrite ex_bilin, Fx, Gx, Vx, <- sg_sq. unfold f, g. ring.
Qed.
End Chain.

(** Exact means and covariances of the chain at every step. *)
Theorem C77_moments :
  forall O (P : expectation O) d s eps m lam mu N st xi,
  0 < s -> hmc_chain P d s eps m lam mu N st xi ->
  let k := eps ^ 2 * m * lam in
  forall t, (t <= N)%nat ->
  (ex P (pos_of st t) - mu, ex P (vel_of st t)) =
    iterate (mean_step d k) t (ex P (pos_of st 0) - mu, ex P (vel_of st 0)) /\
  covariances P st t = iterate (cov_step d k (noise_var d s eps m)) t (covariances P st 0).
Proof.
  intros O P d s eps m lam mu N st xi Hs HC k. induction t as [|t IH]; intros Ht; [auto|].
  destruct (IH ltac:(lia)) as [A B]. cbn [iterate]. rewrite <- A, <- B. split.
  - apply (means_step P d s eps m lam mu N st xi Hs HC). lia.
  - apply (covs_step P d s eps m lam mu N st xi Hs HC). lia.
Qed.

(** The exact stability region: the mean is forgotten from every start iff friction lies in
    (0, 2) and eps^2 m lam below twice 2 - friction. *)
Theorem C77_stable_iff :
  forall d k,
  (forall ab, tends (fun n => fst (iterate (mean_step d k) n ab)) 0 /\
              tends (fun n => snd (iterate (mean_step d k) n ab)) 0) <->
  0 < d < 2 /\ 0 < k < 2 * (2 - d).
Proof. intros d k. split; [apply converges_stable|apply mean_converges]. Qed.

(** In that region the covariance tends to its only fixed point. *)
Theorem C77_stationary :
  forall d k q, 0 < d < 2 -> 0 < k < 2 * (2 - d) ->
  let vv := q / (d * (2 - d - k / 2)) in
  let limit := Cov (vv * (2 - d) / (2 * k)) (vv / 2) vv in
  (forall c, cov_step d k q c = c <-> c = limit) /\
  forall c,
    tends (fun n => c_xx (iterate (cov_step d k q) n c)) (c_xx limit) /\
    tends (fun n => c_xv (iterate (cov_step d k q) n c)) (c_xv limit) /\
    tends (fun n => c_vv (iterate (cov_step d k q) n c)) (c_vv limit).
Proof.
  intros d k q Hd Hk vv limit. assert (HS : stable d k) by (split; assumption).
  change limit with (stationary d k q). split.
  - intros c. split; [now apply fixed_unique|intros ->; now apply stationary_fixed].
  - intros c. apply (cov_converges d k q HS c).
Qed.

(** The position's stationary variance, relative to the target's variance 1/(s lam), as long as the
    floor under the noise variance is not reached. *)
Theorem C77_bias :
  forall d s eps m lam, 0 < d < 2 -> 0 < s -> eps <> 0 -> 0 < m -> 0 < lam ->
  eps ^ 2 * m * lam < 2 * (2 - d) ->
  / 10000000000000000 <= 2 * (eps ^ 2 / s) * d * m - (eps ^ 2 / s) ^ 2 ->
  let k := eps ^ 2 * m * lam in
  s * lam * c_xx (stationary d k (noise_var d s eps m)) =
  (1 - eps ^ 2 / (2 * s * m * d)) * ((2 - d) / (2 - d - k / 2)).
Proof.
  intros d s eps m lam Hd Hs He Hm Hl Hk Hf k. unfold noise_var. rewrite Rmax_left by exact Hf.
  unfold stationary. cbn [c_xx]. unfold k in *. 
  assert (0 < eps ^ 2) by (rewrite <- Rsqr_pow2; apply Rsqr_pos_lt; exact He).
  field. repeat split; lra.
Qed.

(** The floor 1e-16 destroys the limit of small stepsizes: the stationary variance tends to infinity. *)
Theorem C77_floor_dominates_small_stepsizes :
  forall d s m lam, 0 < d < 2 -> 0 < s -> 0 < m -> 0 < lam ->
  forall bound, exists eps0, 0 < eps0 /\
  forall eps, 0 < eps < eps0 ->
    eps ^ 2 * m * lam < 2 * (2 - d) /\
    bound < c_xx (stationary d (eps ^ 2 * m * lam) (noise_var d s eps m)).
Proof.
  intros d s m lam Hd Hs Hm Hl bound.
  assert (Hml : 0 < m * lam) by (apply Rmult_lt_0_compat; lra).
  (* c_xx >= floor (2-d) / (2 k d (2-d)) = floor / (2 k d) *)
  set (K := Rmin (2 * (2 - d)) (/ 10000000000000000 / (2 * d * (Rabs bound + 1)))).
  assert (HB : 0 < Rabs bound + 1) by (pose proof (Rabs_pos bound); lra).
  assert (HK0 : 0 < / 10000000000000000 / (2 * d * (Rabs bound + 1))).
  { apply Rdiv_lt_0_compat; [lra|]. apply Rmult_lt_0_compat; lra. }
  assert (HK : 0 < K) by (unfold K; apply Rmin_pos; lra).
  exists (sqrt (K / (m * lam))). split.
  { apply sqrt_lt_R0. apply Rdiv_lt_0_compat; assumption. }
  intros eps [He1 He2]. set (k := eps ^ 2 * m * lam).
  assert (Hk : 0 < k < K).
  { unfold k. split.
    - rewrite Rmult_assoc. apply Rmult_lt_0_compat; [nra|lra].
    - assert (E : eps ^ 2 < K / (m * lam)).
      { rewrite <- (sqrt_sqrt (K / (m * lam))); [|apply Rlt_le, Rdiv_lt_0_compat; assumption].
        pose proof (sqrt_pos (K / (m * lam))). nra. }
      apply (Rmult_lt_compat_r (m * lam)) in E; [|lra].
      replace (K / (m * lam) * (m * lam)) with K in E by (field; lra). rewrite Rmult_assoc. exact E. }
  assert (K1 : K <= 2 * (2 - d)) by apply Rmin_l.
  assert (K2 : K <= / 10000000000000000 / (2 * d * (Rabs bound + 1))) by apply Rmin_r.
  split; [lra|]. unfold stationary. cbn [c_xx].
  set (q := noise_var d s eps m).
  assert (Hq : / 10000000000000000 <= q) by apply Rmax_r.
  assert (D1 : 0 < d * (2 - d - k / 2)) by (apply Rmult_lt_0_compat; lra).
  assert (L1 : q / (d * (2 - d - k / 2)) * (2 - d) / (2 * k) >= q / (2 * d * k)).
  { apply Rle_ge. replace (q / (d * (2 - d - k / 2)) * (2 - d) / (2 * k)) with
      (q / (2 * d * k) * ((2 - d) / (2 - d - k / 2))) by (field; repeat split; lra).
    rewrite <- (Rmult_1_r (q / (2 * d * k))) at 1. apply Rmult_le_compat_l.
    - apply Rlt_le, Rdiv_lt_0_compat; [lra|]. apply Rmult_lt_0_compat; lra.
    - apply (Rmult_le_reg_r (2 - d - k / 2)); [lra|].
      replace ((2 - d) / (2 - d - k / 2) * (2 - d - k / 2)) with (2 - d) by (field; lra). lra. }
  apply Rlt_le_trans with (q / (2 * d * k)); [|lra].
  apply Rle_lt_trans with (Rabs bound); [apply Rle_abs|].
  apply Rlt_trans with (Rabs bound + 1); [lra|].
  apply (Rmult_lt_reg_r (2 * d * k)); [apply Rmult_lt_0_compat; lra|].
  replace (q / (2 * d * k) * (2 * d * k)) with q by (field; split; lra).
  apply Rlt_le_trans with (/ 10000000000000000); [|exact Hq].
  assert (F : k * (2 * d * (Rabs bound + 1)) < / 10000000000000000).
  { apply (Rmult_lt_reg_r (/ (2 * d * (Rabs bound + 1)))).
    - apply Rinv_0_lt_compat. apply Rmult_lt_0_compat; lra.
    - rewrite Rmult_assoc, Rinv_r; [|apply Rgt_not_eq; apply Rmult_lt_0_compat; lra].
      unfold Rdiv in K2. lra. }
  lra.
Qed.

(** Two independent signs drive two steps from position 5 at rest; friction 1/20, stepsize 1/10. *)
Definition coin : expectation (bool * bool).
Proof.
  refine {| ex := fun f => (f (true, true) + f (true, false) + f (false, true) + f (false, false)) / 4 |};
    intros; try field. now rewrite !H.
Defined.
Definition sign_of (b : bool) : R := if b then 1 else -1.
Definition coin_noise (t : nat) (w : bool * bool) : R :=
  match t with 0%nat => sign_of (fst w) | _ => sign_of (snd w) end.
Fixpoint coin_chain (t : nat) (w : bool * bool) : pstate R :=
  match t with
  | 0%nat => pinit (Tensor [] [5])
  | S t' => let p := coin_chain t' w in
      sghmc_step {| mdecay := 1/20; scale_grad := 1 |} (1/10) [2 * (hd 0 (p_vec p) - 3)]
        [coin_noise t' w] (Some [1]) p
  end.
Example C77_example :
  hmc_chain coin (1/20) 1 (1/10) 1 2 3 2 coin_chain coin_noise /\
  0 < 1/20 < 2 /\ 0 < (1/10) ^ 2 * 1 * 2 < 2 * (2 - 1/20) /\
  / 10000000000000000 <= 2 * ((1/10) ^ 2 / 1) * (1/20) * 1 - ((1/10) ^ 2 / 1) ^ 2.
Proof.
  split; [|lra]. constructor.
  - reflexivity.
  - reflexivity.
  - reflexivity.
  - intros [|[|t]] Ht; [| |lia]; cbn; field.
  - intros [|[|t]] Ht; [| |lia]; cbn; field.
  - intros [|[|t]] Ht; [| |lia];
      cbn [coin ex coin_chain coin_noise sghmc_step p_vec p_mom pinit data minv_used vmap2 combine map hd fst snd sign_of repeat length];
      cbn [Num_R nadd nsub nmul nopp npow n0]; split; field.
Qed.

Print Assumptions C77_moments.
Print Assumptions C77_stable_iff.
Print Assumptions C77_stationary.
Print Assumptions C77_bias.
Print Assumptions C77_floor_dominates_small_stepsizes.
