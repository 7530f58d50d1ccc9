(** C24-C26 (relativistic SGHMC) and its part of C16, C32. *)
From Coq Require Import List Arith Lia ZArith Bool Reals Lra.
From Verif.Base Require Import Py Num Vec Lists.
From Verif.Model Require Import TensorUtils BurnIn SGHMC SGLD Stepsize BaseClasses Session Relativistic.
From Verif.Spec Require Import Sampler Dynamics Trajectory.
From Verif.Proofs Require Import Sampler SamplerHistory Trajectory Session KernelHistory.
From Verif.Props Require Import PSampler.
Import ListNotations.
Local Open Scope R_scope.

(** *** C24 *)
Lemma rel_velocity_R : forall (c : rconfig R) eps p,
  rel_velocity c eps p = eps * p / (r_mass c * sqrt (p * p / (r_mass c ^ 2 * r_c c ^ 2) + 1)).
Proof. intros. unfold rel_velocity. rewrite !npow_R, n1_R. reflexivity. Qed.

(** Velocity p / (m sqrt(p^2/(m c)^2 + 1)) is below c. *)
Lemma velocity_below_c : forall m c p, 0 < m -> 0 < c ->
  Rabs (p / (m * sqrt (p * p / (m ^ 2 * c ^ 2) + 1))) < c.
Proof.
  intros m c p Hm Hc.
  set (q := p * p / (m ^ 2 * c ^ 2) + 1).
  assert (Hmc : 0 < m ^ 2 * c ^ 2) by (apply Rmult_lt_0_compat; apply pow_lt; auto).
  assert (Hq : 1 <= q).
  { unfold q. assert (0 <= p * p / (m ^ 2 * c ^ 2)); [|lra].
    apply Rmult_le_pos; [apply Rle_0_sqr|]. left. now apply Rinv_0_lt_compat. }
  assert (Hs : 0 < sqrt q) by (apply sqrt_lt_R0; lra).
  assert (Hd : 0 < m * sqrt q) by (now apply Rmult_lt_0_compat).
  unfold Rdiv. rewrite Rabs_mult. rewrite (Rabs_right (/ _)) by (left; now apply Rinv_0_lt_compat).
  apply Rmult_lt_reg_r with (m * sqrt q); [exact Hd|].
  rewrite Rmult_assoc, Rinv_l, Rmult_1_r by lra.
  apply Rsqr_incrst_0; [|apply Rabs_pos|apply Rmult_le_pos; lra].
  rewrite <- Rsqr_abs. unfold Rsqr.
  replace (c * (m * sqrt q) * (c * (m * sqrt q))) with (m ^ 2 * c ^ 2 * (sqrt q * sqrt q)) by ring.
  rewrite sqrt_sqrt by lra. unfold q. rewrite Rmult_plus_distr_l.
  replace (m ^ 2 * c ^ 2 * (p * p / (m ^ 2 * c ^ 2))) with (p * p) by (field; split; lra). lra.
Qed.

Lemma rel_velocity_bound : forall (c : rconfig R) eps p, 0 < r_mass c -> 0 < r_c c -> 0 < eps ->
  Rabs (rel_velocity c eps p) < eps * r_c c.
Proof.
  intros c eps p Hm Hc He. rewrite rel_velocity_R.
  pose proof (velocity_below_c (r_mass c) (r_c c) p Hm Hc) as H.
  unfold Rdiv in *. rewrite Rmult_assoc, Rabs_mult, (Rabs_right eps) by lra.
  now apply Rmult_lt_compat_l.
Qed.

(** Runs of one parameter. *)
Definition rel_run {T} `{Num T} (c : rconfig T) (ins : list (step_input T)) (s : rstate T) : rstate T :=
  fold_left (fun s i => rel_step c (i_eps i) (i_grad i) (i_xi i) s) ins s.
Lemma rel_run_snoc : forall T (N : Num T) (c : rconfig T) ins i s,
  rel_run c (ins ++ [i]) s = rel_step c (i_eps i) (i_grad i) (i_xi i) (rel_run c ins s).
Proof. intros. unfold rel_run. now rewrite fold_left_app. Qed.

Fixpoint total_eps (ins : list (step_input R)) : R :=
  match ins with [] => 0 | i :: l => i_eps i + total_eps l end.
Lemma total_eps_app : forall a b, total_eps (a ++ b) = total_eps a + total_eps b.
Proof. induction a as [|x a IH]; intros; cbn; [lra|rewrite IH; lra]. Qed.

(** Every coordinate of the parameter moves by less than eps*c in a step, and by less than c
    times the sum of the stepsizes in a run, whatever the gradients, noises, friction, momentum. *)
Theorem C24_speed_limit :
  forall (c : rconfig R) ins (s : rstate R) k x, 0 < r_mass c -> 0 < r_c c ->
  ins <> [] -> Forall (fun i => 0 < i_eps i) ins ->
  r_vec s = data (r_val s) -> nth_error (data (r_val s)) k = Some x ->
  exists y, nth_error (data (r_val (rel_run c ins s))) k = Some y /\ Rabs (y - x) < total_eps ins * r_c c.
Proof.
  intros c ins s k x Hm Hc Hne HF Hs Hk.
  assert (G : forall ins, Forall (fun i => 0 < i_eps i) ins ->
    r_vec (rel_run c ins s) = data (r_val (rel_run c ins s)) /\
    exists y, nth_error (data (r_val (rel_run c ins s))) k = Some y /\
      Rabs (y - x) <= total_eps ins * r_c c /\ (ins <> [] -> Rabs (y - x) < total_eps ins * r_c c)).
  { clear ins Hne HF. induction ins as [|i ins IH] using rev_ind; intros HF.
    - cbn. split; [exact Hs|]. exists x. split; [exact Hk|]. split; [|congruence].
      rewrite Rminus_diag_eq, Rabs_R0; lra.
    - apply Forall_app in HF as [HF Hi]. apply Forall_inv in Hi.
      destruct (IH HF) as (E & y & Hy & Hle & _). rewrite rel_run_snoc.
      split; [reflexivity|].
      set (v := rel_velocity c (i_eps i) (r_mom (rel_step c (i_eps i) (i_grad i) (i_xi i) (rel_run c ins s)))).
      exists (y + v). split.
      + unfold rel_step. cbn [r_val data]. rewrite E, nth_error_map, Hy. reflexivity.
      + pose proof (rel_velocity_bound c (i_eps i) (r_mom (rel_step c (i_eps i) (i_grad i) (i_xi i) (rel_run c ins s))) Hm Hc Hi) as Hv.
        fold v in Hv. rewrite total_eps_app. cbn [total_eps].
        replace (y + v - x) with ((y - x) + v) by ring.
        pose proof (Rabs_triang (y - x) v). split; [|intros _]; nra. }
  destruct (G ins HF) as (_ & y & Hy & _ & Hlt). exists y. split; auto.
Qed.

(** The bound cannot be improved: a fast momentum reaches any fraction of the limit. *)
Theorem C24_limit_is_sharp : forall m c eps q, 0 < m -> 0 < c -> 0 < eps -> 0 < q < 1 ->
  exists p, rel_velocity (RConfig m c 1 0) eps p > q * (eps * c).
Proof.
  intros m c eps q Hm Hc He Hq.
  (* p = m c r with r/sqrt(r^2+1) > q: r = 1/sqrt(1-q^2)... use r = q'/(1-q) *)
  set (r := 1 / (1 - q)). assert (Hr : 1 < r).
  { unfold r. apply Rmult_lt_reg_r with (1 - q); [lra|]. unfold Rdiv. rewrite Rmult_assoc, Rinv_l; lra. }
  exists (m * c * r). rewrite rel_velocity_R. cbn [r_mass r_c].
  replace (m * c * r * (m * c * r) / (m ^ 2 * c ^ 2) + 1) with (r * r + 1) by (field; lra).
  assert (Hs : 0 < sqrt (r * r + 1)) by (apply sqrt_lt_R0; nra).
  assert (Hlt : q * sqrt (r * r + 1) < r).
  { apply Rsqr_incrst_0; [|nra|lra]. unfold Rsqr.
    replace (q * sqrt (r * r + 1) * (q * sqrt (r * r + 1))) with (q * q * (sqrt (r * r + 1) * sqrt (r * r + 1))) by ring.
    rewrite sqrt_sqrt by nra.
    assert (r * (1 - q) = 1) by (unfold r; field; lra).
    assert (r = 1 + q * r) by lra. assert (q < q * r) by nra. nra. }
  replace (eps * (m * c * r) / (m * sqrt (r * r + 1))) with (eps * c * (r / sqrt (r * r + 1))) by (field; lra).
  assert (q < r / sqrt (r * r + 1)).
  { apply Rmult_lt_reg_r with (sqrt (r * r + 1)); [exact Hs|]. unfold Rdiv. rewrite Rmult_assoc, Rinv_l; lra. }
  assert (0 < eps * c) by nra. nra.
Qed.
Example C24_nontrivial : exists s : rstate R,
  r_vec s = data (r_val s) /\ nth_error (data (r_val s)) 0 = Some 5 /\
  Forall (fun i : step_input R => 0 < i_eps i) [StepInput (1/1000) [1000000] [3] None].
Proof. exists (rinit (Tensor [] [5]) 7). repeat split. repeat constructor. cbn. lra. Qed.

(** *** C25 *)
(** The noise scale over the extended reals. *)
Theorem C25_noise_scale_defined_iff : forall m c D Bhat eps, 0 < eps ->
  (eps * Bhat <= 2 * D ->
     rel_noise_scale (RConfig (Fin m) (Fin c) (Fin D) (Fin Bhat)) (Fin eps) = Fin (sqrt (eps * (2 * D - eps * Bhat)))) /\
  (2 * D < eps * Bhat ->
     rel_noise_scale (RConfig (Fin m) (Fin c) (Fin D) (Fin Bhat)) (Fin eps) = NaN).
Proof.
  intros m c D Bhat eps He. unfold rel_noise_scale. rewrite n2_XR. cbn [r_D r_bhat nmul nsub nsqrt Num_XR xmul xopp xadd].
  replace (eps * (2 * D + - (eps * Bhat))) with (eps * (2 * D - eps * Bhat)) by ring.
  split; intros HH.
  - apply xsqrt_fin. apply Rmult_le_pos; lra.
  - apply xsqrt_neg. apply Rmult_pos_neg || (apply Ropp_lt_cancel; rewrite Ropp_0; replace (- (eps * (2 * D - eps * Bhat))) with (eps * (eps * Bhat - 2 * D)) by ring; apply Rmult_lt_0_compat; lra).
Qed.

(** After one step with 2D < eps*Bhat momentum and all coordinates are NaN for ever. *)
Definition all_nan (s : rstate XR) : Prop := r_mom s = NaN /\ Forall (eq NaN) (r_vec s) /\ Forall (eq NaN) (data (r_val s)).
Lemma rel_velocity_nan : forall (c : rconfig XR) eps, rel_velocity c eps NaN = NaN.
Proof.
  intros. unfold rel_velocity. cbn [nmul ndiv Num_XR]. rewrite (xmul_nan_r eps). apply xdiv_nan_l.
Qed.
Lemma step_nan : forall (c : rconfig XR) eps g xs s,
  r_mom (rel_step c eps g xs s) = NaN -> all_nan (rel_step c eps g xs s).
Proof.
  intros c eps g xs s Hm.
  assert (F : Forall (eq NaN) (r_vec (rel_step c eps g xs s))).
  { unfold rel_step in *. cbn [r_vec r_mom] in *. rewrite Hm, rel_velocity_nan.
    apply Forall_forall. intros y Hy. apply in_map_iff in Hy as (x & <- & _). cbn. now rewrite xadd_nan_r. }
  split; [exact Hm|]. split; [exact F|]. exact F.
Qed.
Theorem C25_nan_for_ever : forall m c D Bhat eps g x pre post (s : rstate XR),
  0 < eps -> 2 * D < eps * Bhat ->
  let cfg := RConfig (Fin m) (Fin c) (Fin D) (Fin Bhat) in
  all_nan (rel_run cfg (pre ++ StepInput (Fin eps) [g] [x] None :: post) s).
Proof.
  intros m c D Bhat eps g x pre post s He Hbad cfg.
  assert (Base : forall s, all_nan (rel_step cfg (Fin eps) [g] [x] s)).
  { intros s0. apply step_nan. unfold rel_step. cbn [r_mom].
    change (rel_noise_scale cfg (Fin eps)) with (rel_noise_scale (RConfig (Fin m) (Fin c) (Fin D) (Fin Bhat)) (Fin eps)).
    rewrite (proj2 (C25_noise_scale_defined_iff m c D Bhat eps He) Hbad).
    cbn -[rel_velocity]. rewrite xadd_nan_r. cbn. apply xadd_nan_r. }
  assert (Next : forall s i, all_nan s -> all_nan (rel_step cfg (i_eps i) (i_grad i) (i_xi i) s)).
  { intros s0 i (Hm & _ & _). apply step_nan. unfold rel_step. cbn [r_mom]. rewrite Hm. reflexivity. }
  unfold rel_run. rewrite fold_left_app. cbn [fold_left i_eps i_grad i_xi].
  generalize (Base (fold_left (fun s i => rel_step cfg (i_eps i) (i_grad i) (i_xi i) s) pre s)).
  generalize (rel_step cfg (Fin eps) [g] [x] (fold_left (fun s i => rel_step cfg (i_eps i) (i_grad i) (i_xi i) s) pre s)).
  induction post as [|i post IH]; intros s0 H0; cbn [fold_left]; [exact H0|]. apply IH. now apply Next.
Qed.

(** As long as eps*Bhat <= 2D in every step and all inputs are finite, the run is that of exact
    real arithmetic, without NaN or infinity. *)
Definition fin_rconfig (c : rconfig R) : rconfig XR := RConfig (Fin (r_mass c)) (Fin (r_c c)) (Fin (r_D c)) (Fin (r_bhat c)).
Definition fin_rstate (s : rstate R) : rstate XR := RState (Fin (r_mom s)) (map Fin (r_vec s)) (fin_tensor (r_val s)).
Lemma rel_velocity_fin : forall c eps p, r_mass c <> 0 -> r_c c <> 0 ->
  rel_velocity (fin_rconfig c) (Fin eps) (Fin p) = Fin (rel_velocity c eps p).
Proof.
  intros c eps p Hm Hc. rewrite rel_velocity_R.
  assert (Hd : r_mass c ^ 2 * r_c c ^ 2 <> 0) by (apply Rmult_integral_contrapositive; split; apply pow_nonzero; auto).
  assert (Hq : 0 <= p * p / (r_mass c ^ 2 * r_c c ^ 2)).
  { apply Rmult_le_pos; [apply Rle_0_sqr|]. left. apply Rinv_0_lt_compat.
    apply Rmult_lt_0_compat; rewrite <- Rsqr_pow2; now apply Rlt_0_sqr. }
  assert (Hs : 0 < sqrt (p * p / (r_mass c ^ 2 * r_c c ^ 2) + 1)) by (apply sqrt_lt_R0; lra).
  unfold rel_velocity, fin_rconfig. cbn [r_mass r_c npow].
  rewrite n1_XR. cbn [nmul ndiv nadd nsqrt Num_XR xmul xadd].
  replace (r_mass c * r_mass c * (r_c c * r_c c)) with (r_mass c ^ 2 * r_c c ^ 2) by ring.
  rewrite (xdiv_fin _ _ Hd). cbn [xadd]. rewrite xsqrt_fin by lra. cbn [xmul].
  apply xdiv_fin. apply Rmult_integral_contrapositive. split; [exact Hm|lra].
Qed.
Theorem C25_finite_otherwise : forall (c : rconfig R) ins v p0,
  r_mass c <> 0 -> r_c c <> 0 ->
  Forall (fun i => 0 < i_eps i /\ i_eps i * r_bhat c <= 2 * r_D c /\
                   length (i_grad i) = 1%nat /\ length (i_xi i) = 1%nat) ins ->
  rel_run (fin_rconfig c) (map fin_input ins) (rinit (fin_tensor v) (Fin p0)) =
  fin_rstate (rel_run c ins (rinit v p0)).
Proof.
  intros c ins v p0 Hm Hc HF.
  induction ins as [|i ins IH] using rev_ind; [reflexivity|].
  apply Forall_app in HF as [HF Hi]. apply Forall_inv in Hi as (He & Hb & Hg & Hx).
  rewrite map_app. cbn [map]. rewrite !rel_run_snoc, (IH HF).
  destruct i as [eps g x fed]. cbn [i_eps i_grad i_xi fin_input] in *.
  destruct g as [|g [|]]; try discriminate. destruct x as [|x [|]]; try discriminate.
  set (s := rel_run c ins (rinit v p0)).
  assert (NS : rel_noise_scale (fin_rconfig c) (Fin eps) = Fin (rel_noise_scale c eps)).
  { unfold fin_rconfig. rewrite (proj1 (C25_noise_scale_defined_iff (r_mass c) (r_c c) (r_D c) (r_bhat c) eps He) Hb).
    f_equal. unfold rel_noise_scale. rewrite n2_R. reflexivity. }
  assert (PM : r_mom (rel_step (fin_rconfig c) (Fin eps) [Fin g] [Fin x] (fin_rstate s)) =
               Fin (r_mom (rel_step c eps [g] [x] s))).
  { unfold rel_step. cbn [r_mom fin_rstate map vmap2 combine hd].
    rewrite rel_velocity_fin by assumption. rewrite NS. reflexivity. }
  assert (PV : r_vec (rel_step (fin_rconfig c) (Fin eps) [Fin g] [Fin x] (fin_rstate s)) =
               map Fin (r_vec (rel_step c eps [g] [x] s))).
  { unfold rel_step in *. cbn [r_mom r_vec] in *. rewrite PM, rel_velocity_fin by assumption.
    cbn [r_vec fin_rstate]. rewrite !map_map. apply map_ext. intros y. reflexivity. }
  assert (EX : forall (a b : rstate XR), r_mom a = r_mom b -> r_vec a = r_vec b -> r_val a = r_val b -> a = b).
  { intros [a1 a2 a3] [b1 b2 b3]. cbn. intros -> -> ->. reflexivity. }
  apply EX; [exact PM|exact PV|].
  change (r_val (fin_rstate (rel_step c eps [g] [x] s))) with (fin_tensor (r_val (rel_step c eps [g] [x] s))).
  unfold fin_tensor.
  change (data (r_val (rel_step c eps [g] [x] s))) with (r_vec (rel_step c eps [g] [x] s)).
  rewrite <- PV. unfold rel_step. reflexivity.
Qed.
Example C25_nontrivial : 0 < 1 /\ 2 * 1 < 1 * 3 /\ 1 * 2 <= 2 * 1. Proof. lra. Qed.

(** *** C26 *)
(** Construction with float mass and speed of light succeeds if and only if every parameter has exactly one
    element; otherwise it raises ValueError. *)
Theorem C26_one_element_parameters_only :
  forall (T : Type) (N : Num T) m dm c dc (params : list (tensor T)),
  (Forall (fun v => prod (shape v) = 1%nat) params ->
     rel_construct (PFloat m dm) (PFloat c dc) params = Ok tt) /\
  (Exists (fun v => prod (shape v) <> 1%nat) params ->
     rel_construct (PFloat m dm) (PFloat c dc) params = Raise ValueError).
Proof.
  intros T N m dm c dc params. unfold rel_construct. cbn [is_float assert_ bind].
  assert (Hv : forall v : tensor T, vectorize (OVariable v) = Ok {| shape := [prod (shape v); 1%nat]; data := data v |}).
  { intros v. unfold vectorize, tf_reshape. cbn [prod fold_right]. rewrite Nat.mul_1_r, Nat.eqb_refl. reflexivity. }
  split.
  - induction params as [|v params IH]; intros HF; [reflexivity|]. inversion HF; subst.
    cbn [rel_shapes]. rewrite Hv. cbn [bind].
    unfold tf_reshape at 1. cbn [prod fold_right shape]. rewrite H1. cbn [Nat.mul Nat.eqb bind].
    unfold tf_reshape at 1. cbn [prod fold_right shape Nat.mul Nat.eqb bind].
    unfold unvectorize, tf_reshape. cbn [prod fold_right shape]. fold (prod (shape v)). rewrite H1. cbn [Nat.mul Nat.eqb bind].
    now apply IH.
  - induction params as [|v params IH]; intros HE; [inversion HE|].
    cbn [rel_shapes]. rewrite Hv. cbn [bind].
    destruct (Nat.eq_dec (prod (shape v)) 1) as [H1|H1].
    + inversion HE; subst; [congruence|].
      unfold tf_reshape at 1. cbn [prod fold_right shape]. rewrite H1. cbn [Nat.mul Nat.eqb bind].
      unfold tf_reshape at 1. cbn [prod fold_right shape Nat.mul Nat.eqb bind].
      unfold unvectorize, tf_reshape. cbn [prod fold_right shape]. fold (prod (shape v)). rewrite H1. cbn [Nat.mul Nat.eqb bind].
      now apply IH.
    + unfold tf_reshape at 1. cbn [prod fold_right shape]. rewrite Nat.mul_1_r.
      destruct (Nat.eqb_spec 1 (prod (shape v))) as [E|E]; [congruence|]. reflexivity.
Qed.
(** Integer masses are refused, e.g. mass=1. *)
Theorem C26_mass_and_speed_must_be_floats :
  forall (T : Type) (N : Num T) mass c (params : list (tensor T)),
  (forall m d, mass <> PFloat m d) \/ (forall m d, c <> PFloat m d) ->
  rel_construct mass c params = Raise AssertionError.
Proof.
  intros T N mass c params [H|H]; unfold rel_construct.
  - destruct mass; try reflexivity. exfalso. eapply H; reflexivity.
  - destruct mass; try reflexivity. destruct c; try reflexivity. exfalso. eapply H; reflexivity.
Qed.
(** The documented contract: any list of variables. *)
Theorem C26_any_variables_refuted :
  ~ forall params : list (tensor R), rel_construct (PFloat 1 1) (PFloat 1 1) params = Ok tt.
Proof.
  intros H. specialize (H [Tensor [2%nat] [0; 0]]).
  rewrite (proj2 (C26_one_element_parameters_only R Num_R 1 1 1 1 _)) in H; [discriminate|].
  constructor. cbn. lia.
Qed.

(** *** Complete relativistic samplers *)
Definition rel_inv {T} (n : nat) (s : rstate T) : Prop := length (r_vec s) = n /\ data (r_val s) = r_vec s.
Lemma rel_kernel_sized : forall T (N : Num T) (c : rconfig T), kernel_sized (rel_kernel c) rel_inv.
Proof.
  intros T N c. split; cbn [k_value k_step rel_kernel k_state].
  - intros n s (L & ->). exact L.
  - intros n s i (L & _) _. split; [|reflexivity]. cbn. now rewrite map_length.
Qed.
Lemma rel_session_params : forall T (N : Num T) (c : rconfig T) eps0 params moms ops j s o,
  nth_error (z_params _ (rel_session c eps0 params moms ops)) j = Some (s, o) ->
  exists v p, nth_error params j = Some v /\ nth_error moms j = Some p /\ nth_error ops j = Some o /\ s = rinit v p.
Proof.
  intros T N c eps0 params moms ops j s o Hj. cbn in Hj. revert moms ops j Hj.
  induction params as [|v params IH]; intros moms ops j Hj; cbn in Hj; [destruct j; discriminate|].
  destruct moms as [|p moms]; cbn in Hj; [destruct j; discriminate|].
  destruct ops as [|o' ops]; [destruct j; discriminate|]. destruct j as [|j]; cbn in Hj |- *.
  - injection Hj as <- <-. eauto 6.
  - apply IH. exact Hj.
Qed.

(** In every call of every history: the parameter is moved by less than eps*c, eps the
    stepsize of that call; the sample returned is the new value of the parameters. *)
Theorem C24_every_call :
  forall stream reserve (cfg : rconfig R) cg B bg sc us rs s' b0 c0 eps0 params moms ops,
  0 < r_mass cfg -> 0 < r_c cfg ->
  let E := sampler_env stream reserve (rel_kernel cfg) cg B bg sc in
  drive E (mcmc_next E) us (initial_state E b0 c0 (rel_session cfg eps0 params moms ops)) = (rs, s') ->
  forall c f o eps, In c rs -> runs (cr_events E c) = [(f, Ok o)] ->
  lookup f KEps = Some (scalar_tensor eps) -> 0 < eps ->
  o_theta o = values _ (s_sess E (cr_post E c)) /\
  forall j v k x, nth_error (values _ (s_sess E (cr_pre E c))) j = Some v -> nth_error (data v) k = Some x ->
  exists v' y, nth_error (o_theta o) j = Some v' /\ shape v' = shape v /\ nth_error (data v') k = Some y /\
    Rabs (y - x) < eps * r_c cfg.
Proof.
  intros stream reserve cfg cg B bg sc us rs s' b0 c0 eps0 params moms ops Hm Hc E HD c f o eps Hin Hruns Hf He.
  destruct (kernel_call_step stream reserve (rel_kernel cfg) cg B bg sc Plain us rs s' b0 c0 _ HD c f o Hin Hruns)
    as (cst & gs & _ & _ & Ht & HS). fold E in Ht, HS.
  split; [exact Ht|]. intros j v k x Hj Hk.
  unfold values in Hj. rewrite nth_error_map in Hj.
  destruct (nth_error (z_params _ (s_sess E (cr_pre E c))) j) as [[s op]|] eqn:Es; [|discriminate].
  cbn [option_map fst] in Hj. injection Hj as Hv.
  destruct (HS j s op Es) as (g & _ & _ & Hn). cbn zeta in Hn. cbn [i_eps i_grad i_xi i_fed] in Hn.
  assert (Ee : fed_eps (rel_kernel cfg) f (s_sess E (cr_pre E c)) = eps) by (unfold fed_eps; now rewrite Hf).
  rewrite Ee in Hn.
  destruct (kernel_history_reached stream reserve (rel_kernel cfg) cg B bg sc rel_inv Plain us rs s' b0 c0
     (rel_session cfg eps0 params moms ops) (rel_kernel_sized R Num_R cfg)) with (c := c) as [(_ & RL & t & R3) _]; auto.
  { intros i s1 o1 Hi. destruct (rel_session_params _ _ _ _ _ _ _ _ _ _ Hi) as (v1 & p1 & _ & _ & _ & ->). now split. }
  fold E in RL, R3.
  assert (Hi : rel_inv (length (data (k_value (rel_kernel cfg) s))) s).
  { assert (L : (j < length (z_params _ (rel_session cfg eps0 params moms ops)))%nat).
    { rewrite <- RL. apply nth_error_Some. congruence. }
    apply nth_error_Some in L. destruct (nth_error (z_params _ (rel_session cfg eps0 params moms ops)) j) as [[s0 o0]|] eqn:E0; [|congruence].
    destruct (R3 j s0 o0 E0) as (ins & _ & _ & Hn0 & Hi). rewrite Es in Hn0. injection Hn0 as -> _.
    rewrite (proj1 (rel_kernel_sized R Num_R cfg) _ _ Hi). exact Hi. }
  destruct Hi as [_ Hi]. cbn [k_value rel_kernel] in Hv. rewrite <- Hv in Hk.
  rewrite Ht. unfold values. rewrite nth_error_map, Hn. cbn [option_map fst k_value k_step rel_kernel].
  eexists. exists (x + rel_velocity cfg eps (r_mom (rel_step cfg eps (map Ropp g)
     (fst (draw stream reserve (length (data (k_value (rel_kernel cfg) s))) op)) s))).
  split; [reflexivity|]. split; [rewrite <- Hv; reflexivity|]. split.
  - unfold rel_step at 1. cbn [r_val data]. rewrite <- Hi, nth_error_map, Hk. reflexivity.
  - replace (x + _ - x) with (rel_velocity cfg eps (r_mom (rel_step cfg eps (map Ropp g)
     (fst (draw stream reserve (length (data (k_value (rel_kernel cfg) s))) op)) s))) by ring.
    now apply rel_velocity_bound.
Qed.

(** C16 for this sampler. *)
Theorem C16_relativistic_samples_track_parameters :
  forall (T : Type) (NT : Num T) stream reserve (cfg : rconfig T) cg B bg sc us rs s' b0 c0 eps0 params moms ops,
  length moms = length params -> length ops = length params ->
  let E := sampler_env stream reserve (rel_kernel cfg) cg B bg sc in
  drive E (mcmc_next E) us (initial_state E b0 c0 (rel_session cfg eps0 params moms ops)) = (rs, s') ->
  forall c, In c rs ->
  let z := s_sess E (cr_post E c) in
  length (values _ z) = length params /\
  (forall j st op, nth_error (z_params _ z) j = Some (st, op) ->
     data (r_val st) = r_vec st /\ exists v, nth_error params j = Some v /\ length (r_vec st) = length (data v)) /\
  (forall smp cost, cr_res E c = Ok (smp, cost) -> smp = unravel (values _ z)).
Proof.
  intros T NT stream reserve cfg cg B bg sc us rs s' b0 c0 eps0 params moms ops Lm Lo E HD c Hin z.
  destruct (kernel_history_reached stream reserve (rel_kernel cfg) cg B bg sc rel_inv Plain us rs s' b0 c0
     (rel_session cfg eps0 params moms ops) (rel_kernel_sized T NT cfg)) with (c := c) as [_ (_ & RL & t & R3)]; auto.
  { intros i s1 o1 Hi. destruct (rel_session_params _ _ _ _ _ _ _ _ _ _ Hi) as (v1 & p1 & _ & _ & _ & ->). now split. }
  assert (Ls : length (z_params _ (rel_session cfg eps0 params moms ops)) = length params).
  { cbn. rewrite combine_length, map_length, combine_length. lia. }
  fold E in RL, R3. split; [|split].
  - unfold values. rewrite map_length. unfold z. rewrite <- Ls. exact RL.
  - intros j st op Hj.
    assert (L : (j < length (z_params _ (rel_session cfg eps0 params moms ops)))%nat).
    { rewrite <- RL. apply nth_error_Some. unfold z in Hj. congruence. }
    apply nth_error_Some in L. destruct (nth_error (z_params _ (rel_session cfg eps0 params moms ops)) j) as [[s0 o0]|] eqn:E0; [|congruence].
    destruct (R3 j s0 o0 E0) as (ins & _ & _ & Hn0 & [Hi1 Hi2]).
    unfold z in Hj. rewrite Hj in Hn0. injection Hn0 as -> _.
    split; [exact Hi2|]. destruct (rel_session_params _ _ _ _ _ _ _ _ _ _ E0) as (v1 & p1 & Hv & _ & _ & ->).
    exists v1. split; [exact Hv|exact Hi1].
  - intros smp cost Hr. pose proof Hin as Hin'. apply in_split in Hin' as (pre & post & ->).
    destruct (drive_split E _ _ _ _ _ _ _ HD) as (Hc & _).
    pose proof (mcmc_call E _ _ _ _ _ Hc) as [SO _ _ _ _]. rewrite Hr in SO.
    destruct (step_ok_run E _ _ _ _ SO) as (f & o & Hruns).
    destruct (kernel_call_step stream reserve (rel_kernel cfg) cg B bg sc Plain us _ s' b0 c0 _ HD c f o Hin Hruns)
      as (cst & gs & _ & _ & Ht & _). fold E in Ht. unfold z. rewrite <- Ht.
    inversion SO as [| | | |evb bb eps ff o' Hbe Hfe Hr' He]; subst.
    rewrite <- He in Hruns. unfold runs in Hruns. rewrite flat_map_app in Hruns.
    unfold batch_events in Hbe. destruct (bg_next E); [|destruct Hbe as [Hbe _]]; subst evb;
      cbn in Hruns; injection Hruns as _ ->; reflexivity.
Qed.

(** C32 for this sampler: the initial momenta come from the ARSpy library, seeded with the
    sampler's seed (108-113, 219-223); [ars seed n] are its samples for a seed, [free n] whatever
    it draws without. *)
Definition initial_momenta {T} (ars : Z -> nat -> list T) (free : nat -> list T) (seed : option Z) (n : nat) : list T :=
  match seed with Some s => ars s n | None => free n end.
Theorem C32_relativistic_seeded_runs_are_reproducible :
  forall (T : Type) (NT : Num T) stream reserve (cfg : rconfig T) cg B bg sc us b0 c0 eps0 params
         ars free free' (graph_seed : option Z) (seed : Z) ids ids' ent ent',
  let E := sampler_env stream reserve (rel_kernel cfg) cg B bg sc in
  let history free ids ent :=
    drive E (mcmc_next E) us
      (initial_state E b0 c0 (rel_session cfg eps0 params (initial_momenta ars free (Some seed) (length params))
         (noise_ops graph_seed (Some seed) ids ent (length params)))) in
  history free ids ent = history free' ids' ent'.
Proof.
  intros. unfold history.
  replace (noise_ops graph_seed (Some seed) ids' ent' (length params)) with (noise_ops graph_seed (Some seed) ids ent (length params)); [reflexivity|].
  unfold noise_ops. apply map_ext. intros i. unfold make_noise_op. destruct graph_seed; reflexivity.
Qed.

Print Assumptions C24_speed_limit.
Print Assumptions C24_limit_is_sharp.
Print Assumptions C24_every_call.
Print Assumptions C25_noise_scale_defined_iff.
Print Assumptions C25_nan_for_ever.
Print Assumptions C25_finite_otherwise.
Print Assumptions C26_one_element_parameters_only.
Print Assumptions C26_mass_and_speed_must_be_floats.
Print Assumptions C26_any_variables_refuted.
Print Assumptions C16_relativistic_samples_track_parameters.
Print Assumptions C32_relativistic_seeded_runs_are_reproducible.
