(** C88: the density a Bayesian neural network samples from. *)
From Coq Require Import String List Arith Lia ZArith Bool Reals Lra.
From Verif.Base Require Import Py Num Vec.
From Verif.Model Require Import BaseClasses TensorUtils BaseModel BNN.
From Verif.Spec Require Import Dynamics Svgd Posterior.
From Verif.Proofs Require Import Svgd Dynamics.
From Verif.Spec Require Import Stats.
From Verif.Props Require Import PBaseModel PPredict.
Import ListNotations.
Local Open Scope R_scope.
Local Open Scope list_scope.

Lemma normal_pos : forall v x, 0 < v -> 0 < normal v x.
Proof.
  intros v x Hv. unfold normal. apply Rdiv_lt_0_compat; [apply exp_pos|]. apply sqrt_lt_R0.
  pose proof PI_RGT_0. apply Rmult_lt_0_compat; [lra|auto].
Qed.
Lemma ln_sqrt : forall x, 0 < x -> ln (sqrt x) = ln x / 2.
Proof.
  intros x Hx. assert (0 < sqrt x) by (now apply sqrt_lt_R0).
  assert (E : ln x = ln (sqrt x) + ln (sqrt x)) by (rewrite <- ln_mult, sqrt_sqrt; auto; lra). lra.
Qed.
Lemma ln_div : forall a b, 0 < a -> 0 < b -> ln (a / b) = ln a - ln b.
Proof. intros a b Ha Hb. unfold Rdiv. rewrite ln_mult, ln_Rinv by (auto; now apply Rinv_0_lt_compat). ring. Qed.
Lemma ln_normal : forall v x, 0 < v -> ln (normal v x) = - (x ^ 2 / (2 * v)) - ln (2 * PI * v) / 2.
Proof.
  intros v x Hv. assert (0 < 2 * PI * v) by (pose proof PI_RGT_0; apply Rmult_lt_0_compat; lra).
  unfold normal. rewrite ln_div, ln_exp, ln_sqrt by (auto; try apply exp_pos; now apply sqrt_lt_R0). ring.
Qed.
Lemma Rprod_exp : forall A (f : A -> R) l, Rprod (map (fun a => exp (f a)) l) = exp (Rsum (map f l)).
Proof. induction l as [|a l IH]; cbn; [now rewrite exp_0|]. now rewrite IH, exp_plus. Qed.
Lemma Rprod_ext : forall A (f g : A -> R) l, (forall a, In a l -> f a = g a) -> Rprod (map f l) = Rprod (map g l).
Proof. intros A f g l HE. f_equal. now apply map_ext_in. Qed.
Lemma Rprod_ln : forall A (f : A -> R) l, (forall a, In a l -> 0 < f a) -> Rprod (map f l) = exp (Rsum (map (fun a => ln (f a)) l)).
Proof.
  intros A f l Hp. rewrite <- Rprod_exp. apply Rprod_ext. intros a Ha. now rewrite exp_ln; auto.
Qed.

(** The 1e-16 added to a predicted variance, as a factor of the density of a label. *)
Definition flattening (r : row) : R := exp (defect r).
Definition label_density (r : row) : R := let '(y, (m, lv)) := r in observed y m lv.
Lemma label_density_ln : forall r, 0 < label_density r /\ ln (label_density r) = - row_nll r.
Proof.
  intros [y [m lv]]. cbn. unfold observed. split; [apply normal_pos, exp_pos|].
  rewrite ln_normal by apply exp_pos. unfold gaussian_nll.
  assert (0 < 2 * PI) by (pose proof PI_RGT_0; lra). pose proof (exp_pos lv).
  rewrite (ln_mult (2 * PI)) by auto. unfold Rdiv. ring.
Qed.

Definition well_formed (params : list (tensor R)) : Prop := Forall (fun p => length (data p) = prod (shape p)) params.

(** In logarithms, for any network: n times the cost of the whole dataset. *)
Definition constant (n N : nat) : R :=
  - (INR n * (ln (2 * PI) / 2)) - INR N * (ln (2 * PI * (INR N + 3 * guard)) / 2)
  - ln (2 * PI * (/ 100 + 3 * guard / 2)) / 2 + ln (/ 100) / 2.
Theorem C88_potential : forall n N params rows, length rows = n -> (0 < n)%nat ->
  well_formed params -> length (entries params) = N -> (0 < N)%nat ->
  INR n * fst (negative_log_likelihood n n params rows) =
    - Rsum (map (fun r => ln (label_density r * flattening r)) rows)
    - Rsum (map (fun w => ln (normal (INR N + 3 * guard) w)) (entries params))
    - mean (map (fun '(_, (_, lv)) => ln (normal (/ 100 + 3 * guard / 2) (lv - ln (/ 1000000)))) rows)
    + constant n N.
Proof.
  intros n N params rows Hl Hn Hwf HN Hpos. pose proof guard_pos as Hg.
  assert (In0 : 0 < INR n) by (now apply lt_0_INR). assert (IN0 : 0 < INR N) by (now apply lt_0_INR).
  assert (Hr : rows <> []) by (destruct rows; [cbn in Hl; lia|discriminate]).
  rewrite fst_nll. unfold log_prior.
  rewrite (log_variance_prior_R _ (/ 1000000) (/ 100) 1); [|lra|destruct rows; [congruence|discriminate]|
    apply Forall_forall; intros x Hx; apply in_map_iff in Hx as ([y [m lv]] & <- & _); reflexivity].
  rewrite weight_prior_R by (auto; lia). rewrite HN.
  assert (E1 : Rsum (map (fun r => ln (label_density r * flattening r)) rows) =
               Rsum (map (fun r => - (row_nll r - defect r - ln (2 * PI) / 2)) rows) - INR n * (ln (2 * PI) / 2)).
  { rewrite (Rsum_map_ext _ _ (fun r => (fun r => - (row_nll r - defect r - ln (2 * PI) / 2)) r + (fun _ => - (ln (2 * PI) / 2)) r)).
    - rewrite Rsum_plus, Rsum_const, Hl. ring.
    - intros r _. destruct (label_density_ln r) as [P E]. unfold flattening. rewrite ln_mult, ln_exp, E by (auto; apply exp_pos). ring. }
  assert (E2 : Rsum (map (fun w => ln (normal (INR N + 3 * guard) w)) (entries params)) =
     - (/ (2 * (INR N + 3 * guard))) * Rsum (map (fun x => x ^ 2) (entries params)) - INR N * (ln (2 * PI * (INR N + 3 * guard)) / 2)).
  { rewrite (Rsum_map_ext _ _ (fun w => (fun w => - (/ (2 * (INR N + 3 * guard))) * (w ^ 2)) w + (fun _ => - (ln (2 * PI * (INR N + 3 * guard)) / 2)) w)).
    - rewrite Rsum_plus, Rsum_const, HN. rewrite <- (map_map (fun w => w ^ 2) (Rmult (- / (2 * (INR N + 3 * guard))))), Rsum_scale. ring.
    - intros w _. rewrite ln_normal by lra. unfold Rdiv. ring. }
  set (v := / 100 + 3 * guard / 2) in *. assert (Hv : 0 < v) by (unfold v; lra).
  assert (E3 : mean (map (fun '(_, (_, lv)) => ln (normal v (lv - ln (/ 1000000)))) rows) =
     - (squares (/ 1000000) (map (fun '(_, (_, lv)) => [lv]) rows) / (2 * v)) - ln (2 * PI * v) / 2).
  { unfold squares, mean. rewrite !map_length, !map_map, Hl.
    rewrite (Rsum_map_ext _ _ (fun r => (fun r => - / (2 * v) * (fun '(_, (_, lv)) => (lv - ln (/ 1000000)) ^ 2) r) r + (fun _ => - (ln (2 * PI * v) / 2)) r)).
    - rewrite Rsum_plus, Rsum_const, Hl.
      rewrite <- (map_map (fun '(_, (_, lv)) => (lv - ln (/ 1000000)) ^ 2) (Rmult (- / (2 * v)))), Rsum_scale.
      rewrite (Rsum_map_ext row (fun x => Rsum (map (fun lv => (lv - ln (/ 1000000)) ^ 2) (let '(_, (_, lv)) := x in [lv])))
        (fun '(_, (_, lv)) => (lv - ln (/ 1000000)) ^ 2)) by (intros [y [m lv]] _; cbn; ring).
      field. lra.
    - intros [y [m lv]] _. rewrite ln_normal by auto. unfold Rdiv. ring. }
  rewrite E1, E2, E3. unfold constant. fold v.
  replace (2 * / 100 + 3 * guard) with (2 * v) by (unfold v; lra). cbn [INR].
  set (a := Rsum (map (fun r => - (row_nll r - defect r - ln (2 * PI) / 2)) rows)).
  set (q := squares (/ 1000000) (map (fun '(_, (_, lv)) => [lv]) rows)).
  set (s := Rsum (map (fun x => x ^ 2) (entries params))).
  clearbody a q s v. generalize (ln (2 * PI * (INR N + 3 * guard))), (ln (2 * PI * v)), (ln (2 * PI)), (ln (/ 100)). intros. field. lra.
Qed.

(** As a density, for networks that predict the same noise everywhere (as the default network does,
    C61): proportional to likelihood times priors. *)
Theorem C88_posterior : forall n N, (0 < n)%nat -> (0 < N)%nat -> exists K, 0 < K /\
  forall params rows lv0, length rows = n -> Forall (fun '(_, (_, lv)) => lv = lv0) rows ->
  well_formed params -> length (entries params) = N ->
  exp (- (INR n * fst (negative_log_likelihood n n params rows))) =
    K * (Rprod (map (fun '(y, (m, _)) => observed y m lv0) rows) * Rprod (map flattening rows))
      * Rprod (map (normal (INR N + 3 * guard)) (entries params))
      * normal (/ 100 + 3 * guard / 2) (lv0 - ln (/ 1000000)).
Proof.
  intros n N Hn HN. exists (exp (- constant n N)). split; [apply exp_pos|].
  intros params rows lv0 Hl Hlv Hwf Hlen. pose proof guard_pos as Hg.
  rewrite (C88_potential n N params rows) by auto.
  assert (IN0 : 0 < INR N) by (now apply lt_0_INR).
  rewrite (Rprod_ln _ (normal (INR N + 3 * guard))) by (intros; apply normal_pos; lra).
  assert (E1 : Rprod (map (fun '(y, (m, _)) => observed y m lv0) rows) * Rprod (map flattening rows) =
     exp (Rsum (map (fun r => ln (label_density r * flattening r)) rows))).
  { rewrite (Rprod_ext _ (fun '(y, (m, _)) => observed y m lv0) label_density).
    - rewrite (Rprod_ln _ label_density) by (intros; apply label_density_ln).
      rewrite (Rprod_ln _ flattening) by (intros; apply exp_pos).
      rewrite <- exp_plus, <- Rsum_plus. f_equal. apply Rsum_map_ext. intros r _.
      rewrite ln_mult; [reflexivity|apply label_density_ln|apply exp_pos].
    - intros [y [m lv]] Hin. rewrite Forall_forall in Hlv. specialize (Hlv _ Hin). cbn in Hlv. now subst lv. }
  rewrite E1.
  replace (mean (map (fun '(_, (_, lv)) => ln (normal (/ 100 + 3 * guard / 2) (lv - ln (/ 1000000)))) rows))
    with (ln (normal (/ 100 + 3 * guard / 2) (lv0 - ln (/ 1000000)))).
  2:{ unfold mean. rewrite map_length, Hl.
      rewrite (Rsum_map_ext row _ (fun _ => ln (normal (/ 100 + 3 * guard / 2) (lv0 - ln (/ 1000000))))).
      - rewrite Rsum_const, Hl. field. apply not_0_INR. lia.
      - intros [y [m lv]] Hin. rewrite Forall_forall in Hlv. specialize (Hlv _ Hin). cbn in Hlv. now subst lv. }
  rewrite <- (exp_ln (normal (/ 100 + 3 * guard / 2) (lv0 - ln (/ 1000000)))) at 2 by (apply normal_pos; lra).
  rewrite <- !exp_plus. f_equal. ring.
Qed.

(** The factor that the 1e-16 puts on the likelihood is at least 1 and close to it. *)
Theorem C88_flattening : forall y m lv,
  1 <= flattening (y, (m, lv)) <= exp (guard * ((y - m) ^ 2 / (2 * exp lv ^ 2))).
Proof.
  intros y m lv. unfold flattening. destruct (defect_small y m lv) as [D1 D2]. split.
  - rewrite <- exp_0. destruct D1 as [D1|D1]; [left; now apply exp_increasing|right; now rewrite <- D1].
  - destruct D2 as [D2|D2]; [left; now apply exp_increasing|right; now rewrite D2].
Qed.

(** The weight decay of 1 is not the precision of the weights: the prior of a network with N weights
    has variance N (plus 3e-16), so it fades away with the size of the network. *)
Definition unit_weight_prior : Prop := forall n N, (0 < n)%nat -> (0 < N)%nat -> exists K, 0 < K /\
  forall params rows lv0, length rows = n -> Forall (fun '(_, (_, lv)) => lv = lv0) rows ->
  well_formed params -> length (entries params) = N ->
  exp (- (INR n * fst (negative_log_likelihood n n params rows))) =
    K * (Rprod (map (fun '(y, (m, _)) => observed y m lv0) rows) * Rprod (map flattening rows))
      * Rprod (map (normal 1) (entries params))
      * normal (/ 100 + 3 * guard / 2) (lv0 - ln (/ 1000000)).
Lemma well_formed_pair : forall w, well_formed [Tensor [2%nat] [w; w]].
Proof. intros w. repeat constructor. Qed.
Theorem C88_unit_weight_prior_refuted : ~ unit_weight_prior.
Proof.
  intros C. destruct (C 1%nat 2%nat ltac:(lia) ltac:(lia)) as (K & HK & CK).
  destruct (C88_posterior 1 2 ltac:(lia) ltac:(lia)) as (K' & HK' & PK).
  set (rows := [(0, (0, 0))] : list row).
  assert (Hlv : Forall (fun '(_, (_, lv)) => lv = 0) rows) by (repeat constructor).
  set (L := Rprod (map (fun '(y, (m, _)) => observed y m 0) rows) * Rprod (map flattening rows)) in *.
  set (Q := normal (/ 100 + 3 * guard / 2) (0 - ln (/ 1000000))).
  assert (LP : 0 < L).
  { unfold L, rows. cbn [map Rprod]. rewrite !Rmult_1_r. apply Rmult_lt_0_compat; [apply normal_pos, exp_pos|apply exp_pos]. }
  pose proof guard_pos as Hg. assert (QP : 0 < Q) by (apply normal_pos; lra).
  assert (A : forall w, K * L * (normal 1 w * (normal 1 w * 1)) * Q = K' * L * (normal (INR 2 + 3 * guard) w * (normal (INR 2 + 3 * guard) w * 1)) * Q).
  { intros w. pose proof (CK [Tensor [2%nat] [w; w]] rows 0 eq_refl Hlv (well_formed_pair w) eq_refl) as C1.
    pose proof (PK [Tensor [2%nat] [w; w]] rows 0 eq_refl Hlv (well_formed_pair w) eq_refl) as P1.
    rewrite C1 in P1. exact P1. }
  assert (B : forall w, 2 * ln (normal 1 w) + ln K = 2 * ln (normal (INR 2 + 3 * guard) w) + ln K').
  { intros w. specialize (A w). assert (N1 : 0 < normal 1 w) by (apply normal_pos; lra).
    assert (N2 : 0 < normal (INR 2 + 3 * guard) w) by (apply normal_pos; cbn; lra).
    assert (E : K * (normal 1 w * normal 1 w) = K' * (normal (INR 2 + 3 * guard) w * normal (INR 2 + 3 * guard) w)).
    { apply (Rmult_eq_reg_r (L * Q)); [|apply Rgt_not_eq; now apply Rmult_lt_0_compat]. lra. }
    apply (f_equal ln) in E. rewrite !ln_mult in E by (auto; now apply Rmult_lt_0_compat). lra. }
  pose proof (B 0) as B0. pose proof (B 1) as B1. rewrite !ln_normal in B0, B1 by (cbn; lra).
  cbn [INR] in B0, B1. set (g := 1 + 1 + 3 * guard) in *.
  assert (D : 1 ^ 2 / (2 * g) = 1 ^ 2 / (2 * 1)) by (unfold Rdiv in *; rewrite ?pow_i in * by lia; lra).
  assert (G : g = 1) by (apply (f_equal Rinv) in D; unfold Rdiv in D; rewrite !pow1, !Rmult_1_l, !Rinv_inv in D; lra).
  unfold g in G. lra.
Qed.

(** Two rows, a network predicting 0 with log variance 0, three weights: all hypotheses are met. *)
Example C88_example : let rows := [(1, (0, 0)); (2, (0, 0))] : list row in let params := [Tensor [1%nat; 2%nat] [1; 2]; Tensor [1%nat] [3]] in
  length rows = 2%nat /\ Forall (fun '(_, (_, lv)) => lv = 0) rows /\ well_formed params /\ length (entries params) = 3%nat.
Proof. cbn. repeat split; repeat constructor. Qed.

Print Assumptions C88_potential.
Print Assumptions C88_posterior.
Print Assumptions C88_flattening.
Print Assumptions C88_unit_weight_prior_refuted.
