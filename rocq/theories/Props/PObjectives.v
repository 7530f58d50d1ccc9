(** C68-C70: the benchmark functions. *)
From Coq Require Import List Arith Lia ZArith Bool Reals Lra Machin.
From Verif.Base Require Import Py Num Vec.
From Verif.Model Require Import Objectives.
From Verif.Spec Require Import Svgd Optima.
From Verif.Proofs Require Import Svgd.
Import ListNotations.
Local Open Scope R_scope.
Local Open Scope list_scope.

Lemma len1 : forall A (x : list A), length x = 1%nat -> exists a, x = [a].
Proof. intros A [|a [|b x]]; try discriminate; eauto. Qed.
Lemma len2 : forall A (x : list A), length x = 2%nat -> exists a b, x = [a; b].
Proof. intros A [|a [|b [|c x]]]; try discriminate; eauto. Qed.
Lemma pair_list : forall (a b c d : R), [a; b] = [c; d] <-> a = c /\ b = d.
Proof. intros. split; [intros [=]|intros [-> ->]]; auto. Qed.
Lemma single_list : forall (a b : R), [a] = [b] <-> a = b.
Proof. intros. split; [intros [=]|intros ->]; auto. Qed.

Ltac real :=
  rewrite ?nint_R, ?npow_R in *; cbn [nadd nsub nmul ndiv nopp nfrac nsin ncos npi nexp nln Num_R NumT_R] in *;
  unfold Rfrac in *; rewrite ?nint_R, ?npow_R in *.
Lemma sq0 : forall a : R, a ^ 2 = 0 -> a = 0.
Proof. intros. apply Rsqr_0_uniq. unfold Rsqr. lra. Qed.
Lemma sq_pos : forall a : R, 0 <= a ^ 2. Proof. intros. apply pow2_ge_0. Qed.

(** *** C68 *)
Theorem C68_banana : greatest_at 2 banana_log_likelihood 0 (fun x => x = [0; 10]).
Proof.
  intros x Hx. apply len2 in Hx as (a & b & ->). unfold banana_log_likelihood, item. cbn [nth_error bind].
  eexists. split; [reflexivity|]. real. rewrite pair_list.
  pose proof (sq_pos a) as Ha. pose proof (sq_pos (b + 1 / 10 * a ^ 2 - 10)) as Hb.
  set (q := (b + 1 / 10 * a ^ 2 - 10) ^ 2) in *. split; [lra|]. split.
  - intros E. assert (A : a ^ 2 = 0) by lra. assert (B : q = 0) by lra. apply sq0 in B. rewrite A in B.
    apply sq0 in A. split; lra.
  - intros [-> ->]. unfold q. lra.
Qed.

Theorem C68_rosenbrock : least_at 2 rosenbrock 0 (fun x => x = [1; 1]).
Proof.
  intros x Hx. apply len2 in Hx as (a & b & ->). unfold rosenbrock, item. cbn [nth_error bind].
  eexists. split; [reflexivity|]. real. rewrite pair_list.
  pose proof (sq_pos (a - 1)) as Ha. pose proof (sq_pos (b - a ^ 2)) as Hb. split; [lra|]. split.
  - intros E. assert (A : (a - 1) ^ 2 = 0) by lra. assert (B : (b - a ^ 2) ^ 2 = 0) by lra. apply sq0 in A, B.
    assert (a = 1) by lra. subst. lra.
  - intros [-> ->]. lra.
Qed.

Theorem C68_bohachevski : least_at 2 bohachevski 0 (fun x => x = [0; 0]).
Proof.
  intros x Hx. apply len2 in Hx as (a & b & ->). unfold bohachevski, item. cbn [nth_error bind].
  eexists. split; [reflexivity|]. real. rewrite pair_list.
  pose proof (sq_pos a). pose proof (sq_pos b).
  pose proof (COS_bound (3 * PI * a)). pose proof (COS_bound (4 * PI * b)). split; [lra|]. split.
  - intros E. assert (A : a ^ 2 = 0) by lra. assert (B : b ^ 2 = 0) by lra. apply sq0 in A, B. auto.
  - intros [-> ->]. rewrite !Rmult_0_r, cos_0. lra.
Qed.

Theorem C68_levy : least_at 1 levy 0 (fun x => x = [1]).
Proof.
  intros x Hx. apply len1 in Hx as (a & ->). unfold levy, item. cbn [nth_error bind].
  eexists. split; [reflexivity|]. real. rewrite single_list. cbv zeta.
  set (z := 1 + (a - 1) / 4). pose proof (sq_pos (sin (PI * z))) as H1. pose proof (sq_pos (z - 1)) as H2.
  pose proof (sq_pos (sin (2 * PI * z))) as H3. split; [nra|]. split.
  - intros E. assert (B : (z - 1) ^ 2 = 0) by nra. apply sq0 in B. unfold z in B. lra.
  - intros ->. assert (Z1 : z = 1) by (unfold z; lra). rewrite Z1, Rmult_1_r, sin_PI. lra.
Qed.

Theorem C68_goldstein_price : least_at 2 goldstein_price 3 (fun x => x = [0; -1]).
Proof.
  intros x Hx. apply len2 in Hx as (a & b & ->). unfold goldstein_price, item. cbn [nth_error bind].
  eexists. split; [reflexivity|]. real. rewrite pair_list.
  match goal with |- 3 <= ?p * ?q /\ _ => set (A := p); set (B := q) end.
  set (s := a + b). set (u := 2 * a - 3 * b).
  assert (EA : A = 1 + (s + 1) ^ 2 * (3 * s ^ 2 - 14 * s + 19)) by (unfold A, s; ring).
  assert (EB : B = 3 + (u - 3) ^ 2 * (3 * u ^ 2 + 2 * u + 3)) by (unfold B, u; ring).
  assert (P1 : 0 < 3 * s ^ 2 - 14 * s + 19) by (pose proof (sq_pos (3 * s - 7)); nra).
  assert (P2 : 0 < 3 * u ^ 2 + 2 * u + 3) by (pose proof (sq_pos (3 * u + 1)); nra).
  pose proof (sq_pos (s + 1)) as Q1. pose proof (sq_pos (u - 3)) as Q2.
  assert (A1 : 1 <= A) by (rewrite EA; nra). assert (B3 : 3 <= B) by (rewrite EB; nra).
  split; [nra|]. split.
  - intros E. assert (A = 1) by nra. assert (B = 3) by nra.
    assert (S0 : (s + 1) ^ 2 = 0).
    { destruct (Rmult_integral ((s + 1) ^ 2) (3 * s ^ 2 - 14 * s + 19)); lra. }
    assert (U0 : (u - 3) ^ 2 = 0).
    { destruct (Rmult_integral ((u - 3) ^ 2) (3 * u ^ 2 + 2 * u + 3)); lra. }
    apply sq0 in S0, U0. unfold s, u in S0, U0. split; lra.
  - intros [-> ->]. unfold A, B. ring.
Qed.

(** Branin attains its least value at the documented points, and, on the
    documented search space, nowhere else. *)
Lemma cos_odd : forall a : R, cos a = -1 <-> exists k : Z, a = (2 * IZR k + 1) * PI.
Proof.
  intros a. split.
  - intros E. assert (S : sin ((a - PI) / 2) = 0).
    { assert (C : cos (a - PI) = 1) by (rewrite cos_minus, cos_PI, sin_PI; lra).
      replace (a - PI) with (2 * ((a - PI) / 2)) in C by field. rewrite cos_2a_sin in C. nra. }
    apply sin_eq_0_0 in S as [k Hk]. exists k. lra.
  - intros [k ->]. replace ((2 * IZR k + 1) * PI) with (PI + IZR k * (2 * PI)) by ring.
    assert (G : forall n x, cos (x + INR n * (2 * PI)) = cos x).
    { intros n x. replace (x + INR n * (2 * PI)) with (x + 2 * INR n * PI) by ring. apply cos_period. }
    destruct (Z_le_gt_dec 0 k) as [Hk|Hk].
    + rewrite <- (Z2Nat.id k Hk), <- INR_IZR_INZ, G. apply cos_PI.
    + rewrite <- (G (Z.to_nat (- k))), INR_IZR_INZ, Z2Nat.id, opp_IZR by lia.
      replace (PI + IZR k * (2 * PI) + - IZR k * (2 * PI)) with PI by ring. apply cos_PI.
Qed.

Lemma PI_bounds : 3 < PI < 10 / 3.
Proof.
  split; [pose proof PI2_3_2; lra|].
  pose proof (PI_2_3_7_ineq 1) as [_ Hu]. unfold tg_alt, PI_2_3_7_tg, Ratan_seq in Hu. cbn in Hu. lra.
Qed.

Definition branin_curve (a : R) : R := 51 / 10 / (4 * PI ^ 2) * a ^ 2 - 5 * a / PI + 6.

Theorem C68_branin :
  least_at 2 branin (10 / (8 * PI)) (fun x => exists k : Z, x = [(2 * IZR k + 1) * PI; branin_curve ((2 * IZR k + 1) * PI)]).
Proof.
  intros x Hx. apply len2 in Hx as (a & b & ->). unfold branin, item. cbn [nth_error bind].
  eexists. split; [reflexivity|]. real. cbv zeta. pose proof PI_bounds as HP.
  match goal with |- _ <= ?q ^ 2 + _ /\ _ => set (Q := q) end.
  assert (EQ : Q = b - branin_curve a) by (unfold Q, branin_curve; field; lra).
  pose proof (sq_pos Q). pose proof (COS_bound a) as [C1 C2].
  assert (T0 : 0 < 1 - 1 / (8 * PI)).
  { assert (1 / (8 * PI) < 1); [|lra]. apply Rmult_lt_reg_r with (8 * PI); [lra|]. unfold Rdiv. rewrite Rmult_assoc, Rinv_l; lra. }
  set (t := 1 - 1 / (8 * PI)) in *.
  assert (Em : 10 / (8 * PI) = 10 - 10 * t) by (unfold t; field; lra). rewrite Em. split; [nra|]. split.
  - intros E. assert (Q2 : Q ^ 2 = 0) by nra. assert (C : cos a = -1) by nra. apply sq0 in Q2.
    apply cos_odd in C as [k ->]. exists k. apply pair_list. split; [reflexivity|lra].
  - intros [k E]. apply pair_list in E as [E1 E2].
    assert (C : cos a = -1) by (apply cos_odd; now exists k). rewrite E1 in EQ. rewrite EQ, E2, C. ring.
Qed.

Theorem C68_branin_documented : forall a b, -5 <= a <= 10 ->
  (branin [a; b] = Ok (10 / (8 * PI)) <-> [a; b] = [- PI; 12275 / 1000] \/ [a; b] = [PI; 2275 / 1000] \/ [a; b] = [3 * PI; 2475 / 1000]).
Proof.
  intros a b Ha. pose proof PI_bounds as HP. destruct (C68_branin [a; b] eq_refl) as (y & -> & _ & Hy).
  rewrite !pair_list. transitivity (y = 10 / (8 * PI)); [split; [now intros [=]|now intros ->]|]. rewrite Hy.
  split.
  - intros [k E]. apply pair_list in E as [Ea Eb].
    assert (k = -1 \/ k = 0 \/ k = 1)%Z as Hk.
    { assert (L : -3 < 2 * IZR k + 1) by nra. assert (U : 2 * IZR k + 1 < 4) by nra.
      assert (-2 < k)%Z by (apply lt_IZR; lra). assert (k < 2)%Z by (apply lt_IZR; lra). lia. }
    destruct Hk as [->|[->| ->]]; [left|right; left|right; right]; (split; [lra|]);
      rewrite Eb; unfold branin_curve; cbn [IZR IPR IPR_2]; field; lra.
  - intros [[-> ->]|[[-> ->]|[-> ->]]]; [exists (-1)%Z|exists 0%Z|exists 1%Z]; apply pair_list; unfold branin_curve;
      (split; [lra|cbn [IZR IPR IPR_2]; field; lra]).
Qed.

Example C68_example : branin [3 * PI; 2475 / 1000] = Ok (10 / (8 * PI)) /\ goldstein_price [0; -1] = Ok 3.
Proof.
  pose proof PI_bounds. split.
  - apply C68_branin_documented; [lra|auto].
  - destruct (C68_goldstein_price [0; -1] eq_refl) as (y & -> & _ & E). f_equal. now apply E.
Qed.

(** *** C69 *)
Definition components (weights mu var : list R) : list (R * R * R) :=
  map (fun '(w, (m, s)) => (w, m, s)) (combine weights (combine mu var)).

Lemma maximum_R_pos : forall (l : list R) m, 0 < Rsum (map (fun v => exp (v - m)) l) \/ l = [].
Proof.
  induction l as [|a l IH]; intros m; auto. left. cbn. pose proof (exp_pos (a - m)). destruct (IH m) as [L| ->]; cbn; lra.
Qed.

Lemma exp_logsumexp : forall (l : list R) y, logsumexp l = Ok y -> exp y = Rsum (map exp l).
Proof.
  intros l y. destruct l as [|a l]; [discriminate|]. unfold logsumexp. set (m := maximum a l). intros E.
  assert (Ey : y = ln (Rsum (map (fun v => exp (v - m)) (a :: l))) + m).
  { rewrite <- nsum_R. cbn [nln nexp nsub nadd NumT_R Num_R] in E. congruence. }
  rewrite Ey, exp_plus, exp_ln.
  - rewrite Rmult_comm, <- Rsum_scale, map_map. apply Rsum_map_ext. intros v _. rewrite <- exp_plus. f_equal. lra.
  - destruct (maximum_R_pos (a :: l) m) as [L|L]; [exact L|discriminate].
Qed.

Lemma exp_normldf : forall x mu var : R, 0 < var -> exp (normldf x mu var) = normal_density mu var x.
Proof.
  intros x mu var Hv. unfold normldf, normal_density. real.
  pose proof PI_bounds. assert (P : 0 < 2 * PI * var) by (apply Rmult_lt_0_compat; lra).
  unfold Rminus. rewrite exp_plus.
  match goal with |- _ = ?a / ?b => replace (a / b) with (/ b * a) by (unfold Rdiv; ring) end. f_equal.
  - replace (- (5 / 10) * ln (2 * PI * var)) with (- ln (sqrt (2 * PI * var))).
    + rewrite exp_Ropp, exp_ln; auto. now apply sqrt_lt_R0.
    + rewrite <- (sqrt_sqrt (2 * PI * var)) at 2 by lra. rewrite ln_mult by (now apply sqrt_lt_R0). lra.
  - f_equal. field. lra.
Qed.

Lemma mixture_sum : forall (v : R) cs, Forall (fun '(w, _, s) => 0 < w /\ 0 < s) (map (fun '(w, (m, s)) => (w, m, s)) cs) ->
  Rsum (map exp (map (fun '(w, (m, s)) => nadd (nln w) (normldf v m s)) cs))
  = mixture (map (fun '(w, (m, s)) => (w, m, s)) cs) v.
Proof.
  intros v cs HF. unfold mixture. rewrite !map_map. apply Rsum_map_ext. intros (w & m & s) Hin.
  rewrite Forall_map, Forall_forall in HF. specialize (HF _ Hin). cbn in HF. destruct HF as [Hw Hs].
  cbn [nadd nln Num_R NumT_R]. rewrite exp_plus, exp_ln, exp_normldf; auto.
Qed.

Lemma Forall_combine_components : forall weights mu var,
  Forall (fun w => 0 < w) weights -> Forall (fun s => 0 < s) var ->
  Forall (fun '(w, _, s) => 0 < w /\ 0 < s) (components weights mu var).
Proof.
  intros weights mu var Hw Hs. unfold components. apply Forall_map, Forall_forall. intros (w & m & s) Hin.
  pose proof (in_combine_l _ _ _ _ Hin) as I1. pose proof (in_combine_r _ _ _ _ Hin) as I2. apply in_combine_r in I2.
  rewrite Forall_forall in Hw, Hs. auto.
Qed.

(** The mixture log likelihood is defined exactly for arguments of matching,
    non-zero length and a single coordinate, and then is the log density. *)
Definition argument (x : scalar_or_seq R) (v : R) : Prop := x = Scalar v \/ x = Seq [v].

Theorem C69_log_density : forall x v mu var weights y,
  argument x v -> Forall (fun w => 0 < w) weights -> Forall (fun s => 0 < s) var ->
  gaussian_mixture_model_log_likelihood x mu var weights = Ok y ->
  exp y = mixture (components weights mu var) v /\ y = ln (mixture (components weights mu var) v).
Proof.
  intros x v mu var weights y Hx Hw Hs E.
  assert (G : exp y = mixture (components weights mu var) v).
  { unfold gaussian_mixture_model_log_likelihood in E. destruct (assert_ _); [|discriminate]. cbn [bind] in E.
    assert (E' : logsumexp (map (fun '(w, (m, s)) => nadd (nln w) (normldf v m s)) (combine weights (combine mu var))) = Ok y).
    { destruct Hx as [-> | ->]; exact E. }
    apply exp_logsumexp in E'. rewrite E'. apply mixture_sum. now apply Forall_combine_components. }
  split; auto. now rewrite <- G, ln_exp.
Qed.

Theorem C69_total : forall x mu var weights,
  (exists y, gaussian_mixture_model_log_likelihood x mu var weights = Ok y) <->
  (exists v : R, argument x v) /\ length mu = length var /\ length var = length weights /\ weights <> [].
Proof.
  intros x mu var weights. unfold gaussian_mixture_model_log_likelihood. split.
  - intros [y E]. destruct (Nat.eqb_spec (length mu) (length var)) as [L1|]; [|discriminate].
    destruct (Nat.eqb_spec (length var) (length weights)) as [L2|]; [|discriminate]. cbn [andb assert_ bind] in E.
    split; [|split; [auto|split; [auto|]]].
    + destruct x as [v|[|v [|u l]]]; try discriminate; exists v; unfold argument; auto.
    + intros ->. destruct x as [v|[|v [|u l]]]; discriminate.
  - intros ([v Hv] & L1 & L2 & Hn). rewrite L1, L2, !Nat.eqb_refl. cbn [andb assert_ bind].
    destruct weights as [|w ws]; [congruence|]. destruct var as [|s var]; [discriminate|]. destruct mu as [|m mu]; [discriminate|].
    destruct Hv as [-> | ->]; cbn; eexists; reflexivity.
Qed.

Theorem C69_mismatch : forall (x : scalar_or_seq R) mu var weights,
  ~ (length mu = length var /\ length var = length weights) ->
  gaussian_mixture_model_log_likelihood x mu var weights = Raise AssertionError.
Proof.
  intros x mu var weights Hn. unfold gaussian_mixture_model_log_likelihood.
  destruct (Nat.eqb_spec (length mu) (length var)); destruct (Nat.eqb_spec (length var) (length weights)); auto. tauto.
Qed.

(** Peak of a component: its density at the mean. *)
Lemma normal_density_peak : forall mu var x, 0 < var ->
  0 < normal_density mu var x <= normal_density mu var mu /\
  normal_density mu var mu = / sqrt (2 * PI * var).
Proof.
  intros mu var x Hv. unfold normal_density. pose proof PI_bounds.
  assert (P : 0 < 2 * PI * var) by (apply Rmult_lt_0_compat; lra). apply sqrt_lt_R0 in P. pose proof (Rinv_0_lt_compat _ P).
  assert (E0 : exp (- (mu - mu) ^ 2 / (2 * var)) = 1) by (replace (- (mu - mu) ^ 2 / (2 * var)) with 0 by (field; lra); apply exp_0).
  rewrite E0. split; [|unfold Rdiv; ring]. split.
  - apply Rmult_lt_0_compat; auto. apply exp_pos.
  - apply Rmult_le_compat_r; [lra|]. rewrite <- exp_0.
    assert (L : - (x - mu) ^ 2 / (2 * var) <= 0).
    { pose proof (sq_pos (x - mu)). assert (0 < / (2 * var)) by (apply Rinv_0_lt_compat; lra). unfold Rdiv. nra. }
    destruct L as [L|L]; [left; now apply exp_increasing|right; now rewrite L].
Qed.

Theorem C69_bounded : forall x v mu var weights y M,
  argument x v -> Forall (fun w => 0 < w) weights -> Rsum weights <= 1 -> Forall (fun s => 0 < s) var ->
  (forall m s, In (m, s) (combine mu var) -> normal_density m s m <= M) -> 0 <= M ->
  gaussian_mixture_model_log_likelihood x mu var weights = Ok y -> y <= ln M.
Proof.
  intros x v mu var weights y M Hx Hw Hs1 Hs HM HM0 E.
  destruct (C69_log_density _ _ _ _ _ _ Hx Hw Hs E) as [Ey _].
  assert (L : mixture (components weights mu var) v <= M).
  { unfold mixture, components. rewrite map_map.
    assert (G : forall ws ms, Forall (fun w => 0 < w) ws -> (forall m s, In (m, s) ms -> 0 < s /\ normal_density m s m <= M) ->
              Rsum (map (fun x => let '(w, mu, var) := let '(w, (m, s)) := x in (w, m, s) in w * normal_density mu var v) (combine ws ms))
              <= Rsum ws * M).
    { induction ws as [|w ws IH]; intros [|[m s] ms] HF Hm; cbn [combine map Rsum]; try lra.
      - assert (0 <= Rsum (w :: ws)) by (apply Rsum_nonneg; eapply Forall_impl; [|exact HF]; cbn; intros; lra). cbn in *. nra.
      - inversion HF; subst. specialize (IH ms ltac:(auto)). destruct (Hm m s ltac:(now left)) as [S0 S1].
        destruct (normal_density_peak m s v S0) as [[? ?] _].
        assert (w * normal_density m s v <= w * M) by nra.
        assert (forall m0 s0, In (m0, s0) ms -> 0 < s0 /\ normal_density m0 s0 m0 <= M) by (intros; apply Hm; now right).
        specialize (IH ltac:(auto)). lra. }
    eapply Rle_trans; [apply G; auto|].
    - intros m s Hin. split; [|eauto]. apply in_combine_r in Hin. rewrite Forall_forall in Hs. auto.
    - nra. }
  rewrite <- (ln_exp y), Ey. rewrite <- Ey in *. destruct L as [L|L]; [left; apply ln_increasing; [apply exp_pos|exact L]|right; now rewrite L].
Qed.

(** gmm1, gmm2, gmm3 are even functions of their coordinate. *)
Lemma normal_density_opp : forall mu var x, normal_density mu var (- x) = normal_density (- mu) var x.
Proof. intros. unfold normal_density. do 2 f_equal. f_equal. ring. Qed.

Lemma gmm_even : forall s t x x' v, 0 < s -> 0 < t -> argument x v -> argument x' (- v) ->
  gaussian_mixture_model_log_likelihood x default_mu [s; t; s] default_weights
  = gaussian_mixture_model_log_likelihood x' default_mu [s; t; s] default_weights.
Proof.
  intros s t x x' v Hs Ht Hx Hx'.
  destruct (proj2 (C69_total x default_mu [s; t; s] default_weights)) as [y Ey]; [repeat split; eauto; discriminate|].
  destruct (proj2 (C69_total x' default_mu [s; t; s] default_weights)) as [y' Ey']; [repeat split; eauto; discriminate|].
  assert (W : Forall (fun w : R => 0 < w) default_weights) by (unfold default_weights; real; repeat constructor; lra).
  assert (V : Forall (fun w : R => 0 < w) [s; t; s]) by (repeat constructor; lra).
  destruct (C69_log_density _ _ _ _ _ _ Hx W V Ey) as [_ E1]. destruct (C69_log_density _ _ _ _ _ _ Hx' W V Ey') as [_ E2].
  rewrite Ey, Ey', E1, E2. do 2 f_equal. unfold mixture, components, default_weights, default_mu. real.
  cbn [combine map Rsum]. rewrite !normal_density_opp.
  replace (Ropp (-5)) with 5 by lra. replace (Ropp 0) with 0 by lra. replace (Ropp 5) with (-5) by lra. lra.
Qed.

Theorem C69_symmetric : forall x x' v, argument x v -> argument x' (- v) ->
  gmm1_log_likelihood x = gmm1_log_likelihood x' /\
  gmm2_log_likelihood x = gmm2_log_likelihood x' /\
  gmm3_log_likelihood x = gmm3_log_likelihood x'.
Proof.
  intros x x' v Hx Hx'. split; [|split]; apply gmm_even with v; auto; real; lra.
Qed.

(** Which mixtures these are: three equally weighted normal densities at -5, 0 and 5. *)
Theorem C69_named_mixtures : forall x v, argument x v ->
  let third s t u := 1 / 3 * (normal_density (-5) s v + normal_density 0 t v + normal_density 5 u v) in
  (exists y, gmm1_log_likelihood x = Ok y /\ exp y = third 1 1 1) /\
  (exists y, gmm2_log_likelihood x = Ok y /\ exp y = third 2 (1 / 2) 2) /\
  (exists y, gmm3_log_likelihood x = Ok y /\ exp y = third (10 / 3) (3 / 10) (10 / 3)).
Proof.
  intros x v Hx third.
  assert (K : forall s t u s' t' u', s = s' -> t = t' -> u = u' -> 0 < s -> 0 < t -> 0 < u ->
    exists y, gaussian_mixture_model_log_likelihood x default_mu [s; t; u] default_weights = Ok y /\ exp y = third s' t' u').
  { intros s t u s' t' u' <- <- <- Hs Ht Hu. destruct (proj2 (C69_total x default_mu [s; t; u] default_weights)) as [y Ey]; [repeat split; eauto; discriminate|].
    assert (W : Forall (fun w : R => 0 < w) default_weights) by (unfold default_weights; real; repeat constructor; lra).
    assert (V : Forall (fun w : R => 0 < w) [s; t; u]) by (repeat constructor; lra).
    destruct (C69_log_density _ _ _ _ _ _ Hx W V Ey) as [E1 _]. exists y. split; [exact Ey|]. rewrite E1.
    unfold mixture, components, default_weights, default_mu, third. real. cbn [combine map Rsum]. lra. }
  split; [|split]; apply K; real; lra.
Qed.

Example C69_example : exists y, gmm1_log_likelihood (Seq [5]) = Ok y /\
  exp y = (1 / 3 * normal_density (-5) 1 5 + (1 / 3 * normal_density 0 1 5 + (1 / 3 * normal_density 5 1 5 + 0))).
Proof.
  destruct (proj2 (C69_total (Seq [5]) default_mu [nint 1; nint 1; nint 1] default_weights)) as [y Ey].
  { repeat split; try discriminate. exists 5. now right. }
  exists y. split; [exact Ey|]. eapply C69_log_density in Ey as [E _]; [|now right| |].
  - rewrite E. unfold mixture, components, default_weights, default_mu. real. reflexivity.
  - unfold default_weights. real. repeat constructor; lra.
  - real. repeat constructor; lra.
Qed.

(** *** C70 *)
Lemma sin_prod : forall a b, -1 <= sin a * sin b <= 1.
Proof.
  intros. pose proof (SIN_bound a) as [A1 A2]. pose proof (SIN_bound b) as [B1 B2].
  assert (0 <= (1 - sin a) * (1 + sin b)) by (apply Rmult_le_pos; lra).
  assert (0 <= (1 + sin a) * (1 - sin b)) by (apply Rmult_le_pos; lra).
  assert (0 <= (1 - sin a) * (1 - sin b)) by (apply Rmult_le_pos; lra).
  assert (0 <= (1 + sin a) * (1 + sin b)) by (apply Rmult_le_pos; lra).
  lra.
Qed.

Theorem C70_sin_one : forall x : R, exists y, sin_one [x] = Ok y /\ 0 <= y <= 1.
Proof.
  intros. unfold sin_one, item. cbn [nth_error bind]. eexists. split; [reflexivity|]. real.
  pose proof (sin_prod (13 * x) (27 * x)). lra.
Qed.

Theorem C70_sin_two : forall a b : R, exists ya yb, sin_one [a] = Ok ya /\ sin_one [b] = Ok yb /\
  sin_two [a; b] = Ok (ya * yb) /\ 0 <= ya * yb <= 1.
Proof.
  intros a b. destruct (C70_sin_one a) as (ya & Ea & Ha). destruct (C70_sin_one b) as (yb & Eb & Hb).
  exists ya, yb. split; auto. split; auto. split; [|nra].
  unfold sin_one, sin_two, item in *. cbn [nth_error bind] in *. injection Ea as <-. injection Eb as <-. reflexivity.
Qed.

Theorem C70_camelback_symmetric : forall a b : R, camelback [- a; - b] = camelback [a; b].
Proof.
  intros. unfold camelback, item. cbn [nth_error bind]. f_equal. real. field.
Qed.

(** Too few coordinates raise IndexError; further coordinates are ignored. *)
Theorem C70_number_of_coordinates : forall x more : list R,
  let needs (n : nat) (f : list R -> res R) := ((length x < n)%nat -> f x = Raise IndexError) /\ ((n <= length x)%nat -> f (x ++ more) = f x /\ exists y, f x = Ok y) in
  needs 2%nat banana_log_likelihood /\ needs 2%nat bohachevski /\ needs 2%nat branin /\ needs 2%nat camelback /\ needs 2%nat goldstein_price /\
  needs 2%nat rosenbrock /\ needs 2%nat sin_two /\ needs 1%nat levy /\ needs 1%nat sin_one /\ needs 3%nat hartmann3 /\ needs 6%nat hartmann6.
Proof.
  intros x more needs.
  repeat split; intros; try (destruct x as [|? [|? [|? [|? [|? [|? ?]]]]]]; cbn [length] in *; try lia; first [reflexivity|eexists; reflexivity]).
Qed.

Theorem C70_negation : forall A (f : A -> res R) a v,
  (f a = Ok v -> to_negative_log_likelihood f a = Ok (- v)) /\
  (forall e, f a = Raise e -> to_negative_log_likelihood f a = Raise e) /\
  to_negative_log_likelihood (to_negative_log_likelihood f) a = f a.
Proof.
  intros. unfold to_negative_log_likelihood. repeat split.
  - now intros ->.
  - intros e ->. reflexivity.
  - destruct (f a); cbn; auto. f_equal. apply Ropp_involutive.
Qed.

(** Hartmann functions. *)
Lemma hartmann_internal_nonneg : forall (x : list R) row j acc,
  Forall (fun '(a, _) => 0 <= a) row -> (j + length row <= length x)%nat -> 0 <= acc ->
  exists s, hartmann_internal x row j acc = Ok s /\ acc <= s.
Proof.
  induction row as [|[a p] row IH]; intros j acc HF Hl Ha.
  - exists acc. split; [reflexivity|lra].
  - cbn [hartmann_internal]. cbn in Hl. unfold item. destruct (nth_error_lt _ x j) as [v ->]; [lia|]. cbn [bind].
    inversion HF; subst. real.
    set (q := (v - 1 / 10000 * IZR p)). pose proof (sq_pos q).
    destruct (IH (S j) (acc + a * q ^ 2)) as (s & Es & Ls); auto; [lia|nra|]. exists s. split; [exact Es|nra].
Qed.

Lemma hartmann_external_bound : forall (x : list R) rows acc,
  Forall (fun '(alpha, row) => 0 < alpha /\ Forall (fun '(a, _) => 0 <= a) row /\ (length row <= length x)%nat) rows ->
  exists s, hartmann_external x rows acc = Ok s /\ acc <= s <= acc + Rsum (map fst rows) /\ (rows <> [] -> acc < s).
Proof.
  induction rows as [|[al row] rows IH]; intros acc HF.
  - exists acc. cbn. repeat split; try lra. congruence.
  - pose proof (Forall_inv HF) as (Ha & Hr & Hl). pose proof (Forall_inv_tail HF) as HF'. cbn [hartmann_external].
    destruct (hartmann_internal_nonneg x row 0 (nint 0)) as (s & -> & Hs); auto; [real; lra|]. cbn [bind].
    real. pose proof (exp_pos (- s)).
    assert (exp (- s) <= 1).
    { rewrite <- exp_0. destruct Hs as [L|L]; [left; apply exp_increasing; lra|right; f_equal; lra]. }
    destruct (IH (acc + al * exp (- s)) HF') as (t & Et & [L U] & _). exists t. split; [exact Et|].
    cbn [map Rsum fst]. split; [split; nra|intros _; nra].
Qed.

Ltac table := unfold hartmann3_table, hartmann6_table; real; repeat constructor; try lra; cbn; lia.

Theorem C70_hartmann3_range : forall x : list R, (3 <= length x)%nat ->
  exists y, hartmann3 x = Ok y /\ - (84 / 10) <= y < 0.
Proof.
  intros x Hx. unfold hartmann3, hartmann.
  destruct (hartmann_external_bound x hartmann3_table (nint 0)) as (s & -> & [L U] & P); [table|].
  exists (- s). split; [reflexivity|]. specialize (P ltac:(discriminate)).
  unfold hartmann3_table in U. cbn [map Rsum fst] in U. real. lra.
Qed.
Theorem C70_hartmann6_range : forall x : list R, (6 <= length x)%nat ->
  exists y, hartmann6 x = Ok y /\ - (84 / 10) <= y < 0.
Proof.
  intros x Hx. unfold hartmann6, hartmann.
  destruct (hartmann_external_bound x hartmann6_table (nint 0)) as (s & -> & [L U] & P); [table|].
  exists (- s). split; [reflexivity|]. specialize (P ltac:(discriminate)).
  unfold hartmann6_table in U. cbn [map Rsum fst] in U. real. lra.
Qed.

(** The published form of the Hartmann functions, with the source's tables:
    - sum_i alpha_i exp(- sum_j A_ij (x_j - P_ij)^2). *)
Definition hartmann_formula (alpha : list R) (A P : list (list R)) (x : list R) : R :=
  - Rsum (map (fun i => nth i alpha 0 *
      exp (- Rsum (map (fun j => nth j (nth i A []) 0 * (nth j x 0 - nth j (nth i P []) 0) ^ 2) (seq 0 (length (nth i A []))))))
    (seq 0 (length alpha))).
Theorem C70_hartmann_formula : forall a b c d e f : R,
  hartmann3 [a; b; c] = Ok (hartmann_formula [1; 12/10; 3; 32/10]
    [[3; 10; 30]; [1/10; 10; 35]; [3; 10; 30]; [1/10; 10; 35]]
    [[3689/10000; 1170/10000; 2673/10000]; [4699/10000; 4387/10000; 7470/10000];
     [1090/10000; 8732/10000; 5547/10000]; [381/10000; 5743/10000; 8828/10000]] [a; b; c]) /\
  hartmann6 [a; b; c; d; e; f] = Ok (hartmann_formula [1; 12/10; 3; 32/10]
    [[10; 3; 17; 35/10; 17/10; 8]; [5/100; 10; 17; 1/10; 8; 14]; [3; 35/10; 17/10; 10; 17; 8]; [17; 8; 5/100; 10; 1/10; 14]]
    [[1312/10000; 1696/10000; 5569/10000; 124/10000; 8283/10000; 5886/10000];
     [2329/10000; 4135/10000; 8307/10000; 3736/10000; 1004/10000; 9991/10000];
     [2348/10000; 1451/10000; 3522/10000; 2883/10000; 3047/10000; 6650/10000];
     [4047/10000; 8828/10000; 8732/10000; 5743/10000; 1091/10000; 381/10000]] [a; b; c; d; e; f]).
Proof.
  intros a b c d e f.
  unfold hartmann3, hartmann6, hartmann, hartmann3_table, hartmann6_table, item, hartmann_formula.
  cbn [hartmann_external hartmann_internal item nth_error bind map seq length nth Rsum]. real.
  assert (X : forall x y : R, x = y -> exp x = exp y) by congruence.
  split; f_equal; f_equal; rewrite ?Rplus_0_l, ?Rplus_0_r, <- ?Rplus_assoc;
    repeat (match goal with |- (_ + _ = _ + _)%R => apply f_equal2 | |- (_ * exp _ = _ * exp _)%R => apply f_equal2; [reflexivity|apply X] end);
    field.
Qed.

(** Every entry of sinc is bounded by the number of columns. *)
Lemma np_sinc_bound : forall t : R, -1 < np_sinc t < 1.
Proof.
  intros t. pose proof PI_bounds as HP. unfold np_sinc. set (z := if nltb t _ then _ else _).
  assert (Hz : z <> 0).
  { unfold z. cbn [nltb Num_R]. real. destruct (Rltb t 0) eqn:E1.
    - apply Rltb_true in E1. lra.
    - destruct (Rltb 0 t) eqn:E2; [apply Rltb_true in E2; lra|lra]. }
  cbv zeta. real.
  assert (P : forall y, 0 < y -> -1 < sin y / y < 1).
  { intros y Hy. assert (L : - y < sin y < y).
    { pose proof (sin_lt_x y Hy). split; [|lra]. destruct (Rlt_le_dec y 3) as [Hy3|Hy3].
      - pose proof (sin_gt_0 y Hy ltac:(lra)). lra.
      - pose proof (SIN_bound y). lra. }
    split; apply Rmult_lt_reg_r with y; auto; unfold Rdiv; rewrite Rmult_assoc, Rinv_l; lra. }
  destruct (Rtotal_order z 0) as [L|[L|L]]; [|congruence|].
  - replace (sin (PI * z) / (PI * z)) with (sin (PI * - z) / (PI * - z)); [apply P; nra|].
    replace (PI * - z) with (- (PI * z)) by ring. rewrite sin_neg. field. split; lra.
  - apply P. nra.
Qed.

Theorem C70_sinc : forall (X : list (list R)) i row, nth_error X i = Some row ->
  exists y, nth_error (sinc X) i = Some y /\ - INR (length row) <= y <= INR (length row).
Proof.
  intros X i row E. unfold sinc. rewrite nth_error_map, E. eexists. split; [reflexivity|].
  rewrite nsum_R. clear E. induction row as [|v row IH]; [cbn; lra|]. cbn [map Rsum length]. rewrite S_INR.
  pose proof (np_sinc_bound (nsub (nmul v (nint 10)) (nint 5))). lra.
Qed.


(** *** C68, camelback: the documented points are global minimizers up to 1e-4
    in the function value. *)
Lemma camelback_split : forall a x y : R, 0 < a ->
  (4 - 21 / 10 * x ^ 2 + x ^ 4 / 3) * x ^ 2 + x * y + (-4 + 4 * y ^ 2) * y ^ 2
  = (4 * x ^ 2 - 21 / 10 * (x ^ 2) ^ 2 + (x ^ 2) ^ 3 / 3 - a * x ^ 2) + (2 * a * x + y) ^ 2 / (4 * a)
    + (2 * y ^ 2 - (1 + 1 / (16 * a))) ^ 2 - (1 + 1 / (16 * a)) ^ 2.
Proof. intros. field. lra. Qed.

Theorem C68_camelback : 
  (forall a b, exists y, camelback [a; b] = Ok y /\ - (10317 / 10000) <= y) /\
  (forall p, In p [[898 / 10000; - (7126 / 10000)]; [- (898 / 10000); 7126 / 10000]] ->
     exists y, camelback p = Ok y /\ y <= - (10316 / 10000)).
Proof.
  split.
  - intros x y. unfold camelback, item. cbn [nth_error bind]. eexists. split; [reflexivity|]. real.
    assert (G : exists a, 0 < a /\ (1 + 1 / (16 * a)) ^ 2 - 10317 / 10000 <= 4 * x ^ 2 - 21 / 10 * (x ^ 2) ^ 2 + (x ^ 2) ^ 3 / 3 - a * x ^ 2).
    { pose proof (sq_pos x) as Ht. set (t := x ^ 2) in *. clearbody t.
      destruct (Rle_lt_dec t (99 / 10000)) as [H1|H1]; [exists 4; split; [lra|nra]|].
      destruct (Rle_lt_dec t (4 / 100)) as [H2|H2]; [exists (39 / 10); split; [lra|nra]|].
      destruct (Rle_lt_dec t (22 / 100)) as [H3|H3]; [exists (35 / 10); split; [lra|nra]|].
      destruct (Rle_lt_dec t (11 / 10)) as [H4|H4]; [exists 2; split; [lra|nra]|].
      exists (6 / 10). split; [lra|].
      assert (Q : 92 / 1000 <= 34 / 10 - 21 / 10 * t + t ^ 2 / 3) by (pose proof (sq_pos (t - 315 / 100)); nra).
      destruct (Rle_lt_dec t (21 / 10)) as [H5|H5].
      - assert (B : (1 + 1 / (16 * (6 / 10))) ^ 2 - 10317 / 10000 <= 19 / 100) by nra. nra.
      - assert (B : (1 + 1 / (16 * (6 / 10))) ^ 2 - 10317 / 10000 <= 19 / 100) by nra. nra. }
    destruct G as (a & Ha & G). rewrite (camelback_split a) by auto.
    pose proof (sq_pos (2 * y ^ 2 - (1 + 1 / (16 * a)))). pose proof (sq_pos (2 * a * x + y)).
    assert (0 <= (2 * a * x + y) ^ 2 / (4 * a)) by (apply Rmult_le_pos; [lra|left; apply Rinv_0_lt_compat; lra]).
    lra.
  - intros p [<-|[<-|[]]]; unfold camelback, item; cbn [nth_error bind]; eexists; (split; [reflexivity|]); real; lra.
Qed.
