(** The burn-in adaptation and the updates of SGHMC and SGLD in double precision, one entry, for C102: no operation overflows. *)
From Coq Require Import List Arith Reals ZArith Lra Lia.
From Flocq Require Import Core.Core.
From Verif.Base Require Import Py Num Float64 Vec Lists.
From Verif.Model Require Import TensorUtils BurnIn SGHMC SGLD.
From Verif.Proofs Require Import SafeFloat FloatAdapt FloatCell Dynamics.
Import ListNotations.
Local Open Scope R_scope.

Definition N64 : Num R := Num_rounded 53 (-1074).
Definition p2 (e : Z) : R := bpow radix2 e.

Lemma p2_pos : forall e, 0 < p2 e. Proof. intros. apply bpow_gt_0. Qed.
Lemma p2_le : forall a b, (a <= b)%Z -> p2 a <= p2 b. Proof. intros. now apply bpow_le. Qed.
Lemma p2_plus : forall a b, p2 (a + b) = p2 a * p2 b. Proof. intros. apply bpow_plus. Qed.
Lemma p2_twice : forall a b, (a < b)%Z -> 2 * p2 a <= p2 b.
Proof. intros a b H. replace (2 * p2 a) with (p2 (1 + a)) by (rewrite p2_plus; unfold p2; cbn; lra). apply p2_le. lia. Qed.
Lemma below : forall e x, (-1074 <= e < 1024)%Z -> Rabs x <= p2 e -> Rabs (rnd64 x) < huge. Proof. exact below_huge. Qed.

(** [x] stands for [a], computed without overflow, and is at most 2^e in size. *)
Definition fits (x : f64) (a : R) (e : Z) : Prop := rep x a /\ Rabs a <= p2 e.
Lemma fits_weaken : forall x a e e', fits x a e -> (e <= e')%Z -> fits x a e'.
Proof. intros x a e e' [H1 H2] He. split; [exact H1|]. pose proof (p2_le e e' He). lra. Qed.
Lemma fits_bound : forall x a e e', fits x a e -> Rabs a <= p2 e' -> fits x a e'.
Proof. intros x a e e' [H _] H'. now split. Qed.
Lemma fits_rep : forall x a e, fits x a e -> rep x a. Proof. now intros x a e []. Qed.
Lemma fits_add : forall x y a b e1 e2 e, fits x a e1 -> fits y b e2 -> (e1 < e)%Z -> (e2 < e)%Z -> (-1074 <= e < 1024)%Z ->
  fits (nadd x y) (@nadd R N64 a b) e.
Proof.
  intros x y a b e1 e2 e [H1 B1] [H2 B2] L1 L2 He. assert (B : Rabs (a + b) <= p2 e).
  { eapply Rle_trans; [apply Rabs_triang|]. pose proof (p2_twice e1 e L1). pose proof (p2_twice e2 e L2). lra. }
  split; [apply rep_add; auto; now apply (below e)|]. apply (rnd64_bound e); [lia|exact B].
Qed.
Lemma fits_sub : forall x y a b e1 e2 e, fits x a e1 -> fits y b e2 -> (e1 < e)%Z -> (e2 < e)%Z -> (-1074 <= e < 1024)%Z ->
  fits (nsub x y) (@nsub R N64 a b) e.
Proof.
  intros x y a b e1 e2 e [H1 B1] [H2 B2] L1 L2 He. assert (B : Rabs (a - b) <= p2 e).
  { eapply Rle_trans; [apply Rabs_triang|]. rewrite Rabs_Ropp. pose proof (p2_twice e1 e L1). pose proof (p2_twice e2 e L2). lra. }
  split; [apply rep_sub; auto; now apply (below e)|]. apply (rnd64_bound e); [lia|exact B].
Qed.
Lemma fits_mul : forall x y a b e1 e2 e, fits x a e1 -> fits y b e2 -> (e1 + e2 <= e)%Z -> (-1074 <= e < 1024)%Z ->
  fits (nmul x y) (@nmul R N64 a b) e.
Proof.
  intros x y a b e1 e2 e [H1 B1] [H2 B2] L He. assert (B : Rabs (a * b) <= p2 e).
  { rewrite Rabs_mult. apply Rle_trans with (p2 (e1 + e2)); [|now apply p2_le]. rewrite p2_plus. apply Rmult_le_compat; auto using Rabs_pos. }
  split; [apply rep_mul; auto; now apply (below e)|]. apply (rnd64_bound e); [lia|exact B].
Qed.
Lemma fits_div : forall x y a b e1 e2 e e', fits x a e1 -> fits y b e2 -> p2 e' <= Rabs b -> (e1 - e' <= e)%Z -> (-1074 <= e < 1024)%Z ->
  fits (ndiv x y) (@ndiv R N64 a b) e.
Proof.
  intros x y a b e1 e2 e e' [H1 B1] [H2 B2] Hb L He. pose proof (p2_pos e') as P.
  assert (N0 : b <> 0) by (intros ->; rewrite Rabs_R0 in Hb; lra).
  assert (B : Rabs (a / b) <= p2 e).
  { unfold Rdiv. rewrite Rabs_mult, Rabs_inv. apply Rle_trans with (p2 (e1 - e')); [|now apply p2_le].
    replace (p2 (e1 - e')) with (p2 e1 * / p2 e') by (unfold p2; rewrite <- bpow_opp, <- bpow_plus; reflexivity).
    apply Rmult_le_compat; auto using Rabs_pos; [left; apply Rinv_0_lt_compat; lra|]. apply Rinv_le_contravar; lra. }
  split; [apply rep_div; auto; now apply (below e)|]. apply (rnd64_bound e); [lia|exact B].
Qed.
Lemma fits_opp : forall x a e, fits x a e -> fits (nopp x) (@nopp R N64 a) e.
Proof. intros x a e [H B]. split; [now apply rep_opp|]. cbn. now rewrite Rabs_Ropp. Qed.
Lemma fits_sqrt : forall x a e1 e, fits x a e1 -> 0 <= a -> (e1 <= 2 * e)%Z -> (-1074 <= e)%Z -> fits (nsqrt x) (@nsqrt R N64 a) e.
Proof.
  intros x a e1 e [H B] Ha L He. split; [now apply rep_sqrt|]. apply (rnd64_bound e); [lia|]. rewrite Rabs_right by (apply Rle_ge, sqrt_pos).
  change (bpow radix2 e) with (p2 e). rewrite <- (sqrt_pow2 (p2 e)) by (pose proof (p2_pos e); lra). apply sqrt_le_1_alt.
  replace (p2 e ^ 2) with (p2 (2 * e)) by (replace (2 * e)%Z with (e + e)%Z by lia; rewrite p2_plus; ring).
  rewrite Rabs_right in B by lra. pose proof (p2_le _ _ L). lra.
Qed.
Lemma fits_max : forall x y a b e1 e2 e, fits x a e1 -> fits y b e2 -> (e1 <= e)%Z -> (e2 <= e)%Z -> fits (nmax x y) (@nmax R N64 a b) e.
Proof.
  intros x y a b e1 e2 e [H1 B1] [H2 B2] L1 L2. unfold nmax. rewrite (rep_ltb x y a b) by assumption. cbn.
  pose proof (p2_le _ _ L1). pose proof (p2_le _ _ L2). destruct (Rltb a b); split; auto; lra.
Qed.
Lemma Nint : forall z, (Z.abs z < 2 ^ 53)%Z -> @nint R N64 z = IZR z.
Proof. intros z Hz. unfold nint. cbn [nfrac N64 Num_rounded]. replace (Rfrac z 1) with (IZR z) by (unfold Rfrac; field). now apply rnd64_Z. Qed.
Lemma N0 : @n0 R N64 = 0. Proof. now apply (Nint 0). Qed.
Lemma N1 : @n1 R N64 = 1. Proof. now apply (Nint 1). Qed.
Lemma N2 : @n2 R N64 = 2. Proof. now apply (Nint 2). Qed.
Lemma fits_0 : forall e, fits n0 (@n0 R N64) e.
Proof. intros e. rewrite N0. split; [apply rep_0|]. rewrite Rabs_R0. pose proof (p2_pos e). lra. Qed.
Lemma fits_1 : fits n1 (@n1 R N64) 0.
Proof. rewrite N1. split; [apply rep_1|]. rewrite Rabs_R1. cbn. lra. Qed.
Lemma fits_2 : fits n2 (@n2 R N64) 1.
Proof. rewrite N2. split; [apply rep_2|]. rewrite Rabs_right by lra. cbn. lra. Qed.
Lemma fits_m1 : fits (nint (-1)) (@nint R N64 (-1)) 0.
Proof. rewrite Nint by reflexivity. split; [now apply rep_int|]. rewrite Rabs_left by lra. cbn. lra. Qed.
Lemma fits_c : fits small_constant (@small_constant R N64) (-53).
Proof.
  assert (H : rep small_constant (@small_constant R N64)).
  { apply (rep_frac 1 10000000000000000 0 10); first [reflexivity|lia]. }
  split; [exact H|]. change (@small_constant R N64) with (rnd64 (Rfrac 1 10000000000000000)).
  apply (rnd64_bound (-53)); [lia|]. unfold Rfrac. rewrite Rabs_right by lra. cbn. lra.
Qed.
Lemma fits_sign : forall x a e, fits x a e -> fits (nsign x) (@nsign R N64 a) 0.
Proof.
  intros x a e [H _]. unfold nsign. destruct (fits_0 0) as [H0 _]. rewrite (rep_ltb x n0 a (@n0 R N64)), (rep_ltb n0 x (@n0 R N64) a) by assumption.
  cbn [nltb N64 Num_rounded]. destruct (Rltb _ _); [apply fits_m1|]. destruct (Rltb _ _); [apply fits_1|apply fits_0].
Qed.
Lemma fits_divisor : forall x a e, fits x a e -> (0 <= e < 1023)%Z -> fits (safe_divisor x small_constant) (@safe_divisor R N64 a (@small_constant R N64)) (e + 1).
Proof.
  intros x a e H He. unfold safe_divisor. apply (fits_add _ _ _ _ e 0); [exact H| |lia|lia|lia].
  apply (fits_add _ _ _ _ (-52) (-53)); [|apply fits_c|lia|lia|lia].
  apply (fits_mul _ _ _ _ 1 (-53)); [|apply fits_c|lia|lia]. apply (fits_mul _ _ _ _ 1 0); [apply fits_2|eapply fits_sign; eauto|lia|lia].
Qed.

(** *** The adaptation *)
Definition cell_fits (k : cell f64) (k' : cell R) : Prop :=
  rep (c_tau k) (c_tau k') /\ rep (c_g k) (c_g k') /\ rep (c_vhat k) (c_vhat k') /\ rep (c_minv k) (c_minv k').
Definition okd := ok 53 (-1074).
Definition fewd := few 53.
(** The second moment stays near the largest squared gradient. *)
Definition vbound (t : nat) (v : R) : Prop := v <= p2 800 + INR t * p2 760.

Lemma fewd_INR : forall t, fewd t -> INR t + 1 <= p2 21.
Proof.
  intros t H. unfold fewd, few in H. pose proof (pos_INR t) as P. apply Rnot_lt_le. intros L.
  assert (Q : p2 21 * p2 21 < (INR t + 1) ^ 2) by (pose proof (p2_pos 21); nra).
  rewrite <- p2_plus in Q. assert (E : p2 (21 + 21) * (2048 * bpow radix2 (- (53))) = 1).
  { replace 2048 with (bpow radix2 11) by (cbn; lra). unfold p2. rewrite <- !bpow_plus. reflexivity. }
  pose proof (bpow_gt_0 radix2 (- (53))). nra.
Qed.
Lemma vbound_small : forall t v, fewd t -> vbound t v -> v <= p2 801.
Proof.
  intros t v HF HV. pose proof (fewd_INR t HF) as HT. unfold vbound in HV.
  assert (INR t * p2 760 <= p2 21 * p2 760) by (apply Rmult_le_compat_r; [left; apply p2_pos|lra]). rewrite <- p2_plus in H.
  pose proof (p2_le (21 + 760) 800 ltac:(lia)). pose proof (p2_twice 800 801 ltac:(lia)). lra.
Qed.
Lemma g_small : forall t k, fewd t -> okd t k -> vbound t (c_vhat k) -> Rabs (c_g k) <= p2 402.
Proof.
  intros t k HF HO HV. pose proof (vbound_small t _ HF HV) as V8. destruct HO as [_ _ V0 G _ _].
  pose proof (fewd_INR t HF) as HT. pose proof (pos_INR t) as HP.
  assert (U : 200 * bpow radix2 (- (53)) * INR t <= 1).
  { change (bpow radix2 (- (53))) with (p2 (-53)). assert (p2 (-53) * INR t <= p2 (-53) * p2 21) by (apply Rmult_le_compat_l; [left; apply p2_pos|lra]).
    rewrite <- p2_plus in H. assert (E : p2 (-53 + 21) = / 4294967296) by reflexivity. rewrite E in H. lra. }
  assert (K : kappa 53 (-1074) * INR t <= 1).
  { assert (KS : kappa 53 (-1074) <= 178 * (p2 (-53) * @small_constant R N64)) by (apply kappa_small; try reflexivity; lia).
    assert (CB : @small_constant R N64 <= 1) by (apply (c_bounds 53 (-1074)); try reflexivity; lia).
    assert (kappa 53 (-1074) <= 178 * p2 (-53)).
    { pose proof (p2_pos (-53)). nra. }
    assert (kappa 53 (-1074) * INR t <= 178 * p2 (-53) * p2 21).
    { pose proof (p2_pos (-53)). pose proof (p2_pos 21). pose proof (kappa_pos 53 (-1074)). apply Rmult_le_compat; lra. }
    rewrite Rmult_assoc, <- p2_plus in H0. assert (E : p2 (-53 + 21) = / 4294967296) by reflexivity. rewrite E in H0. lra. }
  assert (SQ : c_g k ^ 2 <= p2 804).
  { assert ((1 + 200 * bpow radix2 (- (53)) * INR t) * c_vhat k <= 2 * p2 801).
    { pose proof (p2_pos 801). apply Rmult_le_compat; try lra. pose proof (bpow_gt_0 radix2 (- (53))). nra. }
    pose proof (p2_twice 801 802 ltac:(lia)). pose proof (p2_twice 802 804 ltac:(lia)). pose proof (p2_le 0 802 ltac:(lia)). assert (E : p2 0 = 1) by reflexivity. lra. }
  rewrite <- (sqrt_pow2 (p2 402)) by (left; apply p2_pos). rewrite <- sqrt_Rsqr_abs. apply sqrt_le_1_alt. unfold Rsqr.
  replace (p2 402 ^ 2) with (p2 804) by (change 804%Z with (402 + 402)%Z; rewrite p2_plus; ring). replace (c_g k * c_g k) with (c_g k ^ 2) by ring. exact SQ.
Qed.

Lemma cell_fits_init : cell_fits cell_init (@cell_init R N64).
Proof.
  unfold cell_init, cell_fits. cbn [c_tau c_g c_vhat c_minv]. repeat (split; [apply fits_1|]).
  apply (fits_rep _ _ 0), (fits_div _ _ _ _ 0 0 0 0); [apply fits_1| | |lia|lia].
  - apply (fits_sqrt _ _ 0); [apply fits_1|rewrite N1; lra|lia|lia].
  - rewrite N1. cbn [nsqrt N64 Num_rounded]. rewrite sqrt_1. change (round radix2 (FLT_exp (-1074) 53) ZnearestE) with rnd64. rewrite (rnd64_Z 1) by reflexivity. rewrite Rabs_R1. unfold p2. cbn. lra.
Qed.
Lemma vbound_init : vbound 0 (c_vhat (@cell_init R N64)).
Proof.
  unfold vbound, cell_init. cbn [c_vhat INR]. rewrite N1. pose proof (p2_le 0 800 ltac:(lia)). assert (E : p2 0 = 1) by reflexivity. lra.
Qed.

Section Step.
Variables (t : nat) (k : cell f64) (k' : cell R) (x : f64) (a : R).
Hypothesis HF : fewd (S t).
Hypothesis HC : cell_fits k k'.
Hypothesis HO : okd t k'.
Hypothesis HV : vbound t (c_vhat k').
Hypothesis HX : fits x a 400.

Let HFt : fewd t. Proof. apply (few_le 53 t (S t)); auto. Qed.
Lemma ft_tau : fits (c_tau k) (c_tau k') 21.
Proof.
  destruct HC as (H & _). split; [exact H|]. destruct HO as [Ht _ _ _ _ _]. pose proof (fewd_INR t HFt). rewrite Rabs_right; lra.
Qed.
Lemma ft_g : fits (c_g k) (c_g k') 402.
Proof. destruct HC as (_ & H & _). split; [exact H|]. eapply g_small; eauto. Qed.
Lemma ft_v : fits (c_vhat k) (c_vhat k') 801.
Proof. destruct HC as (_ & _ & H & _). split; [exact H|]. rewrite Rabs_right by (destruct HO; lra). apply (vbound_small t); auto. Qed.
Lemma ft_r : fits (ndiv n1 (nadd (c_tau k) n1)) (@ndiv R N64 (@n1 R N64) (@nadd R N64 (c_tau k') (@n1 R N64))) 0.
Proof.
  apply (fits_div _ _ _ _ 0 22 0 0); [apply fits_1|apply (fits_add _ _ _ _ 21 0); [apply ft_tau|apply fits_1|lia|lia|lia]| |lia|lia].
  rewrite N1. cbn [nadd N64 Num_rounded]. change (round radix2 (FLT_exp (-1074) 53) ZnearestE) with rnd64.
  destruct HO as [Ht _ _ _ _ _]. eapply Rle_trans; [|apply Rle_abs]. change (p2 0) with 1. rewrite <- (rnd64_Z 1) at 1 by reflexivity. apply rnd64_mono. lra.
Qed.
Lemma ft_divisor : forall y b e, fits y b e -> 0 <= b -> generic_format radix2 (FLT_exp (-1074) 53) b -> p2 (-54) <= Rabs (@safe_divisor R N64 b (@small_constant R N64)).
Proof.
  intros y b e H Hb Fb. eapply Rle_trans; [|apply Rle_abs].
  destruct (divisor_bounds 53 (-1074) ltac:(lia) ltac:(lia) b Fb Hb) as [_ D2].
  destruct (c_bounds 53 (-1074) ltac:(lia) ltac:(lia)) as [C1 _]. unfold N64, p2 in *. lra.
Qed.
Lemma minv_fits : fits (c_minv (cell_step x k)) (c_minv (@cell_step R N64 a k')) 54.
Proof.
  pose proof ft_v as FV. assert (V0 : 0 <= c_vhat k') by (destruct HO; lra).
  unfold cell_step. cbn [c_minv]. unfold safe_divide, safe_divide_with.
  assert (FS : fits (safe_sqrt (c_vhat k)) (@safe_sqrt R N64 (c_vhat k')) 401).
    { unfold safe_sqrt, safe_sqrt_with, clip_by_value. apply (fits_sqrt _ _ 801); [|  |lia|lia].
      - apply (fits_max _ _ _ _ 801 801); [exact FV|apply fits_0|lia|lia].
      - unfold nmax. rewrite N0. cbn [nltb N64 Num_rounded]. destruct (Rltb _ _); lra. }
  apply (fits_div _ _ _ _ 0 402 54 (-54)); [apply fits_1|apply (fits_divisor _ _ 401); [exact FS|lia]| |lia|lia].
  eapply ft_divisor; [exact FS| |].
  - unfold safe_sqrt, safe_sqrt_with. cbn [nsqrt N64 Num_rounded]. change (round radix2 (FLT_exp (-1074) 53) ZnearestE) with rnd64.
      rewrite <- rnd64_0. apply rnd64_mono, sqrt_pos.
  - unfold safe_sqrt, safe_sqrt_with. cbn [nsqrt N64 Num_rounded]. apply generic_format_round; [apply FLT_exp_valid; reflexivity|apply valid_rnd_N].
Qed.
Lemma cell_fits_step : cell_fits (cell_step x k) (@cell_step R N64 a k').
Proof.
  pose proof ft_tau as FT. pose proof ft_g as FG. pose proof ft_v as FV. pose proof ft_r as FR.
  assert (V0 : 0 <= c_vhat k') by (destruct HO; lra). assert (FMT : generic_format radix2 (FLT_exp (-1074) 53) (c_vhat k')) by (destruct HO; auto).
  unfold cell_fits, cell_step. cbn [c_tau c_g c_vhat c_minv]. unfold safe_divide, safe_divide_with.
  split; [|split; [|split]].
  - apply (fits_rep _ _ 881), (fits_add _ _ _ _ 21 880 881); [exact FT| |lia|lia|lia]. apply (fits_add _ _ _ _ 879 0); [|apply fits_1|lia|lia|lia].
    apply (fits_div _ _ _ _ 825 802 879 (-54)); [|now apply fits_divisor with (e := 801%Z)| |lia|lia].
    + apply (fits_mul _ _ _ _ 804 21); [|exact FT|lia|lia]. apply (fits_mul _ _ _ _ 402 402); [now apply fits_opp|exact FG|lia|lia].
    + eapply ft_divisor; eauto.
  - apply (fits_rep _ _ 405), (fits_add _ _ _ _ 402 404 405); [exact FG| |lia|lia|lia].
    apply (fits_add _ _ _ _ 402 400); [|apply (fits_mul _ _ _ _ 0 400); [exact FR|exact HX|lia|lia]|lia|lia|lia].
    apply (fits_mul _ _ _ _ 0 402); [now apply fits_opp|exact FG|lia|lia].
  - apply (fits_rep _ _ 804), (fits_add _ _ _ _ 801 803 804); [exact FV| |lia|lia|lia].
    apply (fits_add _ _ _ _ 801 800); [| |lia|lia|lia].
    + apply (fits_mul _ _ _ _ 0 801); [now apply fits_opp|exact FV|lia|lia].
    + apply (fits_mul _ _ _ _ 0 800); [exact FR|apply (fits_mul _ _ _ _ 400 400); [exact HX|exact HX|lia|lia]|lia|lia].
  - exact (fits_rep _ _ _ minv_fits).
Qed.
Lemma vbound_step : vbound (S t) (c_vhat (@cell_step R N64 a k')).
Proof.
  unfold N64. rewrite (cell_step_rounded 53 (-1074)) by (try reflexivity; lia). cbn zeta. cbn [c_vhat].
  set (rnd := round radix2 (FLT_exp (-1074) 53) ZnearestE). set (r := frate 53 (-1074) (c_tau k')). set (X := rnd (a * a)).
  destruct HO as [Ht _ V0 _ _ _].
  assert (Hr : 0 < r <= 3 / 4) by (apply (frate_bounds 53 (-1074) ltac:(lia) ltac:(lia) t); auto).
  assert (X0 : 0 <= X) by (unfold X, rnd; change (0 <= rnd64 (a * a)); rewrite <- rnd64_0; apply rnd64_mono, Rle_0_sqr).
  assert (X8 : X <= p2 800).
  { eapply Rle_trans; [apply Rle_abs|]. unfold X. apply (rnd64_bound 800); [lia|]. destruct HX as [_ B]. rewrite Rabs_mult.
    change (bpow radix2 800) with (p2 (400 + 400)). rewrite p2_plus. apply Rmult_le_compat; auto using Rabs_pos. }
  assert (ER : forall y, Rabs (rnd y - y) <= p2 (-53) * Rabs y + p2 (-1075)) by (intros y; apply (rnd_err 53 (-1074))).
  pose proof (lerp_error rnd (p2 (-53)) (p2 (-1075)) ER (p2_pos _)) as LE. 
  specialize (LE ltac:(unfold p2; cbn; lra) (p2_pos _) r (c_vhat k') X ltac:(lra)).
  rewrite (Rabs_right (c_vhat k')), (Rabs_right X) in LE by lra. apply abs_inv in LE.
  pose proof (vbound_small t _ HFt HV) as V8. unfold vbound in *. rewrite S_INR.
  assert (M : (1 - r) * c_vhat k' + r * X <= p2 800 + INR t * p2 760).
  { pose proof (p2_pos 760). pose proof (pos_INR t). assert (0 <= INR t * p2 760) by nra.
    assert ((1 - r) * c_vhat k' <= (1 - r) * (p2 800 + INR t * p2 760)) by (apply Rmult_le_compat_l; lra).
    assert (r * X <= r * (p2 800 + INR t * p2 760)) by (apply Rmult_le_compat_l; lra). lra. }
  assert (ERR : 5 * p2 (-53) * (c_vhat k' + r * X) + 5 * p2 (-1075) <= p2 760).
  { assert (c_vhat k' + r * X <= p2 802).
    { assert (r * X <= 1 * p2 800) by (apply Rmult_le_compat; lra). pose proof (p2_twice 801 802 ltac:(lia)). pose proof (p2_le 800 801 ltac:(lia)). lra. }
    assert (p2 (-53) * (c_vhat k' + r * X) <= p2 (-53) * p2 802) by (apply Rmult_le_compat_l; [left; apply p2_pos|assumption]).
    rewrite <- p2_plus in H0. change (-53 + 802)%Z with 749%Z in H0.
    assert (8 * p2 749 = p2 752) by (change 752%Z with (3 + 749)%Z; rewrite p2_plus; change (p2 3) with 8; reflexivity).
    pose proof (p2_twice 752 760 ltac:(lia)).
    assert (8 * p2 (-1075) = p2 (-1072)) by (change (-1072)%Z with (3 + -1075)%Z; rewrite p2_plus; change (p2 3) with 8; reflexivity).
    pose proof (p2_le (-1072) 752 ltac:(lia)). pose proof (p2_pos 749). pose proof (p2_pos (-1075)). lra. }
  change (bpow radix2 (- (53))) with (p2 (-53)) in *. lra.
Qed.
Lemma okd_step : okd (S t) (@cell_step R N64 a k').
Proof. apply (ok_step 53 (-1074)); auto; lia. Qed.
End Step.

(** *** The updates *)
(** Finite and at most 2^e in size. *)
Definition small (x : f64) (e : Z) : Prop := exists a, fits x a e.
Lemma small_add : forall x y e1 e2 e, small x e1 -> small y e2 -> (e1 < e)%Z -> (e2 < e)%Z -> (-1074 <= e < 1024)%Z -> small (nadd x y) e.
Proof. intros x y e1 e2 e [a Ha] [b Hb] L1 L2 He. eexists. exact (fits_add _ _ _ _ _ _ _ Ha Hb L1 L2 He). Qed.
Lemma small_sub : forall x y e1 e2 e, small x e1 -> small y e2 -> (e1 < e)%Z -> (e2 < e)%Z -> (-1074 <= e < 1024)%Z -> small (nsub x y) e.
Proof. intros x y e1 e2 e [a Ha] [b Hb] L1 L2 He. eexists. exact (fits_sub _ _ _ _ _ _ _ Ha Hb L1 L2 He). Qed.
Lemma small_mul : forall x y e1 e2 e, small x e1 -> small y e2 -> (e1 + e2 <= e)%Z -> (-1074 <= e < 1024)%Z -> small (nmul x y) e.
Proof. intros x y e1 e2 e [a Ha] [b Hb] L He. eexists. exact (fits_mul _ _ _ _ _ _ _ Ha Hb L He). Qed.
Lemma small_opp : forall x e, small x e -> small (nopp x) e.
Proof. intros x e [a Ha]. eexists. exact (fits_opp _ _ _ Ha). Qed.
Lemma small_weaken : forall x e e', small x e -> (e <= e')%Z -> small x e'.
Proof. intros x e e' [a Ha] L. exists a. eapply fits_weaken; eauto. Qed.
Lemma small_1 : small n1 0. Proof. eexists. apply fits_1. Qed.
Lemma small_2 : small n2 1. Proof. eexists. apply fits_2. Qed.
Lemma small_c : small small_constant (-53). Proof. eexists. apply fits_c. Qed.
Lemma small_rep : forall x e, small x e -> exists a, rep x a /\ Rabs a <= p2 e.
Proof. intros x e [a [H1 H2]]. eauto. Qed.

(** A number between 1 and 2^900, such as scale_grad. *)
Definition scale (x : f64) : Prop := exists s, rep x s /\ 1 <= s <= p2 900.
Lemma es_small : forall eps sg, small eps 0 -> scale sg -> small (ndiv eps (nsqrt sg)) 0.
Proof.
  intros eps sg [e He] (s & Hs & S1 & S2). eexists. eapply (fits_div _ _ _ _ 0 450 0 0 He); [| |lia|lia].
  - eapply (fits_sqrt _ _ 900); [split; [exact Hs|rewrite Rabs_right; lra]|lra|lia|lia].
  - cbn [nsqrt N64 Num_rounded]. change (round radix2 (FLT_exp (-1074) 53) ZnearestE) with rnd64. eapply Rle_trans; [|apply Rle_abs].
    change (p2 0) with 1. rewrite <- (rnd64_Z 1) by reflexivity. apply rnd64_mono. rewrite <- sqrt_1. apply sqrt_le_1_alt. lra.
Qed.
Lemma sigma_small : forall (c : config f64) eps m, small eps 0 -> scale (scale_grad c) -> small (mdecay c) 0 -> small m 54 -> small (sigma c eps m) 29.
Proof.
  intros c eps m He Hs Hd Hm. pose proof (es_small eps (scale_grad c) He Hs) as ES. fold (epsilon_scaled c eps) in ES.
  assert (P : forall k, small (npow (epsilon_scaled c eps) k) 0).
  { assert (P' : forall k, small (npow (epsilon_scaled c eps) (S k)) 0).
    { induction k as [|k IH]; [exact ES|]. change (small (nmul (epsilon_scaled c eps) (npow (epsilon_scaled c eps) (S k))) 0). eapply small_mul; eauto; lia. }
    intros [|k]; [apply small_1|apply P']. }
  assert (NS : small (noise_scale c eps m) 58).
  { unfold noise_scale. cbn zeta. apply (small_sub _ _ 57 0); [|apply P|lia|lia|lia].
    apply (small_sub _ _ 55 (-91)); [| |lia|lia|lia].
    - apply (small_mul _ _ 1 54); [|exact Hm|lia|lia]. apply (small_mul _ _ 1 0); [|exact Hd|lia|lia]. apply (small_mul _ _ 1 0); [apply small_2|apply P|lia|lia].
    - apply (small_mul _ _ 109 (-200)); [| eexists; apply fits_0|lia|lia].
      apply (small_mul _ _ 1 108); [apply (small_mul _ _ 1 0); [apply small_2|apply P|lia|lia]| |lia|lia]. change (npow m 2) with (nmul m m). apply (small_mul _ _ 54 54); auto; lia. }
  destruct NS as [a Ha]. unfold sigma. eexists. eapply (fits_sqrt _ _ 58); [|  |lia|lia].
  - eapply (fits_max _ _ _ _ 58 (-53)); [exact Ha|apply fits_c|lia|lia].
  - assert (C0 : 0 <= @small_constant R N64).
    { change (0 <= rnd64 (Rfrac 1 10000000000000000)). rewrite <- rnd64_0. apply rnd64_mono. unfold Rfrac. lra. }
    unfold nmax. cbn [nltb N64 Num_rounded]. unfold Rltb. destruct (Rlt_dec a _) as [L|L]; [exact C0|lra].
Qed.

Lemma rnd64_err : forall e x, (-1021 <= e)%Z -> Rabs x <= p2 e -> Rabs (rnd64 x - x) <= p2 (e - 52).
Proof.
  intros e x He Hx. eapply Rle_trans; [apply (rnd_err 53 (-1074))|]. change (bpow radix2 (- (53))) with (p2 (-53)). change (bpow radix2 (-1074 - 1)) with (p2 (-1075)).
  assert (p2 (-53) * Rabs x <= p2 (-53) * p2 e) by (apply Rmult_le_compat_l; [left; apply p2_pos|exact Hx]). rewrite <- p2_plus in H.
  pose proof (p2_le (-1075) (-53 + e) ltac:(lia)). pose proof (p2_twice (-53 + e) (e - 52) ltac:(lia)). lra.
Qed.
Lemma damped : forall d w (v : f64), rep v w -> 0 <= d <= 1 -> Rabs (w - rnd64 (d * w)) <= Rabs w /\ Rabs (rnd64 (d * w)) <= Rabs w.
Proof.
  intros d w v [_ <-] Hd. pose proof (value_round v) as E. set (w := value v) in *. destruct (Rle_dec 0 w) as [L|L].
  - assert (H0 : 0 <= rnd64 (d * w)) by (rewrite <- rnd64_0; apply rnd64_mono; nra).
    assert (H1 : rnd64 (d * w) <= w) by (rewrite <- E; apply rnd64_mono; rewrite E; nra). rewrite !Rabs_right by lra. lra.
  - assert (H0 : rnd64 (d * w) <= 0) by (rewrite <- rnd64_0; apply rnd64_mono; nra).
    assert (H1 : w <= rnd64 (d * w)) by (rewrite <- E; apply rnd64_mono; rewrite E; nra). rewrite (Rabs_left w) by lra. split; [rewrite Rabs_left1 by lra|rewrite Rabs_left1 by lra]; lra.
Qed.

Definition mom_bound (t : nat) (v : f64) : Prop := exists w, rep v w /\ Rabs w <= INR t * p2 458.
Definition vec_bound (t : nat) (x : f64) : Prop := exists w, rep x w /\ Rabs w <= p2 500 + INR t * p2 481.
Definition damping (x : f64) : Prop := exists d, rep x d /\ 0 <= d <= 1.

Lemma mom_step : forall t v d A S', fewd t -> mom_bound t v -> damping d -> small A 454 -> small S' 39 ->
  mom_bound (S t) (nadd v (nadd (nsub A (nmul d v)) S')).
Proof.
  intros t v d A S' HF (w & Hv & Bw) (dd & Hd & Hdd) HA HS. destruct (small_rep _ _ HA) as (a & Ra & Ba). destruct (small_rep _ _ HS) as (s & Rs & Bs).
  pose proof (fewd_INR t HF) as HT. pose proof (pos_INR t) as HP.
  assert (W : Rabs w <= p2 479).
  { eapply Rle_trans; [exact Bw|]. change 479%Z with (21 + 458)%Z. rewrite p2_plus. apply Rmult_le_compat_r; [left; apply p2_pos|lra]. }
  destruct (damped dd w v Hv Hdd) as [D1 D2]. set (B := rnd64 (dd * w)) in *.
  assert (RB : rep (nmul d v) B). { apply rep_mul; auto. apply Rle_lt_trans with (p2 479); [fold B; lra|]. apply bpow_lt. lia. }
  assert (B1 : Rabs (a - B) <= p2 481).
  { eapply Rle_trans; [apply Rabs_triang|]. rewrite Rabs_Ropp. pose proof (p2_twice 479 481 ltac:(lia)). pose proof (p2_le 454 479 ltac:(lia)). lra. }
  assert (R1 : rep (nsub A (nmul d v)) (rnd64 (a - B))) by (apply rep_sub; auto; now apply (below 481)).
  pose proof (rnd64_err 481 _ ltac:(lia) B1) as E1. pose proof (rnd64_bound 481 _ ltac:(lia) B1) as X1. set (W1 := rnd64 (a - B)) in *.
  assert (B2 : Rabs (W1 + s) <= p2 482).
  { eapply Rle_trans; [apply Rabs_triang|]. pose proof (p2_twice 481 482 ltac:(lia)). pose proof (p2_le 39 481 ltac:(lia)). unfold p2 in *. lra. }
  assert (R2 : rep (nadd (nsub A (nmul d v)) S') (rnd64 (W1 + s))) by (apply rep_add; auto; now apply (below 482)).
  pose proof (rnd64_err 482 _ ltac:(lia) B2) as E2. pose proof (rnd64_bound 482 _ ltac:(lia) B2) as X2. set (W2 := rnd64 (W1 + s)) in *.
  assert (B3 : Rabs (w + W2) <= p2 483).
  { eapply Rle_trans; [apply Rabs_triang|]. pose proof (p2_twice 482 483 ltac:(lia)). pose proof (p2_le 479 482 ltac:(lia)). unfold p2 in *. lra. }
  exists (rnd64 (w + W2)). split; [apply rep_add; auto; now apply (below 483)|].
  pose proof (rnd64_err 483 _ ltac:(lia) B3) as E3. rewrite S_INR.
  replace (rnd64 (w + W2)) with ((rnd64 (w + W2) - (w + W2)) + ((W2 - (W1 + s)) + ((W1 - (a - B)) + ((w - B) + (a + s))))) by ring.
  eapply Rle_trans; [apply Rabs_triang|]. pose proof (Rabs_triang (W2 - (W1 + s)) ((W1 - (a - B)) + ((w - B) + (a + s)))).
  pose proof (Rabs_triang (W1 - (a - B)) ((w - B) + (a + s))). pose proof (Rabs_triang (w - B) (a + s)). pose proof (Rabs_triang a s).
  pose proof (p2_pos 454). pose proof (p2_le 39 454 ltac:(lia)). pose proof (p2_le 429 454 ltac:(lia)). pose proof (p2_le 430 454 ltac:(lia)). pose proof (p2_le 431 454 ltac:(lia)).
  assert (E : 16 * p2 454 = p2 458) by (change 458%Z with (4 + 454)%Z; rewrite p2_plus; change (p2 4) with 16; reflexivity).
  change (481 - 52)%Z with 429%Z in E1. change (482 - 52)%Z with 430%Z in E2. change (483 - 52)%Z with 431%Z in E3. lra.
Qed.
Lemma vec_step : forall t x y, fewd t -> vec_bound t x -> small y 479 -> vec_bound (S t) (nadd x y).
Proof.
  intros t x y HF (w & Hx & Bw) HY. destruct (small_rep _ _ HY) as (a & Ra & Ba).
  pose proof (fewd_INR t HF) as HT. pose proof (pos_INR t) as HP.
  assert (W : Rabs w <= p2 503).
  { eapply Rle_trans; [exact Bw|]. assert (INR t * p2 481 <= p2 21 * p2 481) by (apply Rmult_le_compat_r; [left; apply p2_pos|lra]). rewrite <- p2_plus in H. change (21 + 481)%Z with 502%Z in H.
    pose proof (p2_twice 502 503 ltac:(lia)). pose proof (p2_le 500 502 ltac:(lia)). lra. }
  assert (B1 : Rabs (w + a) <= p2 504).
  { eapply Rle_trans; [apply Rabs_triang|]. pose proof (p2_twice 503 504 ltac:(lia)). pose proof (p2_le 479 503 ltac:(lia)). lra. }
  exists (rnd64 (w + a)). split; [apply rep_add; auto; now apply (below 504)|]. pose proof (rnd64_err 504 _ ltac:(lia) B1) as E1. rewrite S_INR.
  replace (rnd64 (w + a)) with ((rnd64 (w + a) - (w + a)) + (w + a)) by ring. eapply Rle_trans; [apply Rabs_triang|]. pose proof (Rabs_triang w a).
  change (504 - 52)%Z with 452%Z in E1. pose proof (p2_le 452 479 ltac:(lia)). pose proof (p2_twice 479 480 ltac:(lia)). pose proof (p2_twice 480 481 ltac:(lia)). pose proof (p2_pos 479). lra.
Qed.
Lemma vec_small : forall t x, fewd t -> vec_bound t x -> small x 503.
Proof.
  intros t x HF (w & Hx & Bw). exists w. split; [exact Hx|]. pose proof (fewd_INR t HF) as HT.
  eapply Rle_trans; [exact Bw|]. assert (INR t * p2 481 <= p2 21 * p2 481) by (apply Rmult_le_compat_r; [left; apply p2_pos|lra]). rewrite <- p2_plus in H. change (21 + 481)%Z with 502%Z in H.
  pose proof (p2_twice 502 503 ltac:(lia)). pose proof (p2_le 500 502 ltac:(lia)). lra.
Qed.
Lemma mom_small : forall t v, fewd t -> mom_bound t v -> small v 479.
Proof.
  intros t x HF (w & Hx & Bw). exists w. split; [exact Hx|]. pose proof (fewd_INR t HF) as HT.
  eapply Rle_trans; [exact Bw|]. change 479%Z with (21 + 458)%Z. rewrite p2_plus. apply Rmult_le_compat_r; [left; apply p2_pos|lra].
Qed.
Lemma lsigma_small : forall (c : lconfig f64) eps m, small eps 0 -> scale (l_scale_grad c) -> small (l_A c) 10 -> small m 54 -> small (lsigma c eps m) 60.
Proof.
  intros c eps m He (s & Hs & S1 & S2) Hd Hm.
  assert (NS : small (nmul (nmul n2 eps) (safe_divide (nmul m (nsub (l_A c) lnoise)) (l_scale_grad c))) 120).
  { apply (small_mul _ _ 1 119); [apply (small_mul _ _ 1 0); [apply small_2|exact He|lia|lia]| |lia|lia].
    assert (HN : small (nmul m (nsub (l_A c) lnoise)) 65).
    { apply (small_mul _ _ 54 11); [exact Hm| |lia|lia]. apply (small_sub _ _ 10 (-200)); [exact Hd|eexists; apply fits_0|lia|lia|lia]. }
    destruct HN as [a Ha]. assert (FS : fits (l_scale_grad c) s 900) by (split; [exact Hs|rewrite Rabs_right; lra]).
    unfold safe_divide, safe_divide_with. eexists. eapply (fits_div _ _ _ _ 65 901 119 (-54) Ha); [apply (fits_divisor _ _ 900 FS); lia| |lia|lia].
    eapply ft_divisor; [exact FS|lra|]. destruct Hs as [_ <-]. apply value_format. }
  destruct NS as [a Ha]. unfold lsigma, safe_sqrt, safe_sqrt_with, clip_by_value. eexists. eapply (fits_sqrt _ _ 120); [|  |lia|lia].
  - eapply (fits_max _ _ _ _ 120 0); [exact Ha|apply fits_0|lia|lia].
  - unfold nmax. rewrite N0. cbn [nltb N64 Num_rounded]. unfold Rltb. destruct (Rlt_dec a 0); lra.
Qed.
