(** Runs of one parameter: lemmas for C17-C22. *)
From Coq Require Import List Arith Lia ZArith Reals Lra Bool.
From Verif.Base Require Import Py Num Vec Lists.
From Verif.Model Require Import TensorUtils BurnIn SGHMC SGLD.
From Verif.Spec Require Import Dynamics Trajectory.
From Verif.Proofs Require Import Dynamics.
Import ListNotations.

(** *** Any number type *)
Section Any.
Context {T : Type} `{Num T}.

Lemma sghmc_run_snoc : forall (c : config T) ins i p,
  sghmc_run c (ins ++ [i]) p = sghmc_step c (i_eps i) (i_grad i) (i_xi i) (i_fed i) (sghmc_run c ins p).
Proof. intros. unfold sghmc_run. now rewrite fold_left_app. Qed.
Lemma sgld_run_snoc : forall (c : lconfig T) ins i p,
  sgld_run c (ins ++ [i]) p = sgld_step c (i_eps i) (i_grad i) (i_xi i) (i_fed i) (sgld_run c ins p).
Proof. intros. unfold sgld_run. now rewrite fold_left_app. Qed.

Definition adapt_fold (gs : list (list T)) (a : adapt T) : adapt T :=
  fold_left (fun a g => adapt_step g a) gs a.

Lemma sghmc_run_adapt : forall (c : config T) ins p,
  p_adapt (sghmc_run c ins p) = adapt_fold (map i_grad ins) (p_adapt p).
Proof.
  intros c ins. induction ins as [|i ins IH] using rev_ind; intros p; [reflexivity|].
  rewrite sghmc_run_snoc, map_app. unfold adapt_fold. rewrite fold_left_app. cbn. now rewrite IH.
Qed.
Lemma sgld_run_adapt : forall (c : lconfig T) ins p,
  l_adapt (sgld_run c ins p) = adapt_fold (map i_grad ins) (l_adapt p).
Proof.
  intros c ins. induction ins as [|i ins IH] using rev_ind; intros p; [reflexivity|].
  rewrite sgld_run_snoc, map_app. unfold adapt_fold. rewrite fold_left_app. cbn. now rewrite IH.
Qed.

(** Sizes. *)
Definition pstate_len (n : nat) (p : pstate T) : Prop :=
  adapt_len n (p_adapt p) /\ length (p_mom p) = n /\ length (p_vec p) = n.
Definition lstate_len (n : nat) (p : lstate T) : Prop :=
  adapt_len n (l_adapt p) /\ length (l_vec p) = n.

Lemma minv_used_len : forall n fed (a : adapt T), adapt_len n a ->
  match fed with Some m => length m = n | None => True end -> length (minv_used fed a) = n.
Proof. intros n [m|] a (_ & _ & _ & _ & Ha) Hf; cbn; auto. Qed.

Lemma pstate_len_step : forall n (c : config T) i p, pstate_len n p -> sized n i ->
  pstate_len n (sghmc_step c (i_eps i) (i_grad i) (i_xi i) (i_fed i) p).
Proof.
  intros n c i p (Ha & Hm & Hv) (Hg & Hx & Hf). unfold pstate_len, sghmc_step; cbn [p_adapt p_mom p_vec].
  pose proof (adapt_len_step _ _ _ Ha Hg) as Ha'.
  pose proof (minv_used_len _ _ _ Ha' Hf) as Hmu.
  split; [exact Ha'|]. split; repeat first [apply vmap2_length | rewrite map_length]; auto.
Qed.
Lemma lstate_len_step : forall n (c : lconfig T) i p, lstate_len n p -> sized n i ->
  lstate_len n (sgld_step c (i_eps i) (i_grad i) (i_xi i) (i_fed i) p).
Proof.
  intros n c i p (Ha & Hv) (Hg & Hx & Hf). unfold lstate_len, sgld_step; cbn [l_adapt l_vec].
  pose proof (adapt_len_step _ _ _ Ha Hg) as Ha'.
  pose proof (minv_used_len _ _ _ Ha' Hf) as Hmu.
  split; [exact Ha'|]. repeat first [apply vmap2_length | rewrite map_length]; auto.
Qed.

Lemma pstate_len_init : forall v : tensor T, pstate_len (length (data v)) (pinit v).
Proof. intros. split; [apply adapt_len_init|]. cbn. now rewrite repeat_length. Qed.
Lemma lstate_len_init : forall v : tensor T, lstate_len (length (data v)) (linit v).
Proof. intros. split; [apply adapt_len_init|]. reflexivity. Qed.

Lemma pstate_len_run : forall n (c : config T) ins p, pstate_len n p -> Forall (sized n) ins ->
  pstate_len n (sghmc_run c ins p).
Proof.
  intros n c ins. induction ins as [|i ins IH] using rev_ind; intros p Hp HF; [exact Hp|].
  apply Forall_app in HF as [HF Hi]. inversion Hi; subst. rewrite sghmc_run_snoc.
  apply pstate_len_step; auto.
Qed.
Lemma lstate_len_run : forall n (c : lconfig T) ins p, lstate_len n p -> Forall (sized n) ins ->
  lstate_len n (sgld_run c ins p).
Proof.
  intros n c ins. induction ins as [|i ins IH] using rev_ind; intros p Hp HF; [exact Hp|].
  apply Forall_app in HF as [HF Hi]. inversion Hi; subst. rewrite sgld_run_snoc.
  apply lstate_len_step; auto.
Qed.

(** One entry of a step. *)
Lemma sghmc_step_entry : forall (c : config T) eps grad xi fed p k g x m v th,
  nth_error grad k = Some g -> nth_error xi k = Some x ->
  nth_error (minv_used fed (adapt_step grad (p_adapt p))) k = Some m ->
  nth_error (p_mom p) k = Some v -> nth_error (p_vec p) k = Some th ->
  let p' := sghmc_step c eps grad xi fed p in
  let v' := nadd v (nadd (nsub (nmul (nmul (nopp (npow eps 2)) m) g) (nmul (mdecay c) v)) (nmul (sigma c eps m) x)) in
  nth_error (p_mom p') k = Some v' /\ nth_error (p_vec p') k = Some (nadd th v') /\
  nth_error (data (p_val p')) k = Some (nadd th v').
Proof.
  intros c eps grad xi fed p k g x m v th Hg Hx Hm Hv Ht p' v'.
  unfold p', sghmc_step; cbn [p_mom p_vec p_val data].
  repeat split;
    repeat (rewrite nth_error_vmap2 || rewrite nth_error_map || rewrite Hg || rewrite Hx ||
            rewrite Hm || rewrite Hv || rewrite Ht || cbn [option_map]); reflexivity.
Qed.
Lemma sgld_step_entry : forall (c : lconfig T) eps grad xi fed p k g x m th,
  nth_error grad k = Some g -> nth_error xi k = Some x ->
  nth_error (minv_used fed (adapt_step grad (l_adapt p))) k = Some m ->
  nth_error (l_vec p) k = Some th ->
  let p' := sgld_step c eps grad xi fed p in
  let th' := nadd th (nadd (nmul (nmul (nmul (nopp eps) m) (l_A c)) g) (nmul (lsigma c eps m) x)) in
  nth_error (l_vec p') k = Some th' /\ nth_error (data (l_val p')) k = Some th'.
Proof.
  intros c eps grad xi fed p k g x m th Hg Hx Hm Ht p' th'.
  unfold p', sgld_step; cbn [l_vec l_val data].
  repeat split;
    repeat (rewrite nth_error_vmap2 || rewrite nth_error_map || rewrite Hg || rewrite Hx ||
            rewrite Hm || rewrite Ht || cbn [option_map]); reflexivity.
Qed.
End Any.

(** *** Reals *)
Local Open Scope R_scope.

Lemma sized_grads : forall n ins, Forall (sized (T:=R) n) ins -> Forall (fun g => length g = n) (map i_grad ins).
Proof. intros n ins HF. induction HF as [|i ins [Hi _] _ IH]; cbn; constructor; auto. Qed.

(** Everything about one entry after a history, in one statement. *)
Record entry_ok (hist : list R) (tau r g v : R) : Prop := {
  eo_tau : 1 <= tau <= 1 + INR (length hist);
  eo_r : 0 < r <= 1 / 2;
  eo_v : 0 < v;
  eo_g : g ^ 2 <= v;
  eo_lohi : forall lo hi, lo <= 1 <= hi -> (forall x, In x hist -> lo <= x ^ 2 <= hi) -> lo <= v <= hi
}.

Lemma adapt_run_r : forall n gs k r, Forall (fun g => length g = n) gs -> (k < n)%nat ->
  nth_error (a_r (adapt_run n gs)) k = Some r -> 0 < r <= 1 / 2.
Proof.
  intros n gs k r HF Hk. destruct gs as [|g gs _] using rev_ind.
  - intros Hr. destruct (at_index_init (T:=R) n k Hk) as (_ & E & _). cbn [adapt_run fold_left] in Hr.
    unfold adapt_run in Hr; cbn [fold_left] in Hr.
    rewrite E in Hr. assert (r = c_r cell_init) as -> by congruence. unfold cell_init; cbn [c_r]. rewrite n1_R. cbn [nadd ndiv Num_R]. lra.
  - apply Forall_app in HF as [HF Hg]. inversion Hg as [|? ? Hgl _]; subst.
    destruct (adapt_run_cell _ gs k HF Hk) as (c & Hc & Hs).
    destruct (nth_error_lt _ g k Hk) as [x Hx].
    unfold adapt_run. rewrite fold_left_app. cbn [fold_left].
    change (fold_left (fun (a : adapt R) g => adapt_step g a) gs (adapt_init (length g)))
      with (adapt_run (length g) gs).
    destruct (at_index_step _ _ _ _ _ Hc Hx) as (_ & E & _). rewrite E. intros Hr.
    assert (r = c_r (cell_step x c)) as -> by congruence.
    pose proof (well_posed_run (column k gs)) as HW. rewrite <- Hs in HW.
    destruct HW as (Ht & Hv & Hgg). cbn in Ht, Hv.
    destruct (cell_step_R x c Hv ltac:(lra)) as (_ & -> & _). apply rate_bounds. split; [exact Ht|].
    split; [exact Hv|exact Hgg].
Qed.

Lemma adapt_run_entry : forall n gs k, Forall (fun g => length g = n) gs -> (k < n)%nat ->
  exists tau r g v,
    nth_error (a_tau (adapt_run n gs)) k = Some tau /\ nth_error (a_r (adapt_run n gs)) k = Some r /\
    nth_error (a_g (adapt_run n gs)) k = Some g /\ nth_error (a_vhat (adapt_run n gs)) k = Some v /\
    v = s_v (scalar_run (column k gs)) /\
    entry_ok (column k gs) tau r g v.
Proof.
  intros n gs k HF Hk. destruct (adapt_run_cell n gs k HF Hk) as (c & Hc & Hs).
  pose proof Hc as (E1 & E2 & E3 & E4 & _).
  exists (c_tau c), (c_r c), (c_g c), (c_vhat c). repeat (split; [assumption|]).
  pose proof (well_posed_run (column k gs)) as HW.
  pose proof (scalar_run_tau (column k gs)) as HT.
  pose proof (scalar_run_bounds (column k gs)) as HB. rewrite <- Hs in HW, HT, HB.
  destruct HW as (Ht & Hv & Hg). cbn in Ht, Hv, Hg, HT, HB. split; [now rewrite <- Hs|].
  constructor; auto. eapply adapt_run_r; eauto.
Qed.

(** *** Noise scales *)
Lemma epsilon_scaled_sq : forall eps s, 0 < s -> (eps / sqrt s) ^ 2 = eps ^ 2 / s.
Proof.
  intros eps s Hs. pose proof (sqrt_lt_R0 s Hs). unfold Rdiv. rewrite Rpow_mult_distr. f_equal.
  rewrite pow_inv. f_equal. cbn. rewrite Rmult_1_r. apply sqrt_sqrt. lra.
Qed.
Lemma sigma_literal : Rfrac 1 10000000000000000 = guard.
Proof. unfold Rfrac, guard. lra. Qed.

Lemma sigma_R : forall (c : config R) eps m, 0 < scale_grad c ->
  sigma c eps m = sqrt (Rmax (sghmc_noise_var eps (mdecay c) (scale_grad c) m) guard).
Proof.
  intros c eps m Hs. unfold sigma. rewrite nmax_R. cbn [nsqrt nfrac Num_R]. rewrite sigma_literal.
  f_equal. f_equal. unfold noise_scale, sghmc_noise_var, noise, epsilon_scaled.
  rewrite !npow_R, n0_R, n2_R. cbn [nsub nmul ndiv nsqrt Num_R].
  rewrite <- (epsilon_scaled_sq eps _ Hs). ring.
Qed.

Lemma lsigma_R : forall (c : lconfig R) eps m, 0 < l_scale_grad c ->
  lsigma c eps m = sqrt (Rmax 0 (2 * sgld_drift eps (l_A c) m / (l_scale_grad c + 3 * guard))).
Proof.
  intros c eps m Hs. unfold lsigma, safe_sqrt, safe_sqrt_with, clip_by_value, lnoise.
  rewrite safe_divide_R_pos by auto. rewrite nmax_R, n0_R, n2_R. cbn [nsqrt nmul nsub Num_R].
  f_equal. rewrite Rmax_comm. f_equal. unfold sgld_drift. pose proof guard_pos. field. lra.
Qed.
