(** The three kernels simulate the entry rules of Spec/Chain.v. *)
From Coq Require Import List Arith Lia ZArith Bool Reals Lra.
From Verif.Base Require Import Py Num Vec Lists.
From Verif.Model Require Import TensorUtils BurnIn SGHMC SGLD Stepsize BaseClasses Session Relativistic.
From Verif.Spec Require Import Sampler Dynamics Trajectory Chain.
From Verif.Proofs Require Import Sampler SamplerHistory Dynamics Trajectory Session Chain.
Import ListNotations.
Local Open Scope R_scope.

Lemma nth_error_moved : forall rule eps ad noise gs es i k, length gs = length es ->
  nth_error (moved rule eps ad noise i gs es) k =
  match nth_error gs k, nth_error es k with
  | Some g, Some e => Some (rule eps ad g (noise (i + k)%nat) e)
  | _, _ => None
  end.
Proof.
  intros rule eps ad noise gs. induction gs as [|g gs IH]; intros [|e es] i k HL; try discriminate HL.
  - now destruct k.
  - cbn [moved]. destruct k as [|k]; cbn [nth_error]; [now rewrite Nat.add_0_r|].
    rewrite IH by (cbn in HL; lia). now rewrite Nat.add_succ_r.
Qed.

Lemma nth_error_map_seq : forall (f : nat -> R) n k, (k < n)%nat -> nth_error (map f (seq 0 n)) k = Some (f k).
Proof.
  intros f n k Hk. rewrite nth_error_map.
  assert (E : nth_error (seq 0 n) k = Some k).
  { rewrite (nth_error_nth' _ 0%nat) by (now rewrite seq_length). now rewrite seq_nth. }
  now rewrite E.
Qed.

(** The adaptation variables hold the averages of the entries. *)
Definition holds_averages (a : adapt R) (es : list entry) : Prop :=
  exists gs, Forall (fun g => length g = length es) gs /\ a = adapt_run (length es) gs /\
    forall k e, nth_error es k = Some e -> averages e = scalar_run (column k gs).

Lemma holds_init : forall p l, holds_averages (adapt_init (length l)) (map (start p) l).
Proof.
  intros p l. exists []. split; [constructor|]. rewrite map_length. split; [reflexivity|].
  intros k e He. rewrite nth_error_map in He. destruct (nth_error l k); [|discriminate He].
  injection He as <-. reflexivity.
Qed.

Lemma holds_step : forall rule, (forall eps ad g x e, averages (rule eps ad g x e) = adapt_scalar g (averages e)) ->
  forall a es eps ad noise i gs, holds_averages a es -> length gs = length es ->
  holds_averages (adapt_step gs a) (moved rule eps ad noise i gs es).
Proof.
  intros rule RA a es eps ad noise i gs (h & HF & -> & HA) HL.
  exists (h ++ [gs]). rewrite moved_length by exact HL.
  split; [apply Forall_app; auto|]. split; [unfold adapt_run; now rewrite fold_left_app|].
  intros k e He. rewrite nth_error_moved in He by exact HL.
  destruct (nth_error gs k) as [g|] eqn:Eg; [|discriminate He].
  destruct (nth_error es k) as [e0|] eqn:Ee; [|discriminate He]. injection He as <-.
  rewrite RA. unfold column. rewrite map_app. cbn [map]. fold (column k h).
  rewrite scalar_run_snoc, (nth_error_nth _ _ _ Eg). f_equal. eauto.
Qed.

(** The mass used in a step. *)
Lemma holds_minv : forall a es ad gs, holds_averages a es -> length gs = length es ->
  minv_used (fed_for ad es) (adapt_step gs a) = map (mass_of ad) es.
Proof.
  intros a es ad gs (h & HF & -> & HA) HL. destruct ad; cbn [fed_for minv_used].
  - apply nth_error_ext. intros k. rewrite nth_error_map.
    destruct (nth_error es k) as [e|] eqn:Ee.
    + assert (Hk : (k < length es)%nat) by (apply nth_error_Some; congruence).
      rewrite adapt_run_minv by auto. cbn. now rewrite (HA k e Ee).
    + apply nth_error_None. apply nth_error_None in Ee.
      assert (LA : adapt_len (length es) (adapt_step gs (adapt_run (length es) h)))
        by (apply adapt_len_step; [now apply adapt_run_len|exact HL]).
      destruct LA as (_ & _ & _ & _ & ->). exact Ee.
  - reflexivity.
Qed.

(** *** SGHMC *)
Definition sghmc_sim (s : pstate R) (d : list nat) (es : list entry) : Prop :=
  holds_averages (p_adapt s) es /\ p_mom s = map momentum es /\ p_vec s = map theta es /\
  p_val s = Tensor d (map theta es).

Section SGHMC.
Variable c : config R.
Hypothesis Hs : 0 < scale_grad c.
Let rule := sghmc_entry (mdecay c) (scale_grad c).

Lemma sghmc_sim_step : forall s d es eps ad gs noise i, sghmc_sim s d es -> length gs = length es ->
  sghmc_sim (sghmc_step c eps gs (map (fun k => noise (i + k)%nat) (seq 0 (length es))) (fed_for ad es) s)
    d (moved rule eps ad noise i gs es).
Proof.
  intros s d es eps ad gs noise i (HA & HM & HV & HP) HL.
  assert (Hmu := holds_minv _ _ ad gs HA HL).
  set (xi := map (fun k => noise (i + k)%nat) (seq 0 (length es))).
  assert (Lxi : length xi = length es) by (unfold xi; now rewrite map_length, seq_length).
  set (s' := sghmc_step c eps gs xi (fed_for ad es) s).
  assert (PT : forall k g e, nth_error gs k = Some g -> nth_error es k = Some e ->
     let e' := rule eps ad g (noise (i + k)%nat) e in
     nth_error (p_mom s') k = Some (momentum e') /\ nth_error (p_vec s') k = Some (theta e')).
  { intros k g e Hg He e'.
    assert (Hk : (k < length es)%nat) by (apply nth_error_Some; congruence).
    destruct (sghmc_step_entry c eps gs xi (fed_for ad es) s k g (noise (i + k)%nat) (mass_of ad e) (momentum e) (theta e)) as (A & B & _).
    - exact Hg.
    - unfold xi. now rewrite nth_error_map_seq.
    - rewrite Hmu, nth_error_map, He. reflexivity.
    - now rewrite HM, nth_error_map, He.
    - now rewrite HV, nth_error_map, He.
    - fold s' in A, B. rewrite A, B. unfold e', rule, sghmc_entry. cbn [momentum theta].
      rewrite sigma_R by exact Hs. rewrite npow_R. cbn [nadd nsub nmul nopp Num_R].
      unfold sghmc_momentum. split; f_equal; ring. }
  assert (LM : length (p_mom s') = length es /\ length (p_vec s') = length es).
  { assert (Lm : length (minv_used (fed_for ad es) (adapt_step gs (p_adapt s))) = length es)
      by (rewrite Hmu; apply map_length).
    assert (Lp : length (p_mom s) = length es) by (rewrite HM; apply map_length).
    assert (Lv : length (p_vec s) = length es) by (rewrite HV; apply map_length).
    unfold s', sghmc_step. cbn [p_mom p_vec].
    split; repeat first [apply vmap2_length | rewrite map_length]; auto. }
  assert (EM : p_mom s' = map momentum (moved rule eps ad noise i gs es) /\ p_vec s' = map theta (moved rule eps ad noise i gs es)).
  { split; apply nth_error_ext; intros k; rewrite nth_error_map, nth_error_moved by exact HL;
    destruct (nth_error gs k) as [g|] eqn:Eg.
    all: try (destruct (nth_error es k) as [e|] eqn:Ee; [cbn; now apply PT|
      exfalso; apply nth_error_None in Ee; assert (k < length gs)%nat by (apply nth_error_Some; congruence); lia]).
    all: apply nth_error_None in Eg; apply nth_error_None; lia. }
  destruct EM as [EM EV].
  split; [apply holds_step; auto|]. split; [exact EM|]. split; [exact EV|].
  rewrite <- EV. unfold s', sghmc_step. cbn [p_val p_vec]. now rewrite HP.
Qed.

Lemma sghmc_minv_rule : minv_rule (sghmc_kernel c) sghmc_sim.
Proof.
  intros s d es eps ad gs xi (HA & _) HL _. cbn [k_minv k_step sghmc_kernel sghmc_step p_adapt].
  now apply holds_minv.
Qed.
Lemma sghmc_rule_mass : rule_mass rule.
Proof. intros eps ad g x e. reflexivity. Qed.
Lemma sghmc_sim_init : forall v, sghmc_sim (pinit v) (shape v) (map (start 0) (data v)).
Proof.
  intros v. unfold sghmc_sim, pinit. cbn [p_adapt p_mom p_vec p_val].
  split; [apply holds_init|]. rewrite n0_R, !map_map. cbn [theta momentum start].
  rewrite map_id. split; [|split; [reflexivity|now destruct v]].
  induction (data v) as [|x l IH]; [reflexivity|]. cbn. now rewrite IH.
Qed.
End SGHMC.

(** *** SGLD *)
Definition sgld_sim (s : lstate R) (d : list nat) (es : list entry) : Prop :=
  holds_averages (l_adapt s) es /\ l_vec s = map theta es /\ l_val s = Tensor d (map theta es).

Section SGLD.
Variable c : lconfig R.
Hypothesis Hs : 0 < l_scale_grad c.
Let rule := sgld_entry (l_A c) (l_scale_grad c).

Lemma sqrt_Rmax0 : forall x, sqrt (Rmax 0 x) = sqrt x.
Proof.
  intros x. destruct (Rle_dec 0 x) as [H|H]; [now rewrite Rmax_right|].
  rewrite Rmax_left by lra. rewrite sqrt_0. symmetry. apply sqrt_neg_0. lra.
Qed.

Lemma sgld_sim_step : forall s d es eps ad gs noise i, sgld_sim s d es -> length gs = length es ->
  sgld_sim (sgld_step c eps gs (map (fun k => noise (i + k)%nat) (seq 0 (length es))) (fed_for ad es) s)
    d (moved rule eps ad noise i gs es).
Proof.
  intros s d es eps ad gs noise i (HA & HV & HP) HL.
  assert (Hmu := holds_minv _ _ ad gs HA HL).
  set (xi := map (fun k => noise (i + k)%nat) (seq 0 (length es))).
  assert (Lxi : length xi = length es) by (unfold xi; now rewrite map_length, seq_length).
  set (s' := sgld_step c eps gs xi (fed_for ad es) s).
  assert (PT : forall k g e, nth_error gs k = Some g -> nth_error es k = Some e ->
     nth_error (l_vec s') k = Some (theta (rule eps ad g (noise (i + k)%nat) e))).
  { intros k g e Hg He.
    assert (Hk : (k < length es)%nat) by (apply nth_error_Some; congruence).
    destruct (sgld_step_entry c eps gs xi (fed_for ad es) s k g (noise (i + k)%nat) (mass_of ad e) (theta e)) as (A & _).
    - exact Hg.
    - unfold xi. now rewrite nth_error_map_seq.
    - rewrite Hmu, nth_error_map, He. reflexivity.
    - now rewrite HV, nth_error_map, He.
    - fold s' in A. rewrite A. unfold rule, sgld_entry. cbn [theta].
      rewrite lsigma_R by exact Hs. cbn [nadd nsub nmul nopp Num_R].
      unfold sgld_theta. rewrite sqrt_Rmax0. unfold sgld_drift. f_equal; ring. }
  assert (LM : length (l_vec s') = length es).
  { assert (Lm : length (minv_used (fed_for ad es) (adapt_step gs (l_adapt s))) = length es)
      by (rewrite Hmu; apply map_length).
    assert (Lv : length (l_vec s) = length es) by (rewrite HV; apply map_length).
    unfold s', sgld_step. cbn [l_vec].
    repeat first [apply vmap2_length | rewrite map_length]; auto. }
  assert (EV : l_vec s' = map theta (moved rule eps ad noise i gs es)).
  { apply nth_error_ext; intros k; rewrite nth_error_map, nth_error_moved by exact HL;
    destruct (nth_error gs k) as [g|] eqn:Eg.
    all: try (destruct (nth_error es k) as [e|] eqn:Ee; [cbn; now apply PT|
      exfalso; apply nth_error_None in Ee; assert (k < length gs)%nat by (apply nth_error_Some; congruence); lia]).
    all: apply nth_error_None in Eg; apply nth_error_None; lia. }
  split; [apply holds_step; auto|]. split; [exact EV|].
  rewrite <- EV. unfold s', sgld_step. cbn [l_val l_vec]. now rewrite HP.
Qed.

Lemma sgld_minv_rule : minv_rule (sgld_kernel c) sgld_sim.
Proof.
  intros s d es eps ad gs xi (HA & _) HL _. cbn [k_minv k_step sgld_kernel sgld_step l_adapt].
  now apply holds_minv.
Qed.
Lemma sgld_rule_mass : rule_mass rule.
Proof. intros eps ad g x e. reflexivity. Qed.
Lemma sgld_sim_init : forall v, sgld_sim (linit v) (shape v) (map (start 0) (data v)).
Proof.
  intros v. unfold sgld_sim, linit. cbn [l_adapt l_vec l_val].
  split; [apply holds_init|]. rewrite !map_map. cbn [theta start].
  rewrite map_id. split; [reflexivity|now destruct v].
Qed.
End SGLD.

(** *** Relativistic SGHMC, for parameters with one element *)
Definition rel_sim (s : rstate R) (d : list nat) (es : list entry) : Prop :=
  exists e, es = [e] /\ r_mom s = momentum e /\ r_vec s = [theta e] /\ r_val s = Tensor d [theta e].

Section Rel.
Variable c : rconfig R.
Let rule := relativistic_entry (r_mass c) (r_c c) (r_D c) (r_bhat c).

Lemma rel_velocity_spec : forall eps p,
  rel_velocity c eps p = eps * relativistic_velocity (r_mass c) (r_c c) p.
Proof.
  intros eps p. unfold rel_velocity, relativistic_velocity. rewrite !npow_R, n1_R.
  cbn [nadd nmul ndiv nsqrt Num_R].
  replace ((r_mass c * r_c c) ^ 2) with (r_mass c ^ 2 * r_c c ^ 2) by ring.
  replace (p ^ 2) with (p * p) by ring. unfold Rdiv. ring.
Qed.

Lemma rel_sim_step : forall s d es eps ad gs noise i, rel_sim s d es -> length gs = length es ->
  rel_sim (k_step (rel_kernel c) eps gs (map (fun k => noise (i + k)%nat) (seq 0 (length es))) (fed_for ad es) s)
    d (moved rule eps ad noise i gs es).
Proof.
  intros s d es eps ad gs noise i (e & -> & HM & HV & HP) HL.
  destruct gs as [|g [|]]; try discriminate HL. cbn [moved length seq map].
  exists (rule eps ad g (noise i) e). split; [reflexivity|].
  assert (PM : r_mom (rel_step c eps [nopp g] [noise (i + 0)%nat] s) = momentum (rule eps ad g (noise i) e)).
  { unfold rel_step, vmap2. cbn [r_mom map combine hd]. rewrite HM, rel_velocity_spec.
    unfold rule, relativistic_entry. cbn [momentum]. unfold rel_noise_scale. rewrite n2_R.
    cbn [nadd nsub nmul nopp nsqrt Num_R]. rewrite Nat.add_0_r. ring. }
  cbn [k_step rel_kernel map].
  split; [exact PM|].
  assert (PV : r_vec (rel_step c eps [nopp g] [noise (i + 0)%nat] s) = [theta (rule eps ad g (noise i) e)]).
  { change (r_vec (rel_step c eps [nopp g] [noise (i + 0)%nat] s)) with
      (map (fun x => nadd x (rel_velocity c eps (r_mom (rel_step c eps [nopp g] [noise (i + 0)%nat] s)))) (r_vec s)).
    rewrite PM, HV, rel_velocity_spec. reflexivity. }
  split; [exact PV|].
  change (r_val (rel_step c eps [nopp g] [noise (i + 0)%nat] s)) with
    (Tensor (shape (r_val s)) (r_vec (rel_step c eps [nopp g] [noise (i + 0)%nat] s))).
  now rewrite PV, HP.
Qed.
Lemma rel_sim_init : forall v p x, data v = [x] -> rel_sim (rinit v p) (shape v) [start p x].
Proof. intros [d l] p x Hx. cbn in Hx. subst l. exists (start p x). auto. Qed.
End Rel.
