(** Complete runs of SGHMC and SGLD in double precision, for C102. *)
From Coq Require Import List Arith Reals ZArith Lra Lia.
From Flocq Require Import Core.Core.
From Flocq Require IEEE754.BinarySingleNaN.
From Verif.Proofs Require Import SafeFloat FloatCell.
From Verif.Base Require Import Py Num Float64 Vec Lists.
From Verif.Model Require Import TensorUtils BurnIn SGHMC SGLD Stepsize BaseClasses Session.
From Verif.Spec Require Import Sampler Trajectory Doubles.
From Verif.Proofs Require Import Dynamics Sampler SamplerHistory Session Trajectory DoubleCell.
From Verif.Props Require Import PSampler.
Import ListNotations.
Local Open Scope nat_scope.

Lemma small_bounded : forall x e, small x e <-> bounded64 e x.
Proof.
  intros x e. split.
  - intros [a [[F V] B]]. split; [exact F|]. now rewrite V.
  - intros [F B]. exists (value x). repeat split; auto.
Qed.
Lemma Forall_nth : forall A (P : A -> Prop) l, (forall i x, nth_error l i = Some x -> P x) <-> Forall P l.
Proof.
  intros A P l. rewrite Forall_forall. split; intros H.
  - intros x Hx. apply In_nth_error in Hx as [i Hi]. eauto.
  - intros i x Hi. apply H. eapply nth_error_In; eauto.
Qed.

Lemma some_inj : forall A (x y : A), Some x = Some y -> x = y. Proof. intros A x y H. now injection H. Qed.

(** *** One step of one parameter *)
Definition cell_good (t : nat) (k : cell f64) : Prop := exists k', cell_fits k k' /\ okd t k' /\ vbound t (c_vhat k').
Lemma cell_good_init : cell_good 0 cell_init.
Proof. exists (@cell_init R N64). split; [apply cell_fits_init|]. split; [apply (ok_init 53 (-1074)); lia|apply vbound_init]. Qed.
Lemma cell_good_step : forall t k x, fewd (S t) -> cell_good t k -> small x 400 -> cell_good (S t) (cell_step x k) /\ small (c_minv (cell_step x k)) 54.
Proof.
  intros t k x HF (k' & H1 & H2 & H3) [a Ha]. split.
  - exists (@cell_step R N64 a k'). split; [eapply cell_fits_step; eauto|]. split; [eapply okd_step; eauto|eapply vbound_step; eauto].
  - exists (c_minv (@cell_step R N64 a k')). eapply minv_fits; eauto.
Qed.
Definition adapt_good (t : nat) (a : adapt f64) : Prop := forall i k, at_index a i k -> cell_good t k.
Lemma at_index_det : forall (a : adapt f64) i k k', at_index a i k -> at_index a i k' -> k = k'.
Proof.
  intros a i [? ? ? ? ?] [? ? ? ? ?] (H1 & H2 & H3 & H4 & H5) (E1 & E2 & E3 & E4 & E5). cbn in *. f_equal; congruence.
Qed.
Lemma adapt_good_init : forall n, adapt_good 0 (adapt_init n).
Proof.
  intros n i k Hk. assert (Hi : i < n).
  { destruct Hk as (H & _). unfold adapt_init in H. cbn [a_tau] in H. rewrite <- (repeat_length (@n1 f64 _) n). apply nth_error_Some. congruence. }
  rewrite (at_index_det _ _ _ _ Hk (at_index_init n i Hi)). apply cell_good_init.
Qed.
Lemma adapt_good_step : forall n t a grad, adapt_len n a -> length grad = n -> fewd (S t) -> adapt_good t a -> Forall (bounded64 400) grad ->
  adapt_good (S t) (adapt_step grad a) /\ Forall (bounded64 54) (a_minv (adapt_step grad a)).
Proof.
  intros n t a grad HL Hg HF HA HG. pose proof (adapt_len_step n a grad HL Hg) as HL'.
  assert (P : forall i, i < n -> exists k, at_index (adapt_step grad a) i k /\ cell_good (S t) k /\ small (c_minv k) 54).
  { intros i Hi. destruct (at_index_exists n a i HL Hi) as [k Hk]. destruct (nth_error_lt _ grad i) as [x Hx]; [lia|].
    exists (cell_step x k). split; [now apply at_index_step|]. apply cell_good_step; auto; [eauto|]. apply small_bounded. rewrite Forall_forall in HG. apply HG. eapply nth_error_In; eauto. }
  destruct HL' as (L1 & _ & _ & _ & L5). split.
  - intros i k Hk. assert (Hi : i < n) by (rewrite <- L1; apply nth_error_Some; destruct Hk as (Hk & _); congruence).
    destruct (P i Hi) as (k' & Hk' & G & _). now rewrite (at_index_det _ _ _ _ Hk Hk').
  - apply Forall_nth. intros i x Hx. assert (Hi : i < n) by (rewrite <- L5; apply nth_error_Some; congruence).
    destruct (P i Hi) as (k' & (_ & _ & _ & _ & Hk') & _ & G). rewrite Hx in Hk'. injection Hk' as ->. now apply small_bounded.
Qed.

Definition moderate_input (i : step_input f64) : Prop :=
  bounded64 0 (i_eps i) /\ Forall (bounded64 400) (i_grad i) /\ Forall (bounded64 10) (i_xi i) /\
  match i_fed i with Some m => Forall (bounded64 54) m | None => True end.

(** [good j t s]: state [s] of parameter [j] after [t] runs; [ep]: the stepsizes allowed. *)
Record steady (K : kernel (T:=f64)) (ep : f64 -> Prop) (inv : nat -> k_state K -> Prop) (good : nat -> nat -> k_state K -> Prop) : Prop := {
  st_sized : kernel_sized K inv;
  st_step : forall j n t s i, inv n s -> sized n i -> good j t s -> fewd (S t) -> moderate_input i -> ep (i_eps i) ->
    let s' := k_step K (i_eps i) (i_grad i) (i_xi i) (i_fed i) s in
    good j (S t) s' /\ Forall (bounded64 54) (k_minv K (i_fed i) s');
  st_value : forall j n t s, inv n s -> good j t s -> fewd t -> Forall (bounded64 503) (data (k_value K s)) }.

Lemma used_masses : forall n t a i, adapt_len n a -> sized n i -> fewd (S t) -> adapt_good t a -> moderate_input i ->
  Forall (bounded64 54) (minv_used (i_fed i) (adapt_step (i_grad i) a)) /\ adapt_good (S t) (adapt_step (i_grad i) a).
Proof.
  intros n t a i HL (L1 & _) HF HA (_ & HG & _ & HM). destruct (adapt_good_step n t a (i_grad i) HL L1 HF HA HG) as [G M].
  split; [|exact G]. unfold minv_used. now destruct (i_fed i).
Qed.

Definition sghmc_good (t : nat) (s : pstate f64) : Prop :=
  adapt_good t (p_adapt s) /\ Forall (mom_bound t) (p_mom s) /\ Forall (vec_bound t) (p_vec s).
Lemma sghmc_steady : forall c, between64 1 (bpow radix2 900) (scale_grad c) -> between64 0 1 (mdecay c) ->
  steady (sghmc_kernel c) (fun _ => True) sghmc_inv (fun _ => sghmc_good).
Proof.
  intros c [S1 S2] [D1 D2].
  assert (HS : scale (scale_grad c)) by (exists (value (scale_grad c)); split; [now split|exact S2]).
  assert (HD : damping (mdecay c)) by (exists (value (mdecay c)); split; [now split|exact D2]).
  assert (Hd : small (mdecay c) 0).
  { exists (value (mdecay c)). split; [now split|]. change (p2 0) with 1%R. rewrite Rabs_right; lra. }
  split; [apply sghmc_kernel_sized| |]; cbn [k_state k_value k_step k_minv sghmc_kernel].
  - intros _ n t s i [(LA & LM & LV) _] Hs (GA & GM & GV) HF Hi _.
    assert (HFt : fewd t) by (apply (few_le 53 t (S t)); auto).
    destruct (used_masses n t (p_adapt s) i LA Hs HF GA Hi) as [GU GA']. destruct Hi as (He & HG & HX & _). destruct Hs as (L1 & L2 & L3).
    pose proof (adapt_len_step n _ _ LA L1) as LA'.
    assert (Lm : length (minv_used (i_fed i) (adapt_step (i_grad i) (p_adapt s))) = n) by (now apply minv_used_len).
    cbn zeta. split; [|exact GU]. unfold sghmc_good, sghmc_step. cbn [p_adapt p_mom p_vec]. split; [exact GA'|].
    set (m := minv_used _ _) in *. rewrite Forall_forall in GM, GV, GU, HG, HX. apply small_bounded in He.
    assert (P : forall j, j < n -> exists v, nth_error (vmap2 nadd (p_mom s) (vmap2 nadd (vmap2 nsub (vmap2 nmul (map (fun x => (nopp (npow (i_eps i) 2) * x)%num) m) (i_grad i)) (map (fun v => (mdecay c * v)%num) (p_mom s))) (vmap2 nmul (map (sigma c (i_eps i)) m) (i_xi i)))) j = Some v /\ mom_bound (S t) v).
    { intros j Hj. destruct (nth_error_lt _ m j) as [mj Em]; [lia|]. destruct (nth_error_lt _ (p_mom s) j) as [vj Ev]; [lia|].
      destruct (nth_error_lt _ (i_grad i) j) as [gj Eg]; [lia|]. destruct (nth_error_lt _ (i_xi i) j) as [xj Ex]; [lia|].
      eexists. split; [rewrite !nth_error_vmap2, !nth_error_map, Em, Ev, Eg, Ex; reflexivity|].
      pose proof (proj2 (small_bounded _ _) (GU _ (nth_error_In _ _ Em))) as Bm. pose proof (proj2 (small_bounded _ _) (HG _ (nth_error_In _ _ Eg))) as Bg.
      pose proof (proj2 (small_bounded _ _) (HX _ (nth_error_In _ _ Ex))) as Bx.
      apply mom_step; [exact HFt|apply GM; eapply nth_error_In; eauto|exact HD| |].
      - apply (small_mul _ _ 54 400); [|exact Bg|lia|lia]. apply (small_mul _ _ 0 54); [|exact Bm|lia|lia]. apply small_opp.
        change (npow (i_eps i) 2) with (nmul (i_eps i) (i_eps i)). apply (small_mul _ _ 0 0); auto; lia.
      - apply (small_mul _ _ 29 10); [now apply sigma_small|exact Bx|lia|lia]. }
    match goal with |- Forall _ ?M /\ _ => assert (LM' : length M = n) end.
    { apply vmap2_length; [exact LM|]. apply vmap2_length; [apply vmap2_length; [apply vmap2_length|]|apply vmap2_length]; rewrite ?map_length; auto. }
    split; apply Forall_nth.
    + intros j v Hv. destruct (P j) as (v' & Ev & Bv); [rewrite <- LM'; apply nth_error_Some; congruence|]. rewrite Hv in Ev. now injection Ev as ->.
    + intros j x Hx. rewrite nth_error_vmap2 in Hx. destruct (nth_error (p_vec s) j) as [y|] eqn:Ey; [|discriminate Hx].
      destruct (P j) as (v' & Ev & Bv); [rewrite <- LV; apply nth_error_Some; congruence|]. rewrite Ev in Hx. injection Hx as <-.
      apply vec_step; [exact HFt|apply GV; eapply nth_error_In; eauto|]. now apply (mom_small (S t)).
  - intros _ n t s [_ ->] (_ & _ & GV) HF. eapply Forall_impl; [|exact GV]. cbn beta. intros x Hx. apply small_bounded. now apply (vec_small t).
Qed.

Definition sgld_good (t : nat) (s : lstate f64) : Prop := adapt_good t (l_adapt s) /\ Forall (vec_bound t) (l_vec s).
Lemma sgld_steady : forall c, between64 1 (bpow radix2 900) (l_scale_grad c) -> bounded64 10 (l_A c) ->
  steady (sgld_kernel c) (fun _ => True) sgld_inv (fun _ => sgld_good).
Proof.
  intros c [S1 S2] HA.
  assert (HS : scale (l_scale_grad c)) by (exists (value (l_scale_grad c)); split; [now split|exact S2]).
  apply small_bounded in HA.
  split; [apply sgld_kernel_sized| |]; cbn [k_state k_value k_step k_minv sgld_kernel].
  - intros _ n t s i [(LA & LV) _] Hs (GA & GV) HF Hi _.
    assert (HFt : fewd t) by (apply (few_le 53 t (S t)); auto).
    destruct (used_masses n t (l_adapt s) i LA Hs HF GA Hi) as [GU GA']. destruct Hi as (He & HG & HX & _). destruct Hs as (L1 & L2 & L3).
    pose proof (adapt_len_step n _ _ LA L1) as LA'.
    assert (Lm : length (minv_used (i_fed i) (adapt_step (i_grad i) (l_adapt s))) = n) by (now apply minv_used_len).
    cbn zeta. split; [|exact GU]. unfold sgld_good, sgld_step. cbn [l_adapt l_vec]. split; [exact GA'|].
    set (m := minv_used _ _) in *. rewrite Forall_forall in GV, GU, HG, HX. apply small_bounded in He.
    apply Forall_nth. intros j x Hx. rewrite !nth_error_vmap2, !nth_error_map in Hx.
    destruct (nth_error (l_vec s) j) as [y|] eqn:Ey; [|discriminate Hx]. assert (Hj : j < n) by (rewrite <- LV; apply nth_error_Some; congruence).
    destruct (nth_error_lt _ m j) as [mj Em]; [lia|]. destruct (nth_error_lt _ (i_grad i) j) as [gj Eg]; [lia|]. destruct (nth_error_lt _ (i_xi i) j) as [xj Ex]; [lia|].
    rewrite Em, Eg, Ex in Hx. cbn [option_map] in Hx. apply some_inj in Hx. subst x.
    pose proof (proj2 (small_bounded _ _) (GU _ (nth_error_In _ _ Em))) as Bm. pose proof (proj2 (small_bounded _ _) (HG _ (nth_error_In _ _ Eg))) as Bg.
    pose proof (proj2 (small_bounded _ _) (HX _ (nth_error_In _ _ Ex))) as Bx.
    apply vec_step; [exact HFt|apply GV; eapply nth_error_In; eauto|]. apply (small_add _ _ 464 70); [| |lia|lia|lia].
    + apply (small_mul _ _ 64 400); [|exact Bg|lia|lia]. apply (small_mul _ _ 54 10); [|exact HA|lia|lia]. apply (small_mul _ _ 0 54); [now apply small_opp|exact Bm|lia|lia].
    + apply (small_mul _ _ 60 10); [now apply lsigma_small|exact Bx|lia|lia].
  - intros _ n t s [_ ->] (_ & GV) HF. eapply Forall_impl; [|exact GV]. cbn beta. intros x Hx. apply small_bounded. now apply (vec_small t).
Qed.

(** *** Overflow of a squared gradient *)
Definition inf : f64 := BinarySingleNaN.B754_infinity false.
Definition nan : f64 := BinarySingleNaN.B754_nan.
Lemma square_overflow : forall x : f64, finite x -> (p2 512 <= Rabs (value x))%R -> nmul x x = inf.
Proof.
  intros x Fx Hx. pose proof (BinarySingleNaN.Bmult_correct 53 1024 prec64 emax64 BinarySingleNaN.mode_NE x x) as C.
  rewrite Rlt_bool_false in C.
  - destruct (BinarySingleNaN.Bsign x); cbn [xorb] in C; change (@nmul f64 _ x x) with (BinarySingleNaN.Bmult BinarySingleNaN.mode_NE x x);
      destruct (BinarySingleNaN.Bmult BinarySingleNaN.mode_NE x x) as [[|]|[|]| |[|] ? ? ?]; try discriminate C; reflexivity.
  - change (huge <= Rabs (rnd64 (value x * value x)))%R. eapply Rle_trans; [|apply Rle_abs]. unfold huge.
    rewrite <- (rnd64_id _ (format64_bpow 1024 ltac:(lia))). apply rnd64_mono. change (bpow radix2 1024) with (p2 (512 + 512)). rewrite p2_plus.
    pose proof (p2_pos 512). destruct (Rcase_abs (value x)) as [L|L]; [rewrite Rabs_left in Hx by exact L|rewrite Rabs_right in Hx by exact L]; nra.
Qed.
Lemma pos_inf : forall x a, rep x a -> (0 < a)%R -> nmul x inf = inf /\ nmul (nopp x) inf = nopp inf.
Proof.
  intros x a [F V] Ha. destruct x as [s|s| |[|] m e H]; try discriminate F.
  - unfold value in V. cbn in V. lra.
  - exfalso. unfold value in V. cbn in V. pose proof (F2R_lt_0 radix2 (Float radix2 (Z.neg m) e) eq_refl). lra.
  - split; reflexivity.
Qed.
Lemma add_inf : forall x : f64, finite x -> nadd x inf = inf.
Proof. intros [s|s| |s m e H] F; try discriminate F; reflexivity. Qed.
Lemma rate_pos : forall (tau : f64) a, rep tau a -> (1 / 2 <= a <= p2 21)%R -> exists r, rep (ndiv n1 (nadd tau n1)) r /\ (0 < r <= 1)%R.
Proof.
  intros tau a H Ha. assert (FA : fits tau a 21) by (split; [exact H|rewrite Rabs_right; lra]).
  pose proof (fits_add tau n1 a 1 21 0 22 FA ltac:(rewrite <- N1; apply fits_1) ltac:(lia) ltac:(lia) ltac:(lia)) as [RS BS].
  cbn [nadd N64 Num_rounded] in RS, BS. change (round radix2 (FLT_exp (-1074) 53) ZnearestE) with rnd64 in RS, BS. set (s := rnd64 (a + 1)) in *.
  assert (S1 : (1 <= s)%R) by (unfold s; rewrite <- (rnd64_Z 1) at 1 by reflexivity; apply rnd64_mono; lra).
  rewrite Rabs_right in BS by lra. exists (rnd64 (1 / s)).
  assert (Q : (p2 (-22) <= 1 / s <= 1)%R).
  { split; [|apply (Rmult_le_reg_r s); [lra|]; field_simplify; lra]. unfold Rdiv. rewrite Rmult_1_l. unfold p2. change (-22)%Z with (- (22))%Z. rewrite bpow_opp. apply Rinv_le_contravar; [lra|exact BS]. }
  split; [|split].
  - apply rep_div; [apply rep_1|exact RS|lra|]. apply (below_huge 0); [lia|]. cbn. pose proof (p2_pos (-22)). rewrite Rabs_right; lra.
  - apply Rlt_le_trans with (p2 (-22)); [apply p2_pos|]. unfold p2 at 1. rewrite <- (rnd64_id _ (format64_bpow (-22) ltac:(lia))). apply rnd64_mono, Q.
  - rewrite <- (rnd64_Z 1) at 2 by reflexivity. apply rnd64_mono, Q.
Qed.
(** An infinite second moment, or one that is NaN, in a cell whose window is still fine. *)
Definition doomed (k : cell f64) : Prop := (c_vhat k = inf /\ exists a, rep (c_tau k) a /\ (1 / 2 <= a <= p2 21)%R) \/ c_vhat k = nan.
Lemma overflow_dooms : forall t k x, fewd (S t) -> cell_good t k -> finite x -> (p2 512 <= Rabs (value x))%R -> doomed (cell_step x k).
Proof.
  intros t k x HF HG Fx Hx. left. assert (HFt : fewd t) by (apply (few_le 53 t (S t)); auto). pose proof (cell_good_step t k n0 HF HG ltac:(eexists; apply fits_0)) as [(k1 & (T1 & _) & [OT _ _ _ _ _] & _) _].
  destruct HG as (k' & HC & HO & HV). split.
  - pose proof HO as [Ht _ _ _ _ _]. pose proof (fewd_INR t HFt) as HT. destruct (rate_pos (c_tau k) (c_tau k') (proj1 HC)) as (r & Hr & Pr); [lra|].
    unfold cell_step. cbn [c_vhat]. change (npow x 2) with (nmul x x). rewrite (square_overflow x Fx Hx). rewrite (proj1 (pos_inf _ _ Hr (proj1 Pr))).
    pose proof (ft_v t k k' HF HC HO HV) as FV.
    assert (FR : fits (nopp (ndiv n1 (nadd (c_tau k) n1))) (- r)%R 0).
    { split; [now apply rep_opp|]. rewrite Rabs_Ropp, Rabs_right by lra. apply Pr. }
    pose proof (fits_mul _ _ _ _ 0 801 801 FR FV ltac:(lia) ltac:(lia)) as [[F1 _] _]. destruct FV as [[F2 _] _].
    rewrite (add_inf _ F1). apply (add_inf _ F2).
  - exists (c_tau k1). split; [exact T1|]. pose proof (fewd_INR (S t) HF). lra.
Qed.
Lemma nan_stays : forall (k : cell f64) x, c_vhat k = nan -> c_vhat (cell_step x k) = nan.
Proof. intros k x H. unfold cell_step. cbn [c_vhat]. rewrite H. generalize (ndiv n1 (nadd (c_tau k) n1)), (nmul (ndiv n1 (nadd (c_tau k) n1)) (npow x 2)). intros r y. reflexivity. Qed.
Lemma doomed_step : forall (k : cell f64) x, doomed k -> c_vhat (cell_step x k) = nan.
Proof.
  intros k x [[H (a & Ha & Ba)]|H]; [|now apply nan_stays]. unfold cell_step. cbn [c_vhat]. rewrite H.
  destruct (rate_pos _ _ Ha Ba) as (r & Hr & Pr). rewrite (proj2 (pos_inf _ _ Hr (proj1 Pr))).
  generalize (nmul (ndiv n1 (nadd (c_tau k) n1)) (npow x 2)). intros [[|]|[|]| |[|] ? ? ?]; reflexivity.
Qed.
Lemma nan_mass : forall (k : cell f64) x, c_vhat k = nan -> spoilt (c_minv (cell_step x k)).
Proof.
  intros k x H. unfold cell_step. cbn [c_minv]. rewrite H. unfold safe_divide, safe_divide_with. 
  assert (E : safe_sqrt nan = nan) by reflexivity. rewrite E. unfold safe_divisor.
  generalize (nadd (nmul (nmul n2 (nsign nan)) small_constant) (@small_constant f64 _)). intros y. change (nadd nan y) with nan. generalize (@n1 f64 _). intros [[|]|[|]| |[|] ? ? ?]; reflexivity.
Qed.

(** *** Complete runs *)
Section Runs.
Variable stream : Z * Z -> nat -> f64.
Variable reserve : nat -> nat.
Variable K : kernel (T:=f64).
Variable cg : @objective f64.
Variable B : Type.
Variable bg : option (B -> res (list (nat * tensor f64)) * B).
Variable sc : schedule (tensor f64) (sample (tensor f64) * tensor f64).
Let E := sampler_env stream reserve K cg B bg sc.
Variable ep : f64 -> Prop.
Variable inv : nat -> k_state K -> Prop.
Variable good : nat -> nat -> k_state K -> Prop.
Hypothesis HS : steady K ep inv good.
Hypothesis Hxi : forall key i, bounded64 10 (stream key i).

(** All parameters of the session after [t] runs. *)
Definition sess_good (t : nat) (z : sess K) : Prop :=
  forall j s o, nth_error (z_params K z) j = Some (s, o) -> inv (length (data (k_value K s))) s /\ good j t s.

Lemma sess_good_values : forall t z, fewd t -> sess_good t z -> Forall (bounded_tensor 503) (values K z).
Proof.
  intros t z HF HG. apply Forall_nth. intros j v Hv. unfold values in Hv. rewrite nth_error_map in Hv.
  destruct (nth_error (z_params K z) j) as [[s o]|] eqn:Ej; [|discriminate Hv]. injection Hv as <-. cbn [fst].
  destruct (HG j s o Ej) as [Hi Hg]. exact (st_value _ _ _ _ HS _ _ _ _ Hi Hg HF).
Qed.
Lemma sess_good_run : forall t f z r z', fewd (S t) -> sess_good t z -> calm K cg z f -> ep (fed_eps K f z) ->
  (forall i m, lookup f (KMinv i) = Some m -> bounded_tensor 54 m) ->
  session_run_model stream reserve K cg f z = (r, z') ->
  match r with
  | Ok o => sess_good (S t) z' /\ o_theta o = values K z' /\ Forall (bounded_tensor 54) (o_minv o)
  | Raise _ => z' = z
  end.
Proof.
  intros t f z r z' HF HG [He Hc] HP HM HR. unfold session_run_model in HR.
  destruct (cg (values K z) (fun n => lookup f (KUser n))) as [[c gs]|e]; [|now injection HR as <- <-].
  specialize (Hc c gs eq_refl).
  destruct (run_params stream reserve K (fed_eps K f z) f 0 gs (z_params K z)) as [[ms ps]|e] eqn:Er; [|now injection HR as <- <-].
  injection HR as <- <-. destruct (run_params_nth _ _ _ _ _ _ _ _ _ _ Er) as (L1 & L2 & HN).
  assert (P : forall j s o, nth_error (z_params K z) j = Some (s, o) -> exists s' o' m, nth_error ps j = Some (s', o') /\ nth_error ms j = Some m /\
    inv (length (data (k_value K s'))) s' /\ good j (S t) s' /\ bounded_tensor 54 m).
  { intros j s o Hj. destruct (HN j s o Hj) as (g & Hg & Hs & Hq & Hm). cbn zeta in Hs, Hq, Hm. cbn [Nat.add] in *.
    destruct (HG j s o Hj) as [Hi Hgd].
    set (inp := StepInput _ _ _ _) in *.
    assert (MI : moderate_input inp).
    { split; [exact He|]. split; [|split].
      - rewrite Forall_forall in Hc. apply Hc. eapply nth_error_In; eauto.
      - unfold inp, draw. cbn [fst i_xi]. apply Forall_forall. intros x Hx. apply in_map_iff in Hx as (i & <- & _). apply Hxi.
      - unfold inp. cbn [i_fed]. destruct (lookup f (KMinv j)) as [m|] eqn:El; [|exact I]. cbn [option_map]. exact (HM j m El). }
    destruct (st_step _ _ _ _ HS _ _ _ _ _ Hi Hs Hgd HF MI HP) as [G M]. pose proof (proj2 (st_sized _ _ _ _ HS) _ _ _ Hi Hs) as Hi'.
    eexists _, _, _. split; [exact Hq|]. split; [exact Hm|]. split; [|split; [exact G|exact M]].
    rewrite (proj1 (st_sized _ _ _ _ HS) _ _ Hi'). exact Hi'. }
  split; [|split; [reflexivity|]].
  - intros j s' o' Hj. cbn [z_params] in Hj. assert (Lj : j < length (z_params K z)) by (rewrite <- L1; apply nth_error_Some; congruence).
    destruct (nth_error_lt _ _ _ Lj) as [[s o] E0]. destruct (P j s o E0) as (s1 & o1 & m & Q1 & _ & Q3 & Q4 & _). rewrite Hj in Q1. injection Q1 as -> ->. auto.
  - cbn [o_minv]. apply Forall_nth. intros j m Hj. assert (Lj : j < length (z_params K z)) by (rewrite <- L2; apply nth_error_Some; congruence).
    destruct (nth_error_lt _ _ _ Lj) as [[s o] E0]. destruct (P j s o E0) as (s1 & o1 & m1 & _ & Q2 & _ & _ & Q5). rewrite Hj in Q2. now injection Q2 as ->.
Qed.

(** A call executes at most one run. *)
Lemma outcome_one_run : forall base fmt r ev, step_outcome E base fmt r ev -> runs ev = [] \/ exists f ro, runs ev = [(f, ro)].
Proof.
  intros base fmt r ev HO. assert (P : forall evb b rest, batch_events E evb b -> runs (evb ++ rest) = runs rest).
  { intros evb b rest Hb. unfold runs. rewrite flat_map_app. unfold batch_events in Hb. destruct (bg_next E); [|destruct Hb as [Hb _]]; subst evb; reflexivity. }
  inversion HO as [e Hne Hr He|evb bb e Hbe Hr He|evb bb eps ff e Hbe Hfe Hr He|evb bb eps ff o e Hbe Hfe Hr He|evb bb eps ff o Hbe Hfe Hr He]; subst;
    [left; reflexivity|rewrite (P _ _ _ Hbe); left; reflexivity|rewrite (P _ _ _ Hbe); right; cbn; eauto..].
Qed.

Definition calm_call (c : call_record E) : Prop :=
  moderate_feed (cr_user E c) /\ forall f r, In (f, r) (runs (cr_events E c)) -> calm K cg (s_sess E (cr_pre E c)) f /\ ep (fed_eps K f (s_sess E (cr_pre E c))).

Lemma sess_good_call : forall base fmt t (s s1 : state E) r ev,
  step_spec E base fmt s s1 r ev -> fewd (S t) -> sess_good t (s_sess E s) ->
  (forall i m, lookup base (KMinv i) = Some m -> bounded_tensor 54 m) ->
  (forall f r, In (f, r) (runs ev) -> calm K cg (s_sess E s) f /\ ep (fed_eps K f (s_sess E s))) ->
  exists t', t <= t' <= S t /\ sess_good t' (s_sess E s1) /\
  match runs ev with [(_, Ok o)] => o_theta o = values K (s_sess E s1) /\ Forall (bounded_tensor 54) (o_minv o) | _ => True end.
Proof.
  intros base fmt t s s1 r ev [SO _ _ _ SS] HF HG HB HC. destruct (outcome_one_run _ _ _ _ SO) as [Er|(f & ro & Er)].
  - rewrite Er in *. cbn in SS. injection SS as <-. exists t. split; [lia|]. split; [exact HG|exact I].
  - assert (Hin : In (f, ro) (runs ev)) by (rewrite Er; now left).
    destruct (outcome_runs _ _ _ _ _ _ _ _ SO Hin) as (b & eps & evb & rest & (_ & _ & F3) & _).
    assert (HM : forall i m, lookup f (KMinv i) = Some m -> bounded_tensor 54 m) by (intros i m Hm; rewrite F3 in Hm; eauto).
    destruct (HC f ro Hin) as [HCf HPf]. rewrite Er in *. cbn [map fst snd run_all] in SS. destruct (run E f (s_sess E s)) as [r' z'] eqn:Ez. injection SS as -> <-.
    pose proof (sess_good_run t f (s_sess E s) ro z' HF HG HCf HPf HM Ez) as P. destruct ro as [o|e].
    + destruct P as (P1 & P2 & P3). exists (S t). split; [lia|]. split; [exact P1|]. now split.
    + subst z'. exists t. split; [lia|]. split; [exact HG|exact I].
Qed.

Variable z0 : sess K.
Hypothesis H0 : sess_good 0 z0.

Definition hist_good (burn : Z) (rs : list (call_record E)) (s : state E) : Prop :=
  Forall calm_call rs -> fewd (length rs) ->
  (exists t, t <= length rs /\ sess_good t (s_sess E s)) /\
  ((0 < burn)%Z -> forall m, minv E s = Some m -> Forall (bounded_tensor 54) m) /\
  Forall (fun c => forall f o, In (f, Ok o) (runs (cr_events E c)) -> Forall (bounded_tensor 503) (o_theta o) /\ exists t, sess_good t (s_sess E (cr_post E c)) /\ o_theta o = values K (s_sess E (cr_post E c))) rs.

Lemma fewd_le : forall t t', t <= t' -> fewd t' -> fewd t.
Proof. intros t t' L H. exact (few_le 53 t t' L H). Qed.

Lemma hist_good_step : forall burn rs (s : state E) base fmt u r s1 ev,
  hist_good burn rs s -> step_spec E base fmt s s1 r ev ->
  (moderate_feed u -> (forall m, (0 < burn)%Z -> minv E s = Some m -> Forall (bounded_tensor 54) m) -> forall i m, lookup base (KMinv i) = Some m -> bounded_tensor 54 m) ->
  ((0 < burn)%Z -> match runs ev with [(_, Ok o)] => minv E s1 = Some (o_minv o) \/ minv E s1 = minv E s | _ => minv E s1 = minv E s end) ->
  hist_good burn (rs ++ [{| cr_user := u; cr_pre := s; cr_res := r; cr_events := ev; cr_post := s1 |}]) s1.
Proof.
  intros burn rs s base fmt u r s1 ev HI SP HB HM HC HF. rewrite app_length in HF. cbn [length] in HF. rewrite Nat.add_1_r in HF.
  apply Forall_app in HC as [HC1 HC2]. inversion HC2 as [|? ? [HU HR] _]; subst. cbn [cr_user cr_events cr_pre] in *.
  destruct (HI HC1 (fewd_le _ _ (Nat.le_succ_diag_r _) HF)) as ((t & Ht & HG) & HMI & HT).
  assert (HFt : fewd (S t)) by (apply (fewd_le _ (S (length rs))); [lia|exact HF]).
  destruct (sess_good_call base fmt t s s1 r ev SP HFt HG (HB HU (fun m Hb => HMI Hb m)) HR) as (t' & Ht' & HG' & HO).
  split; [exists t'; rewrite app_length; cbn [length]; split; [lia|exact HG']|]. split.
  - intros Hb m Hm. specialize (HM Hb). destruct (runs ev) as [|[f [o|e]] [|]]; try (rewrite HM in Hm; now apply HMI).
    destruct HM as [HM|HM]; rewrite HM in Hm; [injection Hm as <-; apply HO|now apply HMI].
  - apply Forall_app. split; [exact HT|]. constructor; [|constructor]. cbn [cr_events cr_post]. intros f o Hin.
    destruct (outcome_one_run _ _ _ _ (ss_outcome _ _ _ _ _ _ _ SP)) as [Er|(f' & ro & Er)]; rewrite Er in *; [contradiction Hin|].
    destruct Hin as [Hin|[]]. injection Hin as -> ->. rewrite (proj1 HO). split; [|now exists t']. apply (sess_good_values t'); [|exact HG']. apply (fewd_le _ (S (length rs))); [lia|exact HF].
Qed.

Lemma hist_good_all : forall k us rs s' b0 c0, drive E (next_of E k) us (initial_state E b0 c0 z0) = (rs, s') -> exists burn, hist_good burn rs s'.
Proof.
  intros k us rs s' b0 c0 HD.
  destruct k as [|burn np].
    - exists 0%Z. revert HD. apply (drive_snoc_ind E (mcmc_next E) (hist_good 0)).
      + intros _ _. split; [exists 0; split; [cbn; lia|exact H0]|]. split; [intros; lia|constructor].
      + intros rs0 s u r s1 ev HI Hc. eapply hist_good_step; [exact HI|exact (mcmc_call E _ _ _ _ _ Hc)| |lia].
        intros HU _ i m Hm. destruct u as [f|]; [eapply HU; eauto; reflexivity|discriminate Hm].
    - exists burn. cut (burn_inv E burn b0 c0 z0 rs s' /\ hist_good burn rs s'); [tauto|].
      revert HD. apply (drive_snoc_ind E (burnin_next E burn np) (fun rs s => burn_inv E burn b0 c0 z0 rs s /\ hist_good burn rs s)).
      + split; [split; [apply hist_inv_init|cbn; lia]|]. intros _ _. split; [exists 0; split; [cbn; lia|exact H0]|]. split; [discriminate|constructor].
      + intros rs0 s u r s1 ev [BI HI] Hc. split; [eapply burn_inv_step; eauto|].
        assert (HUF : moderate_feed u -> forall i m, lookup (user_content u) (KMinv i) = Some m -> bounded_tensor 54 m).
        { intros HU i m Hm. destruct u as [f|]; [eapply HU; eauto; reflexivity|discriminate Hm]. }
        destruct (burnin_call E burn np b0 c0 z0 rs0 u s r s1 ev BI Hc) as [(Hlt & SP & HM)|[(Hle & SP)|(Hp & Hle & m & Hm & _ & Hm1 & SP)]].
        * eapply hist_good_step; [exact HI|exact SP|intros HU _; exact (HUF HU)|]. intros _. destruct (runs ev) as [|[f [o|e]] [|]]; auto.
        * eapply hist_good_step; [exact HI|exact SP|intros HU _; exact (HUF HU)|lia].
        * eapply hist_good_step; [exact HI|exact SP| |].
          -- intros _ HB i x Hx. specialize (HB m Hp Hm). rewrite lookup_minv_feed in Hx. destruct (i <? np); [|discriminate Hx].
             rewrite Forall_forall in HB. apply HB. eapply nth_error_In; eauto.
          -- intros _. rewrite Hm1, Hm. destruct (runs ev) as [|[f [o|e]] [|]]; auto.
Qed.
Lemma runs_bounded : forall k us rs s' b0 c0,
  drive E (next_of E k) us (initial_state E b0 c0 z0) = (rs, s') -> Forall calm_call rs -> fewd (length rs) ->
  forall c f o, In c rs -> In (f, Ok o) (runs (cr_events E c)) -> Forall (bounded_tensor 503) (o_theta o) /\ exists t, sess_good t (s_sess E (cr_post E c)) /\ o_theta o = values K (s_sess E (cr_post E c)).
Proof.
  intros k us rs s' b0 c0 HD HC HF. destruct (hist_good_all k us rs s' b0 c0 HD) as [burn HI]. destruct (HI HC HF) as (_ & _ & HT). intros c f o Hin Hr. rewrite Forall_forall in HT. exact (HT c Hin f o Hr).
Qed.
End Runs.
