(** C102: in double precision complete runs of SGHMC and SGLD stay finite as long as stepsizes, masses and gradients
    have reasonable sizes; a single gradient of size 2^512 or more during adaptation destroys its entry for good. *)
From Coq Require Import List Arith Lia ZArith Bool Reals Lra.
From Flocq Require Import Core.Core.
From Flocq Require IEEE754.BinarySingleNaN.
From Verif.Proofs Require Import FloatCell.
From Verif.Base Require Import Py Num Float64 Vec Lists.
From Verif.Model Require Import TensorUtils BurnIn SGHMC SGLD Stepsize BaseClasses Session.
From Verif.Spec Require Import Sampler Trajectory Doubles.
From Verif.Proofs Require Import Dynamics Sampler SamplerHistory Session Trajectory KernelHistory DoubleCell DoubleRun.
From Verif.Props Require Import PSampler PSpoilt.
Import ListNotations.
Local Open Scope nat_scope.

Lemma few_calls : forall t, (Z.of_nat t < 2 ^ 21)%Z -> fewd t.
Proof.
  intros t Ht. unfold fewd, few. change (bpow radix2 (- (53))) with (/ 9007199254740992)%R.
  assert (H : (INR t + 1 <= 2097152)%R).
  { rewrite <- S_INR, INR_IZR_INZ. change 2097152%R with (IZR (2 ^ 21)). apply IZR_le. lia. }
  pose proof (pos_INR t). nra.
Qed.

Lemma drive_users : forall V (E : env V) nx us s rs s', drive E nx us s = (rs, s') -> map (cr_user E) rs = us.
Proof.
  intros V E nx us. induction us as [|u us IH]; intros s rs s' HD; cbn [drive] in HD; [injection HD as <- _; reflexivity|].
  destruct (call E nx u s) as [[r s2] ev]. destruct (drive E nx us s2) as [rs1 s3] eqn:Ed. injection HD as <- _. cbn [map cr_user]. f_equal. eapply IH; eauto.
Qed.

Record adaptive (K : kernel (T:=f64)) (inv good : nat -> k_state K -> Prop) (ad : k_state K -> adapt f64) : Prop := {
  ad_steady : steady K (fun _ => True) inv (fun _ => good);
  ad_len : forall n s, inv n s -> adapt_len n (ad s);
  ad_step : forall n s i, inv n s -> sized n i -> ad (k_step K (i_eps i) (i_grad i) (i_xi i) (i_fed i) s) = adapt_step (i_grad i) (ad s);
  ad_good : forall t s, good t s -> adapt_good t (ad s);
  ad_spoil : forall n s i j m, inv n s -> sized n i -> i_fed i = None -> nth_error (a_minv (adapt_step (i_grad i) (ad s))) j = Some m -> spoilt m ->
    exists y, nth_error (data (k_value K (k_step K (i_eps i) (i_grad i) (i_xi i) (i_fed i) s))) j = Some y /\ spoilt y }.
#[local] Hint Resolve add_spoilt_l add_spoilt_r sub_spoilt_l sub_spoilt_r mul_spoilt_l mul_spoilt_r div_spoilt_l opp_spoilt : spoil.

Lemma moderate_start : forall K z0, moderate K z0 -> exists inv good ad, adaptive K inv good ad /\ sess_good K inv (fun _ => good) 0 z0.
Proof.
  assert (V0 : forall v, bounded_tensor 500 v -> Forall (vec_bound 0) (data v)).
  { intros v Hv. eapply Forall_impl; [|exact Hv]. cbn beta. intros x [F Bx]. exists (value x). split; [now split|]. cbn [INR]. unfold p2. lra. }
  intros K z0 H. destruct H as [c eps0 params ops HS HD HP|c eps0 params ops HS HA HP]; rewrite Forall_forall in HP.
  - exists sghmc_inv, sghmc_good, (@p_adapt f64). split.
    + split; [now apply sghmc_steady|now intros n s [(LA & _) _]|reflexivity|now intros t s (GA & _)|].
      intros n s i j m [(LA & LM & LV) _] (L1 & L2 & L3) Hf Hm Hb. cbn [k_value k_step sghmc_kernel]. unfold sghmc_step. rewrite Hf in *. cbn [p_val data minv_used].
      assert (Hj : j < n) by (pose proof (adapt_len_step n _ _ LA L1) as (_ & _ & _ & _ & L); rewrite <- L; apply nth_error_Some; congruence).
      destruct (nth_error_lt _ (p_mom s) j) as [v Ev]; [lia|]. destruct (nth_error_lt _ (p_vec s) j) as [x Ex]; [lia|].
      destruct (nth_error_lt _ (i_grad i) j) as [g Eg]; [lia|]. destruct (nth_error_lt _ (i_xi i) j) as [xi Exi]; [lia|].
      eexists. split; [rewrite !nth_error_vmap2, !nth_error_map, Hm, Ev, Ex, Eg, Exi; reflexivity|]. auto 8 with spoil.
    + intros j s o Hj. cbn [sghmc_session z_params] in Hj.
      assert (Hin : In (s, o) (combine (map pinit params) ops)) by (eapply nth_error_In; exact Hj). apply in_combine_l in Hin. apply in_map_iff in Hin as (v & <- & Hv).
      split; [apply sghmc_inv_init|]. split; [apply adapt_good_init|]. split; [|now apply V0, HP].
      cbn [pinit p_mom]. apply Forall_forall. intros x Hx. apply repeat_spec in Hx as ->. exists 0%R. split; [apply rep_0|]. rewrite Rabs_R0. cbn [INR]. lra.
  - exists sgld_inv, sgld_good, (@l_adapt f64). split.
    + split; [now apply sgld_steady|now intros n s [(LA & _) _]|reflexivity|now intros t s (GA & _)|].
      intros n s i j m [(LA & LV) _] (L1 & L2 & L3) Hf Hm Hb. cbn [k_value k_step sgld_kernel]. unfold sgld_step. rewrite Hf in *. cbn [l_val data minv_used].
      assert (Hj : j < n) by (pose proof (adapt_len_step n _ _ LA L1) as (_ & _ & _ & _ & L); rewrite <- L; apply nth_error_Some; congruence).
      destruct (nth_error_lt _ (l_vec s) j) as [x Ex]; [lia|].
      destruct (nth_error_lt _ (i_grad i) j) as [g Eg]; [lia|]. destruct (nth_error_lt _ (i_xi i) j) as [xi Exi]; [lia|].
      eexists. split; [rewrite !nth_error_vmap2, !nth_error_map, Hm, Ex, Eg, Exi; reflexivity|]. auto 8 with spoil.
    + intros j s o Hj. cbn [sgld_session z_params] in Hj.
      assert (Hin : In (s, o) (combine (map linit params) ops)) by (eapply nth_error_In; exact Hj). apply in_combine_l in Hin. apply in_map_iff in Hin as (v & <- & Hv).
      split; [apply sgld_inv_init|]. split; [apply adapt_good_init|]. now apply V0, HP.
Qed.

(** Up to about two million calls, with stepsizes at most 1, gradients at most 2^400 and noise at most 2^10, no sample
    ever contains an infinity or NaN; all entries stay below 2^503. *)
Theorem C102_runs_stay_finite :
  forall stream reserve K z0 cg B bg sc k us rs s' b0 c0,
  moderate K z0 -> (forall key i, bounded64 10 (stream key i)) -> Forall moderate_feed us ->
  let E := sampler_env stream reserve K cg B bg sc in
  drive E (next_of E k) us (initial_state E b0 c0 z0) = (rs, s') -> (Z.of_nat (length us) < 2 ^ 21)%Z ->
  (forall c f r, In c rs -> In (f, r) (runs (cr_events E c)) -> calm K cg (s_sess E (cr_pre E c)) f) ->
  forall c smp cost, In c rs -> cr_res E c = Ok (smp, cost) -> bounded_sample 503 smp.
Proof.
  intros stream reserve K z0 cg B bg sc k us rs s' b0 c0 HM Hxi HU E HD HL HC c smp cost Hin Hr.
  destruct (moderate_start K z0 HM) as (inv & good & ad & HA & HG).
  assert (HUs : map (cr_user E) rs = us).
  { exact (drive_users _ E _ _ _ _ _ HD). }
  assert (HC' : Forall (calm_call stream reserve K cg B bg sc (fun _ => True)) rs).
  { apply Forall_forall. intros c' Hc'. split; [|intros f r Hf; split; [now apply (HC c' f r)|exact I]]. rewrite Forall_forall in HU. apply HU. rewrite <- HUs. now apply in_map. }
  assert (HF : fewd (length rs)) by (apply few_calls; rewrite <- HUs, map_length in HL; exact HL).
  destruct (success_run E k us rs s' b0 c0 z0 c smp cost HD Hin Hr) as (f & o & Hf & Hv). unfold bounded_sample. rewrite Hv.
  apply (runs_bounded stream reserve K cg B bg sc (fun _ => True) inv (fun _ => good) (ad_steady _ _ _ _ HA) Hxi z0 HG k us rs s' b0 c0 HD HC' HF c f o Hin).
  fold E. rewrite Hf. now left.
Qed.

(** *** Overflow *)
Section Doom.
Variable stream : Z * Z -> nat -> f64.
Variable reserve : nat -> nat.
Variable K : kernel (T:=f64).
Variable cg : @objective f64.
Variable B : Type.
Variable bg : option (B -> res (list (nat * tensor f64)) * B).
Variable sc : schedule (tensor f64) (sample (tensor f64) * tensor f64).
Let E := sampler_env stream reserve K cg B bg sc.
Variable inv good : nat -> k_state K -> Prop.
Variable ad : k_state K -> adapt f64.
Hypothesis HA : adaptive K inv good ad.

(** Entry [i] of parameter [j] has a cell with [P]. *)
Definition has_cell (P : cell f64 -> Prop) (j i : nat) (z : sess K) : Prop :=
  exists s o k, nth_error (z_params K z) j = Some (s, o) /\ inv (length (data (k_value K s))) s /\ at_index (ad s) i k /\ P k.

Lemma cell_run : forall (P Q : cell f64 -> Prop) j i f z o z', has_cell P j i z -> (forall k g, P k -> Q (cell_step g k)) ->
  session_run_model stream reserve K cg f z = (Ok o, z') -> has_cell Q j i z'.
Proof.
  intros P Q j i f z o z' (s & op & k & Hj & Hi & Hk & HP) HPQ HR. unfold session_run_model in HR.
  destruct (cg (values K z) (fun n => lookup f (KUser n))) as [[c gs]|e]; [|discriminate HR].
  destruct (run_params stream reserve K (fed_eps K f z) f 0 gs (z_params K z)) as [[ms ps]|e] eqn:Er; [|discriminate HR].
  injection HR as <- <-. destruct (run_params_nth _ _ _ _ _ _ _ _ _ _ Er) as (_ & _ & HN). destruct (HN j s op Hj) as (g & Hg & Hs & Hq & _). cbn zeta in Hs, Hq.
  set (inp := StepInput _ _ _ _) in *. pose proof (ad_len _ _ _ _ HA _ _ Hi) as HL. pose proof HL as (LL & _). pose proof Hs as (L1 & _). pose proof Hk as (Hk1 & _).
  assert (Hi' : i < length (data (k_value K s))) by (rewrite <- LL; apply nth_error_Some; congruence).
  destruct (nth_error_lt _ (i_grad inp) i) as [gi Egi]; [lia|].
  eexists _, _, (cell_step gi k). split; [exact Hq|]. pose proof (proj2 (st_sized _ _ _ _ (ad_steady _ _ _ _ HA)) _ _ _ Hi Hs) as Hinv.
  split; [rewrite (proj1 (st_sized _ _ _ _ (ad_steady _ _ _ _ HA)) _ _ Hinv); exact Hinv|]. split; [|now apply HPQ].
  rewrite (ad_step _ _ _ _ HA _ _ _ Hi Hs). now apply at_index_step.
Qed.
Lemma cell_fail : forall f z e z', session_run_model stream reserve K cg f z = (Raise e, z') -> z' = z.
Proof.
  intros f z e z' HR. unfold session_run_model in HR. destruct (cg (values K z) (fun n => lookup f (KUser n))) as [[c gs]|e']; [|now injection HR as _ <-].
  destruct (run_params _ _ _ _ _ _ _ _) as [[ms ps]|e']; [discriminate HR|now injection HR as _ <-].
Qed.
Lemma cell_keep : forall (P : cell f64 -> Prop) j i f z r z', (forall k g, P k -> P (cell_step g k)) -> has_cell P j i z ->
  session_run_model stream reserve K cg f z = (r, z') -> has_cell P j i z'.
Proof.
  intros P j i f z r z' HP H HR. destruct r as [o|e]; [eapply cell_run; eauto|]. now rewrite (cell_fail _ _ _ _ HR).
Qed.
Lemma nan_run : forall j i f z o z', has_cell (fun k => c_vhat k = nan) j i z -> lookup f (KMinv j) = None ->
  session_run_model stream reserve K cg f z = (Ok o, z') ->
  exists v x, nth_error (o_theta o) j = Some v /\ nth_error (data v) i = Some x /\ spoilt x.
Proof.
  intros j i f z o z' (s & op & k & Hj & Hi & Hk & HP) Hl HR. unfold session_run_model in HR.
  destruct (cg (values K z) (fun n => lookup f (KUser n))) as [[c gs]|e]; [|discriminate HR].
  destruct (run_params stream reserve K (fed_eps K f z) f 0 gs (z_params K z)) as [[ms ps]|e] eqn:Er; [|discriminate HR].
  injection HR as <- <-. destruct (run_params_nth _ _ _ _ _ _ _ _ _ _ Er) as (_ & _ & HN). destruct (HN j s op Hj) as (g & Hg & Hs & Hq & _). cbn zeta in Hs, Hq.
  cbn [Nat.add] in Hs, Hq. rewrite Hl in Hs, Hq. cbn [option_map] in Hs, Hq.
  set (inp := StepInput _ _ _ _) in *. pose proof (ad_len _ _ _ _ HA _ _ Hi) as HL. pose proof HL as (LL & _). pose proof Hs as (L1 & _). pose proof Hk as (Hk1 & _).
  assert (Hi' : i < length (data (k_value K s))) by (rewrite <- LL; apply nth_error_Some; congruence).
  destruct (nth_error_lt _ (i_grad inp) i) as [gi Egi]; [lia|]. pose proof (at_index_step _ _ _ _ _ Hk Egi) as (_ & _ & _ & _ & Hm).
  destruct (ad_spoil _ _ _ _ HA _ _ inp i _ Hi Hs eq_refl Hm (nan_mass k gi HP)) as (y & Hy & Hb).
  cbn [o_theta]. unfold values. cbn [z_params]. eexists _, y. rewrite nth_error_map, Hq. cbn [option_map fst]. split; [reflexivity|]. split; [exact Hy|exact Hb].
Qed.
End Doom.

(** A finite gradient entry of 2^512 or more squares to infinity: the entry is infinite or NaN from the second success
    after it on (C101 carries it to all later samples), unless a frozen mass is fed by then. *)
Theorem C102_large_gradients_destroy :
  forall stream reserve K z0 cg B bg sc k us s' b0 c0 pre ca m1 cb m2 cc post fa oa fb ob fc oc cst gs g y smp cost j i,
  moderate K z0 -> (forall key i, bounded64 10 (stream key i)) -> Forall moderate_feed us ->
  let E := sampler_env stream reserve K cg B bg sc in
  drive E (next_of E k) us (initial_state E b0 c0 z0) = (pre ++ ca :: m1 ++ cb :: m2 ++ cc :: post, s') -> (Z.of_nat (length us) < 2 ^ 21)%Z ->
  (forall c f r, In c pre -> In (f, r) (runs (cr_events E c)) -> calm K cg (s_sess E (cr_pre E c)) f) ->
  runs (cr_events E ca) = [(fa, Ok oa)] -> cg (values K (s_sess E (cr_pre E ca))) (fun n => lookup fa (KUser n)) = Ok (cst, gs) ->
  nth_error gs j = Some g -> nth_error g i = Some y -> finite y -> (bpow radix2 512 <= Rabs (value y))%R ->
  runs (cr_events E cb) = [(fb, Ok ob)] ->
  runs (cr_events E cc) = [(fc, Ok oc)] -> lookup fc (KMinv j) = None -> cr_res E cc = Ok (smp, cost) ->
  spoilt_entry smp j i.
Proof.
  intros stream reserve K z0 cg B bg sc k us s' b0 c0 pre ca m1 cb m2 cc post fa oa fb ob fc oc cst gs g y smp cost j i HM Hxi HU E HD HL HC Ra Hcg Hg Hy Fy By Rb Rc Hlc Hr.
  destruct (moderate_start K z0 HM) as (inv & good & ad & HA & HG).
  assert (HUs : map (cr_user E) (pre ++ ca :: m1 ++ cb :: m2 ++ cc :: post) = us).
  { exact (drive_users _ E _ _ _ _ _ HD). }
  assert (HC' : Forall (calm_call stream reserve K cg B bg sc (fun _ => True)) pre).
  { apply Forall_forall. intros c' Hc'. split; [|intros f r Hf; split; [now apply (HC c' f r)|exact I]]. rewrite Forall_forall in HU. apply HU. rewrite <- HUs. apply in_map, in_or_app. now left. }
  assert (HLp : (Z.of_nat (S (length pre)) < 2 ^ 21)%Z) by (rewrite <- HUs, map_length, app_length in HL; cbn [length] in HL; lia).
  pose proof (few_calls _ HLp) as HF.
  (* the call with the large gradient *)
  destruct (drive_split E _ _ _ _ _ _ _ HD) as (_ & us1 & D1 & _).
  destruct (hist_good_all stream reserve K cg B bg sc (fun _ => True) inv (fun _ => good) (ad_steady _ _ _ _ HA) Hxi z0 HG k us1 pre (cr_pre E ca) b0 c0 D1) as [burn HI].
  destruct (HI HC' (fewd_le _ _ (Nat.le_succ_diag_r _) HF)) as ((t & Ht & HGt) & _).
  assert (HFt : fewd (S t)) by (apply (fewd_le _ (S (length pre))); [lia|exact HF]).
  assert (Ia : In ca (pre ++ ca :: m1 ++ cb :: m2 ++ cc :: post)) by (apply in_or_app; right; now left).
  assert (Ib : In cb (pre ++ ca :: m1 ++ cb :: m2 ++ cc :: post)) by (apply in_or_app; right; right; apply in_or_app; right; now left).
  assert (Ic : In cc (pre ++ ca :: m1 ++ cb :: m2 ++ cc :: post)) by (apply in_or_app; right; right; apply in_or_app; right; right; apply in_or_app; right; now left).
  pose proof (kernel_call_run stream reserve K cg B bg sc k us _ s' b0 c0 z0 HD ca fa oa Ia Ra) as Ea.
  pose proof (kernel_call_run stream reserve K cg B bg sc k us _ s' b0 c0 z0 HD cb fb ob Ib Rb) as Eb.
  pose proof (kernel_call_run stream reserve K cg B bg sc k us _ s' b0 c0 z0 HD cc fc oc Ic Rc) as Ec. fold E in Ea, Eb, Ec.
  assert (Da : has_cell K inv ad doomed j i (s_sess E (cr_post E ca))).
  { unfold session_run_model in Ea. rewrite Hcg in Ea. destruct (run_params _ _ _ _ _ _ _ _) as [[ms ps]|e] eqn:Er; [|discriminate Ea]. injection Ea as <- <-.
    destruct (run_params_nth _ _ _ _ _ _ _ _ _ _ Er) as (_ & _ & HN).
    assert (Lj : j < length (z_params K (s_sess E (cr_pre E ca)))).
    { clear -Er Hg. revert Er Hg. generalize (z_params K (s_sess E (cr_pre E ca))) 0 ms ps j. clear. induction gs as [|a gs IH]; intros ps0 n0 ms ps j Er Hg; [destruct j; discriminate Hg|].
      destruct ps0 as [|p ps0]; [discriminate Er|]. destruct j as [|j]; cbn; [lia|]. cbn in Hg. cbn [run_params] in Er.
      destruct (run_param _ _ _ _ _ _ _) as [[m p']|]; [|discriminate Er]. cbn [bind] in Er.
      destruct (run_params _ _ _ _ _ _ _ _) as [[ms' qs]|] eqn:Eq; [|discriminate Er]. specialize (IH _ _ _ _ _ Eq Hg). lia. }
    destruct (nth_error_lt _ _ _ Lj) as [[s op] Hj]. destruct (HN j s op Hj) as (g' & Hg' & Hs & Hq & _). rewrite Hg in Hg'. injection Hg' as <-. cbn zeta in Hs, Hq.
    destruct (HGt j s op Hj) as [Hi Hgd]. set (inp := StepInput _ _ _ _) in *. pose proof (ad_len _ _ _ _ HA _ _ Hi) as HLn. pose proof Hs as (L1 & _).
    assert (Hi' : i < length (data (k_value K s))) by (rewrite <- L1; apply nth_error_Some; unfold inp; cbn [i_grad]; congruence).
    destruct (at_index_exists _ _ i HLn Hi') as [kc Hkc].
    eexists _, _, (cell_step y kc). split; [exact Hq|]. pose proof (proj2 (st_sized _ _ _ _ (ad_steady _ _ _ _ HA)) _ _ _ Hi Hs) as Hinv.
    split; [rewrite (proj1 (st_sized _ _ _ _ (ad_steady _ _ _ _ HA)) _ _ Hinv); exact Hinv|]. split; [rewrite (ad_step _ _ _ _ HA _ _ _ Hi Hs); now apply at_index_step|].
    apply (overflow_dooms t); auto. exact (ad_good _ _ _ _ HA _ _ Hgd i kc Hkc). }
  (* until the next success, and after it *)
  assert (HD1 : drive E (next_of E k) us (initial_state E b0 c0 z0) = ((pre ++ ca :: m1) ++ cb :: m2 ++ cc :: post, s')) by (rewrite <- app_assoc; exact HD).
  destruct (drive_split E _ _ _ _ _ _ _ HD1) as (_ & us2 & D2 & _).
  assert (Db : has_cell K inv ad doomed j i (s_sess E (cr_pre E cb))).
  { apply (holds_later E (has_cell K inv ad doomed j i) k b0 c0 z0 pre ca) with (mid := m1) (us := us2); [|exact Da|exact D2].
    intros f z r z' Hz Er. eapply (cell_keep stream reserve K cg inv good ad HA doomed); [|exact Hz|exact Er]. intros kc gc Hd. right. now apply doomed_step. }
  assert (Nb : has_cell K inv ad (fun kc => c_vhat kc = nan) j i (s_sess E (cr_post E cb))) by (eapply (cell_run stream reserve K cg inv good ad HA doomed); [exact Db|intros; now apply doomed_step|exact Eb]).
  assert (HD2 : drive E (next_of E k) us (initial_state E b0 c0 z0) = ((pre ++ ca :: m1 ++ cb :: m2) ++ cc :: post, s')).
  { rewrite HD. f_equal. rewrite <- !app_assoc. cbn [app]. now rewrite <- !app_assoc. }
  destruct (drive_split E _ _ _ _ _ _ _ HD2) as (_ & us3 & D3 & _).
  assert (D3' : drive E (next_of E k) us3 (initial_state E b0 c0 z0) = ((pre ++ ca :: m1) ++ cb :: m2, cr_pre E cc)) by (rewrite D3; f_equal; rewrite <- !app_assoc; reflexivity).
  assert (Nc : has_cell K inv ad (fun kc => c_vhat kc = nan) j i (s_sess E (cr_pre E cc))).
  { apply (holds_later E (has_cell K inv ad (fun kc => c_vhat kc = nan) j i) k b0 c0 z0 (pre ++ ca :: m1) cb) with (mid := m2) (us := us3); [|exact Nb|exact D3'].
    intros f z r z' Hz Er. eapply (cell_keep stream reserve K cg inv good ad HA (fun kc => c_vhat kc = nan)); [|exact Hz|exact Er]. intros kc gc Hd. now apply nan_stays. }
  destruct (nan_run stream reserve K cg inv good ad HA j i fc _ oc _ Nc Hlc Ec) as (v & x & Hv & Hx & Hb).
  destruct (success_run E k us _ s' b0 c0 z0 cc smp cost HD Ic Hr) as (f & o & Hf & Ho). rewrite Rc in Hf. injection Hf as <- <-.
  exists v, x. now rewrite Ho.
Qed.

(** *** Examples *)
(** A test for [bounded64]. *)
Definition ok64 (e : Z) (x : f64) : bool := @BinarySingleNaN.is_finite 53 1024 x && negb (nltb (f_of_Z (2 ^ e)) x) && negb (nltb (f_of_Z (2 ^ e)) (nopp x)).
Lemma rep_pow : forall e, (0 <= e < 1024)%Z -> rep (f_of_Z (2 ^ e)) (bpow radix2 e).
Proof.
  intros e He. rewrite <- (IZR_Zpower radix2) by lia. apply rep_Z.
  - rewrite (IZR_Zpower radix2) by lia. apply format64_bpow. lia.
  - apply IZR_huge. change (radix_val radix2 ^ e)%Z with (2 ^ e)%Z. rewrite Z.abs_eq by (apply Z.pow_nonneg; lia). apply Z.pow_lt_mono_r; lia.
Qed.
Lemma ok64_bounded : forall e x, (0 <= e < 1024)%Z -> ok64 e x = true -> bounded64 e x.
Proof.
  intros e x He H. unfold ok64 in H. rewrite !andb_true_iff, !negb_true_iff in H. destruct H as [[H1 H2] H3]. split; [exact H1|].
  assert (Rx : rep x (value x)) by (now split). pose proof (rep_pow e He) as Rp.
  rewrite (rep_ltb _ _ _ _ Rp Rx) in H2. rewrite (rep_ltb _ _ _ _ Rp (rep_opp _ _ Rx)) in H3. unfold Rltb in *.
  destruct (Rlt_dec _ _) as [|L2]; [discriminate H2|]. destruct (Rlt_dec (bpow radix2 e) (- value x)) as [|L3]; [discriminate H3|]. apply Rabs_le. lra.
Qed.
Section Check.
Variables (stream : Z * Z -> nat -> f64) (K : kernel (T:=f64)) (cg : @objective f64).
Let E := sampler_env stream (fun n => n) K cg unit None (constant_schedule (tensor f64) (sample (tensor f64) * tensor f64)).
Definition calm_check (z : sess K) (f : feed (tensor f64)) : bool :=
  ok64 0 (fed_eps K f z) && match cg (values K z) (fun n => lookup f (KUser n)) with Ok (_, gs) => forallb (forallb (ok64 400)) gs | Raise _ => true end.
Definition calm_runs (rs : list (call_record E)) : bool := forallb (fun c => forallb (fun fr => calm_check (s_sess E (cr_pre E c)) (fst fr)) (runs (cr_events E c))) rs.
Lemma calm_runs_ok : forall rs, calm_runs rs = true ->
  forall c f r, In c rs -> In (f, r) (runs (cr_events E c)) -> calm K cg (s_sess E (cr_pre E c)) f.
Proof.
  intros rs H c f r Hc Hf. unfold calm_runs in H. rewrite forallb_forall in H. specialize (H c Hc). rewrite forallb_forall in H. specialize (H (f, r) Hf). cbn [fst] in H.
  unfold calm_check in H. apply andb_true_iff in H as [H1 H2]. split; [apply ok64_bounded; [lia|exact H1]|]. intros cst gs Hg. rewrite Hg in H2.
  apply Forall_forall. intros g Hin. rewrite forallb_forall in H2. specialize (H2 g Hin). rewrite forallb_forall in H2. apply Forall_forall. intros x Hx. apply ok64_bounded; [lia|auto].
Qed.
End Check.

(** The cost x^2/2, whose gradient at [spike] is 2^600. *)
Definition spiky (spike : option f64) : @objective f64 := fun vs _ =>
  match vs with
  | [v] => match data v with
           | [x] => Ok (x, [[match spike with Some y => if nltb x y then x else f_of_Z (2 ^ 600) | None => x end]])
           | _ => Raise ValueError
           end
  | _ => Raise ValueError
  end.
Definition half_config : config f64 := Config (nfrac 1 2) n1.
Definition spiky_env spike := sampler_env (fun _ _ => n1) (fun n => n) (sghmc_kernel half_config) (spiky spike) unit None
  (constant_schedule (tensor f64) (sample (tensor f64) * tensor f64)).
Definition spiky_start spike : state (spiky_env spike) := initial_state (spiky_env spike) tt (Tensor [] [nfrac 1 2])
  (sghmc_session half_config n0 [Tensor [1] [f_of_Z 3]] (noise_ops (Some 3%Z) (Some 4%Z) [7%nat] (fun _ => (0, 0)%Z) 1)).

Lemma spiky_moderate : forall spike, moderate (sghmc_kernel half_config) (s_sess _ (spiky_start spike)).
Proof.
  intros spike. unfold spiky_start. cbn [s_sess initial_state]. apply moderate_sghmc.
  - destruct rep_1 as [F V]. split; [exact F|]. cbn [scale_grad half_config]. rewrite V. split; [lra|]. change 1%R with (bpow radix2 0). apply bpow_le. lia.
  - assert (H : rep (@nfrac f64 _ 1 2) (rnd64 (Rfrac 1 2))) by (apply (rep_frac 1 2 0 0); first [reflexivity|lia]).
    destruct H as [F V]. split; [exact F|]. cbn [mdecay half_config]. rewrite V. unfold Rfrac. split.
    + rewrite <- rnd64_0 at 1. apply rnd64_mono. lra.
    + rewrite <- (rnd64_Z 1) at 2 by reflexivity. apply rnd64_mono. lra.
  - constructor; [|constructor]. constructor; [|constructor]. apply ok64_bounded; [lia|vm_compute; reflexivity].
Qed.
Definition five : list (option (feed (tensor f64))) := repeat None 5.
(** Both theorems apply: the run without a spike, and the one whose gradient is 2^600 at the first call, where x = 3;
    its third sample is spoilt. *)
Example C102_example :
  moderate (sghmc_kernel half_config) (s_sess _ (spiky_start None)) /\ bounded64 10 (@n1 f64 _) /\ Forall moderate_feed five /\
  (let rs := fst (drive (spiky_env None) (burnin_next _ 3 1) five (spiky_start None)) in
   (forall c f r, In c rs -> In (f, r) (runs (cr_events _ c)) -> calm _ (spiky None) (s_sess _ (cr_pre _ c)) f) /\ map (succeeded _) rs = repeat true 5) /\
  (let spike := Some n2 in let E := spiky_env spike in let rs := fst (drive E (burnin_next E 3 1) five (spiky_start spike)) in
   finite_flags rs (cr_res E) = map (fun b => [[b]]) [true; true; false; false; false] /\ finite (f_of_Z (2 ^ 600)) /\ (bpow radix2 512 <= Rabs (value (f_of_Z (2 ^ 600))))%R).
Proof.
  split; [apply spiky_moderate|]. split; [apply ok64_bounded; [lia|vm_compute; reflexivity]|]. split; [repeat constructor; intros f i m Hf; discriminate Hf|]. split.
  - split; [|vm_compute; reflexivity]. refine (calm_runs_ok (fun _ _ => n1) (sghmc_kernel half_config) (spiky None) _ _). vm_compute. reflexivity.
  - split; [vm_compute; reflexivity|]. destruct (rep_pow 600 ltac:(lia)) as [F V]. split; [exact F|]. rewrite V, Rabs_right by (apply Rle_ge, bpow_ge_0). apply bpow_le. lia.
Qed.
