(** C17-C23: the numeric steps of SGHMCSampler and SGLDSampler. *)
From Coq Require Import List Arith Lia ZArith Reals Lra Bool.
From Verif.Base Require Import Py Num Vec Lists.
From Verif.Model Require Import TensorUtils BurnIn SGHMC SGLD.
From Verif.Spec Require Import Dynamics Trajectory.
From Verif.Proofs Require Import Dynamics Trajectory Finite.
Import ListNotations.
Local Open Scope R_scope.

(** *** C17 *)

(** What holds of entry [k] of the burn-in variables after the history [ins]. *)
Definition adaptation_ok (k : nat) (ins : list (step_input R)) (a : adapt R) : Prop :=
  exists tau r g v,
    nth_error (a_tau a) k = Some tau /\ nth_error (a_r a) k = Some r /\
    nth_error (a_g a) k = Some g /\ nth_error (a_vhat a) k = Some v /\
    1 <= tau <= 1 + INR (length ins) /\ 0 < r <= 1 / 2 /\ 0 < v /\ g ^ 2 <= v /\
    forall lo hi, lo <= 1 <= hi -> squared_gradients_in lo hi k ins -> lo <= v <= hi.

Lemma adaptation_ok_run : forall n k ins, Forall (sized n) ins -> (k < n)%nat ->
  adaptation_ok k ins (adapt_fold (map i_grad ins) (adapt_init n)).
Proof.
  intros n k ins HF Hk. pose proof (sized_grads _ _ HF) as HG.
  destruct (adapt_run_entry n _ k HG Hk) as (tau & r & g & v & E1 & E2 & E3 & E4 & _ & [A1 A2 A3 A4 A5]).
  exists tau, r, g, v. repeat (split; [assumption|]).
  unfold column in A1. rewrite !map_length in A1.
  repeat (split; [assumption|]). intros lo hi Hb Hin. apply A5; auto.
  intros x Hx. unfold column in Hx. rewrite map_map in Hx. apply in_map_iff in Hx as (i & <- & Hi).
  pose proof (proj1 (Forall_forall _ _) HF i Hi) as [Hl _].
  apply (Hin i); auto. apply nth_error_nth'. lia.
Qed.

Theorem C17_sghmc_adaptation_well_posed :
  forall (c : config R) v ins k,
  Forall (sized (length (data v))) ins -> (k < length (data v))%nat ->
  adaptation_ok k ins (p_adapt (sghmc_run c ins (pinit v))).
Proof. intros. rewrite sghmc_run_adapt. now apply adaptation_ok_run. Qed.

Theorem C17_sgld_adaptation_well_posed :
  forall (c : lconfig R) v ins k,
  Forall (sized (length (data v))) ins -> (k < length (data v))%nat ->
  adaptation_ok k ins (l_adapt (sgld_run c ins (linit v))).
Proof. intros. rewrite sgld_run_adapt. now apply adaptation_ok_run. Qed.

(** Two steps with gradients 3 and -5: the estimate stays between 1 and 25. *)
Definition two_steps : list (step_input R) :=
  [StepInput (1/100) [3] [1/2] None; StepInput (1/100) [-5] [-1] (Some [2])].
Example C17_nontrivial :
  Forall (sized (length (data (Tensor [] [7])))) two_steps /\ squared_gradients_in 1 25 0 two_steps.
Proof.
  split; [repeat constructor|]. intros i g [<-|[<-|[]]]; cbn; intros [= <-]; lra.
Qed.

(** *** C18 *)

(** The inverse mass [m] computed when the variance estimate is [v]. *)
Definition mass_ok (v m : R) : Prop :=
  m = 1 / (sqrt v + 3 / 10000000000000000) /\ 0 < m <= 10000000000000000 / 3.

Lemma mass_ok_inverse_mass : forall v, 0 < v -> mass_ok v (inverse_mass v).
Proof.
  intros v Hv. pose proof (inverse_mass_bounds v Hv) as HB. unfold mass_ok. unfold inverse_mass in *.
  replace (3 / 10000000000000000) with (3 * guard) by (unfold guard; lra). split; auto.
  unfold guard in *. lra.
Qed.

Lemma mass_ok_run : forall n ins g k, Forall (sized n) ins -> length g = n -> (k < n)%nat ->
  let a := adapt_fold (map i_grad ins) (adapt_init n) in
  exists v m, nth_error (a_vhat a) k = Some v /\ nth_error (a_minv (adapt_step g a)) k = Some m /\
              mass_ok v m.
Proof.
  intros n ins g k HF Hg Hk a. pose proof (sized_grads _ _ HF) as HG.
  destruct (adapt_run_entry n _ k HG Hk) as (tau & r & g' & v & _ & _ & _ & E4 & Ev & [_ _ A3 _ _]).
  exists v, (inverse_mass v). split; [exact E4|]. split.
  - unfold a. change (adapt_fold (map i_grad ins) (adapt_init n)) with (adapt_run n (map i_grad ins)).
    rewrite (adapt_run_minv n (map i_grad ins) g k HG Hg Hk). now rewrite <- Ev.
  - now apply mass_ok_inverse_mass.
Qed.

(** The mass used by a step (no mass fed) after any history. *)
Theorem C18_mass_positive_and_bounded :
  forall v ins i k, Forall (sized (length (data v))) ins -> sized (length (data v)) i ->
  i_fed i = None -> (k < length (data v))%nat ->
  (forall c : config R, exists vhat m,
     let p := sghmc_run c ins (pinit v) in
     nth_error (a_vhat (p_adapt p)) k = Some vhat /\
     nth_error (minv_used (i_fed i) (adapt_step (i_grad i) (p_adapt p))) k = Some m /\ mass_ok vhat m) /\
  (forall c : lconfig R, exists vhat m,
     let p := sgld_run c ins (linit v) in
     nth_error (a_vhat (l_adapt p)) k = Some vhat /\
     nth_error (minv_used (i_fed i) (adapt_step (i_grad i) (l_adapt p))) k = Some m /\ mass_ok vhat m).
Proof.
  intros v ins i k HF (Hg & _) Hfed Hk. rewrite Hfed. cbn [minv_used].
  split; intros c; [rewrite sghmc_run_adapt|rewrite sgld_run_adapt];
    exact (mass_ok_run (length (data v)) ins (i_grad i) k HF Hg Hk).
Qed.

(** In floating point arithmetic without rounding and with infinities and NaN, no
    burn-in variable ever becomes infinite or NaN, for any finite gradients:
    neither a division by zero nor the root of a negative number occurs. *)
Definition all_finite (a : adapt XR) : Prop :=
  exists b : adapt R, a_tau a = map Fin (a_tau b) /\ a_r a = map Fin (a_r b) /\ a_g a = map Fin (a_g b) /\
                      a_vhat a = map Fin (a_vhat b) /\ a_minv a = map Fin (a_minv b).
Theorem C18_adaptation_never_nan :
  forall n (gs : list (list R)), Forall (fun g => length g = n) gs ->
  all_finite (fold_left (fun a g => adapt_step g a) (map (map Fin) gs) (adapt_init n)).
Proof.
  intros n gs HF. pose proof (adapt_run_fin n gs HF) as E. unfold adapt_fold in E. rewrite E.
  exists (adapt_run n gs). repeat split.
Qed.

(** *** C19 *)
Theorem C19_noise_scale :
  forall (md s eps m : R), 0 < s ->
  let sd := sqrt (Rmax (2 * (eps ^ 2 / s) * md * m - eps ^ 4 / s ^ 2) (/ 10000000000000000)) in
  sigma (Config md s) eps m = sd /\
  sigma (Config (Fin md) (Fin s)) (Fin eps) (Fin m) = Fin sd /\
  / 100000000 <= sd.
Proof.
  intros md s eps m Hs sd.
  assert (E : sd = sigma (Config md s) eps m).
  { rewrite sigma_R by (cbn; auto). cbn [mdecay scale_grad]. unfold sd, sghmc_noise_var, guard.
    f_equal. f_equal. field. lra. }
  split; [auto|]. split.
  - rewrite E. change (Config (Fin md) (Fin s)) with (fin_config (Config md s)). now apply Fin_sigma.
  - unfold sd. replace (/ 100000000) with (sqrt (/ 10000000000000000)).
    + apply sqrt_le_1_alt. apply Rmax_r.
    + replace (/ 10000000000000000) with (Rsqr (/ 100000000)) by (unfold Rsqr; lra).
      apply sqrt_Rsqr. lra.
Qed.
(** The variance formula really can be negative. *)
Example C19_nontrivial : 2 * (1 ^ 2 / 1) * (1/20) * 1 - 1 ^ 4 / 1 ^ 2 < 0.
Proof. lra. Qed.

(** Complete SGHMC runs on finite inputs stay finite and equal the real-arithmetic run. *)
Theorem C19_sghmc_never_nan :
  forall (md s : R) v ins, 0 < s -> Forall (sized (length (data v))) ins ->
  let p := sghmc_run (Config (Fin md) (Fin s)) (map fin_input ins) (pinit (fin_tensor v)) in
  let q := sghmc_run (Config md s) ins (pinit v) in
  p_val p = fin_tensor (p_val q) /\ p_mom p = map Fin (p_mom q) /\ all_finite (p_adapt p).
Proof.
  intros md s v ins Hs HF p q.
  assert (E : p = fin_pstate q) by (apply (sghmc_run_fin (Config md s)); auto).
  rewrite E. split; [reflexivity|]. split; [reflexivity|]. exists (p_adapt q). repeat split.
Qed.
(** With scale_grad = 0 the noise scale is NaN: the hypothesis is needed. *)
Example C19_scale_grad_needed : sigma (Config (Fin (1/20)) (Fin 0)) (Fin 1) (Fin 1) = NaN.
Proof.
  assert (S0 : nsqrt (Fin 0) = Fin 0) by (cbn; destruct (Rlt_dec 0 0); [lra|now rewrite sqrt_0]).
  assert (ES : epsilon_scaled (Config (Fin (1/20)) (Fin 0)) (Fin 1) = PInf).
  { unfold epsilon_scaled; cbn [scale_grad]. rewrite S0. cbn. unfold xsgn.
    destruct (Req_EM_T 0 0); [|congruence]. destruct (Rlt_dec 0 1); [auto|lra]. }
  unfold sigma, noise_scale, noise. rewrite ES, n0_XR, n2_XR, Fin_pow, npow_R. cbn [mdecay].
  assert (P : forall r, 0 < r -> xsgn r = PInf) by (intros r Hr; unfold xsgn; destruct (Rlt_dec 0 r); [auto|lra]).
  assert (Z : xsgn 0 = NaN) by (unfold xsgn; destruct (Rlt_dec 0 0); [lra|auto]).
  cbn [npow nmul nsub Num_XR xmul]. rewrite !P by lra. cbn [xmul]. rewrite !P by lra.
  cbn [xmul]. rewrite Z, P by lra. reflexivity.
Qed.

(** *** C20 *)

(** The drive of a step at entry [k]: gradient and noise contributions. *)
Definition drive_at (c : config R) (p : pstate R) (i : step_input R) (k : nat) (d : R) : Prop :=
  exists m g x, nth_error (minv_used (i_fed i) (adapt_step (i_grad i) (p_adapt p))) k = Some m /\
    nth_error (i_grad i) k = Some g /\ nth_error (i_xi i) k = Some x /\
    d = Rabs (i_eps i ^ 2 * m * g) + Rabs (sigma c (i_eps i) m * x).

Lemma momentum_bound : forall md B v0 v d g n, 0 < md <= 1 -> Rabs g + Rabs n = d -> d <= B ->
  Rabs v <= Rmax (Rabs v0) (B / md) ->
  Rabs (v + (- g - md * v + n)) <= Rmax (Rabs v0) (B / md).
Proof.
  intros md B v0 v d g n Hm Hd HB Hv. set (M := Rmax (Rabs v0) (B / md)) in *.
  assert (HM : B <= md * M).
  { assert (B / md <= M) by apply Rmax_r. apply (Rmult_le_compat_l md) in H; [|lra].
    replace (md * (B / md)) with B in H by (field; lra). exact H. }
  replace (v + (- g - md * v + n)) with ((1 - md) * v + (- g + n)) by ring.
  eapply Rle_trans; [apply Rabs_triang|]. rewrite Rabs_mult, (Rabs_right (1 - md)) by lra.
  assert (Rabs (- g + n) <= B).
  { eapply Rle_trans; [apply Rabs_triang|]. rewrite Rabs_Ropp. lra. }
  assert ((1 - md) * Rabs v <= (1 - md) * M) by (apply Rmult_le_compat_l; lra). lra.
Qed.

Theorem C20_momentum_bounded :
  forall (c : config R) n (p0 : pstate R) ins k B v0,
  0 < mdecay c <= 1 -> Forall (sized n) ins -> (k < n)%nat ->
  adapt_len n (p_adapt p0) -> length (p_mom p0) = n -> length (p_vec p0) = n ->
  nth_error (p_mom p0) k = Some v0 ->
  (forall pre i post d, ins = pre ++ i :: post -> drive_at c (sghmc_run c pre p0) i k d -> d <= B) ->
  exists v, nth_error (p_mom (sghmc_run c ins p0)) k = Some v /\ Rabs v <= Rmax (Rabs v0) (B / mdecay c).
Proof.
  intros c n p0 ins k B v0 Hmd HF Hk L1 L2 L3 Hv0. induction ins as [|i ins IH] using rev_ind; intros HB.
  - exists v0. split; [exact Hv0|apply Rmax_l].
  - apply Forall_app in HF as [HF Hi]. apply Forall_inv in Hi as Hsz.
    destruct IH as (v & Ev & Hv); auto.
    { intros pre j post d -> Hd. apply (HB pre j (post ++ [i]) d); auto. now rewrite <- app_assoc. }
    set (p := sghmc_run c ins p0) in *.
    pose proof (pstate_len_run _ c ins p0 (conj L1 (conj L2 L3)) HF) as (LA & LM & LV). fold p in LA, LM, LV.
    destruct Hsz as (Hg & Hx & Hfd).
    destruct (nth_error_lt _ (i_grad i) k ltac:(lia)) as [g Eg].
    destruct (nth_error_lt _ (i_xi i) k ltac:(lia)) as [x Ex].
    destruct (nth_error_lt _ (p_vec p) k ltac:(lia)) as [th Et].
    pose proof (minv_used_len _ _ _ (adapt_len_step _ _ _ LA Hg) Hfd) as Lm.
    destruct (nth_error_lt _ (minv_used (i_fed i) (adapt_step (i_grad i) (p_adapt p))) k ltac:(lia)) as [m Em].
    destruct (sghmc_step_entry c (i_eps i) _ _ _ p k g x m v th Eg Ex Em Ev Et) as (E1 & _ & _).
    rewrite sghmc_run_snoc. fold p. eexists. split; [exact E1|].
    rewrite npow_R. cbn [nadd nsub nmul nopp Num_R].
    replace (- i_eps i ^ 2 * m * g) with (- (i_eps i ^ 2 * m * g)) by ring.
    eapply momentum_bound; eauto. apply (HB ins i []); auto.
    fold p. exists m, g, x. auto.
Qed.
(** One step of a fresh scalar parameter with stepsize 1/10 and gradient 1: the drive is
    1/100. *)
Example C20_example :
  let c := {| mdecay := / 20; scale_grad := 1 |} in
  let p0 := pinit (Tensor [] [3]) in
  let i := StepInput (/ 10) [1] [0] (Some [1]) in
  Forall (sized 1) [i] /\ adapt_len 1 (p_adapt p0) /\ nth_error (p_mom p0) 0 = Some 0 /\
  (forall pre j post d, [i] = pre ++ j :: post -> drive_at c (sghmc_run c pre p0) j 0 d -> d <= / 100) /\
  drive_at c p0 i 0 (/ 100).
Proof.
  cbv zeta. split; [|split; [|split; [|split]]].
  - repeat constructor.
  - repeat split.
  - cbn [pinit p_mom data length repeat nth_error]. now rewrite n0_R.
  - intros [|i' [|? ?]] j post d E; try discriminate. injection E as <- <-.
    intros (m & g & x & Em & Eg & Ex & ->). cbn in Em, Eg, Ex. injection Em as <-. injection Eg as <-. injection Ex as <-.
    cbn [i_eps]. rewrite Rmult_0_r, Rabs_R0, Rabs_right by lra. lra.
  - exists 1, 1, 0. repeat split. cbn [i_eps]. rewrite Rmult_0_r, Rabs_R0, Rabs_right by lra. lra.
Qed.

(** *** C21 *)

(** One step on any well-sized state, entry by entry: only entry [k] of the inputs
    and of the state enters the new entry [k]. *)
Theorem C21_sghmc_update :
  forall (c : config R) (p : pstate R) (i : step_input R) (k : nat) g x m v th tau gb vh,
  0 < scale_grad c -> 0 < vh -> 1 <= tau ->
  nth_error (i_grad i) k = Some g -> nth_error (i_xi i) k = Some x ->
  nth_error (p_mom p) k = Some v -> nth_error (p_vec p) k = Some th ->
  nth_error (a_tau (p_adapt p)) k = Some tau -> nth_error (a_r (p_adapt p)) k <> None ->
  nth_error (a_g (p_adapt p)) k = Some gb -> nth_error (a_vhat (p_adapt p)) k = Some vh ->
  nth_error (a_minv (p_adapt p)) k <> None ->
  (* the inverse mass: the fed one, else the estimate *)
  match i_fed i with
  | Some ms => nth_error ms k = Some m
  | None => m = inverse_mass vh
  end ->
  let p' := sghmc_step c (i_eps i) (i_grad i) (i_xi i) (i_fed i) p in
  let v' := sghmc_momentum (i_eps i) (mdecay c) (scale_grad c) m g x v in
  let s' := adapt_scalar g (Scalar tau gb vh) in
  nth_error (p_mom p') k = Some v' /\
  nth_error (p_vec p') k = Some (th + v') /\
  data (p_val p') = p_vec p' /\ shape (p_val p') = shape (p_val p) /\
  nth_error (a_tau (p_adapt p')) k = Some (s_tau s') /\
  nth_error (a_g (p_adapt p')) k = Some (s_g s') /\
  nth_error (a_vhat (p_adapt p')) k = Some (s_v s').
Proof.
  intros c p i k g x m v th tau gb vh Hs Hvh Htau Eg Ex Ev Et Ea1 Ea2 Ea3 Ea4 Ea5 Hm p' v' s'.
  destruct (nth_error (a_r (p_adapt p)) k) as [r0|] eqn:Er; [|congruence].
  destruct (nth_error (a_minv (p_adapt p)) k) as [m0|] eqn:Em0; [|congruence].
  set (cl := Cell tau r0 gb vh m0).
  assert (Hcl : at_index (p_adapt p) k cl) by (repeat split; auto).
  pose proof (at_index_step _ _ _ _ _ Hcl Eg) as (F1 & F2 & F3 & F4 & F5).
  destruct (cell_step_R g cl Hvh ltac:(cbn; lra)) as (Sc & _ & Sm).
  assert (Em : nth_error (minv_used (i_fed i) (adapt_step (i_grad i) (p_adapt p))) k = Some m).
  { destruct (i_fed i); cbn [minv_used]; [exact Hm|]. rewrite F5, Sm. now rewrite Hm. }
  destruct (sghmc_step_entry c (i_eps i) _ _ _ p k g x m v th Eg Ex Em Ev Et) as (G1 & G2 & _).
  assert (V : nadd v (nadd (nsub (nmul (nmul (nopp (npow (i_eps i) 2)) m) g) (nmul (mdecay c) v))
                (nmul (sigma c (i_eps i) m) x)) = v').
  { unfold v', sghmc_momentum. rewrite sigma_R by auto. rewrite npow_R. cbn [nadd nsub nmul nopp Num_R]. ring. }
  fold p' in G1, G2. rewrite V in G1, G2.
  split; [exact G1|]. split; [exact G2|]. split; [reflexivity|]. split; [reflexivity|].
  unfold p', sghmc_step; cbn [p_adapt]. rewrite F1, F3, F4. unfold s'.
  change (Scalar tau gb vh) with (scalar_of cl). rewrite <- Sc. auto.
Qed.

(** In every run the hypotheses hold: the next step of any history obeys the update. *)
Theorem C21_sghmc_update_in_runs :
  forall (c : config R) par ins i k, 0 < scale_grad c ->
  Forall (sized (length (data par))) (ins ++ [i]) -> (k < length (data par))%nat ->
  let p := sghmc_run c ins (pinit par) in
  let p' := sghmc_run c (ins ++ [i]) (pinit par) in
  exists g x m v th vh,
    nth_error (i_grad i) k = Some g /\ nth_error (i_xi i) k = Some x /\
    nth_error (p_mom p) k = Some v /\ nth_error (data (p_val p)) k = Some th /\
    nth_error (a_vhat (p_adapt p)) k = Some vh /\ 0 < vh /\
    match i_fed i with Some ms => nth_error ms k = Some m | None => m = inverse_mass vh end /\
    let v' := sghmc_momentum (i_eps i) (mdecay c) (scale_grad c) m g x v in
    nth_error (p_mom p') k = Some v' /\ nth_error (data (p_val p')) k = Some (th + v').
Proof.
  intros c par ins i k Hs HF Hk p p'. apply Forall_app in HF as [HF Hi]. apply Forall_inv in Hi as Hsz.
  destruct (C17_sghmc_adaptation_well_posed c par ins k HF Hk) as
    (tau & r & gb & vh & E1 & E2 & E3 & E4 & Ht & Hr & Hv & Hg & _). fold p in E1, E2, E3, E4.
  pose proof (pstate_len_run _ c ins _ (pstate_len_init par) HF) as (LA & LM & LV). fold p in LA, LM, LV.
  destruct Hsz as (Hgl & Hx & Hfd).
  destruct (nth_error_lt _ (i_grad i) k ltac:(lia)) as [g Eg].
  destruct (nth_error_lt _ (i_xi i) k ltac:(lia)) as [x Ex].
  destruct (nth_error_lt _ (p_vec p) k ltac:(lia)) as [th Et].
  destruct (nth_error_lt _ (p_mom p) k ltac:(lia)) as [v Ev].
  assert (exists m, match i_fed i with Some ms => nth_error ms k = Some m | None => m = inverse_mass vh end) as [m Hm].
  { destruct (i_fed i) as [ms|]; [|eauto]. apply nth_error_lt. lia. }
  assert (Hval : data (p_val p) = p_vec p).
  { unfold p. destruct ins as [|j js _] using rev_ind; [reflexivity|]. rewrite sghmc_run_snoc. reflexivity. }
  exists g, x, m, v, th, vh. rewrite Hval. repeat (split; [assumption|]).
  destruct LA as (_ & Lr & _ & _ & Lm).
  destruct (C21_sghmc_update c p i k g x m v th tau gb vh) as (G1 & G2 & G3 & _); auto; try lra.
  - rewrite E2. discriminate.
  - apply nth_error_Some. lia.
  - unfold p'. rewrite sghmc_run_snoc. fold p. rewrite G3. auto.
Qed.
Example C21_nontrivial :
  Forall (sized (length (data (Tensor [] [7])))) (two_steps ++ [StepInput (1/10) [4] [2] None]).
Proof. repeat constructor. Qed.

(** Shapes do not matter, for any number type: a step on the same data in another shape
    gives the same data in that shape. *)
Theorem C21_sghmc_shape_independent :
  forall (T : Type) (NT : Num T) (c : config T) v w ins,
  data v = data w ->
  let p := sghmc_run c ins (pinit v) in
  let q := sghmc_run c ins (pinit w) in
  p_val p = Tensor (shape v) (data (p_val q)) /\ p_mom p = p_mom q /\ p_adapt p = p_adapt q.
Proof.
  intros T NT c v w ins Hd.
  assert (G : let p := sghmc_run c ins (pinit v) in let q := sghmc_run c ins (pinit w) in
    p_adapt p = p_adapt q /\ p_mom p = p_mom q /\ p_vec p = p_vec q /\ shape (p_val p) = shape v /\
    data (p_val p) = data (p_val q)).
  { induction ins as [|i ins IH] using rev_ind.
    - cbn. rewrite Hd. auto.
    - cbn zeta in IH |- *. rewrite !sghmc_run_snoc. destruct IH as (E1 & E2 & E3 & E4 & E5).
      unfold sghmc_step; cbn [p_adapt p_mom p_vec p_val shape data]. rewrite E1, E2, E3. auto. }
  cbn zeta in G |- *. destruct G as (E1 & E2 & _ & E4 & E5). split; [|auto].
  destruct (p_val (sghmc_run c ins (pinit v))) as [sh dt]. cbn in *. now subst.
Qed.

(** *** C22 *)
Theorem C22_sgld_update :
  forall (c : lconfig R) (p : lstate R) (i : step_input R) (k : nat) g x m th tau gb vh,
  0 < l_scale_grad c -> 0 < vh -> 1 <= tau ->
  nth_error (i_grad i) k = Some g -> nth_error (i_xi i) k = Some x ->
  nth_error (l_vec p) k = Some th ->
  nth_error (a_tau (l_adapt p)) k = Some tau -> nth_error (a_r (l_adapt p)) k <> None ->
  nth_error (a_g (l_adapt p)) k = Some gb -> nth_error (a_vhat (l_adapt p)) k = Some vh ->
  nth_error (a_minv (l_adapt p)) k <> None ->
  match i_fed i with
  | Some ms => nth_error ms k = Some m
  | None => m = inverse_mass vh
  end ->
  let p' := sgld_step c (i_eps i) (i_grad i) (i_xi i) (i_fed i) p in
  let drift := i_eps i * m * l_A c in
  let s' := adapt_scalar g (Scalar tau gb vh) in
  nth_error (l_vec p') k =
    Some (th - drift * g + sqrt (Rmax 0 (2 * drift / (l_scale_grad c + 3 / 10000000000000000))) * x) /\
  (0 <= drift -> exists sd, nth_error (l_vec p') k = Some (th - drift * g + sd * x) /\
                 sd ^ 2 = 2 * drift / (l_scale_grad c + 3 / 10000000000000000)) /\
  data (l_val p') = l_vec p' /\ shape (l_val p') = shape (l_val p) /\
  nth_error (a_tau (l_adapt p')) k = Some (s_tau s') /\
  nth_error (a_g (l_adapt p')) k = Some (s_g s') /\
  nth_error (a_vhat (l_adapt p')) k = Some (s_v s').
Proof.
  intros c p i k g x m th tau gb vh Hs Hvh Htau Eg Ex Et Ea1 Ea2 Ea3 Ea4 Ea5 Hm p' drift s'.
  destruct (nth_error (a_r (l_adapt p)) k) as [r0|] eqn:Er; [|congruence].
  destruct (nth_error (a_minv (l_adapt p)) k) as [m0|] eqn:Em0; [|congruence].
  set (cl := Cell tau r0 gb vh m0).
  assert (Hcl : at_index (l_adapt p) k cl) by (repeat split; auto).
  pose proof (at_index_step _ _ _ _ _ Hcl Eg) as (F1 & F2 & F3 & F4 & F5).
  destruct (cell_step_R g cl Hvh ltac:(cbn; lra)) as (Sc & _ & Sm).
  assert (Em : nth_error (minv_used (i_fed i) (adapt_step (i_grad i) (l_adapt p))) k = Some m).
  { destruct (i_fed i); cbn [minv_used]; [exact Hm|]. rewrite F5, Sm. now rewrite Hm. }
  destruct (sgld_step_entry c (i_eps i) _ _ _ p k g x m th Eg Ex Em Et) as (G1 & _).
  replace (3 / 10000000000000000) with (3 * guard) by (unfold guard; lra).
  fold p' in G1. rewrite lsigma_R in G1 by auto.
  replace (sgld_drift (i_eps i) (l_A c) m) with drift in G1 by (unfold sgld_drift, drift; ring).
  assert (M : nth_error (l_vec p') k =
    Some (th - drift * g + sqrt (Rmax 0 (2 * drift / (l_scale_grad c + 3 * guard))) * x)).
  { rewrite G1. f_equal. cbn [nadd nmul nopp Num_R]. unfold drift. ring. }
  split; [exact M|]. split.
  { intros Hd. eexists. split; [exact M|].
    assert (0 <= 2 * drift / (l_scale_grad c + 3 * guard)).
    { pose proof guard_pos. apply Rmult_le_pos; [lra|]. apply Rlt_le, Rinv_0_lt_compat. lra. }
    rewrite Rmax_right by auto. rewrite <- Rsqr_pow2. now apply Rsqr_sqrt. }
  split; [reflexivity|]. split; [reflexivity|].
  unfold p', sgld_step; cbn [l_adapt]. rewrite F1, F3, F4. unfold s'.
  change (Scalar tau gb vh) with (scalar_of cl). rewrite <- Sc. auto.
Qed.

Theorem C22_sgld_update_in_runs :
  forall (c : lconfig R) par ins i k, 0 < l_scale_grad c ->
  Forall (sized (length (data par))) (ins ++ [i]) -> (k < length (data par))%nat ->
  let p := sgld_run c ins (linit par) in
  let p' := sgld_run c (ins ++ [i]) (linit par) in
  exists g x m th vh,
    nth_error (i_grad i) k = Some g /\ nth_error (i_xi i) k = Some x /\
    nth_error (data (l_val p)) k = Some th /\
    nth_error (a_vhat (l_adapt p)) k = Some vh /\ 0 < vh /\
    match i_fed i with Some ms => nth_error ms k = Some m | None => m = inverse_mass vh end /\
    let drift := i_eps i * m * l_A c in
    nth_error (data (l_val p')) k =
      Some (th - drift * g + sqrt (Rmax 0 (2 * drift / (l_scale_grad c + 3 / 10000000000000000))) * x).
Proof.
  intros c par ins i k Hs HF Hk p p'. apply Forall_app in HF as [HF Hi]. apply Forall_inv in Hi as Hsz.
  destruct (C17_sgld_adaptation_well_posed c par ins k HF Hk) as
    (tau & r & gb & vh & E1 & E2 & E3 & E4 & Ht & Hr & Hv & Hg & _). fold p in E1, E2, E3, E4.
  pose proof (lstate_len_run _ c ins _ (lstate_len_init par) HF) as (LA & LV). fold p in LA, LV.
  destruct Hsz as (Hgl & Hx & Hfd).
  destruct (nth_error_lt _ (i_grad i) k ltac:(lia)) as [g Eg].
  destruct (nth_error_lt _ (i_xi i) k ltac:(lia)) as [x Ex].
  destruct (nth_error_lt _ (l_vec p) k ltac:(lia)) as [th Et].
  assert (exists m, match i_fed i with Some ms => nth_error ms k = Some m | None => m = inverse_mass vh end) as [m Hm].
  { destruct (i_fed i) as [ms|]; [|eauto]. apply nth_error_lt. lia. }
  assert (Hval : data (l_val p) = l_vec p).
  { unfold p. destruct ins as [|j js _] using rev_ind; [reflexivity|]. rewrite sgld_run_snoc. reflexivity. }
  exists g, x, m, th, vh. rewrite Hval. repeat (split; [assumption|]).
  destruct LA as (_ & Lr & _ & _ & Lm).
  destruct (C22_sgld_update c p i k g x m th tau gb vh) as (G1 & _ & G3 & _); auto; try lra.
  - rewrite E2. discriminate.
  - apply nth_error_Some. lia.
  - unfold p'. rewrite sgld_run_snoc. fold p. now rewrite G3.
Qed.

(** Complete SGLD runs on finite inputs are NaN-free, for every scale_grad. *)
Theorem C22_sgld_never_nan :
  forall (A s : R) v ins, Forall (sized (length (data v))) ins ->
  let p := sgld_run (LConfig (Fin A) (Fin s)) (map fin_input ins) (linit (fin_tensor v)) in
  let q := sgld_run (LConfig A s) ins (linit v) in
  l_val p = fin_tensor (l_val q) /\ all_finite (l_adapt p).
Proof.
  intros A s v ins HF p q.
  assert (E : p = fin_lstate q) by (apply (sgld_run_fin (LConfig A s)); auto).
  rewrite E. split; [reflexivity|]. exists (l_adapt q). repeat split.
Qed.

(** *** C23 *)

(** A chain driven by the model's SGLD step, started at a random scalar, on the
    quadratic cost lam/2 (x - mu)^2, with frozen inverse mass [m]; up to step [N] the
    noise is standardised and uncorrelated with the current state. *)
Record gaussian_chain {O} (P : expectation O) (A s eps m lam mu : R) (N : nat)
    (st : nat -> O -> lstate R) (xi : nat -> O -> R) : Prop := {
  gc_start : forall w, length (l_vec (st 0%nat w)) = 1%nat;
  gc_step : forall t w, (t < N)%nat ->
    st (S t) w = sgld_step (LConfig A s) eps [lam * (hd 0 (l_vec (st t w)) - mu)] [xi t w] (Some [m]) (st t w);
  gc_mean : forall t, (t < N)%nat -> ex P (xi t) = 0;
  gc_var : forall t, (t < N)%nat -> ex P (fun w => xi t w ^ 2) = 1;
  gc_uncorrelated : forall t, (t < N)%nat -> ex P (fun w => hd 0 (l_vec (st t w)) * xi t w) = 0
}.
Definition theta_of {O} (st : nat -> O -> lstate R) (t : nat) (w : O) : R := hd 0 (l_vec (st t w)).

Lemma ex_const : forall O (P : expectation O) a, ex P (fun _ => a) = a.
Proof.
  intros. rewrite (ex_ext P _ (fun _ => a * 1)) by (intros; ring).
  rewrite (ex_scale P a (fun _ => 1)), ex_one. ring.
Qed.
Lemma variance_moments : forall O (P : expectation O) f,
  variance P f = ex P (fun w => f w ^ 2) - ex P f ^ 2.
Proof.
  intros. unfold variance. set (e := ex P f).
  rewrite (ex_ext P _ (fun w => f w ^ 2 + ((- 2 * e) * f w + e ^ 2))) by (intros; ring).
  rewrite (ex_add P (fun w => f w ^ 2)), (ex_add P (fun w => (- 2 * e) * f w)), ex_scale, ex_const.
  fold e. ring.
Qed.

Lemma chain_step : forall O (P : expectation O) A s eps m lam mu N st xi,
  0 < s -> 0 <= eps * m * A -> gaussian_chain P A s eps m lam mu N st xi ->
  forall t w, (t < N)%nat ->
  length (l_vec (st t w)) = 1%nat /\
  length (l_vec (st (S t) w)) = 1%nat /\
  theta_of st (S t) w = theta_of st t w - eps * m * A * (lam * (theta_of st t w - mu)) +
     sqrt (2 * (eps * m * A) / (s + 3 * guard)) * xi t w.
Proof.
  intros O P A s eps m lam mu N st xi Hs Hd HC.
  assert (St : forall t w, (t < N)%nat -> length (l_vec (st t w)) = 1%nat ->
     length (l_vec (st (S t) w)) = 1%nat /\
     theta_of st (S t) w = theta_of st t w - eps * m * A * (lam * (theta_of st t w - mu)) +
     sqrt (2 * (eps * m * A) / (s + 3 * guard)) * xi t w).
  { intros t w Ht L. unfold theta_of. rewrite (gc_step _ _ _ _ _ _ _ _ _ _ HC t w Ht).
    destruct (l_vec (st t w)) as [|x [|]] eqn:E; try discriminate.
    unfold sgld_step; cbn [l_vec minv_used]. rewrite E. cbn [hd vmap2 combine map length].
    split; [reflexivity|]. cbn [hd]. rewrite lsigma_R by auto. cbn [l_A l_scale_grad nadd nmul nopp Num_R].
    pose proof guard_pos. unfold sgld_drift. rewrite Rmax_right.
    - ring.
    - apply Rmult_le_pos; [lra|]. apply Rlt_le, Rinv_0_lt_compat. lra. }
  assert (L : forall t w, (t <= N)%nat -> length (l_vec (st t w)) = 1%nat).
  { induction t as [|t IH]; intros w Ht; [apply (gc_start _ _ _ _ _ _ _ _ _ _ HC)|].
    apply (St t w); [lia|]. apply IH. lia. }
  intros t w Ht. split; [apply L; lia|]. apply St; auto. apply L. lia.
Qed.

(** Exact mean and variance of the chain at every step. *)
Theorem C23_moments :
  forall O (P : expectation O) A s eps m lam mu N st xi,
  0 < s -> 0 < lam -> 0 < eps * m * A -> eps * m * A * lam < 2 ->
  gaussian_chain P A s eps m lam mu N st xi ->
  let h := eps * m * A in
  let limit_var := 1 / ((s + 3 / 10000000000000000) * lam * (1 - h * lam / 2)) in
  forall t, (t <= N)%nat ->
  ex P (theta_of st t) - mu = (1 - h * lam) ^ t * (ex P (theta_of st 0) - mu) /\
  variance P (theta_of st t) - limit_var = ((1 - h * lam) ^ 2) ^ t * (variance P (theta_of st 0) - limit_var).
Proof.
  intros O P A s eps m lam mu N st xi Hs Hl Hh Hh2 HC h lv t Ht.
  pose proof guard_pos as HG.
  assert (Hguard : 3 / 10000000000000000 = 3 * guard) by (unfold guard; lra).
  set (sg := sqrt (2 * h / (s + 3 * guard))).
  assert (Hsg : sg ^ 2 = 2 * h / (s + 3 * guard)).
  { unfold sg. rewrite <- Rsqr_pow2. apply Rsqr_sqrt. apply Rmult_le_pos; [unfold h; lra|].
    apply Rlt_le, Rinv_0_lt_compat. lra. }
  induction t as [|t IH]; [cbn; split; ring|].
  destruct IH as [IM IV]; [lia|].
  assert (Htn : (t < N)%nat) by lia.
  set (rho := 1 - h * lam) in *.
  assert (Step : forall w, theta_of st (S t) w = rho * theta_of st t w + ((1 - rho) * mu + sg * xi t w)).
  { intros w. destruct (chain_step _ _ _ _ _ _ _ _ _ _ _ Hs (Rlt_le _ _ Hh) HC t w Htn) as (_ & _ & ->).
    unfold rho, sg, h. ring. }
  assert (M' : ex P (theta_of st (S t)) = rho * ex P (theta_of st t) + (1 - rho) * mu).
  { rewrite (ex_ext P _ _ Step), (ex_add P (fun w => rho * theta_of st t w)), ex_scale.
    rewrite (ex_add P (fun _ => (1 - rho) * mu)), ex_const, ex_scale.
    rewrite (gc_mean _ _ _ _ _ _ _ _ _ _ HC t Htn). ring. }
  assert (S' : ex P (fun w => theta_of st (S t) w ^ 2) =
    rho ^ 2 * ex P (fun w => theta_of st t w ^ 2) + 2 * rho * ((1 - rho) * mu) * ex P (theta_of st t)
    + ((1 - rho) * mu) ^ 2 + sg ^ 2).
  { rewrite (ex_ext P _ (fun w => rho ^ 2 * (theta_of st t w ^ 2) +
      ((2 * rho * ((1 - rho) * mu)) * theta_of st t w + (((1 - rho) * mu) ^ 2 +
       (sg ^ 2 * (xi t w ^ 2) + ((2 * rho * sg) * (theta_of st t w * xi t w) + (2 * ((1 - rho) * mu) * sg) * xi t w)))))).
    2:{ intros w. rewrite Step. ring. }
    rewrite (ex_add P (fun w => rho ^ 2 * (theta_of st t w ^ 2))), (ex_scale P _ (fun w => theta_of st t w ^ 2)).
    rewrite (ex_add P (fun w => (2 * rho * ((1 - rho) * mu)) * theta_of st t w)), ex_scale.
    rewrite (ex_add P (fun _ => ((1 - rho) * mu) ^ 2)), ex_const.
    rewrite (ex_add P (fun w => sg ^ 2 * (xi t w ^ 2))), (ex_scale P _ (fun w => xi t w ^ 2)).
    rewrite (ex_add P (fun w => (2 * rho * sg) * (theta_of st t w * xi t w))).
    rewrite (ex_scale P _ (fun w => theta_of st t w * xi t w)), ex_scale.
    rewrite (gc_mean _ _ _ _ _ _ _ _ _ _ HC t Htn), (gc_var _ _ _ _ _ _ _ _ _ _ HC t Htn).
    unfold theta_of at 3. rewrite (gc_uncorrelated _ _ _ _ _ _ _ _ _ _ HC t Htn). ring. }
  split.
  - rewrite M'. cbn [pow]. rewrite Rmult_assoc, <- IM. ring.
  - rewrite variance_moments in IV |- *. rewrite S', M'.
    replace (((rho ^ 2) ^ S t) * (variance P (theta_of st 0) - lv))
      with (rho ^ 2 * (((rho ^ 2) ^ t) * (variance P (theta_of st 0) - lv))) by (cbn [pow]; ring).
    rewrite <- IV, Hsg. unfold lv. rewrite Hguard.
    assert (0 < 1 - h * lam / 2) by (unfold h; lra). assert (0 < s + 3 * guard) by lra.
    unfold rho. field. repeat split; lra.
Qed.

(** The limit is the only fixed point of the variance recursion, and lies above the target's
    variance 1/(s~ lam). *)
Theorem C23_unique_fixed_point :
  forall s lam h v, 0 < s -> 0 < lam -> 0 < h -> h * lam < 2 ->
  let st := s + 3 / 10000000000000000 in
  (v = (1 - h * lam) ^ 2 * v + 2 * h / st <-> v = 1 / (st * lam * (1 - h * lam / 2))) /\
  1 / (st * lam) < 1 / (st * lam * (1 - h * lam / 2)).
Proof.
  intros s lam h v Hs Hl Hh H2 st. assert (Hst : 0 < st) by (unfold st; lra).
  assert (Hq : 0 < 1 - h * lam / 2) by lra. split; [split|].
  - intros E. assert (h * lam * (2 - h * lam) * v = 2 * h / st) by lra.
    assert (0 < h * lam) by (apply Rmult_lt_0_compat; lra).
    apply (Rmult_eq_reg_l (h * lam * (2 - h * lam))); [|apply Rgt_not_eq, Rmult_lt_0_compat; lra].
    rewrite H. field. repeat split; lra.
  - intros ->. field. repeat split; lra.
  - assert (0 < st * lam) by nra. assert (0 < h * lam) by nra.
    apply Rmult_lt_compat_l; [lra|].
    apply Rinv_lt_contravar; [repeat apply Rmult_lt_0_compat; lra|].
    rewrite <- (Rmult_1_r (st * lam)) at 2. apply Rmult_lt_compat_l; lra.
Qed.

(** Convergence, uniformly over all chains with the same initial moments. *)
Theorem C23_converges :
  forall A s eps m lam mu, 0 < s -> 0 < lam -> 0 < eps * m * A -> eps * m * A * lam < 2 ->
  forall mean0 var0 delta, 0 < delta ->
  exists T, forall O (P : expectation O) N st xi,
    gaussian_chain P A s eps m lam mu N st xi ->
    ex P (theta_of st 0) = mean0 -> variance P (theta_of st 0) = var0 ->
    forall t, (T <= t <= N)%nat ->
    Rabs (ex P (theta_of st t) - mu) < delta /\
    Rabs (variance P (theta_of st t) -
          1 / ((s + 3 / 10000000000000000) * lam * (1 - eps * m * A * lam / 2))) < delta.
Proof.
  intros A s eps m lam mu Hs Hl Hh H2 mean0 var0 delta Hd.
  set (rho := 1 - eps * m * A * lam).
  set (lv := 1 / ((s + 3 / 10000000000000000) * lam * (1 - eps * m * A * lam / 2))).
  assert (Hr : Rabs rho < 1).
  { assert (0 < eps * m * A * lam) by nra. unfold rho. apply Rabs_def1; lra. }
  assert (Hr2 : Rabs (rho ^ 2) < 1).
  { rewrite <- RPow_abs. pose proof (Rabs_pos rho). cbn. nra. }
  assert (Lim : forall q c, Rabs q < 1 -> exists T, forall t, (T <= t)%nat -> Rabs (q ^ t * c) < delta).
  { intros q c Hq. assert (Hc : 0 < delta / (Rabs c + 1)).
    { apply Rdiv_lt_0_compat; [lra|]. pose proof (Rabs_pos c). lra. }
    destruct (pow_lt_1_zero q Hq _ Hc) as [T HT]. exists T. intros t Ht. specialize (HT t Ht).
    rewrite Rabs_mult. pose proof (Rabs_pos c). pose proof (Rabs_pos (q ^ t)).
    apply (Rmult_lt_compat_r (Rabs c + 1)) in HT; [|lra].
    replace (delta / (Rabs c + 1) * (Rabs c + 1)) with delta in HT by (field; lra). nra. }
  destruct (Lim rho (mean0 - mu) Hr) as [T1 H1].
  destruct (Lim (rho ^ 2) (var0 - lv) Hr2) as [T2 H3].
  exists (T1 + T2)%nat. intros O P N st xi HC E1 E2 t Ht.
  destruct (C23_moments O P A s eps m lam mu N st xi Hs Hl Hh H2 HC t ltac:(lia)) as [M V].
  fold rho in M, V. fold lv in V |- *. rewrite M, V, E1, E2. split; [apply H1|apply H3]; lia.
Qed.

(** Two independent signs: a chain over two steps. *)
Definition coin : expectation (bool * bool).
Proof.
  refine {| ex := fun f => (f (true, true) + f (true, false) + f (false, true) + f (false, false)) / 4 |};
    intros; try field. now rewrite !H.
Defined.
Definition sign_of (b : bool) : R := if b then 1 else -1.
Fixpoint coin_chain (t : nat) (w : bool * bool) : lstate R :=
  match t with
  | 0%nat => linit (Tensor [] [5])
  | S t' => let p := coin_chain t' w in
      sgld_step (LConfig 1 1) (1/10) [2 * (hd 0 (l_vec p) - 3)]
        [match t' with 0%nat => sign_of (fst w) | _ => sign_of (snd w) end] (Some [1]) p
  end.
Example C23_nontrivial :
  gaussian_chain coin 1 1 (1/10) 1 2 3 2 coin_chain
    (fun t w => match t with 0%nat => sign_of (fst w) | _ => sign_of (snd w) end) /\
  0 < 1/10 * 1 * 1 /\ 1/10 * 1 * 1 * 2 < 2.
Proof.
  split; [|lra]. constructor.
  - reflexivity.
  - reflexivity.
  - intros [|[|t]] Ht; [| |lia]; cbn; field.
  - intros [|[|t]] Ht; [| |lia]; cbn; field.
  - intros [|[|t]] Ht; [| |lia]; cbn [coin ex coin_chain sgld_step l_vec linit data minv_used vmap2 combine map hd fst snd sign_of].
    + field.
    + field.
Qed.

Print Assumptions C17_sghmc_adaptation_well_posed.
Print Assumptions C17_sgld_adaptation_well_posed.
Print Assumptions C18_mass_positive_and_bounded.
Print Assumptions C18_adaptation_never_nan.
Print Assumptions C19_noise_scale.
Print Assumptions C19_sghmc_never_nan.
Print Assumptions C20_momentum_bounded.
Print Assumptions C21_sghmc_update.
Print Assumptions C21_sghmc_update_in_runs.
Print Assumptions C21_sghmc_shape_independent.
Print Assumptions C22_sgld_update.
Print Assumptions C22_sgld_update_in_runs.
Print Assumptions C22_sgld_never_nan.
Print Assumptions C23_moments.
Print Assumptions C23_unique_fixed_point.
Print Assumptions C23_converges.
