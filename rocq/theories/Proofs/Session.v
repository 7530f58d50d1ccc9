(** Sessions: from runs of the whole sampler to runs of single parameters. *)
From Coq Require Import List Arith Lia ZArith Bool Reals.
From Verif.Base Require Import Py Num Vec Lists.
From Verif.Model Require Import TensorUtils BurnIn SGHMC SGLD Stepsize BaseClasses Session.
From Verif.Spec Require Import Sampler Trajectory.
From Verif.Proofs Require Import Sampler SamplerHistory Dynamics Trajectory.
Import ListNotations.

Section S.
Context {T : Type} `{Num T}.
Variable stream : Z * Z -> nat -> T.
Variable reserve : nat -> nat.
Variable K : kernel (T:=T).
Variable cost_grads : @objective T.

Definition k_run (ins : list (step_input T)) (s : k_state K) : k_state K :=
  fold_left (fun s i => k_step K (i_eps i) (i_grad i) (i_xi i) (i_fed i) s) ins s.
Lemma k_run_snoc : forall ins i s,
  k_run (ins ++ [i]) s = k_step K (i_eps i) (i_grad i) (i_xi i) (i_fed i) (k_run ins s).
Proof. intros. unfold k_run. now rewrite fold_left_app. Qed.

(** A kernel that respects sizes. *)
Definition kernel_sized (inv : nat -> k_state K -> Prop) : Prop :=
  (forall n s, inv n s -> length (data (k_value K s)) = n) /\
  (forall n s i, inv n s -> sized n i -> inv n (k_step K (i_eps i) (i_grad i) (i_xi i) (i_fed i) s)).

(** The noise operation after [t] steps with [n] draws each. *)
Definition advanced (n t : nat) (o : noise_op) : noise_op :=
  {| op_key := op_key o; op_pos := op_pos o + t * reserve n |}.

(** One execution of [run_params], parameter by parameter. *)
Lemma run_params_nth : forall eps f ps gs i ms qs,
  run_params stream reserve K eps f i gs ps = Ok (ms, qs) ->
  length qs = length ps /\ length ms = length ps /\
  forall j s o, nth_error ps j = Some (s, o) ->
  exists g, nth_error gs j = Some g /\
    let n := length (data (k_value K s)) in
    let fed := option_map data (lookup f (KMinv (i + j))) in
    let inp := StepInput eps g (fst (draw stream reserve n o)) fed in
    sized n inp /\
    nth_error qs j = Some (k_step K (i_eps inp) (i_grad inp) (i_xi inp) (i_fed inp) s, advanced n 1 o) /\
    nth_error ms j = Some (column_tensor (k_minv K fed (k_step K (i_eps inp) (i_grad inp) (i_xi inp) (i_fed inp) s))).
Proof.
  intros eps f ps. induction ps as [|[s o] ps IH]; intros gs i ms qs HR.
  - destruct gs; cbn in HR; [|discriminate]. injection HR as <- <-. repeat split.
    intros j s o Hj. destruct j; discriminate.
  - destruct gs as [|g gs]; cbn [run_params] in HR; [discriminate|].
    destruct (run_param stream reserve K eps g (lookup f (KMinv i)) (s, o)) as [[m [s1 o1]]|e] eqn:E1; [|discriminate].
    cbn [bind] in HR.
    destruct (run_params stream reserve K eps f (S i) gs ps) as [[ms1 qs1]|e] eqn:E2; [|discriminate].
    cbn [bind] in HR. injection HR as <- <-.
    destruct (IH _ _ _ _ E2) as (L1 & L2 & HN).
    split; [cbn; now rewrite L1|]. split; [cbn; now rewrite L2|].
    intros j s' o' Hj. destruct j as [|j].
    + cbn in Hj. injection Hj as <- <-. exists g. split; [reflexivity|].
      unfold run_param in E1. cbn [fst snd] in E1.
      destruct (length g =? length (data (k_value K s))) eqn:Eg; cbn [andb] in E1; [|discriminate].
      apply Nat.eqb_eq in Eg. rewrite Nat.add_0_r.
      destruct (option_map data (lookup f (KMinv i))) as [m0|] eqn:Ef;
        [destruct (length m0 =? length (data (k_value K s))) eqn:Em; [|discriminate]; apply Nat.eqb_eq in Em|];
        unfold draw in E1; injection E1 as <- <- <-; cbn zeta; (split; [|split]).
      * split; [exact Eg|]. split; [cbn; now rewrite map_length, seq_length|exact Em].
      * cbn. unfold advanced. now rewrite Nat.mul_1_l.
      * reflexivity.
      * split; [exact Eg|]. split; [cbn; now rewrite map_length, seq_length|exact I].
      * cbn. unfold advanced. now rewrite Nat.mul_1_l.
      * reflexivity.
    + cbn in Hj. destruct (HN j s' o' Hj) as (g' & Hg & HH). exists g'.
      cbn [nth_error]. rewrite Nat.add_succ_r. split; [exact Hg|exact HH].
Qed.

(** What a reachable session looks like. *)
Definition reached (inv : nat -> k_state K -> Prop) (z0 z : sess K) : Prop :=
  z_eps K z = z_eps K z0 /\ length (z_params K z) = length (z_params K z0) /\
  exists t, forall j s0 o0, nth_error (z_params K z0) j = Some (s0, o0) ->
    let n := length (data (k_value K s0)) in
    exists ins, length ins = t /\ Forall (sized n) ins /\
      nth_error (z_params K z) j = Some (k_run ins s0, advanced n t o0) /\ inv n (k_run ins s0).

Lemma reached_refl : forall (inv : nat -> k_state K -> Prop) z, (forall j s o, nth_error (z_params K z) j = Some (s, o) ->
    inv (length (data (k_value K s))) s) -> reached inv z z.
Proof.
  intros inv z Hinv. split; [reflexivity|]. split; [reflexivity|]. exists 0. intros j s0 o0 Hj n.
  exists []. repeat split; auto.
  - cbn. unfold advanced. cbn. rewrite Nat.add_0_r, Hj. destruct o0; reflexivity.
  - cbn. eapply Hinv; eauto.
Qed.

Lemma reached_run : forall inv z0 z f r z', kernel_sized inv -> reached inv z0 z ->
  session_run_model stream reserve K cost_grads f z = (r, z') -> reached inv z0 z'.
Proof.
  intros inv z0 z f r z' [K1 K2] HR HM. unfold session_run_model in HM.
  destruct (cost_grads (values K z) (fun n => lookup f (KUser n))) as [[c gs]|e]; [|injection HM as _ <-; auto].
  destruct (run_params stream reserve K (fed_eps K f z) f 0 gs (z_params K z)) as [[ms ps]|e] eqn:E;
    [|injection HM as _ <-; auto].
  injection HM as _ <-. destruct HR as (R1 & R2 & t & R3).
  destruct (run_params_nth _ _ _ _ _ _ _ E) as (L1 & L2 & HN).
  split; [exact R1|]. split; [cbn; congruence|]. exists (S t). intros j s0 o0 Hj n.
  destruct (R3 j s0 o0 Hj) as (ins & Ht & HF & Hn & Hi). fold n in HF, Hn, Hi.
  destruct (HN j _ _ Hn) as (g & Hg & Hs & Hq & _). cbn zeta in Hs, Hq.
  rewrite (K1 _ _ Hi) in Hs, Hq.
  set (inp := StepInput _ g _ _) in Hs.
  exists (ins ++ [inp]). split; [rewrite app_length; cbn; lia|]. split; [apply Forall_app; auto|].
  rewrite k_run_snoc. split.
  - cbn [z_params]. rewrite Hq. unfold advanced; cbn [op_key op_pos]. 
    replace (op_pos o0 + t * reserve n + 1 * reserve n) with (op_pos o0 + S t * reserve n) by (cbn [Nat.mul]; lia).
    reflexivity.
  - apply K2; auto.
Qed.

Section Env.
Variable B : Type.
Variable bg : option (B -> res (list (nat * tensor T)) * B).
Variable sc : schedule (tensor T) (sample (tensor T) * tensor T).
Let E := sampler_env stream reserve K cost_grads B bg sc.

Lemma reached_run_all : forall inv z0, kernel_sized inv -> forall fs z rs z',
  reached inv z0 z -> run_all E fs z = (rs, z') -> reached inv z0 z'.
Proof.
  intros inv z0 HK fs. induction fs as [|f fs IH]; intros z rs z' HR Hrun; cbn [run_all] in Hrun.
  - injection Hrun as _ <-. exact HR.
  - destruct (run E f z) as [r z1] eqn:Er. destruct (run_all E fs z1) as [rs1 z2] eqn:E2.
    injection Hrun as _ <-. apply (IH z1 rs1 z2); [|exact E2].
    exact (reached_run inv z0 z f r z1 HK HR Er).
Qed.
End Env.
End S.

(** The two kernels. *)
Section Kernels.
Context {T : Type} `{Num T}.

Definition sghmc_inv (n : nat) (p : pstate T) : Prop := pstate_len n p /\ data (p_val p) = p_vec p.
Lemma sghmc_kernel_sized : forall c : config T, kernel_sized (sghmc_kernel c) sghmc_inv.
Proof.
  intros c. split; cbn [k_value k_step sghmc_kernel k_state].
  - intros n s ((_ & _ & L) & ->). exact L.
  - intros n s i (HL & _) Hi. split; [now apply pstate_len_step|reflexivity].
Qed.
Definition sgld_inv (n : nat) (p : lstate T) : Prop := lstate_len n p /\ data (l_val p) = l_vec p.
Lemma sgld_kernel_sized : forall c : lconfig T, kernel_sized (sgld_kernel c) sgld_inv.
Proof.
  intros c. split; cbn [k_value k_step sgld_kernel k_state].
  - intros n s ((_ & L) & ->). exact L.
  - intros n s i (HL & _) Hi. split; [now apply lstate_len_step|reflexivity].
Qed.
Lemma sghmc_inv_init : forall v : tensor T, sghmc_inv (length (data v)) (pinit v).
Proof. intros. split; [apply pstate_len_init|reflexivity]. Qed.
Lemma sgld_inv_init : forall v : tensor T, sgld_inv (length (data v)) (linit v).
Proof. intros. split; [apply lstate_len_init|reflexivity]. Qed.
End Kernels.
