(** C91: complete runs of SVGD. *)
From Coq Require Import List Arith Lia ZArith Bool Reals Lra Permutation.
From Verif.Base Require Import Py Num Vec Lists.
From Verif.Model Require Import TensorUtils SVGD Stepsize BaseClasses SvgdSession.
From Verif.Spec Require Import Tensor Svgd Sampler SvgdChain.
From Verif.Proofs Require Import Sampler SamplerHistory Svgd SvgdStep.
From Verif.Props Require Import PSVGD.
Import ListNotations.

Lemma each_spec : forall A B (f : A -> res B) l,
  match each f l with
  | Ok bs => length bs = length l /\ forall i a, nth_error l i = Some a -> exists b, nth_error bs i = Some b /\ f a = Ok b
  | Raise e => exists a, In a l /\ f a = Raise e
  end.
Proof.
  induction l as [|a l IH]; cbn [each].
  - split; auto. intros [|]; discriminate.
  - destruct (f a) as [b|e] eqn:Ef; cbn [bind]; [|exists a; cbn; auto].
    destruct (each f l) as [bs|e]; cbn [bind]; [|destruct IH as (x & Hx & He); exists x; cbn; auto].
    destruct IH as [IL IN]. split; [cbn; lia|]. intros [|i] x Hx; cbn in *; [injection Hx as <-; eauto|eauto].
Qed.

Section S.
Variable c : sconfig R.
Variable d : nat.
Variable target : list R -> (nat -> option (tensor R)) -> res (R * list R).
Hypothesis grad_shape : forall x user v g, length x = d -> target x user = Ok (v, g) -> length g = d.
Notation run := (svgd_session_run c d target).

Lemma costs_spec : forall user X n, matrix_shape n d X ->
  match each (fun x => target x user) X with
  | Ok cgs => evaluates target user X (map fst cgs) (map snd cgs) /\ matrix_shape n d (map snd cgs)
  | Raise e => exists x, In x X /\ target x user = Raise e
  end.
Proof.
  intros user X n [HL HF]. pose proof (each_spec _ _ (fun x => target x user) X) as ES.
  destruct (each _ X) as [cgs|e]; [|auto]. destruct ES as [EL EN].
  assert (N : forall i, i < length X -> target (nth i X []) user = Ok (nth i (map fst cgs) 0%R, nth i (map snd cgs) [])).
  { intros i Hi. destruct (EN i (nth i X [])) as ([v g] & Hb & Ht); [now apply nth_error_nth'|].
    rewrite Ht. f_equal. f_equal; symmetry; apply nth_error_nth; rewrite nth_error_map, Hb; reflexivity. }
  split; [split; [now rewrite map_length|split; [now rewrite map_length|exact N]]|].
  split; [rewrite map_length; congruence|]. apply Forall_forall. intros g Hg.
  apply (In_nth _ _ []) in Hg as (i & Hi & <-). rewrite map_length, EL in Hi. eapply grad_shape; [|apply N; auto].
  rewrite Forall_forall in HF. apply HF. now apply nth_In.
Qed.

Lemma run_spec : forall f eps z n, matrix_shape n d (v_particles z) -> matrix_shape n d (v_hist z) -> 1 <= n ->
  lookup f KEps = Some eps ->
  let user k := lookup f (KUser k) in
  (exists x e, In x (v_particles z) /\ target x user = Raise e /\ run f z = (Raise e, z)) \/
  (exists costs L X' H', evaluates target user (v_particles z) costs L /\
     matrix_shape n d X' /\ matrix_shape n d H' /\
     run f z = (Ok {| o_theta := map (Tensor [d]) X'; o_cost := shown_costs costs; o_minv := [] |},
                {| v_eps := v_eps z; v_particles := X'; v_hist := H' |}) /\
     (bandwidth (v_particles z) 0 \/ moved_particles (s_alpha c) (s_fudge c) d (hd 0%R (data eps)) (v_particles z) (v_hist z) L X' H')).
Proof.
  intros f eps z n HX HH Hn He user. unfold svgd_session_run. fold user. pose proof (costs_spec user (v_particles z) n HX) as CS.
  destruct (each _ (v_particles z)) as [cgs|e] eqn:Ee.
  2:{ left. destruct CS as (x & Hx & Ht). exists x, e. auto. }
  right. rewrite He, n0_R. destruct CS as [CE CS].
  pose proof (proj1 HX) as HX1. rewrite HX1.
  destruct (step_entries c (hd 0%R (data eps)) (v_particles z) (map snd cgs) (v_hist z) n d HX CS HH Hn) as (h & X' & H' & Hb & Es & SX & SH & HE).
  exists (map fst cgs), (map snd cgs), X', H'. split; auto. split; auto. split; auto.
  rewrite Es. split.
  { unfold shown_costs. rewrite map_length. replace (length cgs) with n; auto. destruct CS as [CS _]. now rewrite map_length in CS. }
  assert (Hp : (0 <= h)%R) by (destruct Hb as (m & _ & ->); apply sqrt_pos).
  destruct (Req_dec h 0) as [->|Hh]; [now left|]. right.
  split; [destruct SX; congruence|]. split; [destruct SH; congruence|].
  split; [apply Forall_app; split; [apply SX|apply SH]|]. exists h. split; auto. split; [lra|].
  intros i k Hi Hk D. rewrite HX1 in Hi. destruct (HE i k Hi Hk) as [EH EX'].
  assert (EG : gfun h (v_particles z) (map snd cgs) (nth i (v_particles z) []) k = (- D)%R)
    by (apply gfun_flipped; [auto|destruct CS; lia]).
  rewrite EX', EH, EG. unfold new_coord, new_hist. split; [ring|].
  unfold Rdiv. replace ((- D) ^ 2)%R with (D ^ 2)%R by ring. ring.
Qed.

Section Env.
Variable B : Type.
Variable bg : option (B -> res (list (nat * tensor R)) * B).
Variable sc : schedule (tensor R) (sample (tensor R) * tensor R).
Let E := svgd_env c d target B bg sc.

Lemma unravel_many : forall X n, length X = n -> 2 <= n -> unravel (map (Tensor [d]) X) = shown d X.
Proof. intros [|x [|y X]] n HL Hn; cbn in *; try lia; reflexivity. Qed.

Lemma drive_follows : forall n us s rs s', 2 <= n ->
  matrix_shape n d (v_particles (s_sess E s)) -> matrix_shape n d (v_hist (s_sess E s)) ->
  drive E (mcmc_next E) us s = (rs, s') ->
  vfollows (s_alpha c) (s_fudge c) d target E (v_particles (s_sess E s)) (v_hist (s_sess E s)) rs.
Proof.
  intros n us s rs s' Hn. revert s rs s'. induction us as [|u us IH]; intros s rs s' HX HH HD; cbn [drive] in HD.
  - injection HD as <- _. apply V_end.
  - destruct (call E (mcmc_next E) u s) as [[r s1] ev] eqn:Ec.
    destruct (drive E (mcmc_next E) us s1) as [rs2 s2] eqn:Ed. injection HD as <- _.
    destruct (mcmc_call E _ _ _ _ _ Ec) as [SO _ _ _ SS]. clear Ec.
    assert (RB : forall evb b l, batch_events E evb b -> runs (evb ++ l) = runs l).
    { intros evb b l HBE. unfold runs. rewrite flat_map_app. unfold batch_events in HBE.
      destruct (bg_next E); [subst|destruct HBE; subst]; reflexivity. }
    assert (Stay : s_sess E s1 = s_sess E s ->
      vfollows (s_alpha c) (s_fudge c) d target E (v_particles (s_sess E s)) (v_hist (s_sess E s)) rs2).
    { intros EQ. rewrite <- EQ in HX, HH |- *. eapply IH; eauto. }
    inversion SO; subst.
    + eapply V_not_run; cbn [cr_res cr_events]; [reflexivity|reflexivity|].
      cbn [runs flat_map map fst snd run_all] in SS. apply Stay. now injection SS.
    + eapply V_not_run; cbn [cr_res cr_events]; [reflexivity|eapply RB; eauto|].
      erewrite RB in SS by eauto. cbn [runs flat_map map fst snd run_all] in SS. apply Stay. now injection SS.
    + erewrite RB in SS by eauto. destruct H0 as (Fe & Fu & _). cbn [runs flat_map map fst snd run_all app] in SS.
      destruct (BaseClasses.run E f (s_sess E s)) as [r1 z1] eqn:Er. injection SS as Hr Hz. subst r1 z1.
      change (run f (s_sess E s) = (Raise e, s_sess E s1)) in Er.
      destruct (run_spec f eps (s_sess E s) n HX HH ltac:(lia) Fe) as [(x & e' & Hx & Ht & R1)|(costs & L & X' & H' & _ & _ & _ & R1 & _)];
        [|rewrite R1 in Er; discriminate Er].
      rewrite R1 in Er. injection Er as -> Hz.
      eapply V_run_fails with (x := x); cbn [cr_res cr_events cr_user]; eauto. intros k. cbn [cr_user]. now rewrite Fu.
    + erewrite RB in SS by eauto. destruct H0 as (Fe & Fu & _). cbn [runs flat_map map fst snd run_all app] in SS.
      destruct (BaseClasses.run E f (s_sess E s)) as [r1 z1] eqn:Er. injection SS as Hr Hz. subst r1 z1.
      change (run f (s_sess E s) = (Ok o, s_sess E s1)) in Er.
      destruct (run_spec f eps (s_sess E s) n HX HH ltac:(lia) Fe) as [(x & e' & Hx & Ht & R1)|(costs & L & X' & H' & Hev & SX & SH & R1 & Hm)];
        rewrite R1 in Er; [discriminate Er|]. injection Er as <- Hz.
      destruct Hm as [Hm|Hm]; [now apply V_degenerate|]. cbn [o_theta o_cost]. rewrite (unravel_many X' n) by (auto; apply SX).
      eapply V_update_fails; cbn [cr_res cr_events cr_user]; [reflexivity|eassumption| |exact Hev|exact Hm|reflexivity|].
      * intros k. cbn [cr_user]. now rewrite Fu.
      * pose proof (IH s1 rs2 s2) as IH1. rewrite <- Hz in IH1. cbn [v_particles v_hist] in IH1. eapply IH1; eauto.
    + erewrite RB in SS by eauto. destruct H0 as (Fe & Fu & _). cbn [runs flat_map map fst snd run_all app] in SS.
      destruct (BaseClasses.run E f (s_sess E s)) as [r1 z1] eqn:Er. injection SS as Hr Hz. subst r1 z1.
      change (run f (s_sess E s) = (Ok o, s_sess E s1)) in Er.
      destruct (run_spec f eps (s_sess E s) n HX HH ltac:(lia) Fe) as [(x & e' & Hx & Ht & R1)|(costs & L & X' & H' & Hev & SX & SH & R1 & Hm)];
        rewrite R1 in Er; [discriminate Er|]. injection Er as <- Hz.
      destruct Hm as [Hm|Hm]; [now apply V_degenerate|]. cbn [o_theta o_cost]. rewrite (unravel_many X' n) by (auto; apply SX).
      eapply V_moves; cbn [cr_res cr_events cr_user]; [eassumption| |exact Hev|exact Hm|reflexivity|reflexivity|].
      * intros k. cbn [cr_user]. now rewrite Fu.
      * pose proof (IH s1 rs2 s2) as IH1. rewrite <- Hz in IH1. cbn [v_particles v_hist] in IH1. eapply IH1; eauto.
Qed.
End Env.
End S.

(** Every history of calls of SVGD is gradient descent with the reversed Stein direction and AdaGrad: started from the
    particles given and averages zero, with the stepsizes of the schedule, costs and gradients at the current particles under the current
    batch, all particles moving at once. *)
Theorem C91_svgd_run : forall (c : sconfig R) d target B bg sc us rs s' b0 c0 eps0 X,
  (forall x user v g, length x = d -> target x user = Ok (v, g) -> length g = d) ->
  2 <= length X -> Forall (fun x => length x = d) X ->
  let E := svgd_env c d target B bg sc in
  drive E (mcmc_next E) us (initial_state E b0 c0 (svgd_session d eps0 X)) = (rs, s') ->
  vfollows (s_alpha c) (s_fudge c) d target E X (repeat (repeat 0%R d) (length X)) rs.
Proof.
  intros c d target B bg sc us rs s' b0 c0 eps0 X Hg Hn HX E HD.
  assert (H0 : @svgd_history R _ (length X) d = repeat (repeat 0%R d) (length X)) by (unfold svgd_history; now rewrite n0_R).
  pose proof (drive_follows c d target Hg B bg sc (length X) us (initial_state E b0 c0 (svgd_session d eps0 X)) rs s' Hn) as HF.
  cbn [initial_state s_sess svgd_session v_particles v_hist] in HF. fold E in HF. rewrite H0 in HF. apply HF; auto.
  - split; auto.
  - split; [apply repeat_length|]. apply Forall_forall. intros r Hr. apply repeat_spec in Hr as ->. apply repeat_length.
Qed.

(** Particles are exchangeable for whole sequences of runs: listing them in another order only reorders results. *)
Definition reorder (sigma : list nat) (z : vsess R) : vsess R :=
  {| v_eps := v_eps z; v_particles := pick sigma (v_particles z); v_hist := pick sigma (v_hist z) |}.
Definition reorder_outputs (sigma : list nat) (o : outputs (tensor R)) : outputs (tensor R) :=
  {| o_theta := map (fun i => nth i (o_theta o) (Tensor [] [])) sigma;
     o_cost := Tensor (shape (o_cost o)) (map (fun i => nth i (data (o_cost o)) 0%R) sigma);
     o_minv := o_minv o |}.

Lemma each_reorder : forall A B (f : A -> res B) l bs a0 b0 sigma, each f l = Ok bs ->
  (forall i, In i sigma -> i < length l) ->
  each f (map (fun i => nth i l a0) sigma) = Ok (map (fun i => nth i bs b0) sigma).
Proof.
  intros A B f l bs a0 b0 sigma He Hs. pose proof (each_spec _ _ f l) as ES. rewrite He in ES. destruct ES as [EL EN].
  induction sigma as [|i sigma IH]; [reflexivity|]. cbn [map each].
  destruct (EN i (nth i l a0)) as (b & Hb & Hf); [apply nth_error_nth', Hs; now left|].
  rewrite Hf. cbn [bind]. rewrite IH by (intros; apply Hs; now right). cbn [bind]. f_equal. f_equal. symmetry. now apply nth_error_nth.
Qed.

Theorem C91_exchangeable : forall (c : sconfig R) d target B bg sc n sigma,
  (forall x user v g, length x = d -> target x user = Ok (v, g) -> length g = d) ->
  1 <= n -> Permutation sigma (seq 0 n) ->
  let E := svgd_env c d target B bg sc in
  forall fs z outs z', matrix_shape n d (v_particles z) -> matrix_shape n d (v_hist z) ->
  run_all E fs z = (map Ok outs, z') ->
  run_all E fs (reorder sigma z) = (map Ok (map (reorder_outputs sigma) outs), reorder sigma z').
Proof.
  intros c d target B bg sc n sigma Hg Hn HP E. induction fs as [|f fs IH]; intros z outs z' HX HH H.
  - cbn in *. destruct outs; [|discriminate H]. now injection H as <-.
  - cbn [run_all] in H |- *. destruct (run E f z) as [r z1] eqn:Er. destruct (run_all E fs z1) as [rs z2] eqn:Ea.
    destruct outs as [|o outs]; [discriminate H|]. cbn [map] in H. injection H as -> -> ->.
    change (svgd_session_run c d target f z = (Ok o, z1)) in Er. unfold svgd_session_run in Er.
    pose proof (costs_spec d target Hg (fun k => lookup f (KUser k)) (v_particles z) n HX) as CS.
    destruct (each _ (v_particles z)) as [cgs|] eqn:Ee; [|discriminate Er]. destruct CS as [_ SL].
    set (eps := match lookup f KEps with Some t => hd n0 (data t) | None => v_eps z end) in *.
    pose proof (proj1 HX) as LX. rewrite LX in Er.
    destruct (C30_permutation c eps (v_particles z) (map snd cgs) (v_hist z) n d sigma HX SL HH Hn HP) as (X' & H' & S1 & S2).
    rewrite S1 in Er. injection Er as <- <-.
    assert (HS : forall i, In i sigma -> i < length (v_particles z)).
    { intros i Hi. apply (Permutation_in _ HP) in Hi. apply in_seq in Hi. lia. }
    assert (LS : length sigma = n) by (rewrite (Permutation_length HP); apply seq_length).
    assert (Lc : length cgs = n) by (destruct SL as [SL _]; now rewrite map_length in SL).
    assert (Er' : run E f (reorder sigma z) = (Ok (reorder_outputs sigma {| o_theta := map (fun x => Tensor [d] x) X'; o_cost := Tensor [n] (map fst cgs); o_minv := [] |}),
       reorder sigma {| v_eps := v_eps z; v_particles := X'; v_hist := H' |})).
    { change (run E f) with (svgd_session_run c d target f). unfold svgd_session_run. cbn [reorder v_particles v_hist v_eps]. unfold pick at 1.
      rewrite (each_reorder _ _ _ _ cgs [] (0%R, []) sigma Ee HS). fold eps.
      assert (Lp : length (pick sigma (v_particles z)) = n) by (unfold pick; now rewrite map_length).
      rewrite Lp.
      replace (map snd (map (fun i => nth i cgs (0%R, [])) sigma)) with (pick sigma (map snd cgs)).
      2:{ unfold pick. rewrite map_map. apply map_ext. intros i. exact (map_nth snd cgs (0%R, []) i). }
      rewrite S2. destruct (step_entries c eps (v_particles z) (map snd cgs) (v_hist z) n d HX SL HH Hn) as (h & X2 & H2 & _ & S3 & SX2 & _).
      rewrite S1 in S3. injection S3 as <- <-.
      unfold reorder_outputs, reorder. cbn [o_theta o_cost o_minv shape data v_eps v_particles v_hist]. f_equal. f_equal. f_equal.
      - unfold pick. rewrite map_map. apply map_ext_in. intros i Hi. apply HS in Hi. rewrite LX in Hi.
        rewrite (nth_indep _ (Tensor [] []) (Tensor [d] [])) by (rewrite map_length; destruct SX2; lia). symmetry. exact (map_nth (fun x => Tensor [d] x) X' [] i).
      - f_equal. rewrite map_map. apply map_ext. intros i. symmetry. exact (map_nth fst cgs (0%R, []) i). }
    rewrite Er'.
    destruct (step_entries c eps (v_particles z) (map snd cgs) (v_hist z) n d HX SL HH Hn) as (h & X2 & H2 & _ & S3 & SX2 & SH2 & _).
    rewrite S1 in S3. injection S3 as <- <-.
    rewrite (IH {| v_eps := v_eps z; v_particles := X'; v_hist := H' |} _ _ SX2 SH2 Ea). reflexivity.
Qed.

Lemma plain_call_ok : forall (W : Type) (rn : feed (tensor R) -> W -> res (outputs (tensor R)) * W) z c0 o z1,
  rn [(KEps, c0)] z = (Ok o, z1) ->
  let E := Env unit None (constant_schedule (tensor R) (sample (tensor R) * tensor R)) W rn in
  exists s1 ev, call E (mcmc_next E) None (initial_state E tt c0 z) = (Ok (unravel (o_theta o), o_cost o), s1, ev).
Proof. intros W rn z c0 o z1 H E. destruct o as [th co mi]. lazy in H. destruct th as [|v [|]]; eexists _, _; lazy; rewrite H; reflexivity. Qed.

(** A concrete run: standard normal target, particles (0,0) and (1,0), stepsize 1/2. *)
Definition normal_target : list R -> (nat -> option (tensor R)) -> res (R * list R) :=
  fun x _ => Ok (Rsum (map (fun y => y ^ 2 / 2)%R x), x).
Example C91_example :
  let E := svgd_env (SConfig (9/10) (1/1000000))%R 2 normal_target unit None (constant_schedule (tensor R) (sample (tensor R) * tensor R)) in
  let X := [[0; 0]; [1; 0]]%R in
  exists X' H' s1 ev, call E (mcmc_next E) None (initial_state E tt (Tensor [] [1/2]%R) (svgd_session 2 1%R X)) =
    (Ok (SList (map (Tensor [2]) X'), Tensor [2] [0 ^ 2 / 2 + (0 ^ 2 / 2 + 0); 1 ^ 2 / 2 + (0 ^ 2 / 2 + 0)]%R), s1, ev) /\
    moved_particles (9/10) (1/1000000) 2 (1/2) X (repeat (repeat 0%R 2) 2) X X' H'.
Proof.
  intros E X.
  assert (Hg : forall x user v g, length x = 2 -> normal_target x user = Ok (v, g) -> length g = 2).
  { intros x user v g Hx H. unfold normal_target in H. injection H as _ <-. exact Hx. }
  assert (HX : matrix_shape 2 2 X) by (split; [reflexivity|repeat constructor]).
  set (f := [(KEps, Tensor [] [1/2]%R)] : feed (tensor R)). set (z := svgd_session 2 1%R X).
  assert (HH : matrix_shape 2 2 (v_hist z)) by (split; [reflexivity|repeat constructor]).
  destruct (run_spec (SConfig (9/10) (1/1000000))%R 2 normal_target Hg f (Tensor [] [1/2]%R) z 2 HX HH ltac:(lia) eq_refl)
    as [(x & e & _ & Ht & _)|(costs & L & X' & H' & (C1 & C2 & C3) & SX & SH & R1 & Hm)]; [discriminate Ht|].
  change (v_particles z) with X in *. cbn [length X] in C1, C2, C3.
  destruct costs as [|c0 [|c1 [|]]]; try discriminate C1. destruct L as [|l0 [|l1 [|]]]; try discriminate C2.
  pose proof (C3 0 ltac:(lia)) as D0. pose proof (C3 1 ltac:(lia)) as D1. unfold normal_target, X in D0, D1. cbn [nth map Rsum] in D0, D1.
  injection D0 as <- <-. injection D1 as <- <-.
  exists X', H'. destruct SX as [SX _]. destruct X' as [|x0 [|x1 [|]]]; try discriminate SX.
  destruct (plain_call_ok _ _ _ _ _ _ R1) as (s1 & ev & HC). exists s1, ev. split; [exact HC|].
  destruct Hm as [Hm|Hm].
    + exfalso. assert (HN : NoDup X) by (unfold X; repeat constructor; cbn; [intros [H|[]]; injection H; lra|tauto]).
      pose proof (bandwidth_pos X 2 2 0 HX ltac:(lia) HN Hm). lra.
    + replace (repeat (repeat 0%R 2) 2) with (v_hist z) by (unfold z, svgd_session, svgd_history; cbn [v_hist]; rewrite n0_R; reflexivity). exact Hm.
Qed.

Print Assumptions C91_svgd_run.
Print Assumptions C91_exchangeable.
