(** C81: test points whose number of features differs from that of the training data. *)
From Coq Require Import String List Arith Lia ZArith Bool Reals Lra.
From Verif.Base Require Import Py Num Vec.
From Verif.Model Require Import Stepsize BaseClasses DataBatches TensorUtils BaseModel BNN DefaultNet.
From Verif.Proofs Require Import Train.
From Verif.Props Require Import PBNN PBNNDemo PPointwise.
Import ListNotations.
Local Open Scope list_scope.

(** Test points with [k] features each; there is at least one. *)
Definition test_points {T} (k : nat) (X : list (list T)) : Prop := X <> [] /\ Forall (fun r => length r = k) X.
(** One feature repeated. *)
Definition spread {T} (d : nat) (r : list T) : list T := match r with [v] => repeat v d | _ => r end.

Section Widths.
Context {T : Type} `{NT : Num T} `{NTT : NumT T}.
Variable W : Type.
Variable value_of : W -> nat -> tensor T.
Variable get_sampler_ : W -> res unit * W.
Variable initialize : W -> res unit * W.
Variable log_error : heap (list T) T -> W -> res unit * W.
Variable run_sampler : feed (tensor T) -> W -> res (outputs (tensor T)) * W.
Variable schedule_ : schedule (tensor T) (sample (tensor T) * tensor T).
Variable B : batch_source T.
Variable builder : net_builder T.
Notation predict := (predict W value_of).
Notation train := (train W get_sampler_ initialize log_error run_sampler schedule_ B builder).
Notation t_res := (t_res W schedule_).
Notation t_bnn := (t_bnn W schedule_).
Notation t_ext := (t_ext W schedule_).
Notation x_vars := (x_vars W schedule_).
Notation returns_shapes := (returns_shapes W run_sampler).

Lemma forallb_width : forall k j (X : list (list T)), test_points k X -> forallb (fun r => length r =? j) X = (k =? j).
Proof.
  intros k j X [Hne HF]. destruct (Nat.eqb_spec k j) as [->|Hj].
  - apply forallb_forall. intros r Hr. rewrite Forall_forall in HF. now apply Nat.eqb_eq, HF.
  - destruct X as [|r X]; [congruence|]. inversion HF; subst. cbn. now destruct (Nat.eqb_spec (length r) j).
Qed.

(** Wrong numbers of features are rejected, except 1 if inputs are normalized. *)
Theorem C81_wrong_width_rejected : forall a c X y b e, construct_bnn a = Ok c -> let t := train c (Matrix X) y b e in
  t_res t = Ok tt -> returns_shapes (x_vars (t_ext t)) -> length (x_vars (t_ext t)) <> 1 -> b_samples (t_bnn t) <> [] ->
  forall k X' ind w, test_points k X' -> k <> width X -> (c_normalize_input c = true -> k <> 1) ->
  predict c (Matrix X') ind (t_bnn t) w = Raise ValueError.
Proof.
  intros a c X y b e Hc t Ht Hsh Hn1 Hs k X' ind w HX' Hk Hk1.
  pose proof (train_flag W get_sampler_ initialize log_error run_sampler schedule_ B builder c (Matrix X) y b e) as Fl. cbv zeta in Fl. fold t in Fl.
  rewrite Ht, orb_true_r in Fl. unfold BNN.predict. rewrite Fl. cbn [negb].
  assert (O : forall X1, test_points k X1 -> outputs_of W value_of (t_bnn t) w (b_samples (t_bnn t)) X1 = Raise ValueError).
  { intros X1 HX1. destruct (b_samples (t_bnn t)) as [|p ps] eqn:Es; [congruence|]. cbn [outputs_of].
    destruct (C55_network_evaluated_at_samples W value_of get_sampler_ initialize log_error run_sampler schedule_ B builder
      a c X y b e Hc Ht Hsh Hn1 p) as (l & _ & _ & He). { fold t. rewrite Es. now left. }
    fold t in He. rewrite He, (forallb_width k) by exact HX1. now destruct (Nat.eqb_spec k (width X)). }
  pose proof (train_cases W get_sampler_ initialize log_error run_sampler schedule_ B builder c X y b e) as Tc; fold t in Tc;
    destruct Tc as [er Hb Hr|nt er Hb _ Hr|nt st Hb Hrb Hg Hi E _]; try congruence. destruct Hrb.
  rewrite rb_x. unfold x_stats_of. destruct (c_normalize_input c); [|cbn [bind]; now rewrite O].
  unfold zmuv_normalization at 1 2. cbn [default fst snd]. unfold zmuv_given.
  rewrite !(forallb_width k) by exact HX'. rewrite map_length. unfold columns. rewrite map_length, seq_length.
  destruct (Nat.eqb_spec k (width X)); [congruence|]. destruct (Nat.eqb_spec k 1); [exfalso; now apply Hk1|].
  destruct (Nat.eqb_spec (width X) 1); [|reflexivity]. cbn [bind]. rewrite O; [reflexivity|].
  unfold zmuv_normalization. cbn [default fst]. destruct HX' as [Hne HF]. split; [destruct X'; [congruence|discriminate]|].
  assert (Wk : width X' = k) by (destruct X'; [congruence|inversion HF; assumption]). rewrite Wk.
  apply Forall_map. eapply Forall_impl; [|exact HF]. intros r Hr. cbn beta.
  apply vmap2_length; [apply vmap2_length; [exact Hr|]|]; apply repeat_length.
Qed.

(** With normalized inputs a single feature is taken to be the value of all features. *)
Theorem C81_single_feature_spread : forall c X y b e, let t := train c (Matrix X) y b e in
  t_res t = Ok tt -> c_normalize_input c = true ->
  forall X' ind w, test_points 1 X' ->
  predict c (Matrix X') ind (t_bnn t) w = predict c (Matrix (map (spread (width X)) X')) ind (t_bnn t) w.
Proof.
  intros c X y b e t Ht Hn X' ind w HX'.
  pose proof (train_cases W get_sampler_ initialize log_error run_sampler schedule_ B builder c X y b e) as Tc; fold t in Tc;
    destruct Tc as [er Hb Hr|nt er Hb _ Hr|nt st Hb Hrb Hg Hi E _]; try congruence. destruct Hrb.
  unfold BNN.predict. rewrite Hn, rb_x. unfold x_stats_of. rewrite Hn.
  unfold zmuv_normalization at 1 2 3 4. cbn [default fst snd].
  assert (Lc : length (map (np_mean (T := T)) (columns X)) = width X) by (unfold columns; now rewrite !map_length, seq_length).
  set (m := map np_mean (columns X)) in *. set (s := map np_std (columns X)).
  assert (Sp : Forall (fun r => length r = length m) (map (spread (width X)) X')).
  { apply Forall_map. eapply Forall_impl; [|apply HX']. intros [|v [|]] Hr; try discriminate. cbn. now rewrite repeat_length, Lc. }
  rewrite (zmuv_given_right (map (spread (width X)) X')) by exact Sp.
  replace (zmuv_given X' m s) with (Ok (fst (fst (zmuv_normalization (map (spread (width X)) X') (Some m) (Some s))))); [reflexivity|].
  unfold zmuv_given. rewrite !(forallb_width 1) by exact HX'. rewrite Lc. destruct (Nat.eqb_spec 1 (width X)) as [E1|E1].
  - rewrite <- E1. erewrite map_ext_in; [now rewrite map_id|]. destruct HX' as [_ HF]. rewrite Forall_forall in HF.
    intros r Hr. specialize (HF r Hr). now destruct r as [|v [|]].
  - cbn [Nat.eqb]. do 4 f_equal. apply map_ext_in. intros r Hr. destruct HX' as [_ HF]. rewrite Forall_forall in HF.
    specialize (HF r Hr). destruct r as [|v [|]]; try discriminate. reflexivity.
Qed.

(** A network without samples rejects nothing if inputs are not normalized. *)
Theorem C81_without_samples : forall c b w, b_samples b = [] -> c_normalize_input c = false ->
  forall X X' ind, predict c (Matrix X) ind b w = predict c (Matrix X') ind b w.
Proof. intros c b w Hs Hn X X' ind. unfold BNN.predict. rewrite Hn, Hs. reflexivity. Qed.
End Widths.

(** So the contract - test points of a wrong width are rejected - fails. *)
Definition wide_X : list (list R) := map (fun z => [IZR z; IZR (z * z)]) [0; 1; 2; 3; 4]%Z.
Notation wide_train := (demo_train R demo_gb [] 2 (demo_config 2 9 1 2 true false) (Matrix wide_X) demo_y fresh_bnn demo_start).
Example C81_example : construct_bnn (demo_args 2 9 1 2 true false) = Ok (demo_config 2 9 1 2 true false) /\
  t_res nat demo_schedule wide_train = Ok tt /\ width wide_X = 2 /\ length (b_samples (t_bnn nat demo_schedule wide_train)) = 2 /\
  test_points 1 [[3%R]].
Proof.
  split; [lazy -[IZR]; reflexivity|]. split; [lazy -[IZR Rdiv Rplus Rminus Rmult sqrt Rinv]; reflexivity|].
  split; [reflexivity|]. split; [lazy -[IZR Rdiv Rplus Rminus Rmult sqrt Rinv]; reflexivity|]. split; [discriminate|repeat constructor].
Qed.
Lemma wide_vars : x_vars nat demo_schedule (t_ext nat demo_schedule wide_train) = [[1]; [1]].
Proof. lazy -[IZR Rdiv Rplus Rminus Rmult sqrt Rinv]. reflexivity. Qed.
Theorem C81_wrong_width_refuted : ~ (forall a c X y b (e : ext nat demo_schedule), construct_bnn a = Ok c ->
  let t := demo_train R demo_gb [] 2 c (Matrix X) y b e in
  t_res nat demo_schedule t = Ok tt -> b_samples (t_bnn nat demo_schedule t) <> [] ->
  forall k X' ind w, test_points k X' -> k <> width X -> exists er, predict nat demo_value c (Matrix X') ind (t_bnn nat demo_schedule t) w = Raise er).
Proof.
  intros C. destruct C81_example as (E1 & E2 & E3 & E4 & E5).
  destruct (C _ _ wide_X demo_y fresh_bnn demo_start E1 E2) with (k := 1) (X' := [[3%R]]) (ind := true) (w := 0) as [er E].
  - intros E6. rewrite E6 in E4. discriminate E4.
  - exact E5.
  - rewrite E3. discriminate.
  - rewrite C81_single_feature_spread in E; [|exact E2|reflexivity|exact E5].
    destruct (C80_predictions_are_pointwise nat demo_value demo_fine demo_fine (fun _ w => demo_fine w) (demo_run 2) demo_schedule demo_gb (demo_net [] 2)
      _ _ wide_X demo_y fresh_bnn demo_start E1 E2) with (w := 0) as (mu & var & fs & ns & _ & _ & HP).
    + rewrite wide_vars. intros f w o w' Er. unfold demo_run in Er. injection Er as <- _. reflexivity.
    + rewrite wide_vars. discriminate.
    + eexists. intros vals X _. reflexivity.
    + intros E6. rewrite E6 in E4. discriminate E4.
    + rewrite (proj2 (HP (map (spread (width wide_X)) [[3%R]]) ltac:(repeat constructor))) in E. discriminate E.
Qed.
