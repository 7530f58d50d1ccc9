(** C80: the prediction for a test point does not depend on the other test points. *)
From Coq Require Import String List Arith Lia ZArith Bool Reals Lra.
From Verif.Base Require Import Py Num Vec.
From Verif.Model Require Import Stepsize BaseClasses DataBatches TensorUtils BaseModel BNN DefaultNet.
From Verif.Proofs Require Import Train.
From Verif.Props Require Import PBNN PBNNDemo PPredict.
Import ListNotations.
Local Open Scope list_scope.

(** A network that treats the rows of its input independently. *)
Definition rowwise {T} (builder : net_builder T) : Prop :=
  exists f, forall vals X, map shape vals = gn_vars builder -> gn_out builder vals X = Ok (map (f vals) X).

Section Pointwise.
Context {T : Type} `{NT : Num T} `{NTT : NumT T}.
Variable W : Type.
Variable value_of : W -> nat -> tensor T.
Variable get_sampler_ : W -> res unit * W.
Variable initialize : W -> res unit * W.
Variable log_error : heap (list T) T -> W -> res unit * W.
Variable run_sampler : feed (tensor T) -> W -> res (outputs (tensor T)) * W.
Variable schedule_ : schedule (tensor T) (sample (tensor T) * tensor T).
Variable B : batch_source T.
Variable builder : net_builder T.
Notation predict := (predict W value_of).
Notation train := (train W get_sampler_ initialize log_error run_sampler schedule_ B builder).
Notation t_res := (t_res W schedule_).
Notation t_bnn := (t_bnn W schedule_).
Notation t_ext := (t_ext W schedule_).
Notation x_vars := (x_vars W schedule_).
Notation returns_shapes := (returns_shapes W run_sampler).

Lemma outputs_rowwise : forall (P : (list T -> T * T) -> Prop) b w k ps,
  (forall p, In p ps -> exists g, P g /\ forall X, Forall (fun r => length r = k) X ->
    compute_network_output W value_of b w p X = Ok (map g X)) ->
  exists gs, length gs = length ps /\ Forall P gs /\ forall X, Forall (fun r => length r = k) X -> outputs_of W value_of b w ps X = Ok (map (fun g => map g X) gs).
Proof.
  intros P b w k ps. induction ps as [|p ps IH]; intros Hps; [now exists []|]. cbn [outputs_of].
  destruct (Hps p (or_introl eq_refl)) as (g & Pg & Hg). destruct IH as (gs & Hl & Pgs & Hgs); [intros q Hq; apply Hps; now right|].
  exists (g :: gs). split; [cbn; now rewrite Hl|]. split; [now constructor|]. intros X HX. rewrite Hg, Hgs by exact HX. reflexivity.
Qed.
Lemma columns_rowwise : forall A (gs : list (A -> T)) X, gs <> [] ->
  columns (map (fun g => map g X) gs) = map (fun x => map (fun g => g x) gs) X.
Proof.
  intros A gs X Hg. unfold columns.
  replace (width (map (fun g => map g X) gs)) with (length X)
    by (destruct gs as [|g gs]; [congruence|unfold width; cbn; now rewrite map_length]).
  destruct X as [|x0 X0] eqn:EX; [reflexivity|]. rewrite <- EX.
  transitivity (map (fun j => map (fun g => g (nth j X x0)) gs) (seq 0 (length X))).
  - apply map_ext_in. intros j Hj. apply in_seq in Hj. rewrite map_map. apply map_ext. intros g.
    rewrite (nth_indep _ n0 (g x0)) by (rewrite map_length; lia). apply map_nth.
  - rewrite <- (map_map (fun j => nth j X x0) (fun x => map (fun g => g x) gs)). f_equal.
    apply nth_ext with (d := x0) (d' := x0); [now rewrite map_length, seq_length|].
    rewrite map_length, seq_length. intros j Hj.
    rewrite (nth_indep _ x0 (nth 0 X x0)) by (rewrite map_length, seq_length; lia).
    rewrite (map_nth (fun j => nth j X x0)), seq_nth by lia. reflexivity.
Qed.

(** base_model.py's unnormalization of predictions and of noise variances. *)
Definition rescale (ys : option (T * T)) (v : T) : T := match ys with Some (my, sy) => nadd (nmul v sy) my | None => v end.
Definition rescale_noise (ys : option (T * T)) (v : T) : T := match ys with Some (_, sy) => nmul v (nmul sy sy) | None => v end.

(** Prediction by a network whose samples are evaluated row by row. *)
Lemma predict_rowwise : forall c b w k (pre : list T -> list T) gs ys, gs <> [] -> b_trained b = true ->
  (forall X, Forall (fun r => length r = k) X ->
    (if c_normalize_input c then match b_x_stats b with Some (m, s) => zmuv_given X m s | None => Raise AttributeError end else Ok X) = Ok (map pre X)) ->
  (forall X, Forall (fun r => length r = k) X -> Forall (fun r => length r = k) (map pre X)) ->
  (if c_normalize_output c then match b_y_stats b with Some s => Ok (Some s) | None => Raise AttributeError end else Ok None) = Ok ys ->
  (forall X, Forall (fun r => length r = k) X -> outputs_of W value_of b w (b_samples b) X = Ok (map (fun g => map g X) gs)) ->
  exists (mu var : list T -> T), forall X, Forall (fun r => length r = k) X ->
    predict c (Matrix X) false b w = Ok (Aggregate (map mu X) (map var X)) /\
    predict c (Matrix X) true b w = Ok (Individual (map (fun f => map f X) (map (fun g x => rescale ys (fst (g (pre x)))) gs))
                                                    (map (fun f => map f X) (map (fun g x => rescale_noise ys (nexp (snd (g (pre x))))) gs))).
Proof.
  intros c b w k pre gs ys Hg Ht Hpre Hpk EY Hgs.
  set (hs := map (fun g x => fst (g (pre x))) gs). set (ks := map (fun g x => nexp (snd (g (pre x)))) gs).
  assert (Hh : hs <> []) by (unfold hs; now destruct gs).
  assert (F : forall X, map (map fst) (map (fun g => map g (map pre X)) gs) = map (fun h => map h X) hs).
  { intros X. unfold hs. rewrite !map_map. apply map_ext. intros g. now rewrite !map_map. }
  assert (N : forall X, map (map (fun o => nexp (snd o))) (map (fun g => map g (map pre X)) gs) = map (fun h => map h X) ks).
  { intros X. unfold ks. rewrite !map_map. apply map_ext. intros g. now rewrite !map_map. }
  set (mu0 := fun x => np_mean (map (fun h => h x) hs)).
  set (var0 := fun x => np_mean (map (fun h => nmul (nsub (h x) (mu0 x)) (nsub (h x) (mu0 x))) hs)).
  assert (M : forall X, map np_mean (columns (map (fun h => map h X) hs)) = map mu0 X).
  { intros X. rewrite columns_rowwise by auto. now rewrite map_map. }
  assert (V : forall X, map np_mean (columns (map (fun r => vmap2 (fun a m => nmul (nsub a m) (nsub a m)) r (map mu0 X)) (map (fun h => map h X) hs))) = map var0 X).
  { intros X. rewrite map_map.
    rewrite (map_ext (fun x => vmap2 _ (map x X) (map mu0 X)) (fun h => map (fun x => nmul (nsub (h x) (mu0 x)) (nsub (h x) (mu0 x))) X)).
    2:{ intros h. unfold vmap2. clear. induction X as [|x X IH]; cbn; [reflexivity|now rewrite IH]. }
    rewrite <- (map_map (fun (h : list T -> T) x => nmul (nsub (h x) (mu0 x)) (nsub (h x) (mu0 x))) (fun h => map h X)).
    rewrite columns_rowwise by (now destruct hs). rewrite map_map. apply map_ext. intros x. unfold var0. now rewrite map_map. }
  unfold BNN.predict. rewrite Ht, EY. cbn [negb].
  destruct ys as [[my sy]|].
  - exists (fun x => nadd (nmul (mu0 x) sy) my), (fun x => nmul (var0 x) (nmul sy sy)). intros X HX. rewrite Hpre by exact HX. cbn [bind]. rewrite Hgs by now apply Hpk. cbn [bind]. rewrite F, N. split.
    + pose proof (M X) as M'. pose proof (V X) as V'. destruct hs as [|h hs'] eqn:Ehs; [congruence|].
      cbn [map] in M', V' |- *. rewrite M', V'. f_equal. f_equal; [unfold zmuv_unnormalization1|]; now rewrite map_map.
    + unfold hs, ks. f_equal. f_equal; rewrite !map_map; apply map_ext; intros h; [unfold zmuv_unnormalization1|]; now rewrite map_map.
  - exists mu0, var0. intros X HX. rewrite Hpre by exact HX. cbn [bind]. rewrite Hgs by now apply Hpk. cbn [bind]. rewrite F, N. split; [|reflexivity].
    pose proof (M X) as M'. pose proof (V X) as V'. destruct hs as [|h hs'] eqn:Ehs; [congruence|].
    cbn [map] in M', V' |- *. now rewrite M', V'.
Qed.

(** [predict_rowwise] for a trained network. *)
Lemma trained_rowwise : forall (P : (list T -> T * T) -> Prop) a c X y b e, construct_bnn a = Ok c -> let t := train c (Matrix X) y b e in
  t_res t = Ok tt -> returns_shapes (x_vars (t_ext t)) -> length (x_vars (t_ext t)) <> 1 ->
  (forall vals, map shape vals = gn_vars builder -> exists g, P g /\ forall X, gn_out builder vals X = Ok (map g X)) ->
  b_samples (t_bnn t) <> [] -> forall w,
  exists (mu var : list T -> T) gs pre ys, length gs = length (b_samples (t_bnn t)) /\ Forall P gs /\ ys = (if c_normalize_output c then b_y_stats (t_bnn t) else None) /\
    forall X', Forall (fun r => length r = width X) X' ->
      predict c (Matrix X') false (t_bnn t) w = Ok (Aggregate (map mu X') (map var X')) /\
      predict c (Matrix X') true (t_bnn t) w = Ok (Individual (map (fun f => map f X') (map (fun g x => rescale ys (fst (g (pre x)))) gs))
                                                      (map (fun f => map f X') (map (fun g x => rescale_noise ys (nexp (snd (g (pre x))))) gs))).
Proof.
  intros P a c X y b e Hc t Ht Hsh Hn1 Hf Hs w.
  assert (HC : forall p, In p (b_samples (t_bnn t)) -> exists g, P g /\ forall X', Forall (fun r => length r = width X) X' ->
    compute_network_output W value_of (t_bnn t) w p X' = Ok (map g X')).
  { intros p Hp. destruct (C55_network_evaluated_at_samples W value_of get_sampler_ initialize log_error run_sampler schedule_ B builder
      a c X y b e Hc Ht Hsh Hn1 p Hp) as (l & -> & Hl & He). fold t in He.
    destruct (Hf (skipn (length (x_vars e)) l)) as (g & Pg & Hg).
    { rewrite <- skipn_map, Hl, skipn_app, skipn_all, Nat.sub_diag. reflexivity. }
    exists g. split; [exact Pg|]. intros X' HX'. rewrite He.
    replace (forallb _ X') with true by (symmetry; apply forallb_forall; intros r Hr; rewrite Forall_forall in HX'; now apply Nat.eqb_eq, HX').
    apply Hg. }
  destruct (outputs_rowwise P (t_bnn t) w (width X) _ HC) as (gs & Hl & Pgs & Hgs).
  pose proof (train_flag W get_sampler_ initialize log_error run_sampler schedule_ B builder c (Matrix X) y b e) as Fl. cbv zeta in Fl. fold t in Fl.
  rewrite Ht, orb_true_r in Fl.
  pose proof (train_cases W get_sampler_ initialize log_error run_sampler schedule_ B builder c X y b e) as O; fold t in O;
    destruct O as [er Hb Hr|nt er Hb _ Hr|nt st Hb Hrb Hg Hi E _]; try congruence. destruct Hrb.
  assert (EY : (if c_normalize_output c then match b_y_stats (t_bnn t) with Some s => Ok (Some s) | None => Raise AttributeError end else Ok None) =
    Ok (if c_normalize_output c then b_y_stats (t_bnn t) else None)).
  { rewrite rb_y. unfold y_stats_of. destruct (c_normalize_output c); reflexivity. }
  pose (pre := if c_normalize_input c then (fun r => vmap2 ndiv (vmap2 nsub r (map np_mean (columns X))) (map np_std (columns X))) else (fun r => r)).
  destruct (predict_rowwise c (t_bnn t) w (width X) pre gs (if c_normalize_output c then b_y_stats (t_bnn t) else None)) as (mu & var & HP); auto.
  - intros ->. destruct (b_samples (t_bnn t)); [congruence|discriminate].
  - intros X' HX'. rewrite rb_x, x_stats_normalize by exact HX'. unfold zmuv_normalization, pre. cbn [default fst].
    destruct (c_normalize_input c); [reflexivity|now rewrite map_id].
  - intros X' HX'. unfold pre. destruct (c_normalize_input c); [|now rewrite map_id].
    apply Forall_map. eapply Forall_impl; [|exact HX']. intros r Hr. cbn beta.
    assert (Lc : length (columns X) = width X) by (unfold columns; now rewrite map_length, seq_length).
    apply vmap2_length; [apply vmap2_length; [exact Hr|]|]; now rewrite map_length.
  - exists mu, var, gs, pre. eexists. split; [exact Hl|]. split; [exact Pgs|]. split; [reflexivity|exact HP].
Qed.

(** After a successful training there are functions of a single test point such that every
    prediction applies them to the test points one by one. *)
Theorem C80_predictions_are_pointwise : forall a c X y b e, construct_bnn a = Ok c -> let t := train c (Matrix X) y b e in
  t_res t = Ok tt -> returns_shapes (x_vars (t_ext t)) -> length (x_vars (t_ext t)) <> 1 -> rowwise builder ->
  b_samples (t_bnn t) <> [] -> forall w,
  exists (mu var : list T -> T) (fs ns : list (list T -> T)),
    length fs = length (b_samples (t_bnn t)) /\ length ns = length (b_samples (t_bnn t)) /\
    forall X', Forall (fun r => length r = width X) X' ->
      predict c (Matrix X') false (t_bnn t) w = Ok (Aggregate (map mu X') (map var X')) /\
      predict c (Matrix X') true (t_bnn t) w = Ok (Individual (map (fun f => map f X') fs) (map (fun f => map f X') ns)).
Proof.
  intros a c X y b e Hc t Ht Hsh Hn1 [f Hf] Hs w.
  destruct (trained_rowwise (fun _ => True) a c X y b e Hc Ht Hsh Hn1 (fun vals Hv => ex_intro _ (f vals) (conj I (fun X => Hf vals X Hv))) Hs w)
    as (mu & var & gs & pre & ys & Hl & _ & _ & HP).
  exists mu, var. do 2 eexists. split; [|split; [|exact HP]]; now rewrite map_length.
Qed.

(** In particular the predictions for two sets of test points together are those for the sets. *)
Corollary C80_test_sets_concatenate : forall a c X y b e, construct_bnn a = Ok c -> let t := train c (Matrix X) y b e in
  t_res t = Ok tt -> returns_shapes (x_vars (t_ext t)) -> length (x_vars (t_ext t)) <> 1 -> rowwise builder ->
  b_samples (t_bnn t) <> [] -> forall w Y Z, Forall (fun r => length r = width X) (Y ++ Z) ->
  exists mY vY mZ vZ,
    predict c (Matrix Y) false (t_bnn t) w = Ok (Aggregate mY vY) /\ length mY = length Y /\ length vY = length Y /\
    predict c (Matrix Z) false (t_bnn t) w = Ok (Aggregate mZ vZ) /\ length mZ = length Z /\ length vZ = length Z /\
    predict c (Matrix (Y ++ Z)) false (t_bnn t) w = Ok (Aggregate (mY ++ mZ) (vY ++ vZ)).
Proof.
  intros a c X y b e Hc t Ht Hsh Hn1 Hr Hs w Y Z HF. apply Forall_app in HF as [HY HZ].
  destruct (C80_predictions_are_pointwise a c X y b e Hc Ht Hsh Hn1 Hr Hs w) as (mu & var & fs & ns & _ & _ & E). fold t in E.
  exists (map mu Y), (map var Y), (map mu Z), (map var Z). rewrite !map_length.
  split; [apply E, HY|]. split; [reflexivity|]. split; [reflexivity|]. split; [apply E, HZ|]. split; [reflexivity|]. split; [reflexivity|].
  rewrite <- !map_app. apply E. apply Forall_app. now split.
Qed.
End Pointwise.

(** The default network is of this kind. *)
Theorem C80_default_net : forall (T : Type) (NT : Num T) (NTT : NumT T) n, rowwise (default_builder n).
Proof.
  intros T NT NTT n.
  exists (fun vals x => match vals with
    | [k1; b1; k2; b2; k3; b3; k4; b4; ob] =>
        (fun r => (nth 0 r n0, nth 1 r n0)) (hd [] (default_net (matrix_of n 50 k1) (vector_of 50 b1) (matrix_of 50 50 k2) (vector_of 50 b2)
           (matrix_of 50 50 k3) (vector_of 50 b3) (matrix_of 50 1 k4) (vector_of 1 b4) (nth 0 (data ob) n0) [x]))
    | _ => (n0, n0) end).
  intros vals X Hv. apply (f_equal (@length _)) in Hv. rewrite map_length in Hv.
  do 9 (destruct vals as [|? vals]; [discriminate|]). destruct vals; [|discriminate].
  cbn [default_builder gn_out]. unfold default_net. rewrite map_map. reflexivity.
Qed.

(** ** C61 for trained networks *)
Section Default.
Variable W : Type.
Variable value_of : W -> nat -> tensor R.
Variable get_sampler_ : W -> res unit * W.
Variable initialize : W -> res unit * W.
Variable log_error : heap (list R) R -> W -> res unit * W.
Variable run_sampler : feed (tensor R) -> W -> res (outputs (tensor R)) * W.
Variable schedule_ : schedule (tensor R) (sample (tensor R) * tensor R).
Variable B : batch_source R.
Notation predict := (predict W value_of).
Notation train n := (train W get_sampler_ initialize log_error run_sampler schedule_ B (default_builder n)).
Notation t_res := (t_res W schedule_).
Notation t_bnn := (t_bnn W schedule_).
Notation t_ext := (t_ext W schedule_).
Notation x_vars := (x_vars W schedule_).
Notation returns_shapes := (returns_shapes W run_sampler).

(** Each sampled default network predicts one noise variance, the same at all test points, and
    means within a bound that holds at all test points however far from the data. *)
Theorem C61_trained_default_network : forall a c X y b e n, construct_bnn a = Ok c -> let t := train n c (Matrix X) y b e in
  t_res t = Ok tt -> returns_shapes (x_vars (t_ext t)) -> b_samples (t_bnn t) <> [] -> forall w,
  exists (fs : list (list R -> R)) (noise : list R) bound, length fs = length (b_samples (t_bnn t)) /\ length noise = length fs /\
    Forall (fun v => (0 <= v)%R) noise /\ (forall f x, In f fs -> (Rabs (f x) <= bound)%R) /\
    forall X', Forall (fun r => length r = width X) X' ->
      predict c (Matrix X') true (t_bnn t) w = Ok (Individual (map (fun f => map f X') fs) (map (fun v => map (fun _ => v) X') noise)).
Proof.
  intros a c X y b e n Hc t Ht Hsh Hs w.
  assert (Hn1 : length (x_vars (t_ext t)) <> 1).
  { pose proof (train_cases W get_sampler_ initialize log_error run_sampler schedule_ B (default_builder n) c X y b e) as O; fold t in O;
      destruct O as [er Hb Hr|nt er Hb _ Hr|nt st Hb Hrb Hg Hi E _]; try congruence. destruct Hrb.
    rewrite rb_xvars, app_length. cbn. lia. }
  destruct (trained_rowwise W value_of get_sampler_ initialize log_error run_sampler schedule_ B (default_builder n)
    (fun g => exists ob m, forall x, snd (g x) = ob /\ (Rabs (fst (g x)) <= m)%R) a c X y b e Hc Ht Hsh Hn1) with (w := w)
    as (mu & var & gs & pre & ys & Hl & Pg & _ & HP); [|exact Hs|].
  { intros vals Hv. pose proof Hv as Hv'. apply (f_equal (@length _)) in Hv. rewrite map_length in Hv.
    do 9 (destruct vals as [|? vals]; [discriminate|]). destruct vals; [|discriminate].
    match goal with |- exists g, _ /\ forall X0, gn_out _ [?k1; ?b1; ?k2; ?b2; ?k3; ?b3; ?k4; ?b4; ?ob] X0 = _ =>
      destruct (C61_default_net (matrix_of n 50 k1) (vector_of 50 b1) (matrix_of 50 50 k2) (vector_of 50 b2)
        (matrix_of 50 50 k3) (vector_of 50 b3) (matrix_of 50 1 k4) (nth 0 (data b4) n0) (nth 0 (data ob) n0)) as (f & E & Bd);
      exists (fun x => (f x, nth 0 (data ob) n0)); split; [exists (nth 0 (data ob) n0)|] end.
    - eexists. intros x. split; [reflexivity|apply Bd].
    - intros X0. cbn [default_builder gn_out]. specialize (E X0). change [nth 0 (data t7) n0] with (vector_of 1 t7) in E. rewrite E, map_map. reflexivity. }
  assert (N : exists noise bound, length noise = length gs /\ Forall (fun v => (0 <= v)%R) noise /\
    (forall g x, In g gs -> (Rabs (rescale ys (fst (g (pre x)))) <= bound)%R) /\
    forall X', map (fun f => map f X') (map (fun g x => rescale_noise ys (nexp (snd (g (pre x))))) gs) = map (fun v => map (fun _ => v) X') noise).
  { clear - Pg. induction Pg as [|g gs (ob & m & Hg) Pg IH].
    - exists [], 0%R. split; [reflexivity|]. split; [constructor|]. split; [intros ? ? []|reflexivity].
    - destruct IH as (noise & bound & IH1 & IH2 & IH3 & IH4).
      set (m' := match ys with Some (my, sy) => (m * Rabs sy + Rabs my)%R | None => m end).
      exists (rescale_noise ys (nexp ob) :: noise), (Rmax m' bound). split; [cbn; now rewrite IH1|]. split; [|split].
      + constructor; [|exact IH2]. unfold rescale_noise. pose proof (exp_pos ob). destruct ys as [[my sy]|]; cbn; [|lra].
        apply Rmult_le_pos; [lra|apply Rle_0_sqr].
      + intros g' x [->|Hin]; [|eapply Rle_trans; [now apply IH3|apply Rmax_r]].
        eapply Rle_trans; [|apply Rmax_l]. destruct (Hg (pre x)) as [_ Hb]. unfold rescale, m'. destruct ys as [[my sy]|]; [|exact Hb]. cbn.
        eapply Rle_trans; [apply Rabs_triang|]. rewrite Rabs_mult. apply Rplus_le_compat_r, Rmult_le_compat_r; [apply Rabs_pos|exact Hb].
      + intros X'. cbn [map]. rewrite IH4. f_equal. apply map_ext. intros x. now rewrite (proj1 (Hg (pre x))). }
  fold t in HP. destruct N as (noise & bound & N1 & N2 & N3 & N4).
  exists (map (fun g x => rescale ys (fst (g (pre x)))) gs), noise, bound. rewrite map_length.
  split; [exact Hl|]. split; [exact N1|]. split; [exact N2|]. split.
  - intros f x Hf. apply in_map_iff in Hf as (g & <- & Hg). now apply N3.
  - intros X' HX'. rewrite (proj2 (HP X' HX')), N4. reflexivity.
Qed.
End Default.

(** ** Examples *)

(** A default network trained in a session that always returns the same values. *)
Definition zeros (s : list nat) : tensor R := {| shape := s; data := repeat 0%R (prod s) |}.
Definition still_run (f : feed (tensor R)) (w : nat) : res (outputs (tensor R)) * nat :=
  (Ok {| o_theta := map zeros (gn_vars (default_builder 1)); o_cost := demo_T 0; o_minv := [] |}, S w).
Notation still_train c := (train (T := R) nat demo_fine demo_fine (fun _ w => demo_fine w) still_run demo_schedule demo_gb (default_builder 1)
  c (Matrix demo_X) demo_y fresh_bnn demo_start).
Lemma still_vars : x_vars nat demo_schedule (t_ext nat demo_schedule (still_train (demo_config 2 9 1 2 false false))) = gn_vars (T := R) (default_builder 1).
Proof. lazy -[IZR prod]. reflexivity. Qed.
Example C80_example : construct_bnn (demo_args 2 9 1 2 false false) = Ok (demo_config 2 9 1 2 false false) /\
  let t := still_train (demo_config 2 9 1 2 false false) in
  t_res nat demo_schedule t = Ok tt /\ returns_shapes nat still_run (x_vars nat demo_schedule (t_ext nat demo_schedule t)) /\
  length (x_vars nat demo_schedule (t_ext nat demo_schedule t)) <> 1 /\ rowwise (T := R) (default_builder 1) /\
  length (b_samples (t_bnn nat demo_schedule t)) = 2.
Proof.
  split; [lazy -[IZR]; reflexivity|]. cbv zeta. split; [lazy -[IZR prod]; reflexivity|]. rewrite still_vars. split; [|split; [|split]].
  - intros f w o w' E. unfold still_run in E. apply pair_equal_spec in E as [E _]. apply (f_equal (fun r => match r with Ok o => map shape (o_theta o) | _ => [] end)) in E.
    cbn [o_theta] in E. rewrite <- E, map_map. apply map_id.
  - cbn. discriminate.
  - apply C80_default_net.
  - lazy -[IZR prod]. reflexivity.
Qed.

(** A network that is not of this kind: one that centers its inputs. *)
Definition centering_net : net_builder R :=
  {| gn_names := []; gn_vars := [[1]; [1]]; gn_fails := None;
     gn_out := fun _ X => Ok (map (fun x => ((hd 0 x - np_mean (map (hd 0%R) X))%R, 0%R)) X) |}.
Example C80_centering_net_is_not_rowwise : ~ rowwise centering_net.
Proof.
  intros [f Hf]. assert (E : forall X, gn_out centering_net [zeros [1]; zeros [1]] X = Ok (map (f [zeros [1]; zeros [1]]) X)) by (intros X; now apply Hf).
  pose proof (E [[0%R]]) as E1. pose proof (E [[0%R]; [2%R]]) as E2. cbn [centering_net gn_out map hd] in E1, E2.
  injection E1 as E1. injection E2 as E2 _. rewrite <- E1 in E2. apply (f_equal fst) in E2. unfold np_mean in E2. cbn [fst length Z.of_nat] in E2. cbn -[Rdiv] in E2. unfold Rfrac in E2. cbn in E2. lra.
Qed.
