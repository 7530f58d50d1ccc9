(** C79: training and prediction do not depend on units of measurement. *)
From Coq Require Import String List Arith Lia ZArith Bool Reals Lra.
From Verif.Base Require Import Py Num Vec.
From Verif.Model Require Import Stepsize BaseClasses DataBatches TensorUtils BaseModel BNN.
From Verif.Spec Require Import Svgd Units.
From Verif.Proofs Require Import Svgd Dynamics Train.
From Verif.Spec Require Import Stats.
From Verif.Props Require Import PBaseModel PBNNDemo.
Import ListNotations.
Local Open Scope R_scope.
Local Open Scope list_scope.

(** *** Statistics *)
Lemma np_mean_relabel : forall a s y, y <> [] -> np_mean (relabel a s y) = a * np_mean y + s.
Proof. intros. rewrite !np_mean_R. now apply mean_affine. Qed.
Lemma np_std_relabel : forall a s y, 0 < a -> y <> [] -> np_std (relabel a s y) = a * np_std y.
Proof.
  intros a s y Ha Hy. rewrite !np_std_R. unfold relabel. rewrite variance_affine by auto.
  rewrite sqrt_mult by (try apply variance_nonneg; auto; nra). now rewrite sqrt_pow2 by lra.
Qed.
Lemma scaled_quotient : forall a d q, 0 < a -> (a * d) / (a * q) = d / q.
Proof.
  intros a d q Ha. destruct (Req_dec q 0) as [->|Hq]; [|field; lra].
  rewrite Rmult_0_r. unfold Rdiv. rewrite Rinv_0. ring.
Qed.

Lemma normalize_relabel : forall a s y, 0 < a -> y <> [] ->
  zmuv_normalization1 (relabel a s y) None None =
  (fst (fst (zmuv_normalization1 y None None)), a * np_mean y + s, a * np_std y).
Proof.
  intros a s y Ha Hy. unfold zmuv_normalization1. cbn [default fst].
  rewrite np_mean_relabel, np_std_relabel by auto. f_equal. f_equal.
  unfold relabel. rewrite map_map. apply map_ext. intros v. cbn [ndiv nsub Num_R].
  rewrite <- (scaled_quotient a (v - np_mean y)) by auto. f_equal. ring.
Qed.

Lemma remeasure_length : forall u x, length x = length u -> length (remeasure u x) = length u.
Proof. induction u as [|[a s] u IH]; intros [|v x] H; try discriminate; cbn in *; auto. Qed.
Lemma nth_remeasure : forall u x j, length x = length u -> (j < length u)%nat ->
  nth j (remeasure u x) 0 = fst (nth j u (0, 0)) * nth j x 0 + snd (nth j u (0, 0)).
Proof.
  induction u as [|[a s] u IH]; intros [|v x] j H Hj; try discriminate; cbn [length] in *; [lia|].
  destruct j; cbn [nth remeasure fst snd]; [reflexivity|]. apply IH; lia.
Qed.
Lemma remeasure_matrix : forall u X, matrix (length u) X -> matrix (length u) (map (remeasure u) X).
Proof.
  intros u X [Hn HF]. split; [now destruct X|]. apply Forall_map. eapply Forall_impl; [|exact HF].
  intros r Hr. now apply remeasure_length.
Qed.
Lemma column_remeasure : forall u X j, matrix (length u) X -> (j < length u)%nat ->
  column (map (remeasure u) X) j = relabel (fst (nth j u (0, 0))) (snd (nth j u (0, 0))) (column X j).
Proof.
  intros u X j [_ HF] Hj. unfold column, relabel. rewrite !map_map. apply map_ext_in. intros r Hr.
  rewrite Forall_forall in HF. now apply nth_remeasure; [apply HF|].
Qed.
Lemma nth_map_seq' : forall A (f : nat -> A) d n j, (j < n)%nat -> nth j (map f (seq 0 n)) d = f j.
Proof.
  intros A f d n j Hj. rewrite (nth_indep _ d (f 0%nat)) by (rewrite map_length, seq_length; lia).
  rewrite map_nth, seq_nth by lia. reflexivity.
Qed.
Lemma vmap2_nth : forall (f : R -> R -> R) a b j n, length a = n -> length b = n -> (j < n)%nat ->
  nth j (vmap2 f a b) 0 = f (nth j a 0) (nth j b 0).
Proof.
  intros f a b j n Ha Hb Hj. pose proof (nth_error_vmap2 _ _ _ f a b j) as E.
  rewrite (nth_error_nth' a 0), (nth_error_nth' b 0) in E by lia.
  now apply nth_error_nth with (d := 0) in E.
Qed.
Lemma list_eq_nth : forall (l m : list R), length l = length m -> (forall j, (j < length l)%nat -> nth j l 0 = nth j m 0) -> l = m.
Proof. intros. now apply nth_ext with (d := 0) (d' := 0). Qed.

(** Rows measured in other units and normalized with the statistics in these units. *)
Lemma row_remeasure : forall u m s r, positive u -> length m = length u -> length s = length u -> length r = length u ->
  vmap2 ndiv (vmap2 nsub (remeasure u r) (remeasure u m)) (remeasure (map (fun p => (fst p, 0)) u) s) =
  vmap2 ndiv (vmap2 nsub r m) s.
Proof.
  induction u as [|[a t] u IH]; intros [|m0 m] [|s0 s] [|r0 r] Hp Hm Hs Hr; try discriminate; [reflexivity|].
  inversion Hp as [|? ? Ha Hp']; subst. cbn [fst] in Ha. cbn [length] in *.
  unfold vmap2 in *. cbn [remeasure map combine fst]. f_equal; [|apply IH; auto].
  cbn [ndiv nsub Num_R]. rewrite <- (scaled_quotient a (r0 - m0)) by auto. f_equal; ring.
Qed.
Lemma normalize_remeasure : forall u X, positive u -> matrix (length u) X ->
  zmuv_normalization (map (remeasure u) X) None None =
  (fst (fst (zmuv_normalization X None None)),
   remeasure u (map np_mean (columns X)), remeasure (map (fun p => (fst p, 0)) u) (map np_std (columns X))).
Proof.
  intros u X Hp HM. unfold zmuv_normalization. cbn [default fst].
  assert (Lc : length (columns X) = length u) by (rewrite (columns_R _ X HM), map_length; apply seq_length).
  assert (Lc' : length (columns (map (remeasure u) X)) = length u)
    by (rewrite (columns_R _ _ (remeasure_matrix u X HM)), map_length; apply seq_length).
  assert (EM : map np_mean (columns (map (remeasure u) X)) = remeasure u (map np_mean (columns X))).
  { apply list_eq_nth; [rewrite remeasure_length; rewrite map_length; auto|]. rewrite map_length, Lc'. intros j Hj.
    rewrite nth_remeasure by (rewrite ?map_length; auto).
    rewrite (columns_R _ X HM), (columns_R _ _ (remeasure_matrix u X HM)), !map_map, !nth_map_seq' by auto.
    rewrite column_remeasure by auto. apply np_mean_relabel. destruct HM as [HX _]. unfold column. now destruct X. }
  assert (ES : map np_std (columns (map (remeasure u) X)) = remeasure (map (fun p => (fst p, 0)) u) (map np_std (columns X))).
  { apply list_eq_nth; [rewrite remeasure_length; rewrite !map_length; auto|]. rewrite map_length, Lc'. intros j Hj.
    rewrite nth_remeasure by (rewrite ?map_length; auto).
    rewrite (columns_R _ X HM), (columns_R _ _ (remeasure_matrix u X HM)), !map_map, !nth_map_seq' by auto.
    rewrite column_remeasure by auto. rewrite np_std_relabel; cycle 1.
    - unfold positive in Hp. rewrite Forall_forall in Hp. apply Hp. now apply nth_In.
    - destruct HM as [HX _]. unfold column. now destruct X.
    - change (0, 0) with ((fun p : R * R => (fst p, 0)) (0, 0)) at 2 3. rewrite !map_nth. cbn [fst snd]. ring. }
  rewrite EM, ES. f_equal. f_equal. rewrite map_map. apply map_ext_in. intros r Hr.
  destruct HM as [_ HF]. rewrite Forall_forall in HF. apply row_remeasure; rewrite ?map_length; auto.
Qed.

(** *** C79 *)
Section Units.
Variable W : Type.
Variable value_of : W -> nat -> tensor R.
Variable get_sampler_ : W -> res unit * W.
Variable initialize : W -> res unit * W.
Variable log_error : heap (list R) R -> W -> res unit * W.
Variable run_sampler : feed (tensor R) -> W -> res (outputs (tensor R)) * W.
Variable schedule_ : schedule (tensor R) (sample (tensor R) * tensor R).
Variable B : batch_source R.
Variable builder : net_builder R.
Notation train := (train W get_sampler_ initialize log_error run_sampler schedule_ B builder).
Notation predict := (predict W value_of).
Notation t_res := (t_res W schedule_). Notation t_bnn := (t_bnn W schedule_). Notation t_ext := (t_ext W schedule_).
Notation t_X := (t_X W schedule_). Notation t_y := (t_y W schedule_). Notation t_drawn := (t_drawn W schedule_).

Definition with_y_stats (ys : option (R * R)) (b : bnn R) : bnn R :=
  {| b_data := b_data b; b_x_stats := b_x_stats b; b_y_stats := ys; b_x_ph := b_x_ph b; b_net := b_net b;
     b_params := b_params b; b_samples := b_samples b; b_trained := b_trained b |}.
Definition with_x_stats (xs : option (list R * list R)) (b : bnn R) : bnn R :=
  {| b_data := b_data b; b_x_stats := xs; b_y_stats := b_y_stats b; b_x_ph := b_x_ph b; b_net := b_net b;
     b_params := b_params b; b_samples := b_samples b; b_trained := b_trained b |}.

Lemma train_relabel : forall c X y b e a s, c_normalize_output c = true -> 0 < a -> y <> [] ->
  let t := train c (Matrix X) y b e in
  let t' := train c (Matrix X) (relabel a s y) b e in
  t_res t' = t_res t /\ t_ext t' = t_ext t /\ t_X t' = t_X t /\ t_drawn t' = t_drawn t /\
  t_y t = y /\ t_y t' = relabel a s y /\
  b_y_stats (t_bnn t) = Some (np_mean y, np_std y) /\
  t_bnn t' = with_y_stats (Some (a * np_mean y + s, a * np_std y)) (t_bnn t).
Proof.
  intros c X y b e a s Hc Ha Hy t t'. subst t t'. unfold BNN.train.
  rewrite Hc, normalize_relabel by auto.
  destruct (zmuv_normalization1 y None None) as [[y1 m] q] eqn:E.
  assert (m = np_mean y /\ q = np_std y) as [-> ->].
  { unfold zmuv_normalization1 in E. apply triple_eq in E as (_ & <- & <-). split; reflexivity. }
  cbn [fst].
  destruct (if c_normalize_input c then _ else _) as [X1 xs].
  destruct (build_net W schedule_ builder e) as [[nt|er] e1]; [|repeat split; reflexivity].
  destruct (get_sampler_ _) as [[[]|er] w]; [|repeat split; reflexivity].
  destruct (initialize w) as [[[]|er] w']; [|repeat split; reflexivity].
  destruct (train_loop _ _ _ _ _ _ _ _ _ _ _ _) as [[[r st] sm] tr]. repeat split; reflexivity.
Qed.

Lemma outputs_y_stats : forall ys b w ps X, outputs_of W value_of (with_y_stats ys b) w ps X = outputs_of W value_of b w ps X.
Proof. induction ps as [|p ps IH]; intros X; [reflexivity|]. cbn [outputs_of]. rewrite IH. reflexivity. Qed.
Lemma outputs_x_stats : forall xs b w ps X, outputs_of W value_of (with_x_stats xs b) w ps X = outputs_of W value_of b w ps X.
Proof. induction ps as [|p ps IH]; intros X; [reflexivity|]. cbn [outputs_of]. rewrite IH. reflexivity. Qed.

Lemma predict_y_stats : forall c x ind b w m q a s, c_normalize_output c = true -> b_y_stats b = Some (m, q) ->
  predict c x ind (with_y_stats (Some (a * m + s, a * q)) b) w = on_result (reexpress a s) (predict c x ind b w).
Proof.
  intros c [X|] ind b w m q a s Hc Hb; [|reflexivity]. unfold BNN.predict. cbn [with_y_stats b_trained b_x_stats b_samples b_y_stats].
  destruct (negb (b_trained b)); [reflexivity|].
  destruct (if c_normalize_input c then _ else _) as [X1|]; cbn [bind]; [|reflexivity].
  change {| b_data := b_data b; b_x_stats := b_x_stats b; b_y_stats := Some (a * m + s, a * q); b_x_ph := b_x_ph b; b_net := b_net b;
     b_params := b_params b; b_samples := b_samples b; b_trained := b_trained b |} with (with_y_stats (Some (a * m + s, a * q)) b).
  rewrite outputs_y_stats. destruct (outputs_of _ _ _ _ _ _) as [outs|]; cbn [bind]; [|reflexivity].
  rewrite Hc, Hb. cbn [bind].
  assert (U : forall l, zmuv_unnormalization1 l (a * m + s) (a * q) = relabel a s (zmuv_unnormalization1 l m q)).
  { intros l. unfold zmuv_unnormalization1, relabel. rewrite map_map. apply map_ext. intros v. cbn [nadd nmul Num_R]. ring. }
  assert (V : forall l, map (fun v => nmul v (nmul (a * q) (a * q))) l = map (fun x => a ^ 2 * x) (map (fun v => nmul v (nmul q q)) l)).
  { intros l. rewrite map_map. apply map_ext. intros v. cbn [nmul Num_R]. ring. }
  destruct ind; cbn [on_result reexpress].
  - f_equal. generalize (map (map fst) outs). generalize (map (map (fun o => nexp (snd o))) outs). intros N F.
    f_equal; rewrite map_map; apply map_ext; intros r; auto.
  - destruct (map (map fst) outs) as [|f F]; cbn [on_result reexpress].
    + f_equal. cbn [nadd nmul Num_R]. f_equal; ring.
    + rewrite U, V. reflexivity.
Qed.

(** Labels in other units: with [normalize_output] the run is the same, and every prediction is the
    old one expressed in the new units. *)
Theorem C79_label_units : forall c X y b e a s, c_normalize_output c = true -> 0 < a -> y <> [] ->
  let t := train c (Matrix X) y b e in
  let t' := train c (Matrix X) (relabel a s y) b e in
  t_res t' = t_res t /\ t_drawn t' = t_drawn t /\ b_samples (t_bnn t') = b_samples (t_bnn t) /\
  t_ext t' = t_ext t /\
  forall x individual w,
    predict c x individual (t_bnn t') w = on_result (reexpress a s) (predict c x individual (t_bnn t) w).
Proof.
  intros c X y b e a s Hc Ha Hy t t'.
  destruct (train_relabel c X y b e a s Hc Ha Hy) as (A & A2 & _ & A3 & _ & _ & A4 & A5). fold t t' in A, A2, A3, A4, A5.
  split; [exact A|]. split; [exact A3|]. split; [now rewrite A5|]. split; [exact A2|].
  intros x ind w. rewrite A5. now apply predict_y_stats.
Qed.

Lemma train_remeasure : forall c X y b e u, c_normalize_input c = true -> positive u -> matrix (length u) X ->
  let t := train c (Matrix X) y b e in
  let t' := train c (Matrix (map (remeasure u) X)) y b e in
  t_res t' = t_res t /\ t_ext t' = t_ext t /\ t_drawn t' = t_drawn t /\
  b_x_stats (t_bnn t) = Some (map np_mean (columns X), map np_std (columns X)) /\
  t_bnn t' = with_x_stats (Some (remeasure u (map np_mean (columns X)),
                                 remeasure (map (fun p => (fst p, 0)) u) (map np_std (columns X)))) (t_bnn t).
Proof.
  intros c X y b e u Hc Hp HM t t'. subst t t'.
  assert (EW : width (map (remeasure u) X) = width X).
  { destruct HM as [Hne HF]. destruct X as [|r X0]; [congruence|]. inversion HF; subst. unfold width. cbn [map hd].
    rewrite remeasure_length; congruence. }
  unfold BNN.train. rewrite Hc, normalize_remeasure, EW by auto.
  destruct (zmuv_normalization X None None) as [[X1 m] q] eqn:E.
  assert (m = map np_mean (columns X) /\ q = map np_std (columns X)) as [-> ->].
  { unfold zmuv_normalization in E. apply triple_eq in E as (_ & <- & <-). split; reflexivity. }
  cbn [fst].
  destruct (if c_normalize_output c then _ else _) as [y1 ys].
  destruct (build_net W schedule_ builder e) as [[nt|er] e1]; [|repeat split; reflexivity].
  destruct (get_sampler_ _) as [[[]|er] w]; [|repeat split; reflexivity].
  destruct (initialize w) as [[[]|er] w']; [|repeat split; reflexivity].
  destruct (train_loop _ _ _ _ _ _ _ _ _ _ _ _) as [[[r st] sm] tr]. repeat split; reflexivity.
Qed.

(** Features in other units: with [normalize_input] the run is the same, and so are the
    predictions at test points measured in the new units. *)
Theorem C79_feature_units : forall c X y b e u, c_normalize_input c = true -> positive u -> matrix (length u) X ->
  let t := train c (Matrix X) y b e in
  let t' := train c (Matrix (map (remeasure u) X)) y b e in
  t_res t' = t_res t /\ t_drawn t' = t_drawn t /\ b_samples (t_bnn t') = b_samples (t_bnn t) /\
  t_ext t' = t_ext t /\
  forall Z individual w, Forall (fun z => length z = length u) Z ->
    predict c (Matrix (map (remeasure u) Z)) individual (t_bnn t') w = predict c (Matrix Z) individual (t_bnn t) w.
Proof.
  intros c X y b e u Hc Hp HM t t'.
  destruct (train_remeasure c X y b e u Hc Hp HM) as (A & A2 & A3 & A4 & A5). fold t t' in A, A2, A3, A4, A5.
  split; [exact A|]. split; [exact A3|]. split; [now rewrite A5|]. split; [exact A2|].
  intros Z ind w HZ. rewrite A5. unfold BNN.predict. cbn [with_x_stats b_trained b_x_stats b_samples b_y_stats].
  rewrite Hc, A4. destruct (negb (b_trained (t_bnn t))); [reflexivity|].
  assert (Lc : length (columns X) = length u) by (rewrite (columns_R _ X HM), map_length; apply seq_length).
  rewrite !zmuv_given_right.
  2:{ rewrite map_length, Lc. exact HZ. }
  2:{ rewrite remeasure_length by now rewrite map_length. apply Forall_forall.
      intros r Hr. apply in_map_iff in Hr as (z & <- & Hz). rewrite Forall_forall in HZ. rewrite remeasure_length; auto. }
  cbn [bind]. match goal with |- context [outputs_of W value_of ?bb w _ _] => change bb with (with_x_stats (b_x_stats bb) (t_bnn t)) end.
  rewrite outputs_x_stats.
  replace (fst (fst (zmuv_normalization (map (remeasure u) Z) (Some (remeasure u (map np_mean (columns X))))
             (Some (remeasure (map (fun p => (fst p, 0)) u) (map np_std (columns X)))))))
    with (fst (fst (zmuv_normalization Z (Some (map np_mean (columns X))) (Some (map np_std (columns X)))))); [reflexivity|].
  unfold zmuv_normalization. cbn [default fst]. rewrite map_map. apply map_ext_in. intros r Hr. symmetry.
  rewrite Forall_forall in HZ. apply row_remeasure; rewrite ?map_length; auto.
Qed.
End Units.

(** Without normalization there is no such guarantee. *)
Notation demo_run_ c y := (demo_train R demo_gb [] 2 c (Matrix demo_X) y fresh_bnn demo_start).
Notation demo_mean c y := (predict nat demo_value c (Matrix demo_X) false (t_bnn nat demo_schedule (demo_run_ c y)) 0%nat).
Definition label_units_always : Prop := forall c y a s, 0 < a -> y <> [] ->
  demo_mean c (relabel a s y) = on_result (reexpress a s) (demo_mean c y).
Lemma demo_plain : forall y, length y = 5%nat -> y = demo_y \/ y = relabel 1 1 demo_y ->
  exists v, demo_mean (demo_config 2 9 1 2 false false) y =
  Ok (Aggregate (repeat ((nint 2 + (nint 4 + n0)) / nint 2)%num 5) v).
Proof. intros y Hl [->| ->]; eexists; lazy -[IZR Rdiv Rplus Rminus Rmult exp]; reflexivity. Qed.
Theorem C79_without_normalization_refuted : ~ label_units_always.
Proof.
  intros H. specialize (H (demo_config 2 9 1 2 false false) demo_y 1 1 ltac:(lra) ltac:(discriminate)).
  destruct (demo_plain demo_y eq_refl (or_introl eq_refl)) as [v E].
  destruct (demo_plain (relabel 1 1 demo_y) eq_refl (or_intror eq_refl)) as [v' E'].
  rewrite E, E' in H. cbn [on_result reexpress] in H.
  assert (K : repeat ((nint 2 + (nint 4 + n0)) / nint 2)%num 5 = relabel 1 1 (repeat ((nint 2 + (nint 4 + n0)) / nint 2)%num 5)) by congruence.
  cbn [repeat relabel map] in K. apply (f_equal (hd 0)) in K. cbn [hd] in K. lra.
Qed.

(** A normalizing network trained on five datapoints, in two units. *)
Example C79_example : let c := demo_config 2 9 1 2 true true in
  t_res nat demo_schedule (demo_run_ c demo_y) = Ok tt /\ demo_y <> ([] : list R) /\
  (exists m v, demo_mean c demo_y = Ok (Aggregate m v) /\ length m = 5%nat /\
     demo_mean c (relabel 10 3 demo_y) = Ok (Aggregate (relabel 10 3 m) (map (fun x => 10 ^ 2 * x) v))) /\
  matrix (length [(1000, 0)]) demo_X /\ positive [(1000, 0)].
Proof.
  intros c. split; [lazy -[IZR Rdiv Rplus Rminus Rmult sqrt]; reflexivity|]. split; [discriminate|]. split.
  - assert (E : exists m v, demo_mean c demo_y = Ok (Aggregate m v) /\ length m = 5%nat)
      by (eexists _, _; split; [lazy -[IZR Rdiv Rplus Rminus Rmult sqrt exp]; reflexivity|reflexivity]).
    destruct E as (m & v & E & L). exists m, v. split; [exact E|]. split; [exact L|].
    destruct (C79_label_units nat demo_value demo_fine demo_fine (fun _ w => demo_fine w) (demo_run 2) demo_schedule demo_gb (demo_net [] 2)
      c demo_X demo_y fresh_bnn demo_start 10 3 eq_refl ltac:(lra) ltac:(discriminate)) as (_ & _ & _ & _ & K).
    rewrite K, E. reflexivity.
  - split; [|repeat constructor; cbn; lra]. split; [discriminate|]. repeat constructor.
Qed.
