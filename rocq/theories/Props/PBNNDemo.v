(** Concrete networks: examples for the theorems of PBNN.v, and the
    counterexamples of C51, C58, C60, C73. *)
From Coq Require Import String List Arith Lia ZArith Bool Permutation Reals Lra.
From Verif.Base Require Import Py Lists Num Vec.
From Verif.Model Require Import Stepsize BaseClasses DataBatches TensorUtils BaseModel Sampling BNN.
From Verif.Spec Require Import Batches Sampler Network.
From Verif.Proofs Require Import Loop Train.
From Verif.Props Require Import PBNN.
Import ListNotations.
Local Open Scope list_scope.

Section Demo.
Context {T : Type} `{Num T} `{NumT T}.
Definition demo_T (z : nat) : tensor T := {| shape := [1]; data := [nint (Z.of_nat z)] |}.
(** The session counts runs and returns the count as the value of each of the
    [n] variables. *)
Definition demo_run (n : nat) (f : feed (tensor T)) (w : nat) : res (outputs (tensor T)) * nat :=
  (Ok {| o_theta := repeat (demo_T w) n; o_cost := demo_T 0; o_minv := repeat (demo_T 1) n |}, S w).
(** A session whose run number [k] fails. *)
Definition demo_run_until (k n : nat) (f : feed (tensor T)) (w : nat) : res (outputs (tensor T)) * nat :=
  if w =? k then (Raise ValueError, S w) else demo_run n f w.
Definition demo_schedule : schedule (tensor T) (sample (tensor T) * tensor T) := constant_schedule _ _.
Definition demo_fine (w : nat) : res unit * nat := (Ok tt, w).
(** A network with [n] variables computing the value of its first variable. *)
Definition demo_net (names : list string) (n : nat) : net_builder T :=
  {| gn_names := names; gn_vars := repeat [1] n; gn_fails := None;
     gn_out := fun vs X => Ok (map (fun _ => (match vs with v :: _ => hd n0 (data v) | [] => n0 end, n0)) X) |}.
Definition demo_args (nets iters bi ss : nat) (ni no : bool) : bnn_args :=
  {| a_method := MMember SGHMC; a_get_net := some_callable; a_batch_generator := some_callable; a_schedule := VConst 1 100;
     a_n_nets := VPy (PInt (Z.of_nat nets)); a_n_iters := VPy (PInt (Z.of_nat iters));
     a_burn_in_steps := VPy (PInt (Z.of_nat bi)); a_sample_steps := VPy (PInt (Z.of_nat ss));
     a_batch_size := VPy (PInt 3); a_dtype := VDType "float64"; a_seed := VPy (PInt 7);
     a_normalize_input := ni; a_normalize_output := no |}.
Definition demo_config (nets iters bi ss : nat) (ni no : bool) : config :=
  {| c_method := MMember SGHMC; c_n_nets := nets; c_n_iters := iters; c_burn_in_steps := bi; c_sample_steps := ss;
     c_batch_size := PInt 3; c_seed := PInt 7; c_normalize_input := ni; c_normalize_output := no |}.
Notation demo_train T B names n := (train (T := T) nat demo_fine demo_fine (fun _ w => demo_fine w) (demo_run n) demo_schedule B (demo_net names n)).
Definition demo_start : ext nat demo_schedule := Ext nat demo_schedule [] [] 0 0 (demo_T 1).
Definition demo_gb := gb_source (T := T) lcg counter_global 0%Z.
Definition demo_sb := sb_source (T := T) lcg counter_global 0%Z.
Definition demo_X : list (list T) := map (fun z => [nint z]) [0; 1; 2; 3; 4]%Z.
Definition demo_y : list T := map nint [0; 1; 2; 3; 4]%Z.
Definition demo_value (w i : nat) : tensor T := demo_T (w + i).
Notation demo_history B names n := (history nat demo_fine demo_fine (fun _ w => demo_fine w) (demo_run n) demo_schedule B (demo_net names n)).
Lemma demo_first : forall B names n c x y r, let t := demo_train T B names n c x y fresh_bnn demo_start in t_res nat demo_schedule t = r ->
  demo_history B names n c (t_bnn nat demo_schedule t) (t_ext nat demo_schedule t) (is_ok r).
Proof.
  intros B names n c x y r t <-.
  exact (H_train nat demo_fine demo_fine (fun _ w => demo_fine w) (demo_run n) demo_schedule B (demo_net names n) c fresh_bnn demo_start false x y _
    (H_new _ _ _ _ _ _ _ _ _ _) (conj (incl_refl _) (Nat.le_refl _))).
Qed.
End Demo.
Notation demo_train T B names n := (train (T := T) nat demo_fine demo_fine (fun _ w => demo_fine w) (demo_run n) demo_schedule B (demo_net names n)).
Notation demo_history B names n := (history nat demo_fine demo_fine (fun _ w => demo_fine w) (demo_run n) demo_schedule B (demo_net names n)).

(** ** C50: window (1, 9) with thinning 2 has indices 2, 4, 6, 8; two are kept *)
Notation t1 := (demo_train R demo_gb [] 2 (demo_config 2 9 1 2 false false) (Matrix demo_X) demo_y fresh_bnn demo_start).
Example C50_example : construct_bnn (demo_args 2 9 1 2 false false) = Ok (demo_config 2 9 1 2 false false) /\
  t_res nat demo_schedule t1 = Ok tt /\
  b_samples (t_bnn nat demo_schedule t1) = [SList [demo_T 2; demo_T 2]; SList [demo_T 4; demo_T 4]] /\
  length (t_drawn nat demo_schedule t1) = 5 /\ n_kept 1 2 9 = 4.
Proof. repeat split; lazy -[IZR]; reflexivity. Qed.

(** ** C52, C55: predictions of that network, whatever the session holds *)
Lemma t1_vars : x_vars nat demo_schedule (t_ext nat demo_schedule t1) = [[1]; [1]].
Proof. lazy -[IZR]. reflexivity. Qed.
Lemma t1_trained : t_res nat demo_schedule t1 = Ok tt.
Proof. apply C50_example. Qed.
Example C55_example : t_res nat demo_schedule t1 = Ok tt /\
  returns_shapes nat (demo_run (T := R) 2) (x_vars nat demo_schedule (t_ext nat demo_schedule t1)) /\
  length (x_vars nat demo_schedule (t_ext nat demo_schedule t1)) <> 1.
Proof.
  split; [exact t1_trained|]. rewrite t1_vars. split; [|discriminate].
  intros f w o w' E. unfold demo_run in E. injection E as <- _. reflexivity.
Qed.
Example C52_example : demo_history (demo_gb (T := R)) [] 2 (demo_config 2 9 1 2 false false) (t_bnn nat demo_schedule t1) (t_ext nat demo_schedule t1) true.
Proof. exact (demo_first (T := R) demo_gb [] 2 (demo_config 2 9 1 2 false false) (Matrix demo_X) demo_y (Ok tt) t1_trained). Qed.

(** ** C51: thinning 7 with 5 iterations keeps nothing; predictions are NaN *)
Notation t2 := (demo_train XR demo_gb [] 2 (demo_config 2 5 1 7 false false) (Matrix demo_X) demo_y fresh_bnn demo_start).
Example C51_example : empty_window (demo_config 2 5 1 7 false false) /\ t_res nat demo_schedule t2 = Ok tt /\
  construct_bnn (demo_args 2 5 1 7 false false) = Ok (demo_config 2 5 1 7 false false).
Proof.
  split; [|split; [lazy -[IZR]; reflexivity|reflexivity]]. intros i Hi Hb. cbn in *.
  destruct i as [|[|[|[|[|]]]]]; try lia; cbn; lia.
Qed.
(** The contract - finite predictions after a successful train - fails. *)
Theorem C51_finite_predictions_refuted : ~ (forall a c X y b (e : ext nat demo_schedule), construct_bnn a = Ok c ->
  let t := demo_train XR demo_gb [] 2 c (Matrix X) y b e in t_res nat demo_schedule t = Ok tt ->
  forall X' w, exists m v, predict nat demo_value c (Matrix X') false (t_bnn nat demo_schedule t) w = Ok (Aggregate m v)).
Proof.
  intros C. destruct C51_example as (Ew & Et & Ec).
  destruct (C _ _ demo_X demo_y fresh_bnn demo_start Ec Et demo_X 0) as (m & v & E).
  pose proof (C51_predicts_nan_refuted nat demo_value demo_fine demo_fine (fun _ w => demo_fine w) (demo_run 2) demo_schedule demo_gb (demo_net [] 2)
    _ _ demo_X demo_y fresh_bnn demo_start Ec Ew Et demo_X 0 ltac:(repeat constructor)) as E'.
  rewrite E in E'. discriminate.
Qed.

(** ** C58: the second training of a network with named layers fails and ruins it *)
Notation t3 := (demo_train R demo_gb ["layer"%string] 2 (demo_config 2 9 1 2 false false) (Matrix demo_X) demo_y fresh_bnn demo_start).
Notation t4 := (demo_train R demo_gb ["layer"%string] 2 (demo_config 2 9 1 2 false false) (Matrix demo_X) demo_y
  (t_bnn nat demo_schedule t3) (t_ext nat demo_schedule t3)).
Example C58_example : t_res nat demo_schedule t3 = Ok tt /\
  is_ok (predict nat demo_value (demo_config 2 9 1 2 false false) (Matrix demo_X) false (t_bnn nat demo_schedule t3) 0) = true /\
  t_res nat demo_schedule t4 = Raise ValueError /\ b_trained (t_bnn nat demo_schedule t4) = true /\
  is_ok (predict nat demo_value (demo_config 2 9 1 2 false false) (Matrix demo_X) false (t_bnn nat demo_schedule t4) 0) = false.
Proof. repeat split; lazy -[IZR]; reflexivity. Qed.
(** Atomicity - a failed training leaves the network as it was - fails. *)
Theorem C58_atomic_train_refuted : ~ (forall c X y b (e : ext nat demo_schedule),
  demo_history (demo_gb (T := R)) ["layer"%string] 2 c b e true ->
  let t := demo_train R demo_gb ["layer"%string] 2 c X y b e in is_ok (t_res nat demo_schedule t) = false ->
  forall X' ind w, predict nat demo_value c X' ind (t_bnn nat demo_schedule t) w = predict nat demo_value c X' ind b w).
Proof.
  intros C. destruct C58_example as (E1 & E2 & E3 & E4 & E5).
  pose proof (demo_first (T := R) demo_gb ["layer"%string] 2 (demo_config 2 9 1 2 false false) (Matrix demo_X) demo_y (Ok tt) E1) as Hh.
  assert (F : is_ok (t_res nat demo_schedule t4) = false) by (rewrite E3; reflexivity).
  specialize (C (demo_config 2 9 1 2 false false) (Matrix demo_X) demo_y (t_bnn nat demo_schedule t3) (t_ext nat demo_schedule t3)).
  pose proof (C Hh F (Matrix demo_X) false 0) as C1. cbv zeta in C1. rewrite C1 in E5.
  generalize (eq_trans (eq_sym E2) E5). discriminate.
Qed.

(** ** C60: inputs permuted, labels not *)
Notation t5 := (demo_train R demo_sb [] 2 (demo_config 2 9 1 2 false true) (Matrix demo_X) demo_y fresh_bnn demo_start).
Lemma t5_arrays : t_res nat demo_schedule t5 = Ok tt /\
  t_X nat demo_schedule t5 = map (fun z => [nint z]) [3; 2; 0; 1; 4]%Z /\ t_y nat demo_schedule t5 = demo_y.
Proof. repeat split; lazy -[IZR Rdiv]; reflexivity. Qed.
(** The contract - rows still belong to their labels - fails. *)
Theorem C60_rows_keep_labels_refuted : ~ (forall a c X y b (e : ext nat demo_schedule), construct_bnn a = Ok c -> length X = length y ->
  let t := demo_train R demo_sb [] 2 c (Matrix X) y b e in t_res nat demo_schedule t = Ok tt ->
  exists D', Permutation (combine X y) D' /\ t_X nat demo_schedule t = map fst D' /\ t_y nat demo_schedule t = map snd D').
Proof.
  intros C. destruct t5_arrays as (E1 & E2 & E3).
  destruct (C (demo_args 2 9 1 2 false true) (demo_config 2 9 1 2 false true) demo_X demo_y fresh_bnn demo_start eq_refl eq_refl E1) as (D' & P & F1 & F2).
  cbv zeta in F1, F2. rewrite E2 in F1. rewrite E3 in F2.
  destruct D' as [|[x l] D']; [discriminate|]. cbn [map fst snd demo_y] in F1, F2. injection F1 as F1 _. injection F2 as F2 _.
  assert (I : In (x, l) (combine demo_X demo_y)) by (eapply Permutation_in; [symmetry; exact P|now left]).
  subst x l. unfold demo_X, demo_y in I. cbn [map combine In] in I.
  rewrite !nint_R in I. unfold Rfrac in I.
  repeat (destruct I as [I|I]; [apply pair_equal_spec in I as [I1 I2]; injection I1 as I1; lra|]). exact I.
Qed.

(** ** C59: five rows, four labels *)
Notation t6 := (demo_train R demo_gb [] 2 (demo_config 2 9 1 2 false false) (Matrix demo_X) (tl demo_y) fresh_bnn demo_start).
Example C59_example : t_res nat demo_schedule t6 = Raise AssertionError /\ length demo_X <> length (tl (demo_y (T := R))) /\
  is_ok (fst (build_net nat demo_schedule (demo_net (T := R) [] 2) demo_start)) = true.
Proof. split; [lazy -[IZR]; reflexivity|]. split; [cbn; lia|reflexivity]. Qed.

(** ** C73: one variable of shape [1] *)
Notation t7 := (demo_train R demo_gb [] 1 (demo_config 2 9 1 2 false false) (Matrix demo_X) demo_y fresh_bnn demo_start).
Example C73_example : t_res nat demo_schedule t7 = Ok tt /\ x_vars nat demo_schedule (t_ext nat demo_schedule t7) = [[1]] /\
  b_samples (t_bnn nat demo_schedule t7) = [SBare (demo_T 2); SBare (demo_T 4)] /\
  returns_shapes nat (demo_run (T := R) 1) [[1]] /\
  predict nat demo_value (demo_config 2 9 1 2 false false) (Matrix demo_X) false (t_bnn nat demo_schedule t7) 0 = Raise ValueError.
Proof.
  split; [lazy -[IZR]; reflexivity|]. split; [lazy -[IZR]; reflexivity|]. split; [lazy -[IZR]; reflexivity|]. split; [|lazy -[IZR]; reflexivity].
  intros f w o w' E. unfold demo_run in E. injection E as <- _. reflexivity.
Qed.

(** ** C74: a generator of four batches, although nine iterations are asked for *)
Definition four_batches : batch_source R :=
  {| bs_state := nat; bs_start := fun _ _ => 4;
     bs_next := fun s h => match s with 0 => (Raise StopIteration, 0, h) | S k => (Ok ({| shape := [3; 1]; data := concat (firstn 3 (hx h)) |}, {| shape := [3; 1]; data := firstn 3 (hy h) |}), k, h) end |}.
Notation t8 := (demo_train R four_batches [] 2 (demo_config 2 9 1 2 false false) (Matrix demo_X) demo_y fresh_bnn demo_start).
Example C74_example : t_res nat demo_schedule t8 = Ok tt /\ length (t_drawn nat demo_schedule t8) = 4 /\
  b_samples (t_bnn nat demo_schedule t8) = [SList [demo_T 2; demo_T 2]] /\
  (forall s h bt s' h', bs_next four_batches s h = (Ok bt, s', h') -> s' < s).
Proof.
  split; [lazy -[IZR]; reflexivity|]. split; [lazy -[IZR]; reflexivity|]. split; [lazy -[IZR]; reflexivity|].
  intros [|s] h bt s' h' E; [discriminate|]. cbn in E. apply pair_equal_spec in E as [E _]. apply pair_equal_spec in E as [_ <-]. lia.
Qed.

(** ** C75: a second training samples four parameters *)
Definition two_or_four (f : feed (tensor R)) (w : nat) : res (outputs (tensor R)) * nat := demo_run (if w <? 5 then 2 else 4) f w.
Notation train9 := (train nat demo_fine demo_fine (fun _ w => demo_fine w) two_or_four demo_schedule demo_gb (demo_net [] 2) (demo_config 2 9 1 2 false false) (Matrix demo_X) demo_y).
Notation t9 := (train9 fresh_bnn demo_start).
Notation t10 := (train9 (t_bnn nat demo_schedule t9) (t_ext nat demo_schedule t9)).
Example C75_example : t_res nat demo_schedule t9 = Ok tt /\ t_res nat demo_schedule t10 = Ok tt /\
  length (b_params (t_bnn nat demo_schedule t10)) = 4.
Proof. split; [lazy -[IZR]; reflexivity|]. split; lazy -[IZR]; reflexivity. Qed.
Example C75_runs : completed_runs nat demo_fine demo_fine (fun _ w => demo_fine w) two_or_four demo_schedule demo_gb (demo_net [] 2) (demo_config 2 9 1 2 false false)
  demo_start 2 (t_bnn nat demo_schedule t10) (t_ext nat demo_schedule t10).
Proof.
  destruct C75_example as (E1 & E2 & _).
  exact (CR_S nat demo_fine demo_fine (fun _ w => demo_fine w) two_or_four demo_schedule demo_gb (demo_net [] 2) (demo_config 2 9 1 2 false false) demo_start 1
    (t_bnn nat demo_schedule t9) (t_ext nat demo_schedule t9) demo_X demo_y
    (CR_S nat demo_fine demo_fine (fun _ w => demo_fine w) two_or_four demo_schedule demo_gb (demo_net [] 2) (demo_config 2 9 1 2 false false) demo_start 0
      fresh_bnn demo_start demo_X demo_y (CR_0 _ _ _ _ _ _ _ _ _ _ _) E1) E2).
Qed.
