(** The ways a call of train can go. *)
From Coq Require Import String List Arith Lia ZArith Bool.
From Verif.Base Require Import Py Num Vec.
From Verif.Model Require Import Stepsize BaseClasses DataBatches TensorUtils BaseModel Sampling BNN.
From Verif.Spec Require Import Sampler Network.
From Verif.Proofs Require Import Sampler SamplerHistory Loop.
Import ListNotations.
Local Open Scope list_scope.

Section P.
Context {T : Type} `{Num T} `{NumT T}.
Notation arr := (tensor T).
Variable W : Type.
Variable get_sampler_ : W -> res unit * W.
Variable initialize : W -> res unit * W.
Variable log_error : heap (list T) T -> W -> res unit * W.
Variable run_sampler : feed arr -> W -> res (outputs arr) * W.
Variable schedule_ : schedule arr (sample arr * arr).
Variable B : batch_source T.
Variable builder : net_builder T.
Notation ext := (ext W schedule_).
Notation build := (build_net W schedule_ builder).
Notation train := (train W get_sampler_ initialize log_error run_sampler schedule_ B builder).
Notation t_res := (t_res W schedule_).
Notation t_bnn := (t_bnn W schedule_).
Notation t_ext := (t_ext W schedule_).
Notation t_drawn := (t_drawn W schedule_).
Notation t_X := (t_X W schedule_).
Notation t_y := (t_y W schedule_).

(** The data and constants that train works with. *)
Definition data_of (c : config) (X : list (list T)) (y : list T) : heap (list T) T :=
  arrays (if c_normalize_input c then fst (fst (zmuv_normalization X None None)) else X)
         (if c_normalize_output c then fst (fst (zmuv_normalization1 y None None)) else y).
Definition x_stats_of (c : config) (X : list (list T)) (old : option (list T * list T)) :=
  if c_normalize_input c then Some (snd (fst (zmuv_normalization X None None)), snd (zmuv_normalization X None None)) else old.
Definition y_stats_of (c : config) (y : list T) (old : option (T * T)) :=
  if c_normalize_output c then Some (snd (fst (zmuv_normalization1 y None None)), snd (zmuv_normalization1 y None None)) else old.

(** Test points of the width of the training data can be normalized. *)
Lemma zmuv_given_right : forall X (m s : list T), Forall (fun r => length r = length m) X ->
  zmuv_given X m s = Ok (fst (fst (zmuv_normalization X (Some m) (Some s)))).
Proof.
  intros X m s HX. unfold zmuv_given. replace (forallb _ X) with true; [reflexivity|]. symmetry. apply forallb_forall.
  intros r Hr. rewrite Forall_forall in HX. now apply Nat.eqb_eq, HX.
Qed.
Lemma x_stats_normalize : forall c X old X', Forall (fun r => length r = width X) X' ->
  (if c_normalize_input c then match x_stats_of c X old with Some (m, s) => zmuv_given X' m s | None => Raise AttributeError end else Ok X') =
  Ok (if c_normalize_input c then fst (fst (zmuv_normalization X' (Some (map np_mean (columns X))) (Some (map np_std (columns X))))) else X').
Proof.
  intros c X old X' HX. unfold x_stats_of. destruct (c_normalize_input c); [|reflexivity].
  unfold zmuv_normalization at 1 2. cbn [default fst snd]. apply zmuv_given_right.
  rewrite map_length. unfold columns. now rewrite map_length, seq_length.
Qed.

(** Attributes after a train that got past building the network. *)
Record rebuilt (c : config) (X : list (list T)) (y : list T) (b : bnn T) (e : ext) (nt : net T) (e' : ext) (b' : bnn T) : Prop := {
  rb_x : b_x_stats b' = x_stats_of c X (b_x_stats b);
  rb_y : b_y_stats b' = y_stats_of c y (b_y_stats b);
  rb_ph : b_x_ph b' = Some (x_ph _ _ e, width X);
  rb_net : b_net b' = Some nt;
  rb_params : b_params b' = combine (seq 0 (length (x_vars _ _ e'))) (x_vars _ _ e');
  rb_input : net_input nt = x_ph _ _ e;
  rb_out : net_out nt = gn_out builder;
  rb_vars : net_vars nt = seq (length (x_vars _ _ e)) (length (gn_vars builder));
  rb_xvars : x_vars _ _ e' = x_vars _ _ e ++ gn_vars builder;
  rb_names : x_names _ _ e' = x_names _ _ e ++ gn_names builder;
  rb_xph : x_ph _ _ e' = S (S (x_ph _ _ e));
  rb_new : forall n, In n (gn_names builder) -> ~ In n (x_names _ _ e)
}.

Inductive train_outcome (c : config) (X : list (list T)) (y : list T) (b : bnn T) (e : ext) (t : train_result W schedule_) : Prop :=
| TO_build : forall er, fst (build e) = Raise er -> t_res t = Raise er ->
    t_bnn t = {| b_data := Some (data_of c X y); b_x_stats := x_stats_of c X (b_x_stats b); b_y_stats := y_stats_of c y (b_y_stats b);
                 b_x_ph := Some (x_ph _ _ e, width X); b_net := b_net b; b_params := b_params b; b_samples := b_samples b; b_trained := b_trained b |} ->
    x_names _ _ (t_ext t) = x_names _ _ e -> x_vars _ _ (t_ext t) = x_vars _ _ e -> x_ph _ _ (t_ext t) = S (S (x_ph _ _ e)) ->
    t_X t = X -> t_y t = y -> t_drawn t = [] -> train_outcome c X y b e t
| TO_setup : forall nt er, fst (build e) = Ok nt -> rebuilt c X y b e nt (t_ext t) (t_bnn t) -> t_res t = Raise er ->
    (fst (get_sampler_ (x_sess _ _ e)) = Raise er \/
     (fst (get_sampler_ (x_sess _ _ e)) = Ok tt /\ fst (initialize (snd (get_sampler_ (x_sess _ _ e)))) = Raise er)) ->
    b_data (t_bnn t) = Some (data_of c X y) -> b_samples (t_bnn t) = [] -> b_trained (t_bnn t) = b_trained b ->
    t_X t = X -> t_y t = y -> t_drawn t = [] -> train_outcome c X y b e t
| TO_loop : forall nt st, fst (build e) = Ok nt -> rebuilt c X y b e nt (t_ext t) (t_bnn t) ->
    fst (get_sampler_ (x_sess _ _ e)) = Ok tt -> fst (initialize (snd (get_sampler_ (x_sess _ _ e)))) = Ok tt ->
    let E := train_env W run_sampler schedule_ B (x_ph _ _ e) (S (x_ph _ _ e)) in
    train_loop W log_error run_sampler schedule_ B c (x_ph _ _ e) (S (x_ph _ _ e)) (length (b_params (t_bnn t))) (c_n_iters c) 0
      (initial_state E (bs_start B (c_batch_size c) (c_seed c), data_of c X y) (x_sched _ _ e)
         (snd (initialize (snd (get_sampler_ (x_sess _ _ e)))))) [] =
      (t_res t, st, b_samples (t_bnn t), t_drawn t) ->
    b_data (t_bnn t) = Some (snd (s_bg E st)) ->
    b_trained (t_bnn t) = (match t_res t with Ok _ => true | Raise _ => b_trained b end) ->
    t_X t = (if c_normalize_input c then X else hx (snd (s_bg E st))) ->
    t_y t = (if c_normalize_output c then y else hy (snd (s_bg E st))) ->
    train_outcome c X y b e t.

Lemma build_cases : forall e,
  (exists er, build e = (Raise er, e)) \/
  (exists nt e', build e = (Ok nt, e') /\ net_input nt = x_ph _ _ e /\ net_out nt = gn_out builder /\
     net_vars nt = seq (length (x_vars _ _ e)) (length (gn_vars builder)) /\
     x_vars _ _ e' = x_vars _ _ e ++ gn_vars builder /\ x_names _ _ e' = x_names _ _ e ++ gn_names builder /\
     x_ph _ _ e' = x_ph _ _ e /\ x_sess _ _ e' = x_sess _ _ e /\ x_sched _ _ e' = x_sched _ _ e /\
     forall n, In n (gn_names builder) -> ~ In n (x_names _ _ e)).
Proof.
  intros e. unfold build_net. destruct (gn_fails builder); [left; eauto|].
  destruct (existsb _ _) eqn:Ex; [left; eauto|]. right. do 2 eexists. split; [reflexivity|]. cbn. repeat split; auto.
  intros n Hn Hin. assert (existsb (fun n => existsb (String.eqb n) (x_names W schedule_ e)) (gn_names builder) = true).
  { apply existsb_exists. exists n. split; auto. apply existsb_exists. exists n. split; auto. apply String.eqb_refl. }
  congruence.
Qed.


Lemma train_cases : forall c X y b e, train_outcome c X y b e (train c (Matrix X) y b e).
Proof.
  intros c X y b e. unfold BNN.train.
  assert (A1 : (if c_normalize_input c then let '(X1, m, s) := zmuv_normalization X None None in (X1, Some (m, s)) else (X, b_x_stats b)) =
    ((if c_normalize_input c then fst (fst (zmuv_normalization X None None)) else X), x_stats_of c X (b_x_stats b))).
  { unfold x_stats_of. destruct (c_normalize_input c); auto. }
  assert (A2 : (if c_normalize_output c then let '(y1, m, s) := zmuv_normalization1 y None None in (y1, Some (m, s)) else (y, b_y_stats b)) =
    ((if c_normalize_output c then fst (fst (zmuv_normalization1 y None None)) else y), y_stats_of c y (b_y_stats b))).
  { unfold y_stats_of. destruct (c_normalize_output c); auto. }
  rewrite A1, A2. clear A1 A2. cbv beta iota.
  fold (data_of c X y).
  destruct (build_cases e) as [(er & Eb)|(nt & e' & Eb & B1 & B2 & B3 & B4 & B5 & B6 & B7 & B8 & B9)]; rewrite Eb; cbv beta iota zeta;
    cbn [x_names x_vars x_ph x_sess x_sched].
  - apply TO_build with er; cbn; auto. now rewrite Eb.
  - rewrite B7, B8.
    destruct (get_sampler_ (x_sess W schedule_ e)) as [[[]|er] w] eqn:Eg.
    2:{ apply TO_setup with nt er; cbn; auto; [now rewrite Eb|constructor; cbn; auto|rewrite Eg; auto]. }
    destruct (initialize w) as [[[]|er] w'] eqn:Ei.
    2:{ apply TO_setup with nt er; cbn; auto; [now rewrite Eb|constructor; cbn; auto|rewrite Eg; cbn; rewrite Ei; auto]. }
    destruct (train_loop _ _ _ _ _ _ _ _ _ _ _ _ _) as [[[r st] sm] tr] eqn:El.
    apply TO_loop with nt st; cbn [BNN.t_bnn BNN.t_res BNN.t_ext BNN.t_drawn BNN.t_X BNN.t_y b_data b_samples b_trained b_params]; auto.
    + now rewrite Eb.
    + constructor; cbn; auto.
    + now rewrite Eg.
    + rewrite Eg. cbn. now rewrite Ei.
    + rewrite Eg. cbn [snd]. rewrite Ei. cbn [snd]. exact El.
Qed.
End P.
