(** C61 and C96: the function computed by the default network, and its initial weights. *)
From Coq Require Import List Arith Lia ZArith Reals Lra Psatz Bool.
From Verif.Base Require Import Py Num Vec Lists.
From Verif.Model Require Import TensorUtils BaseModel Session BNN DefaultNet.
From Verif.Spec Require Import Dynamics Tensor Stats Mlp.
Import ListNotations.
Local Open Scope R_scope.

Lemma sum_below_map : forall n f, nsum (map f (seq 0 n)) = sum_below n f.
Proof.
  intros n f. induction n as [|n IH]; [apply n0_R|].
  rewrite seq_S, map_app. cbn [map]. cbn [sum_below]. rewrite <- IH. clear IH. cbn [Nat.add].
  generalize (map f (seq 0 n)). intros l. unfold nsum. induction l as [|a l IH]; cbn [app fold_right].
  - rewrite n0_R. cbn [nadd Num_R]. ring.
  - rewrite IH. cbn [nadd Num_R]. ring.
Qed.
Lemma sum_below_ext : forall n f g, (forall i, (i < n)%nat -> f i = g i) -> sum_below n f = sum_below n g.
Proof. induction n as [|n IH]; intros f g H; [reflexivity|]. cbn. rewrite (IH f g), H by (intros; auto with arith; try lia; apply H; lia). reflexivity. Qed.

Lemma dense_entries : forall act r c K b (u : nat -> R),
  dense act (matrix_of r c K) (vector_of c b) (map u (seq 0 r)) =
  map (fun j => act (sum_below r (fun i => u i * nth (i * c + j) (data K) 0) + nth j (data b) 0)) (seq 0 c).
Proof.
  intros act r c K b u. unfold dense, vector_of. rewrite map_length, seq_length.
  assert (C : forall (f : nat -> R) l, combine l (map f l) = map (fun j => (j, f j)) l).
  { intros f l. induction l as [|a l IH]; [reflexivity|]. cbn. now rewrite IH. }
  rewrite C, map_map. apply map_ext_in. intros j Hj. apply in_seq in Hj. cbn [nadd Num_R].
  f_equal. apply (f_equal2 Rplus); [|now rewrite n0_R].
  unfold matrix_of. rewrite map_map.
  assert (V : forall (f g : nat -> R) l, vmap2 nmul (map f l) (map g l) = map (fun i => f i * g i) l).
  { intros f g l. unfold vmap2. induction l as [|a l IH]; [reflexivity|]. cbn in *. now rewrite IH. }
  rewrite V, sum_below_map. apply sum_below_ext. intros i Hi. f_equal.
  rewrite (nth_indep _ n0 (nth (i * c + 0) (data K) n0)) by (rewrite map_length, seq_length; lia).
  rewrite (map_nth (fun j => nth (i * c + j) (data K) n0)). rewrite seq_nth by lia. now rewrite n0_R.
Qed.

Lemma entry_matrix : forall t r c i j, shape t = [r; c] -> (i < r)%nat -> (j < c)%nat ->
  entry t [i; j] = nth (i * c + j) (data t) 0.
Proof.
  intros t r c i j E Hi Hj. unfold entry. rewrite E. cbn [inside offset fold_right].
  apply Nat.ltb_lt in Hi, Hj. rewrite Hi, Hj. cbn [andb]. f_equal. lia.
Qed.
Lemma entry_vector : forall t n j, shape t = [n] -> (j < n)%nat -> entry t [j] = nth j (data t) 0.
Proof.
  intros t n j E Hj. unfold entry. rewrite E. cbn [inside offset fold_right].
  apply Nat.ltb_lt in Hj. rewrite Hj. cbn [andb]. f_equal. lia.
Qed.
Lemma dense_affine : forall act r c K b u, shape K = [r; c] -> shape b = [c] ->
  dense act (matrix_of r c K) (vector_of c b) (map u (seq 0 r)) = map (fun j => act (affine r K b u j)) (seq 0 c).
Proof.
  intros act r c K b u HK Hb. rewrite dense_entries. apply map_ext_in. intros j Hj. apply in_seq in Hj.
  unfold affine. f_equal. f_equal; [|symmetry; apply (entry_vector b c); auto; lia].
  apply sum_below_ext. intros i Hi. f_equal. symmetry. apply (entry_matrix K r c); auto; lia.
Qed.
Lemma tanh_agrees : forall x : R, BNN.tanh x = Rtrigo_def.tanh x.
Proof.
  intros x. unfold BNN.tanh, Rtrigo_def.tanh, sinh, cosh. cbn. field.
  pose proof (exp_pos x). pose proof (exp_pos (- x)). lra.
Qed.

(** The network is the documented one: for variables of the shapes created, the row of an
    input with n features is (perceptron, entry of output_bias). *)
Theorem C61_network_function : forall n vals X,
  map shape vals = gn_vars (T := R) (default_builder n) -> Forall (fun x => length x = n) X ->
  exists K1 b1 K2 b2 K3 b3 K4 b4 ob, vals = [K1; b1; K2; b2; K3; b3; K4; b4; ob] /\
  gn_out (default_builder n) vals X =
    Ok (map (fun x => (perceptron n K1 b1 K2 b2 K3 b3 K4 b4 (fun i => nth i x 0), entry ob [0; 0]%nat)) X).
Proof.
  intros n vals X HS HX. 
  do 9 (destruct vals as [|? vals]; [discriminate HS|]). destruct vals; [|discriminate HS].
  do 9 eexists. split; [reflexivity|]. cbn [map default_builder gn_vars] in HS.
  injection HS as S1 S2 S3 S4 S5 S6 S7 S8 S9. cbn [default_builder gn_out]. f_equal.
  unfold default_net. rewrite map_map. apply map_ext_in. intros x Hx.
  rewrite Forall_forall in HX. specialize (HX x Hx).
  assert (Ex : x = map (fun i => nth i x 0) (seq 0 n)).
  { rewrite <- HX. clear. induction x as [|a x IH]; [reflexivity|]. cbn [length seq map nth]. f_equal.
    rewrite IH at 1. rewrite <- seq_shift, map_map. reflexivity. }
  rewrite Ex at 1. rewrite (dense_affine _ n 50) by assumption.
  rewrite (dense_affine _ 50 50) by assumption. rewrite (dense_affine _ 50 50) by assumption. rewrite (dense_affine _ 50 1) by assumption.
  cbn [seq map app nth]. f_equal.
  - unfold perceptron. unfold affine at 1 5. f_equal. apply sum_below_ext. intros i _. f_equal.
    unfold tanh_layer. rewrite tanh_agrees. f_equal. unfold affine at 1 4. f_equal. apply sum_below_ext. intros i2 _. f_equal.
    rewrite tanh_agrees. f_equal. unfold affine at 1 3. f_equal. apply sum_below_ext. intros i3 _. f_equal.
    rewrite tanh_agrees. reflexivity.
  - rewrite n1_R, n0_R. cbn [nmul Num_R]. unfold entry. rewrite S9. cbn. ring.
Qed.

(** *** Initial weights *)
Lemma he_entry : forall stream r c f o i j, (i < r)%nat -> (j < c)%nat ->
  entry (he_normal stream [r; c] f o) [i; j] =
  stream (op_key o) (op_pos o + (i * c + j))%nat * sqrt (13 / 10 / INR f).
Proof.
  intros stream r c f o i j Hi Hj. rewrite (entry_matrix _ r c) by auto.
  unfold he_normal, draw. cbn [data fst]. rewrite map_map.
  assert (B : (i * c + j < r * c)%nat) by nia.
  match goal with |- nth ?k (map ?g ?l) 0 = _ => rewrite (nth_indep (map g l) 0 (g O)) by (rewrite map_length, seq_length; cbn; lia);
    rewrite (map_nth g) end.
  rewrite seq_nth by (cbn; lia). cbn [Nat.add]. rewrite n0_R, n1_R, nint_R, <- INR_IZR_INZ.
  cbn [nmul nadd ndiv nsqrt nfrac Num_R]. unfold Rfrac. rewrite Rmult_1_r, Rplus_0_r. reflexivity.
Qed.
Lemma zeros_entry : forall n j, entry (zeros_init (T := R) [n]) [j] = 0.
Proof.
  intros n j. unfold entry. destruct (inside _ _); [|reflexivity]. unfold zeros_init. cbn [data].
  rewrite n0_R. apply nth_repeat.
Qed.

(** Odd layers. *)
Lemma sum_below_opp : forall n f, sum_below n (fun i => - f i) = - sum_below n f.
Proof. induction n as [|n IH]; intros f; cbn; [ring|]. rewrite IH. ring. Qed.
Lemma affine_opp : forall n K m x j, affine n K (zeros_init [m]) (fun i => - x i) j = - affine n K (zeros_init [m]) x j.
Proof.
  intros. unfold affine. rewrite !zeros_entry, !Rplus_0_r, <- sum_below_opp. apply sum_below_ext. intros. ring.
Qed.
Lemma affine_ext : forall n K b x y j, (forall i, x i = y i) -> affine n K b x j = affine n K b y j.
Proof. intros. unfold affine. f_equal. apply sum_below_ext. intros. now rewrite H. Qed.
Lemma tanh_layer_opp : forall n K m x y j, (forall i, x i = - y i) ->
  tanh_layer n K (zeros_init [m]) x j = - tanh_layer n K (zeros_init [m]) y j.
Proof.
  intros n K m x y j H. unfold tanh_layer. rewrite (affine_ext n K _ x (fun i => - y i) j H), affine_opp.
  unfold Rtrigo_def.tanh, sinh, cosh. rewrite Ropp_involutive. field.
  set (a := affine _ _ _ _ _). pose proof (exp_pos a). pose proof (exp_pos (- a)). lra.
Qed.

(** Whatever the seeds: the variables have the shapes of the network, the network starts as an odd
    function with noise variance 1/1000. *)
Theorem C96_initial_network : forall stream gs seed ids ent n,
  let vals := default_initial stream gs seed ids ent n in
  map shape vals = gn_vars (T := R) (default_builder n) /\ Forall well_shaped vals /\
  exists f, (forall X, Forall (fun x => length x = n) X ->
     gn_out (default_builder n) vals X = Ok (map (fun x => (f x, ln (1 / 1000))) X)) /\
     exp (ln (1 / 1000)) = 1 / 1000 /\
     forall x, f (map Ropp x) = - f x.
Proof.
  intros stream gs seed ids ent n vals.
  assert (HS : map shape vals = gn_vars (T := R) (default_builder n)) by reflexivity.
  split; [exact HS|]. split.
  { unfold vals, default_initial, he_normal, zeros_init, draw. cbn [fst].
    repeat apply Forall_cons; try apply Forall_nil; unfold well_shaped; cbn [shape data];
      rewrite ?map_length, ?seq_length, ?repeat_length; reflexivity. }
  pose (K1 := nth 0 vals (zeros_init [])). pose (K2 := nth 2 vals (zeros_init [])).
  pose (K3 := nth 4 vals (zeros_init [])). pose (K4 := nth 6 vals (zeros_init [])).
  pose (z := zeros_init (T := R) [50%nat]). pose (z1 := zeros_init (T := R) [1%nat]).
  exists (fun x => perceptron n K1 z K2 z K3 z K4 z1 (fun i => nth i x 0)). split; [|split].
  - intros X HX. destruct (C61_network_function n vals X HS HX) as (A1 & A2 & A3 & A4 & A5 & A6 & A7 & A8 & A9 & Ev & ->).
    unfold vals, default_initial in Ev. cbv zeta in Ev. injection Ev as <- <- <- <- <- <- <- <- <-.
    reflexivity.
  - apply exp_ln. lra.
  - intros x. unfold perceptron.
    assert (N : forall i, nth i (map Ropp x) 0 = - nth i x 0).
    { intros i. rewrite <- Ropp_0 at 1. apply map_nth. }
    rewrite <- (affine_opp 50 K4 1). apply affine_ext. intros i3. unfold z.
    apply tanh_layer_opp. intros i2. apply tanh_layer_opp. intros i1. apply tanh_layer_opp. exact N.
Qed.

(** With a seed the four kernels are one sequence of draws: both hidden kernels are equal, the
    output kernel is the first row of them, the input kernel is proportional to them. *)
Theorem C96_seeded_kernels_repeat : forall stream gs (seed : Z) ids ent n,
  exists K1 b1 K2 b2 K3 b3 K4 b4 ob,
  default_initial stream gs (Some seed) ids ent n = [K1; b1; K2; b2; K3; b3; K4; b4; ob] /\
  K3 = K2 /\
  (forall j, (j < 50)%nat -> entry K4 [j; 0]%nat = entry K2 [0; j]%nat) /\
  (forall i j, (i < n)%nat -> (i < 50)%nat -> (j < 50)%nat -> entry K1 [i; j] = sqrt (50 / INR n) * entry K2 [i; j]).
Proof.
  intros stream gs seed ids ent n. do 9 eexists. split; [reflexivity|].
  assert (Key : forall a b, make_noise_op gs (Some seed) (ids a) (ent a) = make_noise_op gs (Some seed) (ids b) (ent b)).
  { intros. unfold make_noise_op. destruct gs; reflexivity. }
  split; [|split].
  - now rewrite (Key 2%nat 1%nat).
  - intros j Hj. rewrite !he_entry by lia. rewrite (Key 3%nat 1%nat). f_equal. f_equal. lia.
  - intros i j Hi Hi' Hj. rewrite !he_entry by lia. rewrite (Key 0%nat 1%nat).
    assert (Hn : 0 < INR n) by (apply lt_0_INR; lia).
    replace (13 / 10 / INR n) with (50 / INR n * (13 / 10 / INR 50)).
    2:{ replace (INR 50) with 50 by (cbn; lra). field. lra. }
    rewrite sqrt_mult; [ring| |]; apply Rlt_le, Rdiv_lt_0_compat; try lra. cbn. lra.
Qed.

(** Without a seed - and streams of different keys uncorrelated - the hidden kernels are
    uncorrelated; with one they have correlation 1. *)
Theorem C96_correlation_of_hidden_kernels :
  forall O (P : expectation O) (stream : O -> Z * Z -> nat -> R) gs seed ids ent n v,
  (forall key k, ex P (fun o => stream o key k ^ 2) = v) ->
  (let key l := op_key (make_noise_op gs None (ids l) (ent l)) in
   key 1%nat <> key 2%nat -> forall k, ex P (fun o => stream o (key 1%nat) k * stream o (key 2%nat) k) = 0) ->
  match gs with None => ent 1%nat <> ent 2%nat | Some _ => ids 1%nat <> ids 2%nat end ->
  forall i j, (i < 50)%nat -> (j < 50)%nat ->
  let kernel l o := nth (2 * l) (default_initial (stream o) gs seed ids ent n) (zeros_init []) in
  ex P (fun o => entry (kernel 1%nat o) [i; j] ^ 2) = v * (13 / 500) /\
  ex P (fun o => entry (kernel 1%nat o) [i; j] * entry (kernel 2%nat o) [i; j]) =
    match seed with Some _ => v * (13 / 500) | None => 0 end.
Proof.
  intros O P stream gs seed ids ent n v HV HU HD i j Hi Hj kernel.
  assert (Sq : sqrt (13 / 10 / INR 50) * sqrt (13 / 10 / INR 50) = 13 / 500).
  { rewrite sqrt_sqrt; [cbn; lra|]. cbn. lra. }
  pose (op l := make_noise_op gs seed (ids l) (ent l)).
  assert (E : forall l, (l = 1 \/ l = 2)%nat -> forall o, entry (kernel l o) [i; j] =
     stream o (op_key (op l)) (i * 50 + j)%nat * sqrt (13 / 10 / INR 50)).
  { intros l Hl o. destruct Hl as [-> | ->]; unfold kernel, default_initial; cbv zeta; cbn [nth Nat.mul Nat.add]; rewrite he_entry by auto; reflexivity. }
  split.
  - rewrite (ex_ext P _ (fun o => 13 / 500 * stream o (op_key (op 1%nat)) (i * 50 + j)%nat ^ 2)).
    2:{ intros o. rewrite E by auto. rewrite <- Sq. ring. }
    rewrite ex_scale, HV. ring.
  - rewrite (ex_ext P _ (fun o => 13 / 500 * (stream o (op_key (op 1%nat)) (i * 50 + j)%nat * stream o (op_key (op 2%nat)) (i * 50 + j)%nat))).
    2:{ intros o. rewrite !E by auto. rewrite <- Sq. ring. }
    rewrite ex_scale. destruct seed as [seed|].
    + rewrite (ex_ext P _ (fun o => stream o (op_key (op 1%nat)) (i * 50 + j)%nat ^ 2)).
      2:{ intros o. replace (op_key (op 2%nat)) with (op_key (op 1%nat)); [ring|]. unfold op, make_noise_op. destruct gs; reflexivity. }
      rewrite HV. ring.
    + cbv zeta in HU. unfold op. rewrite HU; [ring|]. unfold make_noise_op, get_seed. destruct gs; cbn [op_key]; [|exact HD].
      intros X. injection X as X. lia.
Qed.

(** Concrete cases: three features; draws 1, 2, 3, ...; two keys with independent signs. *)
Example C96_seeded_example : exists K2, nth_error (default_initial (fun _ k => INR k) None (Some 1%Z) (fun _ => 0%nat) (fun _ => (0, 0)%Z) 3) 2 = Some K2 /\
  nth_error (default_initial (fun _ k => INR k) None (Some 1%Z) (fun _ => 0%nat) (fun _ => (0, 0)%Z) 3) 4 = Some K2 /\ entry K2 [0; 1]%nat <> 0.
Proof.
  eexists. split; [reflexivity|]. split; [reflexivity|]. rewrite he_entry by lia. cbn [op_pos make_noise_op Nat.add Nat.mul INR].
  apply Rmult_integral_contrapositive_currified; [lra|]. apply Rgt_not_eq, sqrt_lt_R0. cbn. lra.
Qed.
Example C96_correlation_nontrivial : exists (P : expectation (bool * bool)) (stream : bool * bool -> Z * Z -> nat -> R) (ent : nat -> Z * Z),
  (forall key k, ex P (fun o => stream o key k ^ 2) = 1) /\ ent 1%nat <> ent 2%nat /\
  (forall k, ex P (fun o => stream o (ent 1%nat) k * stream o (ent 2%nat) k) = 0).
Proof.
  unshelve eexists.
  { refine {| ex := fun f => (f (true, true) + f (true, false) + f (false, true) + f (false, false)) / 4 |};
      [intros f g H; now rewrite !H|intros; lra|intros; lra|lra]. }
  exists (fun (o : bool * bool) (key : Z * Z) (_ : nat) => if (if (snd key =? 1)%Z then fst o else snd o) then 1 else -1), (fun l => (0%Z, Z.of_nat l)).
  split; [|split; [discriminate|]].
  - intros key k. destruct (snd key =? 1)%Z; cbn; lra.
  - intros k. cbn. lra.
Qed.
