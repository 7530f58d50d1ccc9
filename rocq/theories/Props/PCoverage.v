(** C78: how minibatches weigh the datapoints. *)
From Coq Require Import List Arith Lia ZArith Reals Lra Bool Permutation.
From Verif.Base Require Import Py Lists Vec.
From Verif.Model Require Import DataBatches.
From Verif.Spec Require Import Batches Coverage.
From Verif.Proofs Require Import Batches.
Import ListNotations.
Local Open Scope R_scope.

(** *** Sums *)
Lemma total_nil : forall A (f : A -> R), total f [] = 0.
Proof. reflexivity. Qed.
Lemma total_cons : forall A (f : A -> R) a l, total f (a :: l) = f a + total f l.
Proof. reflexivity. Qed.
Lemma total_app : forall A f (l m : list A), total f (l ++ m) = total f l + total f m.
Proof. induction l; intros; cbn [app]; rewrite ?total_nil, ?total_cons, ?IHl; ring. Qed.
Lemma total_ext : forall A f g (l : list A), (forall a, In a l -> f a = g a) -> total f l = total g l.
Proof.
  induction l; intros; [reflexivity|]. rewrite !total_cons, H by (now left).
  rewrite IHl; [reflexivity|]. intros. apply H. now right.
Qed.
Lemma total_map : forall A B f (g : A -> B) l, total f (map g l) = total (fun a => f (g a)) l.
Proof. induction l; [reflexivity|]. cbn [map]. now rewrite !total_cons, IHl. Qed.
Lemma total_plus : forall A f g (l : list A), total (fun a => f a + g a) l = total f l + total g l.
Proof. induction l; rewrite ?total_nil, ?total_cons, ?IHl; ring. Qed.
Lemma total_scal : forall A c f (l : list A), total (fun a => c * f a) l = c * total f l.
Proof. induction l; rewrite ?total_nil, ?total_cons, ?IHl; ring. Qed.
Lemma total_zero : forall A (l : list A), total (fun _ => 0) l = 0.
Proof. induction l; rewrite ?total_nil, ?total_cons, ?IHl; ring. Qed.
Lemma total_exchange : forall A B (f : A -> B -> R) l m,
  total (fun a => total (fun b => f a b) m) l = total (fun b => total (fun a => f a b) l) m.
Proof.
  induction l; intros; [symmetry; apply total_zero|].
  rewrite total_cons, IHl, <- total_plus. reflexivity.
Qed.

Definition inside (s b r : nat) : bool := (s <=? r)%nat && (r <? s + b)%nat.
Lemma total_window : forall F b s n, (s + b <= n)%nat ->
  total F (seq s b) = total (fun r => if inside s b r then F r else 0) (seq 0 n).
Proof.
  intros F b s n H. replace n with (s + (b + (n - s - b)))%nat by lia.
  rewrite !seq_app, !total_app. cbn [plus].
  rewrite (total_ext _ _ (fun _ => 0) (seq 0 s)), total_zero.
  2:{ intros a Ha. apply in_seq in Ha. unfold inside. destruct (Nat.leb_spec s a); [lia|reflexivity]. }
  rewrite (total_ext _ (fun r => if inside s b r then F r else 0) F (seq s b)).
  2:{ intros a Ha. apply in_seq in Ha. unfold inside. destruct (Nat.leb_spec s a); [|lia]. destruct (Nat.ltb_spec a (s + b)); [reflexivity|lia]. }
  rewrite (total_ext _ _ (fun _ => 0) (seq (s + b) _)), total_zero; [ring|].
  intros a Ha. apply in_seq in Ha. unfold inside. destruct (Nat.ltb_spec a (s + b)); [lia|]. now rewrite andb_false_r.
Qed.
Lemma count_starts : forall b r M,
  total (fun s => if inside s b r then 1 else 0) (seq 0 M) = INR (Nat.min M (r + 1) - Nat.min M (r + 1 - b)).
Proof.
  intros b r. induction M as [|M IH]; [reflexivity|].
  rewrite seq_S, total_app, IH, total_cons, total_nil. cbn [plus]. unfold inside.
  destruct (Nat.leb_spec M r), (Nat.ltb_spec r (M + b)); cbn [andb];
    rewrite ?Rplus_0_r, <- ?S_INR; f_equal; lia.
Qed.
Lemma seq_window : forall A (l : list A) d s b, (s + b <= length l)%nat -> window s b l = map (fun r => nth r l d) (seq s b).
Proof.
  intros A l d s b H. apply nth_error_ext. intros i.
  destruct (Nat.lt_ge_cases i b) as [Hi|Hi].
  - rewrite nth_error_window by lia. rewrite nth_error_map.
    rewrite (nth_error_nth' (seq s b) 0%nat) by (rewrite seq_length; lia). cbn [option_map]. rewrite seq_nth by lia.
    apply nth_error_nth'. lia.
  - assert (W : (length (window s b l) <= i)%nat) by (rewrite window_length by lia; lia).
    apply nth_error_None in W. rewrite W. symmetry. apply nth_error_None. rewrite map_length, seq_length. lia.
Qed.
Lemma window_weights : forall A (f : A -> R) (D : list A) b, (b <= length D)%nat ->
  total (fun s => total f (window s b D)) (seq 0 (length D - b + 1)) =
  total (fun '(r, a) => INR (coverage (length D) b r) * f a) (combine (seq 0 (length D)) D).
Proof.
  intros A f D b Hb. destruct D as [|d D0] eqn:ED.
  { cbn in *. replace b with 0%nat by lia. cbn. ring. }
  rewrite <- ED in *. set (n := length D) in *.
  rewrite (total_ext _ _ (fun s => total (fun r => if inside s b r then f (nth r D d) else 0) (seq 0 n))).
  2:{ intros s Hs. apply in_seq in Hs. rewrite (seq_window _ D d) by (fold n; lia). rewrite total_map.
      apply total_window. lia. }
  rewrite total_exchange.
  replace (combine (seq 0 n) D) with (map (fun r => (r, nth r D d)) (seq 0 n)).
  2:{ apply nth_error_ext. intros i. destruct (Nat.lt_ge_cases i n) as [Hi|Hi].
      - rewrite nth_error_map, (nth_error_nth' (seq 0 n) 0%nat) by (rewrite seq_length; lia). cbn [option_map].
        rewrite (nth_error_nth' _ (0%nat, d)) by (rewrite combine_length, seq_length; fold n; lia).
        rewrite combine_nth by (now rewrite seq_length). now rewrite seq_nth by lia.
      - transitivity (@None (nat * A)); [|symmetry]; apply nth_error_None; [rewrite map_length, seq_length|rewrite combine_length, seq_length; fold n]; lia. }
  rewrite total_map. apply total_ext. intros r Hr. apply in_seq in Hr.
  rewrite (total_ext _ _ (fun s => f (nth r D d) * (if inside s b r then 1 else 0))).
  2:{ intros s _. destruct (inside s b r); ring. }
  rewrite total_scal, count_starts. rewrite Rmult_comm. f_equal. f_equal. unfold coverage. lia.
Qed.

(** *** C78 *)

(** The batches are the windows at the successive answers of a generator seeded once. *)
Lemma run_draws : forall X L rg G k st b (D : list (X * L)) g rs gs' g', (b <= length D)%nat ->
  gb_run rg G k (GRunning rg st b (length D)) g (arrays_of D) = (rs, gs', g') ->
  exists bs, rs = map Ok bs /\
    map (datapoints (arrays_of D)) bs = map (fun s => window s b D) (draws rg k st (length D - b + 1)).
Proof.
  induction k as [|k IH]; intros st b D g rs gs' g' Hb H; cbn [gb_run] in H.
  { apply pair_equal_spec in H as [H _]. apply pair_equal_spec in H as [<- _]. exists []. split; reflexivity. }
  cbn [gb_next] in H. unfold gb_iter in H. cbn [draws].
  destruct (rng_randint rg st (length D - b + 1)) as [s st'].
  destruct (gb_run rg G k (GRunning rg st' b (length D)) g (arrays_of D)) as [[rs1 gs1] g1] eqn:E.
  apply pair_equal_spec in H as [H _]. apply pair_equal_spec in H as [<- _].
  destruct (IH st' b D g rs1 gs1 g1 Hb E) as (bs & -> & Hm).
  eexists (_ :: bs). split; [reflexivity|]. cbn [map]. rewrite Hm. f_equal.
  unfold datapoints, batch_x, batch_y, arrays_of. cbn [bx_off bx_len by_off by_len hx hy hywidth].
  rewrite !Nat.mul_1_r, <- window_combine. f_equal.
  clear. induction D as [|[x y] D IHD]; cbn; [reflexivity|now rewrite IHD].
Qed.

Theorem C78_batches_follow_draws :
  forall X L rg G k a bsize g (D : list (X * L)) rs gs' g',
  valid_args a (arrays_of D) -> valid_batch_size (ga_batch_size a) bsize ->
  gb_run rg G k (GNew a) g (arrays_of D) = (rs, gs', g') ->
  let b := Nat.min bsize (length D) in
  exists z bs, (forall z', int_value (ga_seed a) z' -> z = z') /\ rs = map Ok bs /\
    map (datapoints (arrays_of D)) bs =
    map (fun s => window s b D) (draws rg k (rng_seed rg z) (length D - b + 1)).
Proof.
  intros X L rg G k a bsize g D rs gs' g' Hv Hb H b.
  destruct (gb_start_valid rg G a g (arrays_of D) bsize Hv Hb) as (z & g1 & E & Hz & _).
  replace (length (hx (arrays_of D))) with (length D) in E by (cbn; now rewrite map_length). fold b in E.
  assert (W : exists bs, rs = map Ok bs /\ map (datapoints (arrays_of D)) bs =
    map (fun s => window s b D) (draws rg k (rng_seed rg z) (length D - b + 1))).
  { destruct k as [|k].
    - cbn [gb_run] in H. apply pair_equal_spec in H as [H _]. apply pair_equal_spec in H as [<- _].
      exists []. split; reflexivity.
    - assert (Eq : gb_run rg G (S k) (GNew a) g (arrays_of D) =
                   gb_run rg G (S k) (GRunning rg (rng_seed rg z) b (length D)) g1 (arrays_of D)).
      { cbn [gb_run gb_next]. rewrite E. reflexivity. }
      rewrite Eq in H. apply (run_draws _ _ _ _ _ _ _ _ _ _ _ _ (Nat.le_min_r bsize (length D)) H). }
  destruct W as (bs & W1 & W2). exists z, bs. split; [|split; assumption].
  intros z' Hz'. apply (proj1 (Hz z' Hz')).
Qed.

Lemma total_perm : forall A (f : A -> R) l m, Permutation l m -> total f l = total f m.
Proof. induction 1; rewrite ?total_cons; try congruence; ring. Qed.
Lemma total_repeat : forall A (f : A -> R) l c, total f (concat (repeat l c)) = INR c * total f l.
Proof.
  induction c as [|c IH]; [cbn [repeat concat INR]; rewrite total_nil; ring|].
  cbn [repeat concat]. rewrite total_app, IH, S_INR. ring.
Qed.

(** If every start position was drawn [c] times, datapoint number [r] was used
    [c * coverage N b r] times. *)
Theorem C78_weights :
  forall X L rg G k a bsize g (D : list (X * L)) rs gs' g',
  valid_args a (arrays_of D) -> valid_batch_size (ga_batch_size a) bsize ->
  gb_run rg G k (GNew a) g (arrays_of D) = (rs, gs', g') ->
  let n := length D in
  let b := Nat.min bsize n in
  exists z bs, (forall z', int_value (ga_seed a) z' -> z = z') /\ rs = map Ok bs /\
    forall c, Permutation (draws rg k (rng_seed rg z) (n - b + 1)) (concat (repeat (seq 0 (n - b + 1)) c)) ->
    forall f : X * L -> R,
      total (fun bt => total f (datapoints (arrays_of D) bt)) bs =
      INR c * total (fun '(r, a) => INR (coverage n b r) * f a) (combine (seq 0 n) D).
Proof.
  intros X L rg G k a bsize g D rs gs' g' Hv Hb H n b.
  destruct (C78_batches_follow_draws X L rg G k a bsize g D rs gs' g' Hv Hb H) as (z & bs & Hz & Hr & Hm).
  exists z, bs. split; [exact Hz|]. split; [exact Hr|]. intros c Hp f.
  rewrite <- (total_map _ _ (total f)). fold n in Hm. fold b in Hm. rewrite Hm, total_map.
  rewrite (total_perm _ _ _ _ Hp), total_repeat. f_equal. apply window_weights. apply Nat.le_min_r.
Qed.

(** [coverage] counts the windows that contain a place. *)
Theorem C78_coverage_counts :
  forall n b r, (b <= n)%nat -> (r < n)%nat ->
  coverage n b r = length (filter (fun s => (s <=? r)%nat && (r <? s + b)%nat) (seq 0 (n - b + 1))).
Proof.
  intros n b r Hb Hr. apply INR_eq.
  replace (INR (coverage n b r)) with (INR (Nat.min (n - b + 1) (r + 1) - Nat.min (n - b + 1) (r + 1 - b)))
    by (f_equal; unfold coverage; lia).
  rewrite <- count_starts. generalize (seq 0 (n - b + 1)). induction l as [|s l IH]; [reflexivity|].
  rewrite total_cons, IH. cbn [filter]. unfold inside.
  destruct ((s <=? r)%nat && (r <? s + b)%nat); [cbn [length]; rewrite S_INR|]; ring.
Qed.

(** The first and the last datapoint have weight 1; those at least a batch away from both ends
    weight [b]. *)
Theorem C78_edges_and_centre :
  forall n b, (1 <= b <= n)%nat ->
  coverage n b 0 = 1%nat /\ coverage n b (n - 1) = 1%nat /\
  forall r, (b <= r + 1)%nat -> (r + b <= n)%nat -> coverage n b r = b.
Proof. intros n b H. unfold coverage. repeat split; intros; lia. Qed.

(** Averaged over the start positions, batch means are dataset means for batches of one datapoint
    and for full batches only. *)
Theorem C78_unbiased_iff :
  forall n b, (1 <= b <= n)%nat ->
  (forall (D : list (nat * nat)) f, length D = n ->
     total (fun s => total f (window s b D) / INR b) (seq 0 (n - b + 1)) / INR (n - b + 1) = total f D / INR n) <->
  b = 1%nat \/ b = n.
Proof.
  intros n b Hb.
  assert (Pb : 0 < INR b) by (apply lt_0_INR; lia).
  assert (Pn : 0 < INR n) by (apply lt_0_INR; lia).
  assert (Pm : 0 < INR (n - b + 1)) by (apply lt_0_INR; lia).
  assert (Div : forall (D : list (nat * nat)) f,
    total (fun s => total f (window s b D) / INR b) (seq 0 (n - b + 1)) =
    / INR b * total (fun s => total f (window s b D)) (seq 0 (n - b + 1))).
  { intros. rewrite <- total_scal. apply total_ext. intros. unfold Rdiv. ring. }
  split.
  - intros H. destruct (Nat.eq_dec b 1) as [|N1]; [now left|]. destruct (Nat.eq_dec b n) as [|N2]; [now right|]. exfalso.
    set (D := map (fun i => (i, i)) (seq 0 n)).
    assert (LD : length D = n) by (unfold D; now rewrite map_length, seq_length).
    set (f := fun p : nat * nat => if (fst p =? 0)%nat then 1 else 0).
    specialize (H D f LD). rewrite Div in H.
    pose proof (window_weights _ f D b) as W. rewrite LD in W. rewrite W in H by lia. clear W.
    assert (Z : forall (F : nat -> R) k, total (fun i => F i * (if (i =? 0)%nat then 1 else 0)) (seq 1 k) = 0).
    { intros F k. rewrite (total_ext _ _ (fun _ => 0)); [apply total_zero|].
      intros i Hi. apply in_seq in Hi. destruct (Nat.eqb_spec i 0); [lia|ring]. }
    assert (CD : combine (seq 0 n) D = map (fun i => (i, (i, i))) (seq 0 n)).
    { unfold D. clear. generalize (seq 0 n). induction l; cbn; [reflexivity|now rewrite IHl]. }
    rewrite CD, total_map in H. unfold D in H. rewrite total_map in H.
    replace (seq 0 n) with (0%nat :: seq 1 (n - 1)) in H by (replace n with (S (n - 1)) at 2 by lia; reflexivity).
    rewrite !total_cons in H. unfold f in H. cbn [fst Nat.eqb] in H.
    rewrite (Z (fun i => INR (coverage n b i))) in H.
    rewrite (total_ext _ (fun a : nat => if (a =? 0)%nat then 1 else 0) (fun a => 1 * (if (a =? 0)%nat then 1 else 0)) (seq 1 (n-1))) in H by (intros; ring).
    rewrite (Z (fun _ => 1)) in H.
    rewrite (proj1 (C78_edges_and_centre n b Hb)) in H. change (INR 1) with 1 in H.
    assert (E : INR n = INR b * INR (n - b + 1)).
    { apply (Rmult_eq_reg_l (/ INR n * / INR b * / INR (n - b + 1))).
      - transitivity (/ INR b * (1 * 1 + 0) / INR (n - b + 1)); [field; lra|]. rewrite H. field. lra.
      - repeat apply Rmult_integral_contrapositive_currified; apply Rinv_neq_0_compat; lra. }
    rewrite <- mult_INR in E. apply INR_eq in E. nia.
  - intros Hc D f LD. rewrite Div. pose proof (window_weights _ f D b) as W. rewrite LD in W. rewrite W by lia. clear W.
    assert (Const : forall c, (forall r, (r < n)%nat -> coverage n b r = c) ->
      total (fun '(r, a) => INR (coverage n b r) * f a) (combine (seq 0 n) D) = INR c * total f D).
    { intros c Hcov. rewrite <- (total_scal _ (INR c)).
      assert (K : forall l s, (s + length l <= n)%nat ->
        total (fun '(r, a) => INR (coverage n b r) * f a) (combine (seq s (length l)) l) = total (fun a => INR c * f a) l).
      { induction l as [|a l IHl]; intros s Hs; [reflexivity|]. cbn [length seq combine] in *.
        rewrite !total_cons, IHl by lia. rewrite Hcov by lia. reflexivity. }
      specialize (K D 0%nat). rewrite LD in K. apply K. lia. }
    rewrite (Const 1%nat) by (intros r Hr; unfold coverage; destruct Hc; lia).
    assert (E : INR b * INR (n - b + 1) = INR n).
    { rewrite <- mult_INR. f_equal. destruct Hc as [->| ->]; [lia|]. replace (n - n)%nat with 0%nat by lia. lia. }
    rewrite <- E. change (INR 1) with 1. field. lra.
Qed.

(** Five datapoints, batches of three: weights 1, 2, 3, 2, 1; and a generator that draws every
    start once. *)
Definition cycle_rng : rng_ops.
Proof.
  refine {| rng_state := nat; rng_seed := fun _ => 0%nat;
            rng_randint := fun s n => ((s mod n)%nat, S s); rng_interval := fun s _ => (0%nat, s) |}.
  - intros. cbn [fst]. apply Nat.mod_upper_bound. lia.
  - intros. cbn [fst]. lia.
Defined.
Example C78_example :
  map (coverage 5 3) (seq 0 5) = [1; 2; 3; 2; 1]%nat /\
  let D := [(1, 10); (2, 20); (3, 30); (4, 40); (5, 50)]%nat in
  let a := {| ga_batch_size := PInt 3; ga_seed := PInt 7 |} in
  valid_args a (arrays_of D) /\ valid_batch_size (ga_batch_size a) 3 /\
  Permutation (draws cycle_rng 6 (rng_seed cycle_rng 7) 3) (concat (repeat (seq 0 3) 2)) /\
  map (fun r => match r with Ok b => datapoints (arrays_of D) b | Raise _ => [] end)
    (fst (fst (gb_run cycle_rng counter_global 3 (GNew a) 0%Z (arrays_of D)))) =
    [[(1, 10); (2, 20); (3, 30)]; [(2, 20); (3, 30); (4, 40)]; [(3, 30); (4, 40); (5, 50)]]%nat.
Proof.
  assert (I3 : valid_batch_size (PInt 3) 3) by (exists 3%Z; repeat split; try lia; now left).
  split; [reflexivity|]. cbn zeta. split; [|split; [exact I3|split; [|reflexivity]]].
  - split; [now exists 3%nat|]. split; [right; exists 7%Z; split; [now left|lia]|reflexivity].
  - cbv. apply Permutation_refl.
Qed.
