(** C83: every order of a batch arises from exactly one sequence of answers of the generator.
    C84: with shuffling, batches represent all datapoints equally in the long run. *)
From Coq Require Import List Arith Lia ZArith Reals Lra Bool Permutation.
From Verif.Base Require Import Py Lists Vec.
From Verif.Model Require Import DataBatches.
From Verif.Spec Require Import Batches Coverage Shuffle.
From Verif.Proofs Require Import Batches Shuffle Mixing.
From Verif.Props Require Import PCoverage.
Import ListNotations.

(** *** C83 *)

Lemma nth_error_splice : forall A (pre w w' post : list A) k, length w = length w' ->
  k < length pre \/ length pre + length w <= k -> nth_error (pre ++ w' ++ post) k = nth_error (pre ++ w ++ post) k.
Proof.
  intros A pre w w' post k Hl [Hk|Hk].
  - now rewrite !nth_error_app1 by lia.
  - rewrite !(nth_error_app2 pre) by lia. rewrite !nth_error_app2 by lia. now rewrite Hl.
Qed.

(** A step that takes the datapoints [w] leaves them in the order [w'] exactly if the generator
    gives the answers [c]; different orders belong to different answers and all answers occur. *)
Theorem C83_every_order_once : forall X L (pre w post w' : list (X * L)),
  NoDup (pre ++ w ++ post) -> w <> [] -> Permutation w w' ->
  exists c, In c (orders (length w - 1)) /\
    forall R G r st g, fst (rng_randint R st (length (pre ++ w ++ post) - length w + 1)) = length pre ->
    let '(res, _, g', h') :=
      sb_next R G (SRunning R r r (GRunning R st (length w) (length (pre ++ w ++ post)))) g (arrays_of (pre ++ w ++ post)) in
    res = Ok {| bx_off := length pre; bx_len := length w; by_off := length pre; by_len := length w |} /\ g' = g /\
    (h' = arrays_of (pre ++ w' ++ post) <-> fst (interval_answers R (length w - 1) r) = c).
Proof.
  intros X L pre w post w' Hn Hw Hp.
  assert (Lw : 0 < length w) by (destruct w; [contradiction|cbn; lia]).
  destruct (shuffle_by_unique (length w - 1) (length pre) (pre ++ w ++ post) (pre ++ w' ++ post) Hn) as (c & Hc & Hu).
  - apply Permutation_app_head, Permutation_app_tail, Hp.
  - left. rewrite !app_length. lia.
  - intros k Hk. apply nth_error_splice; [now apply Permutation_length|]. lia.
  - exists c. split; [exact Hc|]. intros R G r st g Hs. rewrite sb_next_running. cbv zeta. rewrite Hs.
    split; [reflexivity|]. split; [reflexivity|].
    rewrite <- (Hu _ (interval_answers_in R (length w - 1) r)). split.
    + intros E. assert (Ex := f_equal hx E). assert (Ey := f_equal hy E). cbn [arrays_of hx hy] in Ex, Ey.
      revert Ex Ey. generalize (shuffle_by (length pre) (length w - 1) (fst (interval_answers R (length w - 1) r)) (pre ++ w ++ post)) (pre ++ w' ++ post).
      induction l as [|[x y] l IH]; intros [|[x' y'] m] Ex Ey; try discriminate Ex; [reflexivity|].
      cbn [map fst snd] in Ex, Ey. injection Ex as -> Ex. injection Ey as -> Ey. f_equal. now apply IH.
    + intros ->. reflexivity.
Qed.
(** The possible answers: as many as orders, without repetition, and every generator gives one. *)
Theorem C83_answers : forall i,
  length (orders i) = fact (S i) /\ NoDup (orders i) /\
  (forall c, In c (orders i) <-> length c = i /\ forall t, t < i -> nth t c 0 <= i - t) /\
  forall R r, In (fst (interval_answers R i r)) (orders i).
Proof.
  intros i. split; [apply orders_length|]. split; [apply orders_nodup|]. split; [apply in_orders|].
  intros R r. apply interval_answers_in.
Qed.
(** All six orders of three datapoints, each from one answer. *)
Example C83_example :
  map (fun c => map fst (let '(_, _, _, h) := sb_next scripted counter_global
       (SRunning scripted ([1], c) ([1], c) (GRunning scripted ([1], c) 3 4)) 0%Z (arrays_of [(0, 0); (1, 1); (2, 2); (3, 3)])
     in combine (hx h) (hy h))) (orders 2) =
  [[0; 2; 3; 1]; [0; 3; 2; 1]; [0; 3; 1; 2]; [0; 1; 3; 2]; [0; 2; 1; 3]; [0; 1; 2; 3]].
Proof. vm_compute. reflexivity. Qed.

(** *** C84 *)
Local Open Scope R_scope.

(** The sum of [f] over the last of [k + 1] batches, as the caller sees it when it is yielded. *)
Definition last_batch_total {X L} (rg : rng_ops) (G : global_ops) (g : glob_state G) (k b : nat) (D : list (X * L))
    (f : X * L -> R) (st : rng_state rg) : R :=
  let '(rs, _, _, h) := sb_run rg G (S k) (SRunning rg st st (GRunning rg st b (length D))) g (arrays_of D) in
  match nth_error rs k with Some (Ok bt) => total f (datapoints h bt) | _ => 0 end.

(** The last window of a run on given answers. *)
Fixpoint last_window {A} (b : nat) (ss : list nat) (cs : list (list nat)) (D : list A) : list A :=
  match ss, cs with
  | s :: ss', c :: cs' =>
      match ss' with
      | [] => window s b (shuffle_by s (b - 1) c D)
      | _ => last_window b ss' cs' (shuffle_by s (b - 1) c D)
      end
  | _, _ => []
  end.
Lemma datapoints_arrays : forall X L (D : list (X * L)) s b,
  datapoints (arrays_of D) {| bx_off := s; bx_len := b; by_off := s; by_len := b |} = window s b D.
Proof.
  intros X L D s b. unfold datapoints, batch_x, batch_y, arrays_of. cbn [bx_off bx_len by_off by_len hx hy].
  rewrite <- window_combine. f_equal. clear. induction D as [|[x y] D IH]; cbn; [reflexivity|now rewrite IH].
Qed.
Lemma run_last : forall X L R G k b (D : list (X * L)) r st g,
  let '(rs, _, _, h) := sb_run R G (S k) (SRunning R r r (GRunning R st b (length D))) g (arrays_of D) in
  exists bt, nth_error rs k = Some (Ok bt) /\
    datapoints h bt = last_window b (draws R (S k) st (length D - b + 1)) (shuffle_answers R (S k) (b - 1) r) D.
Proof.
  intros X L R G. induction k as [|k IH]; intros b D r st g.
  - cbn [sb_run]. rewrite sb_next_running. cbv zeta. cbn [draws shuffle_answers].
    destruct (rng_randint R st (length D - b + 1)) as [s st']. destruct (interval_answers R (b - 1) r) as [c r'].
    cbn [fst snd nth_error last_window]. eexists. split; [reflexivity|]. apply datapoints_arrays.
  - remember (S k) as k1. cbn [sb_run]. rewrite sb_next_running. cbv zeta. cbn [draws shuffle_answers].
    destruct (rng_randint R st (length D - b + 1)) as [s st']. destruct (interval_answers R (b - 1) r) as [c r'].
    cbn [fst snd].
    specialize (IH b (shuffle_by s (b - 1) c D) r' st' g).
    assert (EL : length (shuffle_by s (b - 1) c D) = length D) by (apply Permutation_length, shuffle_by_perm).
    rewrite EL in IH.
    destruct (sb_run R G k1 (SRunning R r' r' (GRunning R st' b (length D))) g (arrays_of (shuffle_by s (b - 1) c D))) as [[[rs gs1] g1] h1].
    destruct IH as (bt & H1 & H2). exists bt. rewrite Heqk1 at 1. split; [exact H1|].
    rewrite H2, Heqk1. cbn [last_window]. destruct (draws R (S k) st' (length D - b + 1)) as [|s' ss] eqn:Ed; [|reflexivity].
    cbn [draws] in Ed. destruct (rng_randint R st' (length D - b + 1)). discriminate Ed.
Qed.
Lemma last_batch_window : forall X L R G g k b (D : list (X * L)) f st,
  last_batch_total R G g k b D f st =
  (let '(ss, cs) := answers_of R (S k) b (length D) st in total f (last_window b ss cs D)).
Proof.
  intros X L R G g k b D f st. unfold last_batch_total, answers_of.
  pose proof (run_last X L R G k b D st st g) as H.
  destruct (sb_run R G (S k) (SRunning R st st (GRunning R st b (length D))) g (arrays_of D)) as [[[rs gs1] g1] h1].
  destruct H as (bt & -> & ->). reflexivity.
Qed.

Lemma sequences_length : forall A k (l : list A), length (sequences k l) = (length l ^ k)%nat.
Proof.
  induction k as [|k IH]; intros l; [reflexivity|]. cbn [sequences Nat.pow]. rewrite <- IH.
  generalize (sequences k l). intros m. induction l as [|a l IHl]; [reflexivity|].
  cbn [flat_map length]. rewrite app_length, map_length, IHl. lia.
Qed.
Lemma total_sequences : forall A k (l : list A) F,
  total F (sequences (S k) l) = total (fun a => total (fun m => F (a :: m)) (sequences k l)) l.
Proof. intros. cbn [sequences]. rewrite total_flat. apply total_ext. intros a _. apply total_map. Qed.
Lemma total_prod : forall A B (l : list A) (m : list B) F, total F (list_prod l m) = total (fun a => total (fun c => F (a, c)) m) l.
Proof.
  induction l as [|a l IH]; intros m F; [reflexivity|]. cbn [list_prod]. rewrite total_app, total_map, total_cons, IH. reflexivity.
Qed.


Lemma shuffle_by_map : forall A B (f : A -> B) i c off l, shuffle_by off i c (map f l) = map f (shuffle_by off i c l).
Proof. induction i as [|i IH]; intros [|j c] off l; cbn [shuffle_by]; try reflexivity. now rewrite <- swap_map, IH. Qed.
Lemma last_window_map : forall A (f : A -> R) b ss cs D,
  total f (last_window b ss cs D) = total (fun x => x) (last_window b ss cs (map f D)).
Proof.
  induction ss as [|s ss IH]; intros [|c cs] D; cbn [last_window]; try reflexivity.
  rewrite shuffle_by_map. destruct ss as [|s' ss']; [|apply IH]. rewrite <- map_window, total_map. reflexivity.
Qed.

(** Weight of a place in the first batch. *)
Definition first_weight (b n q : nat) : R := INR (coverage n b q) / INR (n - b + 1).
Lemma window_sum : forall s b (l : list R), (s + b <= length l)%nat ->
  total (fun x => x) (window s b l) = dot (fun r => if inside s b r then 1 else 0) l.
Proof.
  intros s b l H. rewrite (seq_window _ l 0) by exact H. rewrite total_map, (total_window _ b s (length l) H).
  apply total_ext. intros r _. destruct (inside s b r); ring.
Qed.
Lemma first_batch : forall b (l : list R), (1 <= b <= length l)%nat ->
  total (fun s => total (fun c => total (fun x => x) (window s b (shuffle_by s (b - 1) c l))) (orders (b - 1))) (seq 0 (length l - b + 1)) =
  INR (length l - b + 1) * INR (fact b) * dot (first_weight b (length l)) l.
Proof.
  intros b l Hb. set (n := length l) in *. set (M := (n - b + 1)%nat).
  assert (PM : 0 < INR M) by (apply lt_0_INR; unfold M; lia). assert (Pb : 0 < INR b) by (apply lt_0_INR; lia).
  rewrite (total_ext _ _ (fun s => INR (fact b) * total (fun r => nth r l 0 * (if inside s b r then 1 else 0)) (seq 0 n))).
  2:{ intros s Hs. apply in_seq in Hs. assert (Hsb : (s + b <= n)%nat) by (unfold M in Hs; lia).
      pose proof (average_shuffle (b - 1) s (fun r => if inside s b r then 1 else 0) l) as Q.
      replace (S (b - 1)) with b in Q by lia. fold n in Q. specialize (Q ltac:(lia)).
      rewrite (total_ext _ _ (fun c => dot (fun r => if inside s b r then 1 else 0) (shuffle_by s (b - 1) c l))).
      2:{ intros c _. apply window_sum. rewrite (Permutation_length (shuffle_by_perm _ _ _ l)). exact Hsb. }
      rewrite Q. f_equal. unfold dot. fold n. unfold dots.
      rewrite (total_ext _ (fun r => (if inside s b r then 1 else 0) * nth r l 0) (fun r => nth r l 0) (seq s b)).
      2:{ intros r Hr. apply in_seq in Hr. unfold inside. destruct (Nat.leb_spec s r); [|lia]. destruct (Nat.ltb_spec r (s + b)); [|lia]. cbn [andb]. ring. }
      rewrite (total_ext _ (fun r => if inside s b r then 1 else 0) (fun _ => 1) (seq s b)).
      2:{ intros r Hr. apply in_seq in Hr. unfold inside. destruct (Nat.leb_spec s r); [|lia]. destruct (Nat.ltb_spec r (s + b)); [|lia]. reflexivity. }
      rewrite total_const, seq_length.
      rewrite (total_ext _ (fun r => 1 * nth r l 0) (fun r => nth r l 0)) by (intros; ring).
      rewrite (total_ext _ (fun r => (if inside s b r then 1 else 0) * nth r l 0) (fun r => nth r l 0 * (if inside s b r then 1 else 0))) by (intros; ring).
      field. lra. }
  rewrite total_scal. rewrite (Rmult_comm (INR M)), Rmult_assoc. f_equal.
  rewrite total_exchange. unfold dot, dots. fold n. rewrite <- total_scal. apply total_ext. intros r Hr. apply in_seq in Hr.
  rewrite total_scal, count_starts. unfold first_weight. fold M.
  replace (coverage n b r) with (Nat.min M (r + 1) - Nat.min M (r + 1 - b))%nat by (unfold coverage, M; lia).
  field. lra.
Qed.
Lemma all_batches : forall b k (l : list R), (1 <= b <= length l)%nat ->
  total (fun '(ss, cs) => total (fun x => x) (last_window b ss cs l)) (all_answers (S k) b (length l)) =
  (INR (length l - b + 1) * INR (fact b)) ^ S k * dot (iter_kernel b (length l) k (first_weight b (length l))) l.
Proof.
  intros b. induction k as [|k IH]; intros l Hb.
  - unfold all_answers. rewrite total_prod, total_sequences. cbn [sequences].
    rewrite (total_ext _ _ (fun s => total (fun c => total (fun x => x) (window s b (shuffle_by s (b - 1) c l))) (orders (b - 1)))).
    + rewrite first_batch by exact Hb. cbn [pow iter_kernel]. ring.
    + intros s _. rewrite total_cons, total_nil, Rplus_0_r. cbn [sequences]. rewrite total_flat. apply total_ext. intros c _.
      cbn [map]. rewrite total_cons, total_nil, Rplus_0_r. reflexivity.
  - unfold all_answers. remember (S k) as k1. rewrite total_prod, total_sequences.
    rewrite (total_ext _ _ (fun s => total (fun c => (INR (length l - b + 1) * INR (fact b)) ^ k1 *
        dot (iter_kernel b (length l) k (first_weight b (length l))) (shuffle_by s (b - 1) c l)) (orders (b - 1)))).
    + rewrite (total_ext _ _ (fun s => (INR (length l - b + 1) * INR (fact b)) ^ k1 *
          total (fun c => dot (iter_kernel b (length l) k (first_weight b (length l))) (shuffle_by s (b - 1) c l)) (orders (b - 1)))).
      2:{ intros s _. apply total_scal. }
      rewrite total_scal, average_step by exact Hb. rewrite Heqk1. cbn [iter_kernel pow]. ring.
    + intros s _.
      rewrite (total_ext _ _ (fun m => total (fun c => total (fun m' =>
         total (fun x => x) (last_window b m m' (shuffle_by s (b - 1) c l))) (sequences k1 (orders (b - 1)))) (orders (b - 1)))).
      2:{ intros m Hm. rewrite total_sequences. apply total_ext. intros c _. apply total_ext. intros m' _.
          destruct m as [|s' m]; [|reflexivity]. exfalso. rewrite Heqk1 in Hm. cbn [sequences] in Hm.
          apply in_flat_map in Hm as (a & _ & Hm). apply in_map_iff in Hm as (x & E & _). discriminate E. }
      rewrite total_exchange. apply total_ext. intros c _.
      assert (EL : length (shuffle_by s (b - 1) c l) = length l) by (apply Permutation_length, shuffle_by_perm).
      specialize (IH (shuffle_by s (b - 1) c l)). rewrite EL in IH. rewrite <- IH by exact Hb.
      unfold all_answers. rewrite total_prod. reflexivity.
Qed.
Lemma all_answers_length : forall k b n, (1 <= b <= n)%nat ->
  INR (length (all_answers k b n)) = (INR (n - b + 1) * INR (fact b)) ^ k.
Proof.
  intros k b n Hb. unfold all_answers. rewrite prod_length, !sequences_length, seq_length, orders_length.
  replace (S (b - 1)) with b by lia. rewrite mult_INR, !pow_INR, Rpow_mult_distr. reflexivity.
Qed.

(** Under independent uniform draws the mean total of the [k]-th batch, starting with 0, is a
    weighted sum over the datapoints, the weights mixing under the position kernel. *)
Lemma average_last_batch : forall X L R G g k b (D : list (X * L)) f sts,
  (1 <= b <= length D)%nat -> equidistributed R (S k) b (length D) sts ->
  average (last_batch_total R G g k b D f) sts =
  dot (iter_kernel b (length D) k (first_weight b (length D))) (map f D).
Proof.
  intros X L rg G g k b D f sts Hb (c & Hc & Hp). unfold average.
  set (F := fun p : list nat * list (list nat) => let '(ss, cs) := p in total (fun x => x) (last_window b ss cs (map f D))).
  assert (E1 : total (last_batch_total rg G g k b D f) sts = total F (map (answers_of rg (S k) b (length D)) sts)).
  { rewrite total_map. apply total_ext. intros st _. rewrite last_batch_window.
    destruct (answers_of rg (S k) b (length D) st) as [ss cs]. cbn. apply last_window_map. }
  rewrite E1, (total_perm _ _ _ _ Hp), total_repeat.
  assert (E2 : length sts = (c * length (all_answers (S k) b (length D)))%nat).
  { rewrite <- (map_length (answers_of rg (S k) b (length D))), (Permutation_length Hp). generalize (all_answers (S k) b (length D)).
    clear. induction c as [|c IH]; intros l; [reflexivity|]. cbn [repeat concat]. rewrite app_length, IH. lia. }
  rewrite E2, mult_INR, all_answers_length by exact Hb.
  pose proof (all_batches b k (map f D)) as Q. rewrite map_length in Q. unfold F. rewrite Q by exact Hb.
  assert (Pc : 0 < INR c) by (apply lt_0_INR; lia).
  assert (PN : 0 < (INR (length D - b + 1) * INR (fact b)) ^ S k).
  { apply pow_lt, Rmult_lt_0_compat; apply lt_0_INR; [lia|apply lt_O_fact]. }
  field. split; lra.
Qed.
Lemma first_weight_sum : forall b n, (1 <= b <= n)%nat -> total (first_weight b n) (seq 0 n) = INR b.
Proof.
  intros b n Hb. assert (PM : 0 < INR (n - b + 1)) by (apply lt_0_INR; lia).
  pose proof (window_weights nat (fun _ => 1) (seq 0 n) b) as Q. rewrite seq_length in Q. specialize (Q ltac:(lia)).
  rewrite (total_ext _ (fun s => total (fun _ => 1) (window s b (seq 0 n))) (fun _ => INR b)) in Q.
  2:{ intros s Hs. apply in_seq in Hs. rewrite total_const, window_length by (rewrite seq_length; lia). ring. }
  rewrite total_const, seq_length in Q.
  assert (C : combine (seq 0 n) (seq 0 n) = map (fun r => (r, r)) (seq 0 n)).
  { generalize (seq 0 n). clear. induction l; [reflexivity|]. cbn. now rewrite IHl. }
  rewrite C, total_map in Q. unfold first_weight.
  rewrite (total_ext _ _ (fun r => / INR (n - b + 1) * (INR (coverage n b r) * 1))) by (intros; unfold Rdiv; ring).
  rewrite total_scal, <- Q. field. lra.
Qed.
Lemma first_weight_within : forall b n, (1 <= b <= n)%nat -> within n 0 1 (first_weight b n).
Proof.
  intros b n Hb q Hq. assert (PM : 0 < INR (n - b + 1)) by (apply lt_0_INR; lia). unfold first_weight.
  assert (H : INR (coverage n b q) <= INR (n - b + 1)) by (apply le_INR; unfold coverage; lia).
  pose proof (pos_INR (coverage n b q)). split.
  - apply Rmult_le_pos; [assumption|]. left. now apply Rinv_0_lt_compat.
  - apply (Rmult_le_reg_l (INR (n - b + 1))); [exact PM|]. field_simplify; [|lra]. lra.
Qed.
Lemma dot_const : forall c (l : list R), dot (fun _ => c) l = c * total (fun x => x) l.
Proof. intros c l. unfold dot, dots. rewrite total_scal, total_nth. reflexivity. Qed.

(** A mean over the [k]-th batches approaches [b / N] times the sum over all datapoints
    geometrically in [k], for every function of the datapoints. *)
Theorem C84_shuffling_mixes : forall X L R G g k b (D : list (X * L)) f sts,
  (2 <= b <= length D)%nat -> equidistributed R (S k) b (length D) sts ->
  Rabs (average (last_batch_total R G g k b D f) sts - INR b / INR (length D) * total f D)
    <= mixing_rate b (length D) ^ (k / (length D - 1)) * total (fun d => Rabs (f d)) D.
Proof.
  intros X L rg G g k b D f sts Hb He. rewrite average_last_batch by (auto; lia).
  set (n := length D) in *. set (w := iter_kernel b n k (first_weight b n)).
  assert (PN : 0 < INR n) by (apply lt_0_INR; lia).
  rewrite <- (total_map _ _ (fun x => x) f), <- dot_const. unfold dot, dots. rewrite map_length. fold n.
  rewrite <- total_minus. eapply Rle_trans; [apply total_abs|].
  replace (total (fun d => Rabs (f d)) D) with (total (fun r => Rabs (nth r (map f D) 0)) (seq 0 n)).
  2:{ rewrite <- (total_map _ _ Rabs f). unfold n. rewrite <- (map_length f D). generalize (map f D). clear.
      induction l as [|a l IH]; [reflexivity|]. cbn [length seq]. rewrite !total_cons, <- seq_shift, total_map, <- IH. reflexivity. }
  rewrite <- total_scal. apply total_mono. intros r Hr. apply in_seq in Hr.
  rewrite <- Rmult_minus_distr_r, Rabs_mult. apply Rmult_le_compat_r; [apply Rabs_pos|].
  pose proof (mixing b n ltac:(lia) k 0 1 (first_weight b n) r (first_weight_within b n ltac:(lia)) ltac:(lia) ltac:(lia)) as Q.
  rewrite first_weight_sum in Q by lia. fold w in Q. rewrite Rminus_0_r, Rmult_1_r in Q. exact Q.
Qed.
(** The rate is below one. *)
Theorem C84_rate : forall b n, (1 <= b <= n)%nat -> 0 <= mixing_rate b n < 1.
Proof. intros b n Hb. apply rho_range. exact Hb. Qed.

(** In the long run shuffled batches are representative, for all batch sizes (compare
    [C78_unbiased_iff]). *)
Theorem C84_long_run : forall b n M, (1 <= b <= n)%nat ->
  forall eps, 0 < eps -> exists k0, forall k, (k0 <= k)%nat ->
  forall X L R G g (D : list (X * L)) f sts, length D = n -> total (fun d => Rabs (f d)) D <= M ->
  equidistributed R (S k) b n sts ->
  Rabs (average (last_batch_total R G g k b D f) sts / INR b - total f D / INR n) < eps.
Proof.
  intros b n M Hb eps He.
  assert (Pb : 0 < INR b) by (apply lt_0_INR; lia). assert (PN : 0 < INR n) by (apply lt_0_INR; lia).
  destruct (Nat.eq_dec b 1) as [->|Hb1].
  - exists 0%nat. intros k _ X L rg G g D f sts Hn _ Hq.
    assert (E : average (last_batch_total rg G g k 1 D f) sts = / INR n * total f D).
    { subst n. rewrite average_last_batch by (auto; lia). rewrite <- (total_map _ _ (fun x => x) f), <- dot_const.
      unfold dot, dots. rewrite map_length. apply total_ext. intros r Hr. apply in_seq in Hr. f_equal.
      clear Hq. revert r Hr. induction k as [|k IH]; intros r Hr.
      - cbn [iter_kernel]. unfold first_weight. replace (coverage (length D) 1 r) with 1%nat by (unfold coverage; lia).
        replace (length D - 1 + 1)%nat with (length D) by lia. cbn [INR]. unfold Rdiv. ring.
      - cbn [iter_kernel]. rewrite (kernel_single 1 (length D) Hb eq_refl) by lia. apply IH. exact Hr. }
    rewrite E. replace (/ INR n * total f D / INR 1 - total f D / INR n) with 0 by (cbn [INR]; field; lra).
    rewrite Rabs_R0. exact He.
  - destruct (C84_rate b n Hb) as [R1 R2].
    assert (PM : 0 < Rabs M + 1) by (pose proof (Rabs_pos M); lra).
    assert (Pe : 0 < eps * INR b / (Rabs M + 1)).
    { apply Rmult_lt_0_compat; [now apply Rmult_lt_0_compat|now apply Rinv_0_lt_compat]. }
    destruct (pow_lt_1_zero (mixing_rate b n) ltac:(rewrite Rabs_pos_eq; lra) _ Pe) as [m0 Hm].
    exists (m0 * (n - 1))%nat. intros k Hk X L rg G g D f sts Hn HM Hq. subst n.
    pose proof (C84_shuffling_mixes X L rg G g k b D f sts ltac:(lia) Hq) as Q.
    assert (Hd : (m0 <= k / (length D - 1))%nat).
    { apply Nat.div_le_lower_bound; lia. }
    specialize (Hm _ Hd). rewrite Rabs_pos_eq in Hm by (apply pow_le; exact R1).
    set (p := mixing_rate b (length D) ^ (k / (length D - 1))) in *.
    assert (Pp : 0 <= p) by (apply pow_le; exact R1).
    set (T := total (fun d => Rabs (f d)) D) in *.
    assert (HT : p * T <= p * (Rabs M + 1)). { apply Rmult_le_compat_l; [exact Pp|]. pose proof (Rle_abs M). lra. }
    assert (HL : p * (Rabs M + 1) < eps * INR b).
    { apply (Rmult_lt_compat_r (Rabs M + 1)) in Hm; [|exact PM]. replace (eps * INR b / (Rabs M + 1) * (Rabs M + 1)) with (eps * INR b) in Hm by (field; lra). exact Hm. }
    set (A := average (last_batch_total rg G g k b D f) sts) in *.
    replace (A / INR b - total f D / INR (length D)) with ((A - INR b / INR (length D) * total f D) * / INR b) by (field; split; lra).
    rewrite Rabs_mult, (Rabs_pos_eq (/ INR b)) by (left; now apply Rinv_0_lt_compat).
    apply (Rmult_lt_reg_r (INR b)); [exact Pb|]. rewrite Rmult_assoc, Rinv_l, Rmult_1_r by lra. lra.
Qed.
(** The generator of the theorems is what [generate_shuffled_batches] creates: valid arguments lead,
    after seeding, to a running generator all of whose three random streams start in the same state. *)
Theorem C84_started : forall X L R G (D : list (X * L)) a bs g k,
  valid_args a (arrays_of D) -> valid_batch_size (ga_batch_size a) bs ->
  exists z g', (forall z', int_value (ga_seed a) z' -> z = z' /\ g' = g) /\
    sb_run R G (S k) (SNew a) g (arrays_of D) =
    sb_run R G (S k) (SRunning R (rng_seed R z) (rng_seed R z) (GRunning R (rng_seed R z) (Nat.min bs (length D)) (length D))) g' (arrays_of D).
Proof.
  intros X L rg G D a bs g k Hv Hb. destruct (sb_next_new X L rg G D a bs g Hv Hb) as (z & g' & Hz & E).
  exists z, g'. split; [exact Hz|]. cbn [sb_run]. now rewrite E.
Qed.

(** Equidistributed states exist, for every number of batches. *)
Lemma in_sequences : forall A k (l m : list A), In m (sequences k l) -> length m = k /\ forall a, In a m -> In a l.
Proof.
  induction k as [|k IH]; intros l m H; cbn [sequences] in H.
  - destruct H as [<-|[]]. split; [reflexivity|intros a []].
  - apply in_flat_map in H as (a & Ha & H). apply in_map_iff in H as (m' & <- & H). destruct (IH l m' H) as [H1 H2].
    split; [cbn; now rewrite H1|]. intros x [<-|Hx]; auto.
Qed.
Lemma scripted_draws : forall M ss js, (forall s, In s ss -> (s < M)%nat) -> draws scripted (length ss) (ss, js) M = ss.
Proof.
  intros M. induction ss as [|s ss IH]; intros js H; [reflexivity|].
  assert (Hs : (s < M)%nat) by (apply H; now left).
  cbn [length draws]. cbn [rng_randint scripted fst snd pop tl]. rewrite Nat.mod_small by exact Hs.
  f_equal. apply IH. intros s' Hs'. apply H. now right.
Qed.
Lemma scripted_order : forall i c ss js, In c (orders i) -> interval_answers scripted i (ss, c ++ js) = (c, (ss, js)).
Proof.
  induction i as [|i IH]; intros c ss js H; cbn [orders] in H.
  - destruct H as [<-|[]]. reflexivity.
  - apply in_flat_map in H as (j & Hj & H). apply in_map_iff in H as (c' & <- & H). apply in_seq in Hj.
    cbn [interval_answers app]. cbn [rng_interval scripted fst snd pop tl]. rewrite Nat.mod_small by lia.
    now rewrite (IH c' ss js H).
Qed.
Lemma scripted_orders : forall i cs ss, (forall c, In c cs -> In c (orders i)) ->
  shuffle_answers scripted (length cs) i (ss, concat cs) = cs.
Proof.
  intros i. induction cs as [|c cs IH]; intros ss H; [reflexivity|]. cbn [length shuffle_answers concat].
  rewrite scripted_order by (apply H; now left). f_equal. apply IH. intros c' Hc'. apply H. now right.
Qed.
Theorem C84_equidistributed_states : forall k b n,
  equidistributed scripted k b n (map (fun '(ss, cs) => (ss, concat cs)) (all_answers k b n)).
Proof.
  intros k b n. exists 1%nat. split; [lia|]. cbn [repeat concat]. rewrite app_nil_r, map_map.
  match goal with |- Permutation (map ?F ?l) _ => assert (E : map F l = map (fun x => x) l) end.
  { apply map_ext_in. intros [ss cs] H. apply in_prod_iff in H as [H1 H2].
    apply in_sequences in H1 as [L1 H1]. apply in_sequences in H2 as [L2 H2]. unfold answers_of. f_equal.
    - rewrite <- L1 at 1. apply scripted_draws. intros s Hs. apply H1, in_seq in Hs. lia.
    - rewrite <- L2 at 1. apply scripted_orders. exact H2. }
  rewrite E, map_id. reflexivity.
Qed.
(** Three datapoints in batches of two, independent draws: the first datapoint is in half of the
    first batches, in 5/8 of the second and in 21/32 of the third ones; the limit is 2/3. *)
Example C84_example :
  let share k := average (last_batch_total scripted counter_global 0%Z k 2 [(0, 0); (1, 1); (2, 2)]%nat (fun d => if (fst d =? 0)%nat then 1 else 0))
    (map (fun '(ss, cs) => (ss, concat cs)) (all_answers (S k) 2 3)) in
  share 0%nat = 1 / 2 /\ share 1%nat = 5 / 8 /\ share 2%nat = 21 / 32.
Proof.
  cbv zeta. repeat (split || idtac).
  all: rewrite average_last_batch by (try apply C84_equidistributed_states; cbn; lia).
  all: cbn [length map fst Nat.eqb]; unfold dot, dots, iter_kernel, first_weight, kernel, coverage, total, inside; cbn; lra.
Qed.
