(** Lemmas for C39: pdist and squareform. *)
From Coq Require Import String List Arith Lia Reals Lra Bool Permutation.
From Verif.Base Require Import Py Num Lists.
From Verif.Model Require Import TensorUtils.
From Verif.Spec Require Import Tensor.
From Verif.Proofs Require Import Tensor.
Import ListNotations.
Local Open Scope list_scope.

(** *** Pairs *)
Lemma filter_ltb_seq : forall i s n,
  filter (fun j => i <? j) (seq s n) = seq (max s (S i)) (s + n - max s (S i)).
Proof.
  intros i s n. revert s. induction n as [|n IH]; intros s; cbn [seq filter].
  - replace (s + 0 - max s (S i)) with 0 by lia. reflexivity.
  - destruct (i <? s) eqn:E.
    + apply Nat.ltb_lt in E. rewrite IH.
      replace (max s (S i)) with s by lia. replace (max (S s) (S i)) with (S s) by lia.
      replace (s + S n - s) with (S n) by lia. replace (S s + n - S s) with n by lia. reflexivity.
    + apply Nat.ltb_ge in E. rewrite IH. f_equal; lia.
Qed.

Lemma pairs_flat : forall m,
  pairs m = flat_map (fun i => map (fun j => (i, j)) (seq (S i) (m - S i))) (seq 0 m).
Proof.
  intros m. unfold pairs.
  assert (G : forall l, filter (fun '(i, j) => i <? j) (list_prod l (seq 0 m)) =
     flat_map (fun i => map (fun j => (i, j)) (filter (fun j => i <? j) (seq 0 m))) l).
  { induction l as [|i l IH]; cbn [list_prod flat_map]; auto.
    rewrite filter_app, IH. f_equal. generalize (seq 0 m) as q. clear.
    induction q as [|y q IHq]; auto. cbn [map filter]. rewrite IHq. now destruct (i <? y). }
  rewrite G. apply flat_map_ext. intros i. rewrite filter_ltb_seq. reflexivity.
Qed.

Lemma pairs_length : forall m, 2 * length (pairs m) = m * (m - 1).
Proof.
  intros m. rewrite pairs_flat.
  assert (G : forall k s, s + k = m ->
    2 * length (flat_map (fun i => map (fun j => (i, j)) (seq (S i) (m - S i))) (seq s k)) = k * (k - 1)).
  { induction k as [|k IH]; intros s Hs; cbn [seq flat_map]; auto.
    rewrite app_length, map_length, seq_length.
    specialize (IH (S s) ltac:(lia)). replace (m - S s) with k by lia. nia. }
  apply (G m 0). lia.
Qed.

Lemma pairs_in : forall m i j, In (i, j) (pairs m) <-> i < j < m.
Proof.
  intros m i j. unfold pairs. rewrite filter_In, in_prod_iff, !in_seq, Nat.ltb_lt. lia.
Qed.

Lemma pairs_nth_lt : forall m p i j, nth_error (pairs m) p = Some (i, j) -> i < j < m.
Proof. intros. apply pairs_in. eapply nth_error_In; eauto. Qed.

(** *** pdist *)
Section Any.
Context {T : Type} `{Num T}.

Lemma flat_map_map : forall A B C (f : B -> C) (g : A -> list B) l,
  map f (flat_map g l) = flat_map (fun a => map f (g a)) l.
Proof. induction l; cbn; auto. now rewrite map_app, IHl. Qed.

Lemma pairwise_pairs : forall m d (l : list T),
  pairwise_euclidean_distance m d l =
  map (fun '(i, j) => euclidean_distance (row d l i) (row d l j)) (pairs m).
Proof.
  intros. rewrite pairs_flat, flat_map_map. apply flat_map_ext. intros i.
  rewrite map_map. reflexivity.
Qed.

Lemma row_concat : forall d (rows : list (list T)) i r,
  Forall (fun r => length r = d) rows -> nth_error rows i = Some r -> row d (concat rows) i = r.
Proof.
  intros d rows. unfold row, window. induction rows as [|r0 rows IH]; intros i r HF Hi.
  - destruct i; discriminate.
  - inversion HF as [|? ? Hr0 HF']; subst. destruct i as [|i]; cbn [nth_error concat] in *.
    + injection Hi as ->. cbn. rewrite firstn_app, Nat.sub_diag, firstn_O, app_nil_r. apply firstn_all.
    + rewrite <- (IH i r HF' Hi). f_equal. cbn [Nat.mul].
      rewrite skipn_app. replace (length r0 + i * length r0 - length r0) with (i * length r0) by lia.
      rewrite skipn_all2 by lia. reflexivity.
Qed.

(** *** squareform *)
Definition set_of (k : nat) (acc : T) (l : list (nat * T)) : T :=
  fold_left (fun acc '(i, v) => if i =? k then v else acc) l acc.

Lemma set_of_app : forall k l1 l2 acc, set_of k acc (l1 ++ l2) = set_of k (set_of k acc l1) l2.
Proof. intros. unfold set_of. apply fold_left_app. Qed.
Lemma set_of_notin : forall k l acc, ~ In k (map fst l) -> set_of k acc l = acc.
Proof.
  induction l as [|[i v] l IH]; intros acc Hn; cbn in *; auto.
  destruct (i =? k) eqn:E; [apply Nat.eqb_eq in E; tauto|]. apply IH. tauto.
Qed.
Lemma set_of_nth : forall k l p v acc, NoDup (map fst l) -> nth_error l p = Some (k, v) ->
  set_of k acc l = v.
Proof.
  induction l as [|[i w] l IH]; intros p v acc HN Hp; [destruct p; discriminate|].
  cbn in HN. inversion HN as [|? ? Hni HN']; subst. destruct p as [|p]; cbn in *.
  - injection Hp as -> ->. rewrite Nat.eqb_refl. now apply set_of_notin.
  - eapply IH; eauto.
Qed.
Lemma set_of_const : forall k l v, Forall (fun p => snd p = v) l -> set_of k v l = v.
Proof.
  induction l as [|[i w] l IH]; intros v HF; cbn; auto.
  inversion HF as [|? ? Hw HF']; subst. cbn in *. destruct (i =? k); now apply IH.
Qed.

Lemma combine_repeat : forall A (l : list A) (v : T) n,
  Forall (fun p => snd p = v) (combine l (repeat v n)).
Proof.
  induction l; intros v n; cbn; auto. destruct n; cbn; auto.
Qed.

Lemma map_fst_combine : forall A B (l : list A) (m : list B),
  length l = length m -> map fst (combine l m) = l.
Proof. induction l; destruct m; cbn; intros; try discriminate; auto. f_equal; auto. Qed.

Lemma map_fst_combine_incl : forall A B (l : list A) (m : list B) x,
  In x (map fst (combine l m)) -> In x l.
Proof.
  intros A B l m x Hx. apply in_map_iff in Hx as ([a b] & <- & Hin). now apply in_combine_l in Hin.
Qed.

Lemma nth_error_combine : forall A B (l : list A) (m : list B) p a b,
  nth_error l p = Some a -> nth_error m p = Some b -> nth_error (combine l m) p = Some (a, b).
Proof.
  induction l; intros m p x y Hl Hm; destruct p, m; cbn in *; try discriminate; try congruence; auto.
Qed.

Lemma upper_pairs : forall d,
  upper_triangular_indices d = map (fun '(i, j) => d * i + j) (pairs d).
Proof.
  intros. rewrite pairs_flat, flat_map_map. apply flat_map_ext. intros i. now rewrite map_map.
Qed.

Lemma index_inj : forall d i j i' j', j < d -> j' < d -> d * i + j = d * i' + j' -> i = i' /\ j = j'.
Proof. intros d i j i' j' Hj Hj' HE. exact (Nat.div_mod_unique d i i' j j' Hj Hj' HE). Qed.

Lemma NoDup_app_intro : forall A (l m : list A),
  NoDup l -> NoDup m -> (forall a, In a l -> ~ In a m) -> NoDup (l ++ m).
Proof.
  induction l as [|a l IH]; intros m Hl Hm Hd; cbn; auto.
  inversion Hl; subst. constructor.
  - rewrite in_app_iff. intros [|]; [tauto|]. apply (Hd a); auto. now left.
  - apply IH; auto. intros b Hb. apply Hd. now right.
Qed.

Lemma NoDup_map_in : forall A B (f : A -> B) l,
  (forall a b, In a l -> In b l -> f a = f b -> a = b) -> NoDup l -> NoDup (map f l).
Proof.
  induction l as [|a l IH]; intros Hf Hl; cbn; [constructor|]. inversion Hl; subst. constructor.
  - intros Hin. apply in_map_iff in Hin as (b & Hb & Hin).
    rewrite (Hf b a) in Hin; auto; [now right|now left].
  - apply IH; auto. intros; apply Hf; auto; now right.
Qed.

Lemma NoDup_prod : forall A B (l : list A) (m : list B), NoDup l -> NoDup m -> NoDup (list_prod l m).
Proof.
  induction l as [|a l IH]; intros m Hl Hm; cbn; [constructor|].
  inversion Hl; subst. apply NoDup_app_intro; auto.
  - apply NoDup_map_in; auto. intros; congruence.
  - intros [x y] Hin Hin'. apply in_map_iff in Hin as (z & [= <- <-] & _).
    apply in_prod_iff in Hin'. tauto.
Qed.

Lemma pairs_nodup : forall m, NoDup (pairs m).
Proof. intros. unfold pairs. apply NoDup_filter, NoDup_prod; apply seq_NoDup. Qed.

Lemma upper_nodup : forall d, NoDup (upper_triangular_indices d).
Proof.
  intros. rewrite upper_pairs. apply NoDup_map_in; [|apply pairs_nodup].
  intros [i j] [i' j'] H1 H2 HE. apply pairs_in in H1, H2.
  destruct (index_inj d i j i' j'); try lia. congruence.
Qed.

(** The stitched upper triangle. *)
Definition stitched (d : nat) (v : list T) : list T :=
  let total := d * d in
  let diagonal := range_step total (d + 1) in
  let upper := upper_triangular_indices d in
  let remaining := filter (fun k => negb (mem k diagonal || mem k upper)) (seq 0 total) in
  dynamic_stitch total
    (combine diagonal (repeat n0 d) ++ combine upper v ++
     combine remaining (repeat n0 (total - length v - d))).

Lemma nth_error_map_seq : forall A (f : nat -> A) n k, k < n ->
  nth_error (map f (seq 0 n)) k = Some (f k).
Proof.
  intros. rewrite nth_error_map.
  rewrite (nth_error_nth' _ 0) by (rewrite seq_length; lia). now rewrite seq_nth by lia.
Qed.

Lemma mem_In : forall k l, mem k l = true <-> In k l.
Proof.
  intros. unfold mem. rewrite existsb_exists. split.
  - intros (x & Hx & E). apply Nat.eqb_eq in E. now subst.
  - intros. exists k. split; auto. apply Nat.eqb_refl.
Qed.

Lemma stitched_upper : forall d v p i j, length v = length (pairs d) ->
  nth_error (pairs d) p = Some (i, j) -> nth_error (stitched d v) (d * i + j) = nth_error v p.
Proof.
  intros d v p i j Hl Hp. pose proof (pairs_nth_lt _ _ _ _ Hp) as Hij.
  unfold stitched, dynamic_stitch. rewrite nth_error_map_seq by nia.
  assert (Hv : exists x, nth_error v p = Some x).
  { destruct (nth_error v p) eqn:E; eauto. apply nth_error_None in E.
    assert (p < length (pairs d)) by (apply nth_error_Some; congruence). lia. }
  destruct Hv as [x Hx]. rewrite Hx. f_equal.
  fold (set_of (d * i + j) n0
    (combine (range_step (d * d) (d + 1)) (repeat n0 d) ++
     combine (upper_triangular_indices d) v ++
     combine (filter (fun k => negb (mem k (range_step (d * d) (d + 1)) || mem k (upper_triangular_indices d)))
                (seq 0 (d * d))) (repeat n0 (d * d - length v - d)))).
  assert (Hup : nth_error (upper_triangular_indices d) p = Some (d * i + j)).
  { rewrite upper_pairs, nth_error_map, Hp. reflexivity. }
  rewrite !set_of_app. rewrite (set_of_notin _ (combine (filter _ _) _)).
  - eapply set_of_nth.
    + rewrite map_fst_combine; [apply upper_nodup|]. rewrite upper_pairs, map_length. auto.
    + apply (nth_error_combine _ _ _ _ p); auto.
  - intros Hin. apply map_fst_combine_incl, filter_In in Hin as [_ Hin].
    apply negb_true_iff, orb_false_iff in Hin as [_ Hin].
    apply nth_error_In in Hup. apply mem_In in Hup. congruence.
Qed.

Lemma stitched_other : forall d v i j, i < d -> j < d -> j <= i ->
  nth_error (stitched d v) (d * i + j) = Some n0.
Proof.
  intros d v i j Hi Hj Hle.
  unfold stitched, dynamic_stitch. rewrite nth_error_map_seq by nia. f_equal.
  fold (set_of (d * i + j) n0
    (combine (range_step (d * d) (d + 1)) (repeat n0 d) ++
     combine (upper_triangular_indices d) v ++
     combine (filter (fun k => negb (mem k (range_step (d * d) (d + 1)) || mem k (upper_triangular_indices d)))
                (seq 0 (d * d))) (repeat n0 (d * d - length v - d)))).
  rewrite !set_of_app.
  rewrite (set_of_const _ (combine (range_step _ _) _)) by apply combine_repeat.
  rewrite (set_of_notin _ (combine (upper_triangular_indices d) v)).
  - apply set_of_const, combine_repeat.
  - intros Hin. apply map_fst_combine_incl in Hin. rewrite upper_pairs in Hin.
    apply in_map_iff in Hin as ([i' j'] & He & Hin). apply pairs_in in Hin.
    destruct (index_inj d i' j' i j); try lia.
Qed.

Lemma stitched_length : forall d v, length (stitched d v) = d * d.
Proof. intros. unfold stitched, dynamic_stitch. now rewrite map_length, seq_length. Qed.

Lemma transpose_length : forall d (l : list T), length (transpose d l) = d * d.
Proof.
  intros. unfold transpose.
  assert (G : forall s k, length (flat_map (fun i => map (fun j => nth (d * j + i) l n0) (seq 0 d)) (seq s k)) = k * d).
  { intros s k. revert s. induction k; intros; cbn [seq flat_map]; auto.
    rewrite app_length, map_length, seq_length, IHk. lia. }
  apply G.
Qed.

Lemma transpose_nth : forall d (l : list T) i j, i < d -> j < d ->
  nth_error (transpose d l) (d * i + j) = Some (nth (d * j + i) l n0).
Proof.
  intros. unfold transpose. rewrite Nat.mul_comm.
  rewrite nth_error_flat_map_uniform with (c := d); auto.
  - rewrite (nth_error_nth' _ 0) by (rewrite seq_length; lia). rewrite seq_nth by lia. cbn [Nat.add].
    now rewrite nth_error_map_seq.
  - apply Forall_forall. intros. now rewrite map_length, seq_length.
Qed.

Hypothesis add_0_r : forall x : T, nadd x n0 = x.
Hypothesis add_0_l : forall x : T, nadd n0 x = x.

Lemma sum_nth : forall d v i j x y, i < d -> j < d ->
  nth_error (stitched d v) (d * i + j) = Some x -> nth_error (stitched d v) (d * j + i) = Some y ->
  nth_error (map (fun '(a, b) => nadd a b) (combine (stitched d v) (transpose d (stitched d v)))) (d * i + j)
  = Some (nadd x y).
Proof.
  intros d v i j x y Hi Hj Hx Hy. rewrite nth_error_map.
  rewrite (nth_error_combine _ _ _ _ _ x y); auto.
  rewrite transpose_nth by auto. f_equal. now apply nth_error_nth.
Qed.

Lemma squareform_matrix : forall d v, length v = length (pairs d) ->
  symmetric_form n0 d v
    (map (fun '(a, b) => nadd a b) (combine (stitched d v) (transpose d (stitched d v)))).
Proof.
  intros d v Hl. split; [|split].
  - rewrite map_length, combine_length, stitched_length, transpose_length. lia.
  - intros i Hi. rewrite (sum_nth d v i i n0 n0); auto using stitched_other.
    now rewrite add_0_l.
  - intros p i j Hp. pose proof (pairs_nth_lt _ _ _ _ Hp) as Hij.
    pose proof (stitched_upper d v p i j Hl Hp) as Hu.
    assert (Hv : exists x, nth_error v p = Some x).
    { destruct (nth_error v p) eqn:E; eauto. apply nth_error_None in E.
      assert (p < length (pairs d)) by (apply nth_error_Some; congruence). lia. }
    destruct Hv as [x Hx]. rewrite Hx in *.
    pose proof (stitched_other d v j i ltac:(lia) ltac:(lia) ltac:(lia)) as Ho.
    split.
    + rewrite (sum_nth d v i j x n0); auto; try lia. now rewrite add_0_r.
    + rewrite (sum_nth d v j i n0 x); auto; try lia. now rewrite add_0_l.
Qed.

Lemma sqrt_up_binomial : forall d, 2 <= d -> Nat.sqrt_up (d * (d - 1)) = d.
Proof. intros. apply Nat.sqrt_up_unique; nia. Qed.

Lemma squareform_ok : forall t d, well_shaped t -> length (shape t) = 1 -> 1 <= d ->
  2 * length (data t) = d * (d - 1) ->
  exists mat, squareform (OTensor t) = Ok {| shape := [d; d]; data := mat |} /\
              symmetric_form n0 d (data t) mat.
Proof.
  intros [s v] d Hw Hs Hd Hlen. unfold well_shaped in Hw. cbn [shape data] in *.
  destruct s as [|n [|]]; try discriminate. cbn in Hw. rewrite Nat.mul_1_r in Hw. subst n.
  pose proof (pairs_length d) as HP.
  assert (Hlp : length v = length (pairs d)) by lia.
  unfold squareform. cbn [is_vector shape hd length Nat.eqb].
  destruct (length v =? 0) eqn:E0.
  - apply Nat.eqb_eq in E0. assert (d = 1) by nia. subst d.
    eexists; split; [reflexivity|]. split; [|split]; cbn; auto.
    + intros i Hi. assert (i = 0) by lia. subst. reflexivity.
    + intros p i j Hp. destruct p; discriminate.
  - apply Nat.eqb_neq in E0. assert (2 <= d) by nia.
    replace (length v * 2) with (d * (d - 1)) by lia.
    rewrite sqrt_up_binomial by auto. rewrite Nat.eqb_refl. cbn [negb].
    eexists; split; [reflexivity|]. apply (squareform_matrix d v Hlp).
Qed.

Lemma squareform_bad : forall t n, shape t = [n] ->
  (forall d, 1 <= d -> 2 * n <> d * (d - 1)) ->
  squareform (OTensor t) = Raise ValueError.
Proof.
  intros t n Hs Hb. unfold squareform, is_vector. rewrite Hs. cbn [hd length Nat.eqb].
  destruct (n =? 0) eqn:E0.
  - apply Nat.eqb_eq in E0. exfalso. apply (Hb 1); lia.
  - destruct (Nat.sqrt_up (n * 2) * (Nat.sqrt_up (n * 2) - 1) =? n * 2) eqn:E; auto.
    apply Nat.eqb_eq in E. apply Nat.eqb_neq in E0. exfalso. apply (Hb (Nat.sqrt_up (n * 2))); nia.
Qed.
End Any.

(** *** Real distances *)
Lemma euclid_R : forall a b : list R, euclidean_distance a b = dist2 a b.
Proof.
  intros. unfold euclidean_distance, dist2. cbn [nsqrt Num_R]. f_equal.
  revert b. induction a as [|x a IH]; destruct b as [|y b]; try exact n0_R.
  specialize (IH b). unfold nsum in *. cbn [combine map fold_right sqdist]. rewrite IH. cbn. ring.
Qed.

Lemma sqdist_nonneg : forall a b, (0 <= sqdist a b)%R.
Proof.
  induction a as [|x a IH]; destruct b as [|y b]; cbn [sqdist]; try lra.
  specialize (IH b). pose proof (pow2_ge_0 (x - y)). lra.
Qed.
Lemma sqdist_sym : forall a b, sqdist a b = sqdist b a.
Proof. induction a; destruct b; cbn; auto. rewrite IHa. ring. Qed.
Lemma sqdist_refl : forall a, sqdist a a = 0%R.
Proof. induction a; cbn; auto. rewrite IHa. ring. Qed.
Lemma sqdist_zero : forall a b, length a = length b -> sqdist a b = 0%R -> a = b.
Proof.
  induction a as [|x a IH]; destruct b as [|y b]; cbn; intros Hl H; try discriminate; auto.
  pose proof (sqdist_nonneg a b). pose proof (pow2_ge_0 (x - y)) as Hq. cbn in Hq. assert (x = y) by nra. subst.
  f_equal. apply IH; [lia|nra].
Qed.
Lemma dist2_nonneg : forall a b, (0 <= dist2 a b)%R.
Proof. intros. apply sqrt_pos. Qed.
Lemma dist2_sym : forall a b, dist2 a b = dist2 b a.
Proof. intros. unfold dist2. now rewrite sqdist_sym. Qed.
Lemma dist2_refl : forall a, dist2 a a = 0%R.
Proof. intros. unfold dist2. rewrite sqdist_refl. apply sqrt_0. Qed.
Lemma dist2_zero : forall a b, length a = length b -> dist2 a b = 0%R -> a = b.
Proof. intros. apply sqdist_zero; auto. apply sqrt_eq_0; auto. apply sqdist_nonneg. Qed.
Lemma dist2_sqr : forall a b, (dist2 a b ^ 2 = sqdist a b)%R.
Proof. intros. unfold dist2. rewrite <- Rsqr_pow2. apply Rsqr_sqrt, sqdist_nonneg. Qed.

Lemma triangle2 : forall x y A B : R, (0 <= A -> 0 <= B ->
  sqrt ((x + y) ^ 2 + (A + B) ^ 2) <= sqrt (x ^ 2 + A ^ 2) + sqrt (y ^ 2 + B ^ 2))%R.
Proof.
  intros x y A B HA HB.
  set (p := sqrt (x ^ 2 + A ^ 2)). set (q := sqrt (y ^ 2 + B ^ 2)).
  assert (Hp : (0 <= p)%R) by apply sqrt_pos. assert (Hq : (0 <= q)%R) by apply sqrt_pos.
  assert (Hpp : (p * p = x ^ 2 + A ^ 2)%R) by (apply sqrt_sqrt; nra).
  assert (Hqq : (q * q = y ^ 2 + B ^ 2)%R) by (apply sqrt_sqrt; nra).
  rewrite <- (sqrt_Rsqr (p + q)) by lra. apply sqrt_le_1_alt. unfold Rsqr.
  assert (Hcs : (x * y + A * B <= p * q)%R).
  { apply Rsqr_incr_0_var; [|nra]. unfold Rsqr.
    replace (p * q * (p * q))%R with ((p * p) * (q * q))%R by ring. rewrite Hpp, Hqq.
    assert (0 <= (x * B - A * y) * (x * B - A * y))%R by apply Rle_0_sqr. nra. }
  nra.
Qed.

Lemma dist2_cons : forall x y a b, dist2 (x :: a) (y :: b) = sqrt ((x - y) ^ 2 + dist2 a b ^ 2).
Proof. intros. rewrite dist2_sqr. reflexivity. Qed.

Lemma dist2_triangle : forall a b c, length a = length b -> length b = length c ->
  (dist2 a c <= dist2 a b + dist2 b c)%R.
Proof.
  induction a as [|x a IH]; intros b c H1 H2; destruct b as [|y b]; destruct c as [|z c]; try discriminate.
  - unfold dist2; cbn. rewrite sqrt_0. lra.
  - rewrite !dist2_cons. cbn in H1, H2. specialize (IH b c ltac:(lia) ltac:(lia)).
    eapply Rle_trans; [|apply triangle2; apply dist2_nonneg].
    apply sqrt_le_1_alt. replace (x - y + (y - z))%R with (x - z)%R by ring.
    pose proof (dist2_nonneg a c). apply Rplus_le_compat_l. apply pow_incr. lra.
Qed.

(** The distance matrix of m points. *)
Lemma distance_matrix : forall (rows : list (list R)) m d, matrix_shape m d rows -> 1 <= m ->
  let t := {| shape := [m; d]; data := concat rows |} in
  exists v mat,
    pdist (OTensor t) "euclidean"%string = Ok v /\ shape v = [length (pairs m)] /\
    (forall p i j a b, nth_error (pairs m) p = Some (i, j) ->
       nth_error rows i = Some a -> nth_error rows j = Some b -> nth_error (data v) p = Some (dist2 a b)) /\
    squareform (OTensor v) = Ok {| shape := [m; m]; data := mat |} /\
    length mat = m * m /\
    forall i j a b, nth_error rows i = Some a -> nth_error rows j = Some b ->
      nth_error mat (m * i + j) = Some (dist2 a b).
Proof.
  intros rows m d [Hm HF] Hm1 t.
  set (vd := pairwise_euclidean_distance m d (concat rows)).
  set (v := {| shape := [length vd]; data := vd |}).
  assert (Hlen : length vd = length (pairs m)).
  { unfold vd. rewrite pairwise_pairs. apply map_length. }
  assert (Hpd : pdist (OTensor t) "euclidean"%string = Ok v) by reflexivity.
  assert (Hp : forall p i j a b, nth_error (pairs m) p = Some (i, j) ->
       nth_error rows i = Some a -> nth_error rows j = Some b -> nth_error (data v) p = Some (dist2 a b)).
  { intros p i j a b Hp Ha Hb. cbn [data v]. unfold vd. rewrite pairwise_pairs, nth_error_map, Hp. cbn [option_map].
    rewrite (row_concat d rows i a), (row_concat d rows j b) by auto. now rewrite euclid_R. }
  destruct (squareform_ok (T := R)) with (t := v) (d := m) as (mat & Hs & Hsym & Hdiag & Hoff).
  - intros. rewrite n0_R. cbn. lra.
  - intros. rewrite n0_R. cbn. lra.
  - unfold well_shaped. cbn. lia.
  - reflexivity.
  - exact Hm1.
  - cbn [data v]. rewrite Hlen. apply pairs_length.
  - exists v, mat. split; [exact Hpd|]. split; [cbn; now rewrite Hlen|]. split; [exact Hp|].
    split; [exact Hs|]. split; [exact Hsym|].
    intros i j a b Ha Hb.
    assert (Hi : i < m) by (rewrite <- Hm; apply nth_error_Some; congruence).
    assert (Hj : j < m) by (rewrite <- Hm; apply nth_error_Some; congruence).
    destruct (lt_eq_lt_dec i j) as [[Hlt| ->]|Hgt].
    + assert (Hin : In (i, j) (pairs m)) by (apply pairs_in; lia).
      apply In_nth_error in Hin as [p Hp']. destruct (Hoff _ _ _ Hp') as [-> _]. eapply Hp; eauto.
    + rewrite Hdiag by auto. rewrite Ha in Hb. injection Hb as <-. rewrite dist2_refl, n0_R. reflexivity.
    + assert (Hin : In (j, i) (pairs m)) by (apply pairs_in; lia).
      apply In_nth_error in Hin as [p Hp']. destruct (Hoff _ _ _ Hp') as [_ ->].
      rewrite dist2_sym. eapply Hp; eauto.
Qed.
