(** C85: start positions and shuffles come from equally seeded generators. *)
From Coq Require Import List Arith Lia ZArith Bool Permutation.
From Verif.Base Require Import Py Lists Vec.
From Verif.Model Require Import DataBatches.
From Verif.Spec Require Import Batches Coverage Shuffle.
From Verif.Proofs Require Import Batches Shuffle.
From Verif.Props Require Import PShuffle.
Import ListNotations.

Lemma pow2_pos : forall p, 0 < 2 ^ p.
Proof. intros p. apply Nat.neq_0_lt_0, Nat.pow_nonzero. lia. Qed.
Lemma pow2_two : forall p, 1 <= p -> 2 <= 2 ^ p.
Proof. intros p H. destruct p; [lia|]. cbn. pose proof (pow2_pos p). lia. Qed.
Lemma mod_mod_pow2 : forall w p q, q <= p -> (w mod 2 ^ p) mod 2 ^ q = w mod 2 ^ q.
Proof.
  intros w p q H. replace (2 ^ p) with (2 ^ q * 2 ^ (p - q)) by (rewrite <- Nat.pow_add_r; f_equal; lia).
  rewrite Nat.mod_mul_r by (apply Nat.pow_nonzero; lia).
  rewrite Nat.mul_comm, Nat.mod_add by (apply Nat.pow_nonzero; lia).
  apply Nat.mod_mod, Nat.pow_nonzero. lia.
Qed.

(** Asked in the same state, the start position determines the first answer of the shuffle. *)
Lemma coupled : forall R p q st, masked R -> 1 <= q <= p -> p <= 32 ->
  exists js, fst (interval_answers R (2 ^ q - 1) st) = (fst (rng_randint R st (2 ^ p)) mod 2 ^ q) :: js.
Proof.
  intros R p q st (word & nxt & H) Hq Hp.
  destruct (H st p ltac:(lia)) as [Hr _]. destruct (H st q ltac:(lia)) as [_ Hi].
  rewrite Hr. cbn [fst]. rewrite mod_mod_pow2 by lia.
  pose proof (pow2_two q ltac:(lia)). destruct (2 ^ q - 1) as [|i] eqn:E; [lia|].
  cbn [interval_answers]. rewrite Hi. destruct (interval_answers R i (nxt st)) as [js st2]. exists js. reflexivity.
Qed.

(** Independent draws never happen. *)
Theorem C85_never_equidistributed : forall R p q k sts, masked R -> 1 <= q <= p -> p <= 32 ->
  ~ equidistributed R (S k) (2 ^ q) (2 ^ q + 2 ^ p - 1) sts.
Proof.
  intros R p q k sts Hm Hq Hp (c & Hc & HP).
  pose proof (pow2_two q ltac:(lia)) as H2. pose proof (pow2_pos p) as Hpp.
  set (b := 2 ^ q) in *.
  assert (EM : b + 2 ^ p - 1 - b + 1 = 2 ^ p) by lia.
  set (bad := (repeat 0 (S k), (1 :: repeat 0 (b - 2)) :: repeat (repeat 0 (b - 1)) k)).
  assert (SQ : forall A (a : A) l n, In a l -> In (repeat a n) (sequences n l)).
  { intros A a l n Ha. induction n as [|n IH]; [now left|]. cbn [sequences repeat]. apply in_flat_map. exists a. split; [exact Ha|]. now apply in_map. }
  assert (Z0 : forall n t, nth t (repeat 0 n) 0 = 0).
  { induction n as [|n IH]; intros [|t]; cbn; auto. }
  assert (HO : In (1 :: repeat 0 (b - 2)) (orders (b - 1)) /\ In (repeat 0 (b - 1)) (orders (b - 1))).
  { split; apply in_orders; (split; [cbn [length]; rewrite repeat_length; lia|]); intros t Ht; [|rewrite Z0; lia].
    destruct t as [|t]; cbn [nth]; [lia|]. rewrite Z0. lia. }
  assert (HB : In bad (all_answers (S k) b (b + 2 ^ p - 1))).
  { unfold bad, all_answers. rewrite EM. apply in_prod; [apply (SQ nat 0 _ (S k)); apply in_seq; lia|].
    cbn [sequences]. apply in_flat_map. exists (1 :: repeat 0 (b - 2)). split; [apply HO|]. apply in_map, SQ, HO. }
  assert (HI : In bad (map (answers_of R (S k) b (b + 2 ^ p - 1)) sts)).
  { apply (Permutation_in _ (Permutation_sym HP)). destruct c as [|c]; [lia|]. cbn [repeat concat]. apply in_or_app. now left. }
  apply in_map_iff in HI as (st & E & _). unfold answers_of in E. rewrite EM in E.
  destruct (coupled R p q st Hm Hq Hp) as (js & Hj). fold b in Hj.
  assert (E1 := f_equal fst E). assert (E2 := f_equal snd E). unfold bad in E1, E2. cbn [fst snd draws shuffle_answers repeat] in E1, E2.
  destruct (rng_randint R st (2 ^ p)) as [s st1]. destruct (interval_answers R (b - 1) st) as [c1 st2]. cbn [fst] in Hj.
  injection E1 as -> _. injection E2 as E2 _. rewrite E2 in Hj. injection Hj as K _. rewrite Nat.mod_0_l in K by lia. discriminate K.
Qed.

(** The first batch, for every seed: the datapoint in its last place is determined by where the
    batch starts - it comes from an even place of the data set. *)
Theorem C85_first_batch : forall X L R G (D : list (X * L)) a p q g, masked R -> 1 <= q <= p -> p <= 32 ->
  valid_args a (arrays_of D) -> valid_batch_size (ga_batch_size a) (2 ^ q) -> length D = 2 ^ q + 2 ^ p - 1 ->
  let '(res, _, _, h) := sb_next R G (SNew a) g (arrays_of D) in
  exists bt, res = Ok bt /\ bx_off bt < 2 ^ p /\
    nth_error (datapoints h bt) (2 ^ q - 1) = nth_error D (bx_off bt + bx_off bt mod 2 ^ q) /\
    Nat.even (bx_off bt + bx_off bt mod 2 ^ q) = true.
Proof.
  intros X L R G D a p q g Hm Hq Hp Hv Hb Hl.
  destruct (sb_next_new X L R G D a (2 ^ q) g Hv Hb) as (z & g' & _ & ->).
  pose proof (pow2_two q ltac:(lia)) as H2. pose proof (pow2_pos p) as Hpp.
  replace (Nat.min (2 ^ q) (length D)) with (2 ^ q) by lia.
  rewrite sb_next_running. cbv zeta. replace (length D - 2 ^ q + 1) with (2 ^ p) by lia.
  destruct (coupled R p q (rng_seed R z) Hm Hq Hp) as (js & Hj). pose proof (interval_answers_in R (2 ^ q - 1) (rng_seed R z)) as Hin.
  pose proof (rng_randint_lt R (rng_seed R z) (2 ^ p) Hpp) as Hs.
  rewrite Hj in *. set (s := fst (rng_randint R (rng_seed R z) (2 ^ p))) in *.
  eexists. split; [reflexivity|]. cbn [bx_off]. split; [exact Hs|]. split.
  - rewrite datapoints_arrays.
    assert (Hr : s mod 2 ^ q < 2 ^ q) by (apply Nat.mod_upper_bound; lia).
    rewrite nth_error_window by lia.
    destruct (2 ^ q - 1) as [|i] eqn:Ei; [lia|].
    cbn [orders] in Hin. apply in_flat_map in Hin as (j & _ & Hin). apply in_map_iff in Hin as (c & Ec & Hin). injection Ec as -> ->.
    cbn [shuffle_by]. rewrite shuffle_by_outside; [|exact Hin|left; rewrite swap_length; lia|lia].
    rewrite nth_error_swap by lia. now rewrite Nat.eqb_refl.
  - set (b := 2 ^ q) in *. assert (Eb : Nat.even b = true).
    { unfold b. destruct q; [lia|]. rewrite Nat.pow_succ_r by lia. rewrite Nat.even_mul. reflexivity. }
    rewrite (Nat.div_mod s b) at 1 by lia. rewrite !Nat.even_add, Nat.even_mul, Eb. cbn [orb].
    destruct (Nat.even (s mod b)); reflexivity.
Qed.

(** Batches of two datapoints: the generators stay in step for ever, so that only datapoints 2i and
    2i+1 change places. *)
Theorem C85_lockstep : forall X L R G (D : list (X * L)) a p k g, masked R -> 1 <= p <= 32 ->
  valid_args a (arrays_of D) -> valid_batch_size (ga_batch_size a) 2 -> length D = 2 ^ p + 1 ->
  let '(_, _, _, h) := sb_run R G k (SNew a) g (arrays_of D) in
  exists D', h = arrays_of D' /\ length D' = length D /\
    (forall i, 2 * i + 1 < 2 ^ p ->
       (nth_error D' (2 * i), nth_error D' (2 * i + 1)) = (nth_error D (2 * i), nth_error D (2 * i + 1)) \/
       (nth_error D' (2 * i), nth_error D' (2 * i + 1)) = (nth_error D (2 * i + 1), nth_error D (2 * i))) /\
    nth_error D' (2 ^ p) = nth_error D (2 ^ p).
Proof.
  intros X L R G D a p k g Hm Hp Hv Hb Hl.
  pose proof (pow2_two p ltac:(lia)) as H2.
  assert (Ev : Nat.even (2 ^ p) = true).
  { destruct p; [lia|]. rewrite Nat.pow_succ_r by lia. rewrite Nat.even_mul. reflexivity. }
  assert (Run : forall k r g0 (D1 : list (X * L)), length D1 = length D ->
    let '(_, _, _, h) := sb_run R G k (SRunning R r r (GRunning R r 2 (length D1))) g0 (arrays_of D1) in
    exists D', h = arrays_of D' /\ length D' = length D /\
    (forall i, 2 * i + 1 < 2 ^ p ->
       (nth_error D' (2 * i), nth_error D' (2 * i + 1)) = (nth_error D1 (2 * i), nth_error D1 (2 * i + 1)) \/
       (nth_error D' (2 * i), nth_error D' (2 * i + 1)) = (nth_error D1 (2 * i + 1), nth_error D1 (2 * i))) /\
    nth_error D' (2 ^ p) = nth_error D1 (2 ^ p)).
  { destruct Hm as (word & nxt & H). clear k g.
    induction k as [|k IH]; intros r g D1 E1.
    - cbn [sb_run]. exists D1. repeat split; auto.
    - cbn [sb_run]. rewrite sb_next_running. cbv zeta. rewrite E1, Hl. replace (2 ^ p + 1 - 2 + 1) with (2 ^ p) by lia.
      destruct (H r p Hp) as [Hr _]. destruct (H r 1 ltac:(lia)) as [_ Hi]. change (2 ^ 1 - 1) with 1 in Hi. change (2 ^ 1) with 2 in Hi.
      cbn [interval_answers Nat.sub]. rewrite Hr, Hi. cbn [fst snd].
      set (s := word r mod 2 ^ p). set (j := word r mod 2).
      assert (Hs : s < 2 ^ p) by (apply Nat.mod_upper_bound; lia).
      assert (Ej : s mod 2 = j) by (apply (mod_mod_pow2 (word r) p 1); lia).
      cbn [shuffle_by]. set (D2 := swap (s + 1) (s + j) D1).
      assert (E2 : length D2 = length D) by (unfold D2; rewrite swap_length; exact E1).
      specialize (IH (nxt r) g D2 E2). rewrite E2, Hl in IH.
      destruct (sb_run R G k (SRunning R (nxt r) (nxt r) (GRunning R (nxt r) 2 (2 ^ p + 1))) g (arrays_of D2)) as [[[rs gs1] g1] h1].
      destruct IH as (D' & -> & L' & HD & HE). exists D'. split; [reflexivity|]. split; [exact L'|].
      assert (J : j = 0 \/ j = 1) by (unfold j; pose proof (Nat.mod_upper_bound (word r) 2); lia).
      assert (NE : forall t, nth_error D2 t = if t =? s + 1 then nth_error D1 (s + j) else if t =? s + j then nth_error D1 (s + 1) else nth_error D1 t).
      { intros t. unfold D2. apply nth_error_swap; lia. }
      pose proof (Nat.div_mod s 2 ltac:(lia)) as Ds. rewrite Ej in Ds. set (h := s / 2) in *.
      apply Nat.even_spec in Ev as [e Ev].
      split.
      + intros i Hi2. specialize (HD i Hi2). rewrite !NE in HD.
        destruct J as [J|J]; rewrite J in *.
        * rewrite Nat.add_0_r in HD. destruct (Nat.eqb_spec (2 * i) (s + 1)); [lia|].
          destruct (Nat.eqb_spec (2 * i) s) as [Es|Es].
          -- destruct (Nat.eqb_spec (2 * i + 1) (s + 1)); [|lia]. replace (s + 1) with (2 * i + 1) in HD by lia. rewrite <- Es in HD. destruct HD; [now right|now left].
          -- destruct (Nat.eqb_spec (2 * i + 1) (s + 1)); [lia|]. destruct (Nat.eqb_spec (2 * i + 1) s); [lia|]. exact HD.
        * destruct (Nat.eqb_spec (2 * i) (s + 1)) as [Es|Es], (Nat.eqb_spec (2 * i + 1) (s + 1)) as [Es'|Es'];
            rewrite <- ?Es, <- ?Es' in HD; try lia; exact HD.
      + rewrite HE, NE. destruct J as [J|J]; rewrite J in *.
        * destruct (Nat.eqb_spec (2 ^ p) (s + 1)); [lia|]. destruct (Nat.eqb_spec (2 ^ p) (s + 0)); [lia|]. reflexivity.
        * destruct (Nat.eqb_spec (2 ^ p) (s + 1)) as [Es|Es]; [now rewrite Es|]. reflexivity. }
  destruct k as [|k].
  - cbn [sb_run]. exists D. repeat split; auto.
  - destruct (C84_started X L R G D a 2 g k Hv Hb) as (z & g' & _ & ->).
    replace (Nat.min 2 (length D)) with 2 by lia. apply Run. reflexivity.
Qed.

(** The generator of the examples is of this kind. *)
Lemma lcg_masked : masked lcg.
Proof.
  exists (fun s => Z.to_nat (lcg_next s / 65536)), lcg_next. intros s p Hp.
  assert (E : forall n, 0 < n -> lcg_mod s n = Z.to_nat (lcg_next s / 65536) mod n).
  { intros n Hn. unfold lcg_mod. assert (0 <= lcg_next s / 65536)%Z.
    { apply Z.div_pos; [|lia]. apply Z.mod_pos_bound. lia. }
    apply Nat2Z.inj. rewrite Nat2Z.inj_mod, !Z2Nat.id; [reflexivity|exact H|]. apply Z.mod_pos_bound. lia. }
  pose proof (pow2_pos p). cbn [rng_randint rng_interval lcg]. replace (S (2 ^ p - 1)) with (2 ^ p) by lia.
  now rewrite E by assumption.
Qed.
(** Expected contract: shuffling eventually brings every datapoint to every place.  Refuted: for
    2^p + 1 datapoints in batches of two the last datapoint stays where it is, whatever the seed. *)
Definition every_place_reachable (R : rng_ops) : Prop :=
  forall G g (D : list (nat * nat)) i b, NoDup D -> 2 <= b <= length D -> i < length D ->
  exists z k, let '(_, _, _, h) := sb_run R G k (SNew {| ga_batch_size := PInt (Z.of_nat b); ga_seed := PInt z |}) g (arrays_of D) in
    (0 <= z <= 4294967295)%Z /\ nth_error (combine (hx h) (hy h)) i = nth_error D 0.
Theorem C85_every_place_reachable_refuted : forall R, masked R -> ~ every_place_reachable R.
Proof.
  intros R Hm C. set (D := [(0, 0); (1, 1); (2, 2)]).
  assert (Hn : NoDup D) by (repeat constructor; cbn; intuition congruence).
  specialize (C counter_global 0%Z D 2 2 Hn). cbn [length D] in C. destruct (C ltac:(lia) ltac:(lia)) as (z & k & H). clear C.
  set (a := {| ga_batch_size := PInt (Z.of_nat 2); ga_seed := PInt z |}) in H.
  assert (Hz : (0 <= z <= 4294967295)%Z).
  { destruct (sb_run R counter_global k (SNew a) 0%Z (arrays_of D)) as [[[? ?] ?] ?]. apply H. }
  assert (Hbs : valid_batch_size (ga_batch_size a) 2).
  { exists 2%Z. split; [now left|]. split; [lia|reflexivity]. }
  assert (Hv : valid_args a (arrays_of D)).
  { split; [now exists 2|]. split; [right; exists z; split; [now left|exact Hz]|reflexivity]. }
  pose proof (C85_lockstep nat nat R counter_global D a 1 k 0%Z Hm ltac:(lia) Hv Hbs eq_refl) as Q.
  destruct (sb_run R counter_global k (SNew a) 0%Z (arrays_of D)) as [[[? ?] ?] h].
  destruct H as [_ H]. destruct Q as (D' & -> & _ & _ & Q). change (2 ^ 1) with 2 in Q.
  cbn [arrays_of hx hy] in H. replace (combine (map fst D') (map snd D')) with D' in H.
  - rewrite Q in H. discriminate H.
  - clear. induction D' as [|[x y] l IH]; [reflexivity|]. cbn. now rewrite <- IH.
Qed.
(** Twenty batches of two out of five datapoints. *)
Example C85_example : masked lcg /\
  (let '(_, _, _, h) := sb_run lcg counter_global 20 (SNew {| ga_batch_size := PInt 2; ga_seed := PInt 7 |}) 0%Z
       (arrays_of [(0, 0); (1, 1); (2, 2); (3, 3); (4, 4)]) in hx h = [1; 0; 3; 2; 4]).
Proof. split; [apply lcg_masked|]. vm_compute. reflexivity. Qed.
