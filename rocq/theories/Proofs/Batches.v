(** Lemmas for C01-C07. *)
From Coq Require Import List Arith Lia ZArith Bool Permutation.
From Verif.Base Require Import Py Lists.
From Verif.Model Require Import DataBatches.
From Verif.Spec Require Import Batches.
Import ListNotations.

Lemma as_int_spec : forall v z, as_int v = Some z <-> int_value v z.
Proof.
  unfold int_value. intros v z; split.
  - destruct v; simpl; try discriminate.
    + destruct b; intros [= <-]; auto.
    + intros [= <-]; auto.
  - intros [->|[[-> ->]|[-> ->]]]; reflexivity.
Qed.

Section P.
Context {X L : Type}.
Variable R : rng_ops.
Variable G : global_ops.
Implicit Types h : heap X L.

(** *** Starting the generator *)

Lemma gb_start_valid : forall a g h bs,
  valid_args a h -> valid_batch_size (ga_batch_size a) bs ->
  exists z g',
    gb_start R G a g h = (Ok (rng_seed R z, Nat.min bs (length (hx h)), length (hx h)), g') /\
    (forall z', int_value (ga_seed a) z' -> z = z' /\ g' = g) /\
    (ga_seed a = PNone -> (z, g') = glob_draw G g).
Proof.
  intros a g h bs (_ & Hs & Hl) (z & Hz & Hpos & ->).
  apply as_int_spec in Hz.
  unfold gb_start, is_int, batch_size_pos. rewrite Hz. cbn [negb].
  replace (0 <? z)%Z with true by (symmetry; apply Z.ltb_lt; lia). cbn [negb].
  rewrite Hl, Nat.eqb_refl. cbn [negb].
  destruct Hs as [Hn | (s & Hi & Hr)].
  - rewrite Hn. cbn. destruct (glob_draw G g) as [z' g'] eqn:E.
    exists z', g'. split; [reflexivity|]. split.
    + intros z'' Hi. unfold int_value in Hi. destruct Hi as [?|[[? ?]|[? ?]]]; discriminate.
    + auto.
  - pose proof Hi as Hi'. apply as_int_spec in Hi.
    unfold seed_type_ok, seed_range_ok, is_int. rewrite Hi.
    rewrite orb_true_r. cbn [negb].
    replace ((0 <=? s)%Z && (s <=? max_seed)%Z) with true
      by (symmetry; apply andb_true_iff; split; apply Z.leb_le; unfold max_seed; lia).
    cbn [negb].
    exists s, g. split; [reflexivity|]. split.
    + intros z' Hz'. apply as_int_spec in Hz'. rewrite Hi in Hz'. split; congruence.
    + intros Hn. rewrite Hn in Hi. discriminate.
Qed.

Lemma gb_start_invalid : forall a g h,
  ~ valid_args a h -> gb_start R G a g h = (Raise AssertionError, g).
Proof.
  intros a g h H. unfold gb_start.
  destruct (is_int (ga_batch_size a)) eqn:E1; [cbn [negb]|reflexivity].
  unfold batch_size_pos. unfold is_int in E1.
  destruct (as_int (ga_batch_size a)) as [z|] eqn:E2; [|discriminate].
  destruct (0 <? z)%Z eqn:E3; [cbn [negb]|reflexivity].
  destruct (seed_type_ok (ga_seed a)) eqn:E4; [cbn [negb]|reflexivity].
  destruct (seed_range_ok (ga_seed a)) eqn:E5; [cbn [negb]|reflexivity].
  destruct (hyrows h =? length (hx h)) eqn:E6; [cbn [negb]|reflexivity].
  exfalso. apply H. split; [|split].
  - exists (Z.to_nat z), z. split; [now apply as_int_spec|]. split; [|reflexivity].
    apply Z.ltb_lt in E3. lia.
  - unfold seed_range_ok in E5. destruct (as_int (ga_seed a)) as [s|] eqn:E7.
    + right. exists s. split; [now apply as_int_spec|].
      apply andb_true_iff in E5 as [A B]. apply Z.leb_le in A, B. unfold max_seed in B. lia.
    + left. destruct (ga_seed a); simpl in *; congruence.
  - now apply Nat.eqb_eq in E6.
Qed.

(** *** One loop iteration *)

Lemma gb_iter_spec : forall h st bs n b st',
  gb_iter R h st bs n = (b, st') ->
  exists s, s = fst (rng_randint R st (n - bs + 1)) /\ s <= n - bs /\
    b = {| bx_off := s; bx_len := bs; by_off := s * hywidth h; by_len := bs * hywidth h |}.
Proof.
  unfold gb_iter. intros. destruct (rng_randint R st (n - bs + 1)) as [s st1] eqn:E.
  injection H as <- <-. exists s. split; [reflexivity|]. split; [|reflexivity].
  pose proof (rng_randint_lt R st (n - bs + 1)). rewrite E in H. simpl in H. lia.
Qed.

(** Shape of the batches of a run from a running state. *)
Definition good_batch (w n bs : nat) (r : res batch) : Prop :=
  exists s, s + bs <= n /\
    r = Ok {| bx_off := s; bx_len := bs; by_off := s * w; by_len := bs * w |}.

Lemma gb_run_running : forall k h st bs n g rs gs' g',
  bs <= n ->
  gb_run R G k (GRunning R st bs n) g h = (rs, gs', g') ->
  length rs = k /\ Forall (good_batch (hywidth h) n bs) rs /\
  (exists st', gs' = GRunning R st' bs n) /\ g' = g.
Proof.
  induction k; intros h st bs n g rs gs' g' Hle H; simpl in H.
  - injection H as <- <- <-. repeat split; auto. now exists st.
  - destruct (gb_iter R h st bs n) as [b st1] eqn:E.
    destruct (gb_run R G k (GRunning R st1 bs n) g h) as [[rs1 gs1] g1] eqn:E1.
    injection H as <- <- <-.
    destruct (IHk _ _ _ _ _ _ _ _ Hle E1) as (A & B & C & D).
    repeat split; auto.
    + simpl; now rewrite A.
    + constructor; auto.
      destruct (gb_iter_spec _ _ _ _ _ _ E) as (s & _ & Hs & ->).
      exists s. split; [lia|reflexivity].
Qed.

Lemma gb_run_valid : forall k a g h bs rs gs' g',
  valid_args a h -> valid_batch_size (ga_batch_size a) bs ->
  gb_run R G k (GNew a) g h = (rs, gs', g') ->
  length rs = k /\
  Forall (good_batch (hywidth h) (length (hx h)) (Nat.min bs (length (hx h)))) rs.
Proof.
  intros k a g h bs rs gs' g' Hv Hb H.
  destruct k; simpl in H.
  - injection H as <- <- <-. split; auto.
  - destruct (gb_start_valid a g h bs Hv Hb) as (z & g1 & E & _). rewrite E in H.
    destruct (gb_iter R h (rng_seed R z) (Nat.min bs (length (hx h))) (length (hx h)))
      as [b st1] eqn:E1.
    destruct (gb_run R G k (GRunning R st1 (Nat.min bs (length (hx h))) (length (hx h))) g1 h)
      as [[rs1 gs1] g2] eqn:E2.
    injection H as <- <- <-.
    destruct (gb_run_running _ _ _ _ _ _ _ _ _ (Nat.le_min_r _ _) E2) as (A & B & C & D).
    split; [simpl; now rewrite A|]. constructor; auto.
    destruct (gb_iter_spec _ _ _ _ _ _ E1) as (s & _ & Hs & ->).
    exists s. split; [|reflexivity]. pose proof (Nat.le_min_r bs (length (hx h))). lia.
Qed.

Lemma gb_run_done : forall k g h, gb_run R G k GDone g h = (repeat (Raise StopIteration) k, GDone, g).
Proof.
  induction k; intros; simpl; auto. now rewrite IHk.
Qed.

Lemma gb_run_invalid : forall k a g h,
  ~ valid_args a h ->
  gb_run R G (S k) (GNew a) g h =
    (Raise AssertionError :: repeat (Raise StopIteration) k, GDone, g).
Proof.
  intros. simpl. rewrite gb_start_invalid by auto. now rewrite gb_run_done.
Qed.

(** *** Windows of the dataset *)

Lemma map_window : forall A B (f : A -> B) s n l, map f (window s n l) = window s n (map f l).
Proof.
  intros. unfold window. now rewrite skipn_map, firstn_map.
Qed.

Lemma good_batch_aligned : forall (D : list (X * L)) bs r h,
  h = arrays_of D ->
  good_batch (hywidth h) (length (hx h)) bs r ->
  exists b, r = Ok b /\ aligned_window D bs h b.
Proof.
  intros D bs r h -> (s & Hs & ->). simpl in *. rewrite map_length in Hs.
  eexists; split; [reflexivity|].
  exists (firstn s D), (window s bs D), (skipn bs (skipn s D)).
  split; [apply window_split|]. split; [now apply window_length|].
  unfold batch_x, batch_y; simpl. rewrite !Nat.mul_1_r.
  now rewrite !map_window.
Qed.

(** *** Reproducibility *)

(** The results of a seeded generator do not depend on the global RNG. *)
Lemma gb_next_running_g : forall st bs n g1 g2 h,
  fst (gb_next R G (GRunning R st bs n) g1 h) = fst (gb_next R G (GRunning R st bs n) g2 h).
Proof.
  intros. simpl. destruct (gb_iter R h st bs n). reflexivity.
Qed.

Definition seeded (gs : gen_state R) : Prop :=
  match gs with
  | GNew a => ga_seed a <> PNone
  | _ => True
  end.

Lemma gb_start_g : forall a h, ga_seed a <> PNone ->
  exists r, forall g, gb_start R G a g h = (r, g).
Proof.
  intros. unfold gb_start.
  repeat match goal with
  | |- context [if ?b then _ else _] => destruct b eqn:?; [eexists; intros; reflexivity|]
  end.
  destruct (as_int (ga_seed a)) as [z|] eqn:E; [eexists; intros; reflexivity|].
  exfalso. unfold seed_type_ok, is_int in *. rewrite E in *.
  destruct (ga_seed a); simpl in *; congruence.
Qed.

Lemma gb_next_seeded : forall gs h, seeded gs ->
  exists r gs', seeded gs' /\ forall g, gb_next R G gs g h = (r, gs', g).
Proof.
  intros gs h Hs. destruct gs as [a|st bs n|].
  - simpl in Hs. destruct (gb_start_g a h Hs) as (r & Hr).
    destruct r as [[[st bs] n]|e].
    + destruct (gb_iter R h st bs n) as [b st'] eqn:E.
      exists (Ok b), (GRunning R st' bs n). split; [exact I|].
      intros. simpl. now rewrite Hr, E.
    + exists (Raise e), GDone. split; [exact I|]. intros. simpl. now rewrite Hr.
  - destruct (gb_iter R h st bs n) as [b st'] eqn:E.
    exists (Ok b), (GRunning R st' bs n). split; [exact I|].
    intros. simpl. now rewrite E.
  - exists (Raise StopIteration), GDone. split; [exact I|]. reflexivity.
Qed.

(** Position-wise results of a generator run alone. *)
Definition solo (gs : gen_state R) (h : heap X L) (k : nat) (g : glob_state G) : list (res batch) :=
  fst (fst (gb_run R G k gs g h)).

Lemma solo_S : forall gs h k g r gs' g',
  gb_next R G gs g h = (r, gs', g') -> solo gs h (S k) g = r :: solo gs' h k g'.
Proof.
  intros. unfold solo. cbn [gb_run]. rewrite H.
  destruct (gb_run R G k gs' g' h) as [[rs gs2] g2]. reflexivity.
Qed.

Lemma solo_g : forall k gs h g1 g2, seeded gs -> solo gs h k g1 = solo gs h k g2.
Proof.
  induction k; intros; [reflexivity|].
  destruct (gb_next_seeded gs h H) as (r & gs' & Hs & E).
  rewrite (solo_S gs h k g1 _ _ _ (E g1)), (solo_S gs h k g2 _ _ _ (E g2)).
  f_equal. now apply IHk.
Qed.

Lemma interleave_solo : forall (acts : list (@action G)) (A B : gen_state R) g h g0 ra rb,
  seeded A -> seeded B ->
  interleave acts A B g h = (ra, rb) ->
  ra = solo A h (length ra) g0 /\ rb = solo B h (length rb) g0.
Proof.
  induction acts as [|act acts IH]; intros A B g h g0 ra rb HA HB H.
  - simpl in H. injection H as <- <-. auto.
  - destruct act as [| |f]; simpl in H.
    + destruct (gb_next_seeded A h HA) as (r & A' & HA' & EA). rewrite (EA g) in H.
      destruct (interleave acts A' B g h) as [ra1 rb1] eqn:E.
      injection H as <- <-. destruct (IH _ _ _ _ g0 _ _ HA' HB E) as [E1 E2].
      split; auto. cbn [length]. rewrite (solo_S A h _ g0 _ _ _ (EA g0)). now rewrite <- E1.
    + destruct (gb_next_seeded B h HB) as (r & B' & HB' & EB). rewrite (EB g) in H.
      destruct (interleave acts A B' g h) as [ra1 rb1] eqn:E.
      injection H as <- <-. destruct (IH _ _ _ _ g0 _ _ HA HB' E) as [E1 E2].
      split; auto. cbn [length]. rewrite (solo_S B h _ g0 _ _ _ (EB g0)). now rewrite <- E2.
    + apply (IH _ _ _ _ g0 _ _ HA HB H).
Qed.

Lemma solo_prefix : forall k m gs h g,
  firstn k (solo gs h (k + m) g) = solo gs h k g.
Proof.
  induction k; intros; [reflexivity|].
  destruct (gb_next R G gs g h) as [[r gs'] g'] eqn:E.
  cbn [Nat.add]. rewrite (solo_S _ _ _ _ _ _ _ E), (solo_S _ _ k _ _ _ _ E).
  cbn [firstn]. now rewrite IHk.
Qed.

Lemma solo_length : forall k gs h g, length (solo gs h k g) = k.
Proof.
  induction k; intros; [reflexivity|].
  destruct (gb_next R G gs g h) as [[r gs'] g'] eqn:E.
  rewrite (solo_S _ _ _ _ _ _ _ E). simpl. now rewrite IHk.
Qed.

Lemma solo_nth : forall i k1 k2 gs h g1 g2, seeded gs -> i < k1 -> i < k2 ->
  nth_error (solo gs h k1 g1) i = nth_error (solo gs h k2 g2) i.
Proof.
  intros. rewrite (solo_g k2 gs h g2 g1) by auto.
  assert (forall k, i < k -> nth_error (solo gs h k g1) i = nth_error (solo gs h (S i) g1) i).
  { intros k Hk. replace k with (S i + (k - S i)) by lia.
    rewrite <- (solo_prefix (S i) (k - S i) gs h g1).
    symmetry. apply nth_error_firstn. lia. }
  rewrite (H2 k1), (H2 k2) by auto. reflexivity.
Qed.

(** An unseeded generator behaves as the one seeded with the drawn value. *)
Lemma solo_unseeded : forall k a h g g2,
  ga_seed a = PNone ->
  exists z, (1 <= z <= 99999)%Z /\
    solo (GNew a) h k g =
    solo (GNew {| ga_batch_size := ga_batch_size a; ga_seed := PInt z |}) h k g2.
Proof.
  intros k a h g g2 Hn.
  pose proof (glob_draw_range G g) as Hr.
  destruct (glob_draw G g) as [z g'] eqn:Eg. cbn [fst] in Hr.
  exists z. split; [lia|].
  destruct k; [reflexivity|].
  set (a' := {| ga_batch_size := ga_batch_size a; ga_seed := PInt z |}).
  assert (E : exists r gs', gb_next R G (GNew a) g h = (r, gs', match gs' with GDone => g | _ => g' end)
                        /\ gb_next R G (GNew a') g2 h = (r, gs', g2) /\ seeded gs').
  { simpl. unfold gb_start, a'. cbn [ga_batch_size ga_seed]. rewrite Hn.
    destruct (negb (is_int (ga_batch_size a))); [now exists (Raise AssertionError), GDone|].
    destruct (negb (batch_size_pos (ga_batch_size a))); [now exists (Raise AssertionError), GDone|].
    cbn [seed_type_ok is_none orb negb seed_range_ok as_int is_int].
    replace ((0 <=? z)%Z && (z <=? max_seed)%Z) with true
      by (symmetry; apply andb_true_iff; split; apply Z.leb_le; unfold max_seed; lia).
    cbn [negb].
    destruct (negb (hyrows h =? length (hx h))); [now exists (Raise AssertionError), GDone|].
    rewrite Eg.
    set (bs := match as_int (ga_batch_size a) with Some z0 => _ | None => _ end).
    destruct (gb_iter R h (rng_seed R z) bs (length (hx h))) as [b st'] eqn:Eb.
    now exists (Ok b), (GRunning R st' bs (length (hx h))). }
  destruct E as (r & gs' & E1 & E2 & Hs).
  rewrite (solo_S _ _ _ _ _ _ _ E1), (solo_S _ _ _ _ _ _ _ E2).
  f_equal. now apply solo_g.
Qed.

(** *** Fisher-Yates *)

Lemma set_nth_length : forall A i (a : A) l, length (set_nth i a l) = length l.
Proof.
  intros. unfold set_nth. rewrite app_length, firstn_length.
  destruct (skipn i l) eqn:E.
  - simpl. assert (length (skipn i l) = 0) by now rewrite E. rewrite skipn_length in H. lia.
  - simpl. assert (length (skipn i l) = S (length l0)) by now rewrite E.
    rewrite skipn_length in H. lia.
Qed.

Lemma set_nth_map : forall A B (f : A -> B) i a l,
  map f (set_nth i a l) = set_nth i (f a) (map f l).
Proof.
  intros. unfold set_nth. rewrite map_app, firstn_map, skipn_map.
  destruct (skipn i l); reflexivity.
Qed.

Lemma swap_map : forall A B (f : A -> B) i j l, map f (swap i j l) = swap i j (map f l).
Proof.
  intros. unfold swap. rewrite !nth_error_map.
  destruct (nth_error l i); simpl; auto.
  destruct (nth_error l j); simpl; auto.
  now rewrite !set_nth_map.
Qed.

Lemma swap_length : forall A i j (l : list A), length (swap i j l) = length l.
Proof.
  intros. unfold swap. destruct (nth_error l i), (nth_error l j); auto.
  now rewrite !set_nth_length.
Qed.

Lemma set_nth_S : forall A i (a x : A) l, set_nth (S i) a (x :: l) = x :: set_nth i a l.
Proof. reflexivity. Qed.

Lemma nth_error_set_nth : forall A i (a : A) l k, i < length l ->
  nth_error (set_nth i a l) k = if k =? i then Some a else nth_error l k.
Proof.
  induction i; intros.
  - destruct l; simpl in H; [lia|]. unfold set_nth; simpl. destruct k; reflexivity.
  - destruct l; simpl in H; [lia|]. rewrite set_nth_S.
    destruct k; simpl; auto. rewrite IHi by lia. reflexivity.
Qed.

Lemma nth_error_swap : forall A i j (l : list A) k, i < length l -> j < length l ->
  nth_error (swap i j l) k =
    if k =? i then nth_error l j else if k =? j then nth_error l i else nth_error l k.
Proof.
  intros. unfold swap.
  destruct (nth_error l i) eqn:Ei; [|apply nth_error_None in Ei; lia].
  destruct (nth_error l j) eqn:Ej; [|apply nth_error_None in Ej; lia].
  rewrite nth_error_set_nth by now rewrite set_nth_length.
  rewrite nth_error_set_nth by auto.
  destruct (k =? j) eqn:Ekj, (k =? i) eqn:Eki; auto.
  apply Nat.eqb_eq in Ekj, Eki. congruence.
Qed.

Lemma swap_perm : forall A i j (l : list A), Permutation (swap i j l) l.
Proof.
  intros.
  destruct (lt_dec i (length l)) as [Hi|Hi]; cycle 1.
  { unfold swap. destruct (nth_error l i) eqn:E; auto.
    assert (i < length l) by (apply nth_error_Some; congruence); lia. }
  destruct (lt_dec j (length l)) as [Hj|Hj]; cycle 1.
  { unfold swap. destruct (nth_error l i) eqn:E; auto.
    destruct (nth_error l j) eqn:E2; auto.
    assert (j < length l) by (apply nth_error_Some; congruence); lia. }
  symmetry.
  apply Permutation_nth_error. split; [now rewrite swap_length|].
  exists (fun k => if k =? i then j else if k =? j then i else k).
  split.
  - intros x y. cbn.
    destruct (x =? i) eqn:A1, (y =? i) eqn:A2, (x =? j) eqn:A3, (y =? j) eqn:A4;
      repeat match goal with
      | H : (_ =? _) = true |- _ => apply Nat.eqb_eq in H
      | H : (_ =? _) = false |- _ => apply Nat.eqb_neq in H
      end; intros; subst; try congruence; lia.
  - intros. rewrite nth_error_swap by auto.
    destruct (n =? i); auto. destruct (n =? j); auto.
Qed.

Lemma shuffle_from_map : forall A B (f : A -> B) i st off l,
  shuffle_from R st off i (map f l) =
  (map f (fst (shuffle_from R st off i l)), snd (shuffle_from R st off i l)).
Proof.
  induction i; intros; simpl; auto.
  destruct (rng_interval R st (S i)) as [j st'].
  rewrite <- swap_map. apply IHi.
Qed.

Lemma shuffle_from_perm : forall A i st off (l : list A),
  Permutation (fst (shuffle_from R st off i l)) l.
Proof.
  induction i; intros; simpl; auto.
  destruct (rng_interval R st (S i)) as [j st'].
  rewrite IHi. apply swap_perm.
Qed.

Lemma shuffle_from_length : forall A i st off (l : list A),
  length (fst (shuffle_from R st off i l)) = length l.
Proof.
  intros. apply Permutation_length, shuffle_from_perm.
Qed.

(** Only positions [off .. off+i] are touched. *)
Lemma shuffle_from_outside : forall A i st off (l : list A) k,
  off + i < length l \/ i = 0 ->
  k < off \/ off + i < k ->
  nth_error (fst (shuffle_from R st off i l)) k = nth_error l k.
Proof.
  induction i; intros st off l k Hb Hk; simpl; auto.
  pose proof (rng_interval_le R st (S i)) as Hj.
  destruct (rng_interval R st (S i)) as [j st']. cbn [fst] in Hj.
  destruct Hb as [Hb|Hb]; [|discriminate].
  rewrite IHi; [|rewrite swap_length; left; lia|lia].
  rewrite nth_error_swap by lia.
  destruct (k =? off + S i) eqn:E1; [apply Nat.eqb_eq in E1; lia|].
  destruct (k =? off + j) eqn:E2; [apply Nat.eqb_eq in E2; lia|]. reflexivity.
Qed.

(** The state of the RNG after a shuffle depends on the length only. *)
Lemma shuffle_from_state : forall A B i st off1 off2 (l : list A) (m : list B),
  snd (shuffle_from R st off1 i l) = snd (shuffle_from R st off2 i m).
Proof.
  induction i; intros; simpl; auto.
  destruct (rng_interval R st (S i)) as [j st']. apply IHi.
Qed.

(** *** The shuffled generator: invariant *)

Definition sinv (bs n : nat) (gs : sgen_state R) : Prop :=
  exists r st, gs = SRunning R r r (GRunning R st bs n).

Lemma sb_iter_inv : forall (D : list (X * L)) bs r st inner g res gs' g' h',
  (exists b g1, gb_next R G inner g (arrays_of D) = (Ok b, GRunning R st bs (length D), g1)
     /\ good_batch 1 (length D) bs (Ok b)) ->
  sb_iter R G r r inner g (arrays_of D) = (res, gs', g', h') ->
  exists D', Permutation D D' /\ h' = arrays_of D' /\ good_batch 1 (length D') bs res /\
    sinv bs (length D') gs'.
Proof.
  intros D bs r st inner g res gs' g' h' (b & g1 & E & s & Hs & Hb) H.
  injection Hb as ->.
  unfold sb_iter in H. rewrite E in H. cbn [bx_off bx_len by_off by_len] in H.
  rewrite !Nat.mul_1_r in H.
  unfold shuffle_view in H. cbn [hx hy arrays_of hyrows hywidth] in H.
  rewrite !shuffle_from_map in H.
  injection H as <- <- <- <-.
  set (D' := fst (shuffle_from R r s (bs - 1) D)).
  assert (HP : Permutation D D') by (symmetry; apply shuffle_from_perm).
  exists D'. rewrite <- (Permutation_length HP). repeat split; auto.
  - unfold arrays_of. now rewrite <- (Permutation_length HP).
  - exists s. rewrite Nat.mul_1_r. split; [lia|]. now rewrite Nat.mul_1_r.
  - eexists _, st. reflexivity.
Qed.

Lemma gb_next_running_ok : forall (D : list (X * L)) bs st g,
  bs <= length D ->
  exists b g1 st', gb_next R G (GRunning R st bs (length D)) g (arrays_of D)
     = (Ok b, GRunning R st' bs (length D), g1) /\ good_batch 1 (length D) bs (Ok b).
Proof.
  intros. simpl. destruct (gb_iter R (arrays_of D) st bs (length D)) as [b st'] eqn:E.
  exists b, g, st'. split; [reflexivity|].
  destruct (gb_iter_spec _ _ _ _ _ _ E) as (s & _ & Hs & ->). simpl.
  exists s. split; [lia|reflexivity].
Qed.

Lemma sb_run_inv : forall k (D : list (X * L)) bs gs g rs gs' g' h',
  bs <= length D -> sinv bs (length D) gs ->
  sb_run R G k gs g (arrays_of D) = (rs, gs', g', h') ->
  exists D', Permutation D D' /\ h' = arrays_of D' /\ length rs = k /\
    Forall (good_batch 1 (length D') bs) rs /\ sinv bs (length D') gs'.
Proof.
  induction k; intros D bs gs g rs gs' g' h' Hle Hi H; simpl in H.
  - injection H as <- <- <- <-. exists D. repeat split; auto.
  - destruct Hi as (r & st & ->).
    destruct (sb_next R G (SRunning R r r (GRunning R st bs (length D))) g (arrays_of D))
      as [[[r1 gs1] g1] h1] eqn:E1.
    destruct (sb_run R G k gs1 g1 h1) as [[[rs2 gs2] g2] h2] eqn:E2.
    injection H as <- <- <- <-. cbn [sb_next] in E1.
    destruct (gb_next_running_ok D bs st g Hle) as (b & gg & st' & En & Hg).
    destruct (sb_iter_inv D bs r st' _ g r1 gs1 g1 h1 (ex_intro _ b (ex_intro _ gg (conj En Hg))) E1)
      as (D1 & HP & -> & Hr & Hs).
    pose proof (Permutation_length HP) as HL.
    rewrite HL in Hle.
    destruct (IHk D1 bs gs1 g1 rs2 gs2 g2 h2 Hle Hs E2) as (D2 & HP2 & -> & Hl & HF & Hs2).
    exists D2. split; [now transitivity D1|]. split; [reflexivity|].
    split; [simpl; now rewrite Hl|]. split; [|auto].
    constructor; auto. rewrite <- (Permutation_length HP2). exact Hr.
Qed.

Lemma np_seed_int : forall v z, int_value v z -> (0 <= z <= 4294967295)%Z -> np_seed v = Ok z.
Proof.
  intros v z [->|[[-> ->]|[-> ->]]] H; simpl; auto.
  replace ((0 <=? z)%Z && (z <=? max_seed)%Z) with true; auto.
  symmetry; apply andb_true_iff; split; apply Z.leb_le; unfold max_seed; lia.
Qed.

Lemma sb_start : forall (a : gen_args) (D : list (X * L)) g bs,
  valid_args a (arrays_of D) -> valid_batch_size (ga_batch_size a) bs ->
  exists z sv g0 b st' g1,
    sb_next R G (SNew a) g (arrays_of D) =
      sb_iter R G (rng_seed R z) (rng_seed R z)
        (GNew {| ga_batch_size := ga_batch_size a; ga_seed := sv |}) g0 (arrays_of D) /\
    gb_next R G (GNew {| ga_batch_size := ga_batch_size a; ga_seed := sv |}) g0 (arrays_of D)
      = (Ok b, GRunning R st' (Nat.min bs (length D)) (length D), g1) /\
    good_batch 1 (length D) (Nat.min bs (length D)) (Ok b).
Proof.
  intros a D g bs (Hb0 & Hs & Hl) Hb.
  assert (K : exists z sv g0, (0 <= z <= 4294967295)%Z /\ int_value sv z /\
     sb_next R G (SNew a) g (arrays_of D) =
     sb_iter R G (rng_seed R z) (rng_seed R z)
        (GNew {| ga_batch_size := ga_batch_size a; ga_seed := sv |}) g0 (arrays_of D)).
  { destruct Hs as [Hn|(z & Hi & Hr)].
    - pose proof (glob_draw_range G g) as Hr.
      destruct (glob_draw G g) as [z g0] eqn:E. cbn [fst] in Hr.
      exists z, (PInt z), g0. split; [lia|]. split; [now left|].
      cbn [sb_next]. rewrite Hn. cbn [is_none]. rewrite E.
      rewrite (np_seed_int (PInt z) z) by (try lia; now left). reflexivity.
    - exists z, (ga_seed a), g. split; [lia|]. split; [auto|].
      cbn [sb_next]. replace (is_none (ga_seed a)) with false
        by (destruct Hi as [->|[[-> _]|[-> _]]]; reflexivity).
      rewrite (np_seed_int _ z) by auto. reflexivity. }
  destruct K as (z & sv & g0 & Hr & Hi & E).
  exists z, sv, g0.
  assert (Hv : valid_args {| ga_batch_size := ga_batch_size a; ga_seed := sv |} (arrays_of D)).
  { split; [auto|]. split; [right; exists z; auto|auto]. }
  destruct (gb_start_valid _ g0 _ bs Hv Hb) as (z1 & g1 & Est & _ & _).
  cbn [arrays_of hx] in Est. rewrite map_length in Est.
  cbn [gb_next].
  destruct (gb_iter R (arrays_of D) (rng_seed R z1) (Nat.min bs (length D)) (length D))
    as [b st'] eqn:Eb.
  exists b, st', g1. split; [exact E|].
  split.
  - rewrite Est, Eb. reflexivity.
  - destruct (gb_iter_spec _ _ _ _ _ _ Eb) as (s & _ & Hs' & ->). simpl.
    exists s. split; [|reflexivity]. pose proof (Nat.le_min_r bs (length D)). lia.
Qed.

Lemma sb_run_valid : forall k a (D : list (X * L)) g bs rs gs' g' h',
  valid_args a (arrays_of D) -> valid_batch_size (ga_batch_size a) bs ->
  sb_run R G k (SNew a) g (arrays_of D) = (rs, gs', g', h') ->
  exists D', Permutation D D' /\ h' = arrays_of D' /\ length rs = k /\
    Forall (good_batch 1 (length D') (Nat.min bs (length D'))) rs.
Proof.
  intros k a D g bs rs gs' g' h' Hv Hb H.
  destruct k.
  - simpl in H. injection H as <- <- <- <-. exists D. repeat split; auto.
  - cbn [sb_run] in H.
    destruct (sb_next R G (SNew a) g (arrays_of D)) as [[[r1 gs1] g1] h1] eqn:E1.
    destruct (sb_run R G k gs1 g1 h1) as [[[rs2 gs2] g2] h2] eqn:E2.
    injection H as <- <- <- <-.
    destruct (sb_start a D g bs Hv Hb) as (z & sv & g0 & b & st' & gg & Es & En & Hg).
    rewrite E1 in Es. symmetry in Es.
    destruct (sb_iter_inv D (Nat.min bs (length D)) _ st' _ g0 r1 gs1 g1 h1
                (ex_intro _ b (ex_intro _ gg (conj En Hg))) Es)
      as (D1 & HP & -> & Hr & Hs).
    pose proof (Permutation_length HP) as HL. rewrite HL in *.
    destruct (sb_run_inv k D1 _ gs1 g1 rs2 gs2 g2 h2 (Nat.le_min_r _ _) Hs E2)
      as (D2 & HP2 & -> & Hl & HF & Hs2).
    rewrite (Permutation_length HP2) in *.
    exists D2. repeat split; auto.
    + now transitivity D1.
    + simpl; now rewrite Hl.
Qed.

(** A shuffling step leaves everything outside the current batch in place. *)
Lemma sb_next_outside : forall gs g (D : list (X * L)) b gs' g' h' i,
  (exists bs, sinv bs (length D) gs /\ bs <= length D) \/
  (exists a bs, gs = SNew a /\ valid_args a (arrays_of D) /\ valid_batch_size (ga_batch_size a) bs) ->
  sb_next R G gs g (arrays_of D) = (Ok b, gs', g', h') ->
  i < bx_off b \/ bx_off b + bx_len b <= i ->
  nth_error (hx h') i = nth_error (map fst D) i /\ nth_error (hy h') i = nth_error (map snd D) i.
Proof.
  intros gs g D b gs' g' h' i Hgs H Hi.
  assert (K : exists r inner g0 bs, sb_iter R G r r inner g0 (arrays_of D) = (Ok b, gs', g', h') /\
     exists b' gs1 g1, gb_next R G inner g0 (arrays_of D) = (Ok b', gs1, g1) /\ good_batch 1 (length D) bs (Ok b')).
  { destruct Hgs as [(bs & (r & st & ->) & Hle)|(a & bs & -> & Hv & Hb)].
    - exists r, (GRunning R st bs (length D)), g, bs. split; [exact H|].
      destruct (gb_next_running_ok D bs st g Hle) as (b' & g1 & st' & E & Hg). eauto.
    - destruct (sb_start a D g bs Hv Hb) as (z & sv & g0 & b' & st' & gg & Es & En & Hg).
      rewrite Es in H. eauto 10. }
  destruct K as (r & inner & g0 & bs & E & b' & gs1 & g1 & En & (s & Hs & Hb')).
  injection Hb' as ->. unfold sb_iter in E. rewrite En in E.
  cbn [bx_off bx_len by_off by_len hx hy arrays_of] in E. rewrite !Nat.mul_1_r in E.
  destruct (shuffle_view R r s bs (map fst D)) as [x' r'] eqn:E1.
  destruct (shuffle_view R r s bs (map snd D)) as [y' r''] eqn:E2.
  injection E as <- _ _ <-. cbn [hx hy bx_off bx_len] in *.
  unfold shuffle_view in *.
  destruct bs as [|bs].
  - simpl in E1, E2. injection E1 as <- _. injection E2 as <- _. auto.
  - split.
    + replace x' with (fst (shuffle_from R r s (S bs - 1) (map fst D))) by now rewrite E1.
      apply shuffle_from_outside; rewrite ?map_length; lia.
    + replace y' with (fst (shuffle_from R r s (S bs - 1) (map snd D))) by now rewrite E2.
      apply shuffle_from_outside; rewrite ?map_length; lia.
Qed.

(** Seeded shuffled generators do not depend on the global RNG either. *)
Definition sseeded (gs : sgen_state R) : Prop :=
  match gs with
  | SNew a => ga_seed a <> PNone
  | SRunning _ _ _ inner => seeded inner
  | SDone => True
  end.

Lemma sb_iter_g : forall rx ry inner h, seeded inner ->
  exists r gs' h', sseeded gs' /\ forall g, sb_iter R G rx ry inner g h = (r, gs', g, h').
Proof.
  intros. destruct (gb_next_seeded inner h H) as (r & inner' & Hs & E).
  unfold sb_iter.
  destruct r as [b|e].
  - destruct (shuffle_view R rx (bx_off b) (bx_len b) (hx h)) as [x' rx'] eqn:E1.
    destruct (shuffle_view R ry (by_off b) (by_len b) (hy h)) as [y' ry'] eqn:E2.
    eexists _, _, _. split; [|intros g; rewrite (E g), E1, E2; reflexivity]. exact Hs.
  - eexists _, _, _. split; [|intros g; rewrite (E g); reflexivity]. exact I.
Qed.

Lemma sb_next_seeded : forall gs h, sseeded gs ->
  exists r gs' h', sseeded gs' /\ forall g, sb_next R G gs g h = (r, gs', g, h').
Proof.
  intros gs h H. destruct gs as [a|rx ry inner|]; simpl in H.
  - cbn [sb_next]. destruct (is_none (ga_seed a)) eqn:E; [destruct (ga_seed a); simpl in *; congruence|].
    destruct (np_seed (ga_seed a)) as [z|e].
    + apply sb_iter_g. exact H.
    + eexists _, _, _. split; [|reflexivity]. exact I.
  - cbn [sb_next]. now apply sb_iter_g.
  - eexists _, _, _. split; [|reflexivity]. exact I.
Qed.

Lemma sb_run_seeded : forall k gs h g1 g2, sseeded gs ->
  fst (fst (fst (sb_run R G k gs g1 h))) = fst (fst (fst (sb_run R G k gs g2 h))) /\
  snd (sb_run R G k gs g1 h) = snd (sb_run R G k gs g2 h).
Proof.
  induction k; intros; [auto|].
  cbn [sb_run]. destruct (sb_next_seeded gs h H) as (r & gs' & h' & Hs & E).
  rewrite (E g1), (E g2). specialize (IHk gs' h' g1 g2 Hs).
  destruct (sb_run R G k gs' g1 h') as [[[? ?] ?] ?].
  destruct (sb_run R G k gs' g2 h') as [[[? ?] ?] ?]. simpl in *. destruct IHk; subst; auto.
Qed.

(** *** Wide labels *)
Lemma good_batch_sizes : forall h bs r,
  good_batch (hywidth h) (length (hx h)) bs r ->
  length (hy h) = length (hx h) * hywidth h ->
  exists b, r = Ok b /\ length (batch_x h b) = bs /\ length (batch_y h b) = hywidth h * bs.
Proof.
  intros h bs r (s & Hs & ->) Hl. eexists; split; [reflexivity|].
  unfold batch_x, batch_y; simpl. split.
  - now apply window_length.
  - rewrite window_length; [lia|]. rewrite Hl. nia.
Qed.

Lemma sb_run_done : forall k g h,
  sb_run R G k SDone g h = (repeat (Raise StopIteration) k, SDone, g, h).
Proof. induction k; intros; simpl; auto. now rewrite IHk. Qed.

End P.
