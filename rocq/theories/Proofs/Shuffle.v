(** Lemmas for C83-C85: shuffles by prepared answers, averages, mixing. *)
From Coq Require Import List Arith Lia ZArith Bool Permutation.
From Verif.Base Require Import Py Lists Vec.
From Verif.Model Require Import DataBatches.
From Verif.Spec Require Import Batches Coverage Shuffle.
From Verif.Proofs Require Import Batches.
Import ListNotations.

(** Fisher-Yates with given answers. *)
Fixpoint shuffle_by {A} (off i : nat) (c : list nat) (l : list A) : list A :=
  match i, c with
  | S i', j :: c' => shuffle_by off i' c' (swap (off + i) (off + j) l)
  | _, _ => l
  end.

Section By.
Variable R : rng_ops.
Lemma shuffle_from_by : forall A i st off (l : list A),
  shuffle_from R st off i l = (shuffle_by off i (fst (interval_answers R i st)) l, snd (interval_answers R i st)).
Proof.
  induction i as [|i IH]; intros st off l; [reflexivity|]. cbn [shuffle_from interval_answers].
  destruct (rng_interval R st (S i)) as [j st1]. rewrite IH. destruct (interval_answers R i st1); reflexivity.
Qed.
Lemma in_orders : forall i c, In c (orders i) <-> length c = i /\ forall t, t < i -> nth t c 0 <= i - t.
Proof.
  induction i as [|i IH]; intros c; cbn [orders].
  - split; [intros [<-|[]]; split; [reflexivity|lia]|]. intros [H _]. destruct c; [now left|discriminate H].
  - rewrite in_flat_map. split.
    + intros (j & Hj & Hc). apply in_seq in Hj. apply in_map_iff in Hc as (c' & <- & Hc). apply IH in Hc as [Hl Hn].
      split; [cbn; lia|]. intros [|t] Ht; cbn [nth]; [lia|]. specialize (Hn t). lia.
    + intros [Hl Hn]. destruct c as [|j c]; [discriminate Hl|]. exists j. split.
      * apply in_seq. specialize (Hn 0). cbn in Hn. lia.
      * apply in_map, IH. split; [cbn in Hl; lia|]. intros t Ht. specialize (Hn (S t)). cbn [nth] in Hn. lia.
Qed.
Lemma interval_answers_in : forall i st, In (fst (interval_answers R i st)) (orders i).
Proof.
  induction i as [|i IH]; intros st; [now left|]. cbn [interval_answers orders].
  pose proof (rng_interval_le R st (S i)) as Hj. destruct (rng_interval R st (S i)) as [j st1]. cbn [fst] in Hj.
  specialize (IH st1). destruct (interval_answers R i st1) as [js st2]. cbn [fst] in *.
  apply in_flat_map. exists j. split; [apply in_seq; lia|]. now apply in_map.
Qed.
End By.

Lemma orders_length : forall i, length (orders i) = fact (S i).
Proof.
  induction i as [|i IH]; [reflexivity|].
  cbn [orders]. change (fact (S (S i))) with (S (S i) * fact (S i)). rewrite <- IH.
  assert (G : forall s n, length (flat_map (fun j => map (cons j) (orders i)) (seq s n)) = n * length (orders i)).
  { intros s n. revert s. induction n as [|n IHn]; intros s; [reflexivity|]. cbn [seq flat_map]. rewrite app_length, map_length, IHn. lia. }
  apply G.
Qed.
Lemma NoDup_flat_cons : forall A (l : list A) (m : list (list A)), NoDup l -> NoDup m -> NoDup (flat_map (fun j => map (cons j) m) l).
Proof.
  induction l as [|a l IH]; intros m Hl Hm; [constructor|]. cbn [flat_map]. inversion_clear Hl as [|? ? Ha Hl'].
  assert (H1 : NoDup (map (cons a) m)) by (apply FinFun.Injective_map_NoDup; [intros x y E; now injection E|exact Hm]).
  specialize (IH m Hl' Hm). revert IH.
  assert (H2 : forall x, In x (map (cons a) m) -> ~ In x (flat_map (fun j => map (cons j) m) l)).
  { intros x Hx Hy. apply in_map_iff in Hx as (x' & <- & _). apply in_flat_map in Hy as (j & Hj & Hy).
    apply in_map_iff in Hy as (y & E & _). injection E as -> _. contradiction. }
  generalize (flat_map (fun j => map (cons j) m) l) H1 H2. generalize (map (cons a) m).
  induction l0 as [|x l0 IHl]; intros r N1 N2 N3; [exact N3|]. cbn. inversion_clear N1. constructor.
  - rewrite in_app_iff. intros [K|K]; [contradiction|]. apply (N2 x); [now left|exact K].
  - apply IHl; auto. intros y Hy. apply N2. now right.
Qed.
Lemma orders_nodup : forall i, NoDup (orders i).
Proof. induction i; [repeat constructor; auto|]. cbn [orders]. apply NoDup_flat_cons; [apply seq_NoDup|assumption]. Qed.

Section ByFacts.
Context {A : Type}.
Lemma shuffle_by_perm : forall i c off (l : list A), Permutation (shuffle_by off i c l) l.
Proof.
  induction i as [|i IH]; intros [|j c] off l; cbn [shuffle_by]; try reflexivity. rewrite IH. apply swap_perm.
Qed.
Lemma shuffle_by_outside : forall i c off (l : list A) k, In c (orders i) -> off + i < length l \/ i = 0 ->
  k < off \/ off + i < k -> nth_error (shuffle_by off i c l) k = nth_error l k.
Proof.
  induction i as [|i IH]; intros c off l k Hc Hb Hk; [reflexivity|].
  destruct Hb as [Hb|Hb]; [|discriminate Hb].
  cbn [orders] in Hc. apply in_flat_map in Hc as (j & Hj & Hc). apply in_map_iff in Hc as (c' & <- & Hc). apply in_seq in Hj.
  cbn [shuffle_by]. rewrite IH; [|exact Hc|left; rewrite swap_length; lia|lia].
  rewrite nth_error_swap by lia.
  destruct (Nat.eqb_spec k (off + S i)); [lia|]. destruct (Nat.eqb_spec k (off + j)); [lia|]. reflexivity.
Qed.
(** Existence and uniqueness of the answers leading to a given arrangement. *)
Lemma shuffle_by_unique : forall i off (l l' : list A), NoDup l -> Permutation l l' -> off + i < length l \/ i = 0 ->
  (forall k, k < off \/ off + i < k -> nth_error l' k = nth_error l k) ->
  exists c, In c (orders i) /\ forall c', In c' (orders i) -> (shuffle_by off i c' l = l' <-> c' = c).
Proof.
  induction i as [|i IH]; intros off l l' Hn Hp Hb Ho.
  - exists []. split; [now left|]. intros c' [<-|[]]. cbn. split; [reflexivity|intros _].
    (* every position but [off] is fixed, hence [off] too *)
    apply nth_error_ext. intros k. destruct (Nat.eq_dec k off) as [->|Hk]; [|symmetry; apply Ho; lia].
    destruct (nth_error l off) as [a|] eqn:Ea.
    + assert (Ha : In a l') by (apply (Permutation_in _ Hp); eapply nth_error_In; exact Ea).
      apply In_nth_error in Ha as [q Hq]. destruct (Nat.eq_dec q off) as [->|Hqo]; [now symmetry|].
      rewrite Ho in Hq by lia. exfalso. apply Hqo. rewrite NoDup_nth_error in Hn. apply Hn; [|congruence].
      apply nth_error_Some. congruence.
    + apply nth_error_None in Ea. symmetry. apply nth_error_None. now rewrite <- (Permutation_length Hp).
  - destruct Hb as [Hb|Hb]; [|discriminate Hb].
    pose proof (Permutation_length Hp) as HL.
    destruct (nth_error l' (off + S i)) as [a|] eqn:Ea; [|apply nth_error_None in Ea; lia].
    assert (Ha : In a l) by (apply (Permutation_in _ (Permutation_sym Hp)); eapply nth_error_In; exact Ea).
    apply In_nth_error in Ha as [q Hq].
    assert (Hn' : NoDup l') by (eapply Permutation_NoDup; eassumption).
    assert (Hql : q < length l) by (apply nth_error_Some; congruence).
    assert (Hqr : off <= q <= off + S i).
    { destruct (Nat.le_gt_cases off q), (Nat.le_gt_cases q (off + S i)); try lia; exfalso;
        (assert (nth_error l' q = Some a) by (rewrite Ho by lia; exact Hq));
        rewrite NoDup_nth_error in Hn'; specialize (Hn' (off + S i) q); rewrite HL in Hb; specialize (Hn' Hb); lapply Hn'; try congruence; lia. }
    set (j := q - off). assert (Ej : off + j = q) by (unfold j; lia).
    assert (Sw : forall j', j' <= S i -> nth_error (swap (off + S i) (off + j') l) (off + S i) = nth_error l (off + j')).
    { intros j' Hj'. rewrite nth_error_swap by lia. now rewrite Nat.eqb_refl. }
    destruct (IH off (swap (off + S i) (off + j) l) l') as (c & Hc & Huc).
    + eapply Permutation_NoDup; [symmetry; apply swap_perm|exact Hn].
    + rewrite swap_perm. exact Hp.
    + left. rewrite swap_length. lia.
    + intros k Hk. destruct (Nat.eq_dec k (off + S i)) as [->|Hk'].
      * rewrite Sw, Ea, Ej by lia. now symmetry.
      * rewrite Ho by lia. rewrite nth_error_swap by lia.
        destruct (Nat.eqb_spec k (off + S i)); [lia|]. destruct (Nat.eqb_spec k (off + j)); [lia|]. reflexivity.
    + exists (j :: c). split.
      { cbn [orders]. apply in_flat_map. exists j. split; [apply in_seq; lia|now apply in_map]. }
      intros c' Hc'. cbn [orders] in Hc'. apply in_flat_map in Hc' as (j' & Hj' & Hc'). apply in_map_iff in Hc' as (c'' & <- & Hc''). apply in_seq in Hj'.
      cbn [shuffle_by]. split.
      * intros E. assert (j' = j).
        { assert (K : nth_error l' (off + S i) = nth_error l (off + j')).
          { rewrite <- E, shuffle_by_outside; [apply Sw; lia|exact Hc''|left; rewrite swap_length; lia|lia]. }
          rewrite Ea in K. rewrite NoDup_nth_error in Hn. specialize (Hn (off + j') q). rewrite <- K, Hq in Hn.
          assert (off + j' = q) by (apply Hn; [lia|reflexivity]). lia. }
        subst j'. f_equal. apply (Huc c'' Hc''), E.
      * intros E. injection E as -> ->. apply (Huc c Hc). reflexivity.
Qed.
End ByFacts.

(** One step of a running shuffled generator. *)
Lemma sb_next_running : forall X L R G (D : list (X * L)) b r st g,
  sb_next R G (SRunning R r r (GRunning R st b (length D))) g (arrays_of D) =
  (let s := fst (rng_randint R st (length D - b + 1)) in
   (Ok {| bx_off := s; bx_len := b; by_off := s; by_len := b |},
    SRunning R (snd (interval_answers R (b - 1) r)) (snd (interval_answers R (b - 1) r))
      (GRunning R (snd (rng_randint R st (length D - b + 1))) b (length D)),
    g, arrays_of (shuffle_by s (b - 1) (fst (interval_answers R (b - 1) r)) D))).
Proof.
  intros X L R G D b r st g. cbn [sb_next]. unfold sb_iter. cbn [gb_next]. unfold gb_iter.
  destruct (rng_randint R st (length D - b + 1)) as [s st']. cbn [fst snd bx_off bx_len by_off by_len arrays_of hywidth hx hy hyrows].
  rewrite !Nat.mul_1_r. unfold shuffle_view. rewrite !shuffle_from_map, !shuffle_from_by. cbn [fst snd].
  unfold arrays_of. now rewrite (Permutation_length (shuffle_by_perm _ _ _ D)).
Qed.
(** The first step of a shuffled generator is that of a running one seeded once. *)
Lemma sb_next_new : forall X L R G (D : list (X * L)) a bs g,
  valid_args a (arrays_of D) -> valid_batch_size (ga_batch_size a) bs ->
  exists z g', (forall z', int_value (ga_seed a) z' -> z = z' /\ g' = g) /\
    sb_next R G (SNew a) g (arrays_of D) =
    sb_next R G (SRunning R (rng_seed R z) (rng_seed R z) (GRunning R (rng_seed R z) (Nat.min bs (length D)) (length D))) g' (arrays_of D).
Proof.
  intros X L R G D a bs g (Hb0 & Hs & Hl) Hb.
  assert (K : exists z sv g0, (0 <= z <= 4294967295)%Z /\ int_value sv z /\
     (forall z', int_value (ga_seed a) z' -> z = z' /\ g0 = g) /\
     sb_next R G (SNew a) g (arrays_of D) =
     sb_iter R G (rng_seed R z) (rng_seed R z)
        (GNew {| ga_batch_size := ga_batch_size a; ga_seed := sv |}) g0 (arrays_of D)).
  { destruct Hs as [Hn|(z & Hi & Hr)].
    - pose proof (glob_draw_range G g) as Hr.
      destruct (glob_draw G g) as [z g0] eqn:E. cbn [fst] in Hr.
      exists z, (PInt z), g0. split; [lia|]. split; [now left|]. split.
      { intros z' Hz'. rewrite Hn in Hz'. destruct Hz' as [K|[[K _]|[K _]]]; discriminate K. }
      cbn [sb_next]. rewrite Hn. cbn [is_none]. rewrite E.
      rewrite (np_seed_int (PInt z) z) by (try lia; now left). reflexivity.
    - exists z, (ga_seed a), g. split; [lia|]. split; [auto|]. split.
      { intros z' Hz'. split; [|reflexivity]. apply as_int_spec in Hz', Hi. congruence. }
      cbn [sb_next]. replace (is_none (ga_seed a)) with false
        by (destruct Hi as [->|[[-> _]|[-> _]]]; reflexivity).
      rewrite (np_seed_int _ z) by auto. reflexivity. }
  destruct K as (z & sv & g0 & Hr & Hi & Hz & E).
  assert (Hv : valid_args {| ga_batch_size := ga_batch_size a; ga_seed := sv |} (arrays_of D)).
  { split; [auto|]. split; [right; exists z; auto|auto]. }
  destruct (gb_start_valid R G _ g0 _ bs Hv Hb) as (z1 & g1 & Est & Hz1 & Hnone).
  cbn [ga_seed] in Hz1. destruct (Hz1 z Hi) as [-> Hg]. 
  exists z, g1. split.
  { intros z' Hz'. destruct (Hz z' Hz') as [-> ->]. split; [reflexivity|]. exact Hg. }
  rewrite E. cbn [sb_next]. unfold sb_iter. cbn [gb_next]. rewrite Est. cbn [arrays_of hx]. rewrite map_length. reflexivity.
Qed.
