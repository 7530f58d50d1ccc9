(** Lemmas for C35-C40. *)
From Coq Require Import List Arith Lia Reals Lra Bool Permutation Sorting.
From Verif.Base Require Import Py Num Lists.
From Verif.Model Require Import TensorUtils.
From Verif.Spec Require Import Tensor.
Import ListNotations.

(** *** Row-major layout *)
Lemma nth_error_flat_map_uniform : forall A B (f : A -> list B) c l i r,
  Forall (fun a => length (f a) = c) l -> r < c ->
  nth_error (flat_map f l) (i * c + r) =
  match nth_error l i with Some a => nth_error (f a) r | None => None end.
Proof.
  intros A B f c l. induction l as [|a l IH]; intros i r HF Hr; cbn.
  - now rewrite !(proj2 (nth_error_None _ _)) by (cbn; lia).
  - inversion HF as [|? ? Ha HF']; subst. destruct i as [|i]; cbn [nth_error].
    + rewrite nth_error_app1 by (cbn; lia). reflexivity.
    + rewrite nth_error_app2 by (cbn; lia).
      replace (S i * length (f a) + r - length (f a)) with (i * length (f a) + r) by (cbn; lia).
      now apply IH.
Qed.

Lemma written_length : forall T k s (a : nd T k), has_shape k s a -> length (written k a) = prod s.
Proof.
  induction k as [|k IH]; intros s a Ha; destruct s as [|n s]; cbn in *; try contradiction; auto.
  destruct Ha as [Hl Ha]. rewrite <- Hl. clear Hl n.
  induction a as [|b a IHa]; cbn; auto. inversion Ha; subst.
  rewrite app_length, IHa, (IH s) by auto. reflexivity.
Qed.

Lemma written_index : forall T k s (a : nd T k) idx, has_shape k s a -> in_bounds s idx ->
  offset s idx < prod s /\ nth_error (written k a) (offset s idx) = index k a idx.
Proof.
  induction k as [|k IH]; intros s a idx Ha Hb; destruct s as [|n s]; cbn [has_shape] in Ha; try contradiction.
  - inversion Hb; subst. cbn. auto.
  - inversion Hb as [|i ? idx' ? Hi Hb']; subst. destruct Ha as [Hl Ha].
    assert (Hex : exists b : nd T k, @nth_error (nd T k) a i = Some b).
    { destruct (@nth_error (nd T k) a i) eqn:E; eauto. exfalso. apply (proj1 (nth_error_None _ _)) in E.
      apply (Nat.lt_irrefl i). eapply Nat.lt_le_trans; [exact Hi|]. rewrite <- Hl. exact E. }
    destruct Hex as [b Eb].
    assert (Hs : has_shape k s b).
    { rewrite Forall_forall in Ha. apply Ha. eapply nth_error_In; eauto. }
    destruct (IH s b idx' Hs Hb') as [Ho Hn]. cbn [offset index written].
    fold (prod s) in *. split.
    + change (prod (n :: s)) with (n * prod s). nia.
    + rewrite nth_error_flat_map_uniform with (c := prod s).
      * change (match @nth_error (nd T k) a i with
                | Some b0 => nth_error (written k b0) (offset s idx') | None => None end =
                match @nth_error (nd T k) a i with Some b0 => index k b0 idx' | None => None end).
        rewrite Eb. exact Hn.
      * eapply Forall_impl; [|exact Ha]. intros. now apply written_length.
      * exact Ho.
Qed.

(** *** Median *)
Lemma insert_desc_perm : forall (x : R) l, Permutation (x :: l) (insert_desc x l).
Proof.
  induction l as [|y l IH]; cbn; auto. destruct (Rltb x y); auto.
  rewrite perm_swap. now constructor.
Qed.
Lemma top_k_perm : forall l : list R, Permutation l (top_k_all l).
Proof.
  induction l; cbn; auto. rewrite <- insert_desc_perm. now constructor.
Qed.
Lemma top_k_length : forall l : list R, length (top_k_all l) = length l.
Proof. intros. symmetry. apply Permutation_length, top_k_perm. Qed.

Lemma insert_desc_sorted : forall (x : R) l,
  StronglySorted Rge l -> StronglySorted Rge (insert_desc x l).
Proof.
  induction l as [|y l IH]; intros HS; cbn.
  - repeat constructor.
  - inversion HS as [|? ? HS' HF]; subst. destruct (Rltb x y) eqn:E.
    + apply Rltb_true in E. constructor; auto.
      apply Permutation_Forall with (x :: l); [apply insert_desc_perm|]. constructor; auto. lra.
    + apply Rltb_false in E. constructor; auto. constructor; auto; [lra|].
      eapply Forall_impl; [|exact HF]. intros; cbn in *; lra.
Qed.
Lemma top_k_sorted : forall l : list R, StronglySorted Rge (top_k_all l).
Proof. induction l; cbn; [constructor|]. now apply insert_desc_sorted. Qed.

Lemma StronglySorted_app : forall A (P : A -> A -> Prop) l m,
  StronglySorted P l -> StronglySorted P m -> (forall a b, In a l -> In b m -> P a b) ->
  StronglySorted P (l ++ m).
Proof.
  induction l as [|a l IH]; intros m Hl Hm H; cbn; auto.
  inversion Hl as [|? ? Hl' HF]; subst. constructor.
  - apply IH; auto. intros. apply H; auto. now right.
  - apply Forall_app. split; auto. apply Forall_forall. intros b Hb. apply H; auto. now left.
Qed.

Lemma rev_sorted : forall l, StronglySorted Rge l -> StronglySorted Rle (rev l).
Proof.
  induction l as [|a l IH]; intros HS; cbn; [constructor|].
  inversion HS as [|? ? HS' HF]; subst.
  apply StronglySorted_app; auto; [repeat constructor|].
  intros x b Hx [<-|[]]. rewrite Forall_forall in HF. apply in_rev in Hx. specialize (HF _ Hx). lra.
Qed.

Lemma nth_error_rev : forall A (l : list A) i, i < length l ->
  nth_error (rev l) i = nth_error l (length l - 1 - i).
Proof.
  induction l as [|a l IH]; intros i Hi; cbn [length] in *; [lia|]. cbn [rev].
  destruct (Nat.eq_dec i (length l)) as [->|Hne].
  - rewrite nth_error_app2 by (rewrite rev_length; lia). rewrite rev_length, Nat.sub_diag.
    replace (S (length l) - 1 - length l) with 0 by lia. reflexivity.
  - rewrite nth_error_app1 by (rewrite rev_length; lia). rewrite IH by lia.
    replace (S (length l) - 1 - i) with (S (length l - 1 - i)) by lia. reflexivity.
Qed.

Lemma nth_error_nth_lt : forall A (l : list A) i d, i < length l -> nth_error l i = Some (nth i l d).
Proof. intros. now apply nth_error_nth'. Qed.

Lemma median_is_median : forall t : tensor R, data t <> [] ->
  exists v, median t = Ok v /\ is_median (data t) v.
Proof.
  intros t Hne. unfold median. set (l := data t) in *.
  assert (Hn : length l <> 0) by (destruct l; cbn; congruence).
  replace (length l =? 0) with false by (symmetry; now apply Nat.eqb_neq).
  pose proof (top_k_length l) as HL. pose proof (top_k_sorted l) as HS. pose proof (top_k_perm l) as HP.
  set (s := top_k_all l) in *. set (n := length l) in *.
  pose proof (Nat.div_mod n 2 ltac:(lia)) as HD. pose proof (Nat.mod_upper_bound n 2 ltac:(lia)) as HM.
  assert (Hodd : Nat.odd n = (n mod 2 =? 1)).
  { rewrite <- Nat.bit0_odd, Nat.bit0_eqb. reflexivity. }
  destruct (n mod 2 =? 1) eqn:E.
  - apply Nat.eqb_eq in E. eexists; split; [reflexivity|].
    exists (rev s). split; [now rewrite <- Permutation_rev, HP|]. split; [now apply rev_sorted|].
    fold n. rewrite Hodd. split; [intros _|discriminate].
    rewrite nth_error_rev by lia. rewrite HL.
    replace (n - 1 - n / 2) with (n / 2) by lia. rewrite (nth_error_nth_lt _ s (n/2) n0) by lia. reflexivity.
  - apply Nat.eqb_neq in E. eexists; split; [reflexivity|].
    exists (rev s). split; [now rewrite <- Permutation_rev, HP|]. split; [now apply rev_sorted|].
    fold n. rewrite Hodd. split; [discriminate|intros _].
    exists (nth (n / 2) s n0), (nth (n / 2 - 1) s n0).
    rewrite !nth_error_rev by lia. rewrite HL.
    replace (n - 1 - (n / 2 - 1)) with (n / 2) by lia.
    replace (n - 1 - n / 2) with (n / 2 - 1) by lia.
    rewrite (nth_error_nth_lt _ s (n/2) n0), (nth_error_nth_lt _ s (n/2-1) n0) by lia.
    rewrite n2_R. cbn. split; [reflexivity|]. split; [reflexivity|]. lra.
Qed.

Lemma StronglySorted_nth : forall (s : list R) i j a b, StronglySorted Rle s ->
  i <= j -> nth_error s i = Some a -> nth_error s j = Some b -> (a <= b)%R.
Proof.
  induction s as [|x s IH]; intros i j a b HS Hij Ha Hb.
  - destruct i; discriminate.
  - inversion HS as [|? ? HS' HF]; subst. destruct i, j; cbn in *; try lia.
    + injection Ha as <-. injection Hb as <-. lra.
    + injection Ha as <-. rewrite Forall_forall in HF. apply HF. eapply nth_error_In; eauto.
    + eapply (IH i j); eauto. lia.
Qed.

Lemma count_perm : forall P dec l m, Permutation l m -> count P dec l = count P dec m.
Proof.
  intros P dec l m HP. unfold count. induction HP; cbn; auto; try congruence.
  - destruct (dec x); cbn; congruence.
  - destruct (dec x), (dec y); cbn; congruence.
Qed.

Lemma count_app : forall P dec l m, count P dec (l ++ m) = count P dec l + count P dec m.
Proof. intros. unfold count. now rewrite filter_app, app_length. Qed.

Lemma count_all : forall P dec l, Forall P l -> count P dec l = length l.
Proof.
  intros P dec l H. unfold count. induction H; cbn; auto. destruct (dec x); cbn; [congruence|tauto].
Qed.

Lemma nth_error_skipn : forall A k (l : list A) i, nth_error (skipn k l) i = nth_error l (k + i).
Proof.
  induction k; intros; cbn; auto. destruct l; cbn; auto. now destruct i.
Qed.

Lemma half_below : forall s i v b, StronglySorted Rle s -> nth_error s i = Some b -> (b <= v)%R ->
  S i <= count (fun x => x <= v)%R (fun x => Rle_dec x v) s.
Proof.
  intros s i v b HS Hi Hb.
  assert (Hlen : i < length s) by (apply nth_error_Some; congruence).
  rewrite <- (firstn_skipn (S i) s), count_app.
  rewrite (count_all _ _ (firstn (S i) s)).
  - rewrite firstn_length. lia.
  - apply Forall_forall. intros x Hx. apply In_nth_error in Hx as [j Hj].
    assert (j < S i).
    { assert (j < length (firstn (S i) s)) by (apply nth_error_Some; congruence).
      rewrite firstn_length in H. lia. }
    rewrite nth_error_firstn in Hj by auto.
    pose proof (StronglySorted_nth s j i x b HS ltac:(lia) Hj Hi). lra.
Qed.

Lemma half_above : forall s i v a, StronglySorted Rle s -> nth_error s i = Some a -> (v <= a)%R ->
  length s - i <= count (fun x => x >= v)%R (fun x => Rge_dec x v) s.
Proof.
  intros s i v a HS Hi Ha.
  rewrite <- (firstn_skipn i s) at 2. rewrite count_app.
  rewrite (count_all _ _ (skipn i s)).
  - rewrite skipn_length. lia.
  - apply Forall_forall. intros x Hx. apply In_nth_error in Hx as [j Hj].
    rewrite nth_error_skipn in Hj.
    pose proof (StronglySorted_nth s i (i + j) a x HS ltac:(lia) Hi Hj). lra.
Qed.

Lemma median_halves : forall l v, l <> [] -> is_median l v ->
  length l <= 2 * count (fun x => x <= v)%R (fun x => Rle_dec x v) l /\
  length l <= 2 * count (fun x => x >= v)%R (fun x => Rge_dec x v) l.
Proof.
  intros l v Hne (s & HP & HS & Ho & He).
  rewrite <- (count_perm _ _ _ _ HP), <- (count_perm _ _ _ _ HP).
  pose proof (Permutation_length HP) as HL.
  assert (Hn : length l <> 0) by (destruct l; cbn; congruence).
  pose proof (Nat.div_mod (length l) 2 ltac:(lia)) as HD.
  pose proof (Nat.mod_upper_bound (length l) 2 ltac:(lia)) as HM.
  assert (Hodd : Nat.odd (length l) = (length l mod 2 =? 1)).
  { rewrite <- Nat.bit0_odd, Nat.bit0_eqb. reflexivity. }
  rewrite Hodd in *. destruct (length l mod 2 =? 1) eqn:E.
  - apply Nat.eqb_eq in E. specialize (Ho eq_refl).
    pose proof (half_below s _ v v HS Ho (Rle_refl _)). pose proof (half_above s _ v v HS Ho (Rle_refl _)). lia.
  - apply Nat.eqb_neq in E. destruct (He eq_refl) as (a & b & Ha & Hb & ->).
    pose proof (StronglySorted_nth s (length l / 2 - 1) (length l / 2) a b HS ltac:(lia) Ha Hb) as Hab.
    pose proof (half_below s _ ((a + b) / 2) a HS Ha ltac:(lra)).
    pose proof (half_above s _ ((a + b) / 2) b HS Hb ltac:(lra)). lia.
Qed.

(** Sorted permutations are unique. *)
Lemma sorted_unique : forall l m : list R, StronglySorted Rge l -> StronglySorted Rge m ->
  Permutation l m -> l = m.
Proof.
  induction l as [|a l IH]; intros m Hl Hm HP.
  - now apply Permutation_nil in HP.
  - destruct m as [|b m]; [apply Permutation_sym, Permutation_nil in HP; discriminate|].
    inversion Hl as [|? ? Hl' HFl]; subst. inversion Hm as [|? ? Hm' HFm]; subst.
    rewrite Forall_forall in HFl, HFm.
    assert (a = b).
    { assert (Ha : In a (b :: m)) by (eapply Permutation_in; [exact HP|now left]).
      assert (Hb : In b (a :: l)) by (eapply Permutation_in; [symmetry; exact HP|now left]).
      destruct Ha as [->|Ha]; auto. destruct Hb as [->|Hb]; auto.
      specialize (HFl _ Hb). specialize (HFm _ Ha). lra. }
    subst b. f_equal. apply IH; auto. eapply Permutation_cons_inv; eauto.
Qed.

Lemma median_perm : forall t1 t2 : tensor R, Permutation (data t1) (data t2) -> median t1 = median t2.
Proof.
  intros t1 t2 HP. unfold median. rewrite (Permutation_length HP).
  replace (top_k_all (data t1)) with (top_k_all (data t2)); auto.
  apply sorted_unique; try apply top_k_sorted.
  now rewrite <- !top_k_perm, HP.
Qed.

(** The median of the model is the only median. *)
Lemma rev_sorted_ge : forall l, StronglySorted Rle l -> StronglySorted Rge (rev l).
Proof.
  induction l as [|a l IH]; intros HS; cbn; [constructor|].
  inversion HS as [|? ? HS' HF]; subst.
  apply StronglySorted_app; auto; [repeat constructor|].
  intros x b Hx [<-|[]]. rewrite Forall_forall in HF. apply in_rev in Hx. specialize (HF _ Hx). lra.
Qed.
Lemma is_median_unique : forall l v w, is_median l v -> is_median l w -> v = w.
Proof.
  intros l v w (s1 & P1 & S1 & O1 & E1) (s2 & P2 & S2 & O2 & E2).
  assert (s1 = s2).
  { rewrite <- (rev_involutive s1), <- (rev_involutive s2). f_equal.
    apply sorted_unique; try (now apply rev_sorted_ge).
    rewrite <- !Permutation_rev. now rewrite P1, P2. }
  subst s2. destruct (Nat.odd (length l)) eqn:E.
  - specialize (O1 eq_refl). specialize (O2 eq_refl). congruence.
  - destruct (E1 eq_refl) as (a & b & A1 & A2 & ->). destruct (E2 eq_refl) as (c & d & B1 & B2 & ->).
    congruence.
Qed.
