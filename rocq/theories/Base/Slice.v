(** Python's extended slices [l[start:stop:step]] on lists. *)
From Coq Require Import List Arith ZArith Lia Bool.
From Verif.Base Require Import Py Vec.
Import ListNotations.
Local Open Scope Z_scope.

(** PySlice_Unpack and PySlice_AdjustIndices: bounds for a sequence of length n. *)
Definition slice_bound (st n v : Z) : Z :=
  if v <? 0 then (if v + n <? 0 then (if st <? 0 then -1 else 0) else v + n)
  else if n <=? v then (if st <? 0 then n - 1 else n) else v.
Definition slice_lo (start : option Z) (st n : Z) : Z :=
  match start with Some v => slice_bound st n v | None => if st <? 0 then n - 1 else 0 end.
Definition slice_hi (stop : option Z) (st n : Z) : Z :=
  match stop with Some v => slice_bound st n v | None => if st <? 0 then -1 else n end.
Definition slice_count (lo hi st : Z) : nat :=
  Z.to_nat (if st <? 0 then (if hi <? lo then (lo - hi - 1) / (- st) + 1 else 0)
            else (if lo <? hi then (hi - lo - 1) / st + 1 else 0)).
Record slice := Slice { sl_start : option Z; sl_stop : option Z; sl_step : option Z }.

Definition step_of (s : slice) : Z := match sl_step s with Some v => v | None => 1 end.
Definition kept (s : slice) (n : nat) : nat :=
  slice_count (slice_lo (sl_start s) (step_of s) (Z.of_nat n)) (slice_hi (sl_stop s) (step_of s) (Z.of_nat n)) (step_of s).
Definition py_slice {A} (s : slice) (l : list A) : res (list A) :=
  if step_of s =? 0 then Raise ValueError
  else
    let lo := slice_lo (sl_start s) (step_of s) (Z.of_nat (length l)) in
    Ok (flat_map (fun k => match nth_error l (Z.to_nat (lo + Z.of_nat k * step_of s)) with Some a => [a] | None => [] end)
                 (seq 0 (kept s (length l)))).

Lemma bound_range : forall st n v, 0 <= n -> st <> 0 ->
  (st < 0 -> -1 <= slice_bound st n v <= n - 1) /\ (0 < st -> 0 <= slice_bound st n v <= n).
Proof.
  intros st n v Hn Hst. unfold slice_bound.
  destruct (Z.ltb_spec v 0), (Z.ltb_spec (v + n) 0), (Z.ltb_spec st 0), (Z.leb_spec n v); lia.
Qed.
Lemma lo_range : forall o st n, 0 <= n -> st <> 0 ->
  (st < 0 -> -1 <= slice_lo o st n <= n - 1) /\ (0 < st -> 0 <= slice_lo o st n <= n).
Proof.
  intros [v|] st n Hn Hst; cbn [slice_lo]; [now apply bound_range|]. destruct (Z.ltb_spec st 0); lia.
Qed.
Lemma hi_range : forall o st n, 0 <= n -> st <> 0 ->
  (st < 0 -> -1 <= slice_hi o st n <= n - 1) /\ (0 < st -> 0 <= slice_hi o st n <= n).
Proof.
  intros [v|] st n Hn Hst; cbn [slice_hi]; [now apply bound_range|]. destruct (Z.ltb_spec st 0); lia.
Qed.

(** Indices of a slice are within the list. *)
Lemma count_index : forall lo hi st k, st <> 0 -> (k < slice_count lo hi st)%nat ->
  (0 < st -> lo <= lo + Z.of_nat k * st < hi) /\ (st < 0 -> hi < lo + Z.of_nat k * st <= lo).
Proof.
  intros lo hi st k Hst Hk. unfold slice_count in Hk. destruct (Z.ltb_spec st 0) as [Hs|Hs].
  - destruct (Z.ltb_spec hi lo) as [Hl|Hl]; [|cbn in Hk; lia]. split; [lia|intros _].
    assert (Hq : Z.of_nat k <= (lo - hi - 1) / - st).
    { assert (0 <= (lo - hi - 1) / - st) by (apply Z.div_pos; lia). lia. }
    pose proof (Z.mul_div_le (lo - hi - 1) (- st) ltac:(lia)). nia.
  - destruct (Z.ltb_spec lo hi) as [Hl|Hl]; [|cbn in Hk; lia]. split; [intros _|lia].
    assert (Hq : Z.of_nat k <= (hi - lo - 1) / st).
    { assert (0 <= (hi - lo - 1) / st) by (apply Z.div_pos; lia). lia. }
    pose proof (Z.mul_div_le (hi - lo - 1) st ltac:(lia)). nia.
Qed.

Lemma flat_map_singletons : forall A (f : nat -> option A) ks,
  (forall k, In k ks -> f k <> None) ->
  forall i, nth_error (flat_map (fun k => match f k with Some a => [a] | None => [] end) ks) i =
            match nth_error ks i with Some k => f k | None => None end.
Proof.
  induction ks as [|k ks IH]; intros H i; [now destruct i|]. cbn [flat_map].
  destruct (f k) as [a|] eqn:E; [|exfalso; apply (H k); [now left|auto]].
  destruct i; cbn; [auto|]. apply IH. intros k' Hk'. apply H. now right.
Qed.

Lemma nth_error_seq0 : forall n i, nth_error (seq 0 n) i = if (i <? n)%nat then Some i else None.
Proof.
  intros n i. destruct (Nat.ltb_spec i n).
  - rewrite (nth_error_nth' _ 0%nat) by (now rewrite seq_length). now rewrite seq_nth.
  - apply nth_error_None. now rewrite seq_length.
Qed.

Lemma py_slice_nth : forall A (s : slice) (l l' : list A), py_slice s l = Ok l' ->
  length l' = kept s (length l) /\
  forall k, (k < kept s (length l))%nat ->
    let i := slice_lo (sl_start s) (step_of s) (Z.of_nat (length l)) + Z.of_nat k * step_of s in
    0 <= i < Z.of_nat (length l) /\ nth_error l' k = nth_error l (Z.to_nat i).
Proof.
  intros A s l l' H. unfold py_slice in H. destruct (Z.eqb_spec (step_of s) 0) as [|Hst]; [discriminate|].
  injection H as <-. set (n := Z.of_nat (length l)). set (st := step_of s) in *.
  assert (HR : forall k, (k < kept s (length l))%nat ->
     0 <= slice_lo (sl_start s) st n + Z.of_nat k * st < n).
  { intros k Hk. unfold kept in Hk. fold n st in Hk. apply count_index in Hk as [K1 K2]; [|exact Hst].
    pose proof (lo_range (sl_start s) st n ltac:(lia) Hst). pose proof (hi_range (sl_stop s) st n ltac:(lia) Hst). lia. }
  set (f := fun k => nth_error l (Z.to_nat (slice_lo (sl_start s) st n + Z.of_nat k * st))).
  assert (HN : forall i, nth_error (flat_map (fun k => match f k with Some a => [a] | None => [] end) (seq 0 (kept s (length l)))) i =
     if (i <? kept s (length l))%nat then f i else None).
  { intros i. rewrite flat_map_singletons.
    - rewrite nth_error_seq0. now destruct (_ <? _)%nat.
    - intros k Hk. apply in_seq in Hk. unfold f. apply nth_error_Some. specialize (HR k ltac:(lia)). lia. }
  split.
  - set (L := flat_map _ _). change L with (flat_map (fun k => match f k with Some a => [a] | None => [] end) (seq 0 (kept s (length l)))).
    assert (forall m (l0 : list A), (forall i, (i < m)%nat -> nth_error l0 i <> None) -> nth_error l0 m = None -> length l0 = m) as HL.
    { intros m l0 H1 H2. apply nth_error_None in H2. destruct (Nat.eq_dec (length l0) m); auto. exfalso.
      apply (H1 (length l0)); [lia|]. apply nth_error_None. lia. }
    apply HL.
    + intros i Hi. rewrite HN. destruct (Nat.ltb_spec i (kept s (length l))); [|lia].
      unfold f. apply nth_error_Some. specialize (HR i Hi). lia.
    + rewrite HN. now rewrite Nat.ltb_irrefl.
  - intros k Hk. split; [now apply HR|]. rewrite HN. destruct (Nat.ltb_spec k (kept s (length l))); [reflexivity|lia].
Qed.

(** [l[b::t]] for b >= 0, t >= 1 picks positions b, b+t, ... *)
Lemma py_slice_from : forall A (b t : nat) (l : list A), (0 < t)%nat ->
  exists l', py_slice (Slice (Some (Z.of_nat b)) None (Some (Z.of_nat t))) l = Ok l' /\
  forall k, nth_error l' k = nth_error l (b + k * t).
Proof.
  intros A b t l Ht. set (s := Slice _ _ _).
  destruct (py_slice s l) as [l'|e] eqn:E.
  2: { unfold py_slice in E. cbn [step_of s sl_step] in E. destruct (Z.eqb_spec (Z.of_nat t) 0); [lia|discriminate]. }
  exists l'. split; auto. destruct (py_slice_nth _ _ _ _ E) as [HL HN]. intros k.
  assert (HK : kept s (length l) = Z.to_nat (if Z.of_nat b <? Z.of_nat (length l)
             then (Z.of_nat (length l) - Z.of_nat b - 1) / Z.of_nat t + 1 else 0)).
  { unfold kept, slice_count, slice_lo, slice_hi, slice_bound. cbn [s sl_start sl_stop sl_step step_of].
    destruct (Z.ltb_spec (Z.of_nat t) 0); [lia|]. destruct (Z.ltb_spec (Z.of_nat b) 0); [lia|].
    destruct (Z.leb_spec (Z.of_nat (length l)) (Z.of_nat b)).
    - rewrite Z.ltb_irrefl. destruct (Z.ltb_spec (Z.of_nat b) (Z.of_nat (length l))); [lia|reflexivity].
    - reflexivity. }
  destruct (Nat.lt_ge_cases k (kept s (length l))) as [Hk|Hk].
  - destruct (HN k Hk) as [Hi ->]. f_equal. cbn [s sl_start step_of sl_step] in *.
    assert (Hb : (b < length l)%nat).
    { rewrite HK in Hk. destruct (Z.ltb_spec (Z.of_nat b) (Z.of_nat (length l))); [lia|cbn in Hk; lia]. }
    unfold slice_lo, slice_bound in *. destruct (Z.ltb_spec (Z.of_nat b) 0); [lia|].
    destruct (Z.leb_spec (Z.of_nat (length l)) (Z.of_nat b)); lia.
  - rewrite (proj2 (nth_error_None l' k)) by lia. symmetry. apply nth_error_None.
    rewrite HK in Hk. destruct (Z.ltb_spec (Z.of_nat b) (Z.of_nat (length l))); [|lia].
    pose proof (Z.mul_succ_div_gt (Z.of_nat (length l) - Z.of_nat b - 1) (Z.of_nat t) ltac:(lia)).
    assert (0 <= (Z.of_nat (length l) - Z.of_nat b - 1) / Z.of_nat t) by (apply Z.div_pos; lia). nia.
Qed.

Lemma nth_error_ext' : forall A (l m : list A), length l = length m ->
  (forall k, (k < length l)%nat -> nth_error l k = nth_error m k) -> l = m.
Proof.
  intros A l m HL H. apply nth_error_ext. intros k. destruct (Nat.lt_ge_cases k (length l)) as [Hk|Hk]; [auto|].
  rewrite !(proj2 (nth_error_None _ _)); auto; lia.
Qed.

(** A slice that keeps as many elements as there are keeps them all, in order or
    reversed. *)
Lemma py_slice_full : forall A (s : slice) (l l' : list A), py_slice s l = Ok l' ->
  length l' = length l -> l' = l \/ l' = rev l.
Proof.
  intros A s l l' H HL. destruct (py_slice_nth _ _ _ _ H) as [HK HN]. rewrite HL in HK.
  unfold py_slice in H. destruct (Z.eqb_spec (step_of s) 0) as [|Hst]; [discriminate|]. clear H.
  destruct (length l) as [|[|n]] eqn:En.
  - left. destruct l, l'; auto; discriminate.
  - left. destruct l as [|a [|]]; try discriminate. destruct l' as [|b [|]]; try discriminate.
    destruct (HN 0%nat ltac:(lia)) as [Hi Hn]. revert Hi Hn. generalize (slice_lo (sl_start s) (step_of s) (Z.of_nat 1) + Z.of_nat 0 * step_of s).
    intros i Hi Hn. assert (i = 0) as -> by lia. cbn in Hn. congruence.
  - set (m := S (S n)) in *. set (lo := slice_lo (sl_start s) (step_of s) (Z.of_nat m)) in *. set (st := step_of s) in *.
    pose proof (HN 0%nat ltac:(lia)) as [H0 _]. pose proof (HN (m - 1)%nat ltac:(lia)) as [H1 _].
    assert (Z.of_nat (m - 1) = Z.of_nat m - 1) as E1 by lia. rewrite E1 in H1.
    assert (st = 1 /\ lo = 0 \/ st = -1 /\ lo = Z.of_nat m - 1) as [[S1 L1]|[S1 L1]] by nia.
    + left. apply nth_error_ext'. congruence.
      intros k Hk. rewrite HL in Hk. destruct (HN k ltac:(lia)) as [_ ->]. f_equal. lia.
    + right. apply nth_error_ext'. rewrite rev_length; congruence.
      intros k Hk. rewrite HL in Hk. destruct (HN k ltac:(lia)) as [_ ->].
      destruct l as [|a0 l0]; [discriminate|]. set (l := a0 :: l0) in *.
      rewrite !(nth_error_nth' _ a0) by (rewrite ?rev_length; lia). f_equal. rewrite rev_nth by lia. f_equal. lia.
Qed.

Lemma py_slice_incl : forall A (s : slice) (l l' : list A), py_slice s l = Ok l' -> incl l' l.
Proof.
  intros A s l l' H a Ha. unfold py_slice in H. destruct (step_of s =? 0); [discriminate|]. injection H as <-.
  apply in_flat_map in Ha as (k & _ & Ha).
  destruct (nth_error l _) as [x|] eqn:E; [|destruct Ha]. destruct Ha as [<-|[]]. eapply nth_error_In; eauto.
Qed.

Lemma py_slice_reverse : forall A (l : list A), py_slice (Slice None None (Some (-1))) l = Ok (rev l).
Proof.
  intros A l. set (s := Slice _ _ _). destruct (py_slice s l) as [l'|] eqn:E; [|discriminate].
  destruct (py_slice_nth _ _ _ _ E) as [HL HN]. f_equal.
  assert (HK : kept s (length l) = length l).
  { unfold kept, slice_count. cbn [s sl_start sl_stop sl_step step_of slice_lo slice_hi]. cbn [Z.ltb Z.compare Z.opp].
    destruct (Z.ltb_spec (-1) (Z.of_nat (length l) - 1)); rewrite ?Z.div_1_r; lia. }
  rewrite HK in *. apply nth_error_ext'; [now rewrite rev_length|]. intros k Hk. rewrite HL in Hk.
  destruct (HN k Hk) as [Hi ->]. cbn [s sl_start sl_step step_of slice_lo] in *. cbn [Z.ltb Z.compare] in *.
  destruct l as [|a l0]; [cbn in Hk; lia|]. set (l := a :: l0) in *.
  rewrite !(nth_error_nth' _ a) by (rewrite ?rev_length; lia). f_equal. rewrite rev_nth by lia. f_equal. lia.
Qed.
