(** Lemmas for C84: averaging over shuffles. *)
From Coq Require Import List Arith Lia Reals Lra Bool Permutation.
From Verif.Base Require Import Py Lists Vec.
From Verif.Model Require Import DataBatches.
From Verif.Spec Require Import Batches Coverage Shuffle.
From Verif.Proofs Require Import Batches Shuffle.
From Verif.Props Require Import PCoverage.
Import ListNotations.
Local Open Scope R_scope.

(** *** Sums *)
Lemma total_flat : forall A B (F : B -> R) (g : A -> list B) l, total F (flat_map g l) = total (fun a => total F (g a)) l.
Proof. induction l as [|a l IH]; [reflexivity|]. cbn [flat_map]. now rewrite total_app, total_cons, IH. Qed.
Lemma total_const : forall A c (l : list A), total (fun _ => c) l = INR (length l) * c.
Proof. induction l as [|a l IH]; [cbn; ring|]. rewrite total_cons, IH. cbn [length]. rewrite S_INR. ring. Qed.
Lemma total_minus : forall A f g (l : list A), total (fun a => f a - g a) l = total f l - total g l.
Proof. induction l; rewrite ?total_nil, ?total_cons, ?IHl; ring. Qed.
Lemma total_ge : forall A f (l : list A) lo, (forall a, In a l -> lo <= f a) -> INR (length l) * lo <= total f l.
Proof.
  induction l as [|a l IH]; intros lo H; [cbn; lra|]. rewrite total_cons. cbn [length]. rewrite S_INR.
  specialize (IH lo (fun x Hx => H x (or_intror Hx))). specialize (H a (or_introl eq_refl)). lra.
Qed.
Lemma total_le : forall A f (l : list A) hi, (forall a, In a l -> f a <= hi) -> total f l <= INR (length l) * hi.
Proof.
  induction l as [|a l IH]; intros hi H; [cbn; lra|]. rewrite total_cons. cbn [length]. rewrite S_INR.
  specialize (IH hi (fun x Hx => H x (or_intror Hx))). specialize (H a (or_introl eq_refl)). lra.
Qed.
Lemma total_ge_one : forall A f (l : list A) lo x, (forall a, In a l -> lo <= f a) -> In x l ->
  INR (length l) * lo + (f x - lo) <= total f l.
Proof.
  induction l as [|a l IH]; intros lo x H Hx; [destruct Hx|]. rewrite total_cons. cbn [length]. rewrite S_INR.
  destruct Hx as [->|Hx].
  - pose proof (total_ge _ f l lo (fun x Hx => H x (or_intror Hx))). lra.
  - specialize (IH lo x (fun x Hx => H x (or_intror Hx)) Hx). specialize (H a (or_introl eq_refl)). lra.
Qed.
Lemma total_mono : forall A f g (l : list A), (forall a, In a l -> f a <= g a) -> total f l <= total g l.
Proof.
  induction l as [|a l IH]; intros H; [cbn; lra|]. rewrite !total_cons.
  specialize (IH (fun x Hx => H x (or_intror Hx))). specialize (H a (or_introl eq_refl)). lra.
Qed.
Lemma total_abs : forall A f (l : list A), Rabs (total f l) <= total (fun a => Rabs (f a)) l.
Proof.
  induction l as [|a l IH]; [cbn; rewrite Rabs_R0; lra|]. rewrite !total_cons.
  eapply Rle_trans; [apply Rabs_triang|]. lra.
Qed.
Lemma total_nth : forall (l : list R), total (fun r => nth r l 0) (seq 0 (length l)) = total (fun x => x) l.
Proof.
  induction l as [|a l IH]; [reflexivity|]. cbn [length seq]. rewrite !total_cons. cbn [nth].
  rewrite <- seq_shift, total_map. cbn [nth]. now rewrite IH.
Qed.

(** Weighted sums of the entries of a list. *)
Definition dots (a : nat -> R) (l : list R) (s w : nat) : R := total (fun r => a r * nth r l 0) (seq s w).
Definition dot (a : nat -> R) (l : list R) : R := dots a l 0 (length l).
Lemma dot_split : forall a l s w, (s + w <= length l)%nat ->
  dot a l = dots a l 0 s + dots a l s w + dots a l (s + w) (length l - s - w).
Proof.
  intros a l s w H. unfold dot, dots. replace (length l) with (s + (w + (length l - s - w)))%nat at 1 by lia.
  rewrite !seq_app, !total_app. cbn [plus]. ring.
Qed.
Lemma dots_ext : forall a l l' s w, (forall r, (s <= r < s + w)%nat -> nth r l 0 = nth r l' 0) -> dots a l s w = dots a l' s w.
Proof. intros a l l' s w H. apply total_ext. intros r Hr. apply in_seq in Hr. now rewrite H. Qed.
Lemma dots_S : forall a l s w, dots a l s (S w) = dots a l s w + a (s + w)%nat * nth (s + w) l 0.
Proof. intros. unfold dots. rewrite seq_S, total_app, total_cons, total_nil. ring. Qed.
Lemma dots_one : forall l s w, dots (fun _ => 1) l s w = total (fun r => nth r l 0) (seq s w).
Proof. intros. apply total_ext. intros. ring. Qed.

Lemma nth_swap : forall i j (l : list R) k, (i < length l)%nat -> (j < length l)%nat ->
  nth k (swap i j l) 0 = if (k =? i)%nat then nth j l 0 else if (k =? j)%nat then nth i l 0 else nth k l 0.
Proof.
  intros i j l k Hi Hj. rewrite <- !nth_default_eq. unfold nth_default. rewrite nth_error_swap by assumption.
  destruct (k =? i)%nat; [reflexivity|]. destruct (k =? j)%nat; reflexivity.
Qed.
Lemma sum_swap : forall i j l s w, (s <= i < s + w)%nat -> (s <= j < s + w)%nat -> (s + w <= length l)%nat ->
  dots (fun _ => 1) (swap i j l) s w = dots (fun _ => 1) l s w.
Proof.
  intros i j l s w Hi Hj H.
  pose proof (dot_split (fun _ => 1) l s w H) as E1.
  pose proof (dot_split (fun _ => 1) (swap i j l) s w) as E2. rewrite swap_length in E2. specialize (E2 H).
  unfold dot in E1, E2. rewrite swap_length in E2.
  rewrite dots_one, total_nth in E1. rewrite dots_one in E2. rewrite <- (swap_length _ i j) in E2 at 1. rewrite total_nth in E2.
  rewrite (total_perm _ _ _ _ (swap_perm _ i j l)) in E2.
  rewrite (dots_ext _ (swap i j l) l 0 s) in E2.
  2:{ intros r Hr. rewrite nth_swap by lia. destruct (Nat.eqb_spec r i); [lia|]. destruct (Nat.eqb_spec r j); [lia|]. reflexivity. }
  rewrite (dots_ext _ (swap i j l) l (s + w)) in E2.
  2:{ intros r Hr. rewrite nth_swap by lia. destruct (Nat.eqb_spec r i); [lia|]. destruct (Nat.eqb_spec r j); [lia|]. reflexivity. }
  lra.
Qed.

(** *** Averaging one shuffle: every place of the window gets the window's mean. *)
Lemma average_shuffle : forall i off a l, (off + i < length l)%nat ->
  total (fun c => dot a (shuffle_by off i c l)) (orders i) =
  INR (fact (S i)) * (dot a l - dots a l off (S i) + total a (seq off (S i)) * dots (fun _ => 1) l off (S i) / INR (S i)).
Proof.
  induction i as [|i IH]; intros off a l H.
  - cbn [orders shuffle_by]. rewrite total_cons, total_nil. unfold dots. cbn [seq fact]. rewrite !total_cons, !total_nil.
    cbn. field.
  - cbn [orders]. rewrite total_flat.
    set (m := INR (S i)). assert (Pm : 0 < m) by (apply lt_0_INR; lia).
    set (Sa := total a (seq off (S (S i)))). set (Sl := dots (fun _ => 1) l off (S (S i))).
    set (ai := a (off + S i)%nat).
    rewrite (total_ext _ _ (fun j => INR (fact (S i)) *
      (dot a l - dots a l off (S (S i)) + (ai * nth (off + j) l 0 + (Sa - ai) * (Sl - nth (off + j) l 0) / m)))).
    2:{ intros j Hj. apply in_seq in Hj. rewrite total_map. cbn [shuffle_by].
        rewrite IH by (rewrite swap_length; lia). f_equal.
        set (l' := swap (off + S i) (off + j) l).
        assert (Hl' : length l' = length l) by apply swap_length.
        assert (Ei : nth (off + S i) l' 0 = nth (off + j) l 0).
        { unfold l'. rewrite nth_swap by lia. now rewrite Nat.eqb_refl. }
        assert (EQ1 : dot a l' - dots a l' off (S i) = dot a l - dots a l off (S (S i)) + ai * nth (off + j) l 0).
        { rewrite (dot_split a l' off (S (S i))) by lia. rewrite (dot_split a l off (S (S i))) by lia. rewrite Hl'.
          rewrite (dots_ext _ l' l 0 off), (dots_ext _ l' l (off + S (S i))).
          - rewrite (dots_S a l' off (S i)), Ei. fold ai. ring.
          - intros r Hr. unfold l'. rewrite nth_swap by lia. destruct (Nat.eqb_spec r (off + S i)); [lia|]. destruct (Nat.eqb_spec r (off + j)); [lia|]. reflexivity.
          - intros r Hr. unfold l'. rewrite nth_swap by lia. destruct (Nat.eqb_spec r (off + S i)); [lia|]. destruct (Nat.eqb_spec r (off + j)); [lia|]. reflexivity. }
        assert (EQ2 : total a (seq off (S i)) = Sa - ai).
        { unfold Sa. rewrite (seq_S (S i)), total_app, total_cons, total_nil. fold ai. ring. }
        assert (EQ3 : dots (fun _ => 1) l' off (S i) = Sl - nth (off + j) l 0).
        { unfold Sl. rewrite <- (sum_swap (off + S i) (off + j) l off (S (S i))) by lia. fold l'.
          rewrite (dots_S _ l' off (S i)), Ei. ring. }
        rewrite EQ1, EQ2, EQ3. unfold m. ring. }
    rewrite total_scal. change (fact (S (S i))) with (S (S i) * fact (S i))%nat. rewrite mult_INR.
    rewrite (Rmult_comm (INR (S (S i)))), Rmult_assoc. f_equal.
    rewrite total_plus, total_const, seq_length. rewrite Rmult_plus_distr_l. f_equal.
    rewrite total_plus, total_scal.
    rewrite (total_ext _ (fun a0 => (Sa - ai) * (Sl - nth (off + a0) l 0) / m) (fun j => (Sa - ai) / m * (Sl - nth (off + j) l 0))).
    2:{ intros. field. lra. }
    rewrite total_scal, total_minus, total_const, seq_length.
    replace (total (fun a0 => nth (off + a0) l 0) (seq 0 (S (S i)))) with Sl.
    2:{ unfold Sl. rewrite dots_one. rewrite <- (total_map _ _ (fun r => nth r l 0) (fun a0 => (off + a0)%nat)).
        f_equal. clear. induction (S (S i)) as [|k IHk]; [reflexivity|]. rewrite !seq_S, map_app, IHk. cbn. reflexivity. }
    replace (INR (S (S i))) with (m + 1) by (unfold m; rewrite <- S_INR; reflexivity). field. lra.
Qed.

(** *** Averaging one step: the position kernel. *)
Definition kernel (b M : nat) (g : nat -> R) (q : nat) : R :=
  total (fun s => if inside s b q then total g (seq s b) / INR b else g q) (seq 0 M) / INR M.

Lemma inside_sum : forall s b n F G, (s + b <= n)%nat ->
  total (fun q => if inside s b q then F q else G q) (seq 0 n) =
  total G (seq 0 n) - total G (seq s b) + total F (seq s b).
Proof.
  intros s b n F G H. rewrite (total_window F b s n H), (total_window G b s n H).
  rewrite <- total_minus, <- total_plus. apply total_ext. intros q _. destruct (inside s b q); ring.
Qed.
Lemma average_step : forall b g l, (1 <= b <= length l)%nat ->
  total (fun s => total (fun c => dot g (shuffle_by s (b - 1) c l)) (orders (b - 1))) (seq 0 (length l - b + 1)) =
  INR (length l - b + 1) * INR (fact b) * dot (kernel b (length l - b + 1) g) l.
Proof.
  intros b g l Hb. set (n := length l) in *. set (M := (n - b + 1)%nat).
  assert (PM : 0 < INR M) by (apply lt_0_INR; unfold M; lia). assert (Pb : 0 < INR b) by (apply lt_0_INR; lia).
  rewrite (total_ext _ _ (fun s => INR (fact b) * (dot g l - dots g l s b + total g (seq s b) * dots (fun _ => 1) l s b / INR b))).
  2:{ intros s Hs. apply in_seq in Hs. pose proof (average_shuffle (b - 1) s g l) as Q.
      replace (S (b - 1)) with b in Q by lia. apply Q. fold n. unfold M in Hs. lia. }
  rewrite total_scal. rewrite (Rmult_comm (INR M)), Rmult_assoc. f_equal.
  unfold dot at 2, dots at 3. fold n. unfold kernel.
  rewrite (total_ext _ (fun r => total (fun s => if inside s b r then total g (seq s b) / INR b else g r) (seq 0 M) / INR M * nth r l 0)
     (fun r => / INR M * total (fun s => if inside s b r then total g (seq s b) / INR b * nth r l 0 else g r * nth r l 0) (seq 0 M))).
  2:{ intros r _. rewrite (total_ext _ (fun s => if inside s b r then total g (seq s b) / INR b * nth r l 0 else g r * nth r l 0)
        (fun s => nth r l 0 * (if inside s b r then total g (seq s b) / INR b else g r))).
      - rewrite total_scal. field. lra.
      - intros s _. destruct (inside s b r); ring. }
  rewrite total_scal, <- Rmult_assoc, Rinv_r, Rmult_1_l by lra. rewrite total_exchange.
  apply total_ext. intros s Hs. apply in_seq in Hs. rewrite inside_sum by (unfold M in Hs; lia).
  rewrite total_scal. unfold dot, dots. fold n. rewrite (total_ext _ (fun r => 1 * nth r l 0) (fun r => nth r l 0)) by (intros; ring).
  field. lra.
Qed.

(** *** The kernel contracts *)
Section Contract.
Variables b n : nat.
Hypothesis Hb : (1 <= b <= n)%nat.
Let M := (n - b + 1)%nat.
Let K := kernel b M.
Let PM : 0 < INR M. Proof. apply lt_0_INR. unfold M. lia. Qed.
Let Pb : 0 < INR b. Proof. apply lt_0_INR. lia. Qed.

Definition within (lo hi : R) (g : nat -> R) : Prop := forall q, (q < n)%nat -> lo <= g q <= hi.

Lemma mean_within : forall lo hi g s, within lo hi g -> (s + b <= n)%nat -> lo <= total g (seq s b) / INR b <= hi.
Proof.
  intros lo hi g s Hg Hs.
  assert (H1 : INR b * lo <= total g (seq s b)).
  { rewrite <- (seq_length b s) at 1. apply total_ge. intros a Ha. apply in_seq in Ha. apply Hg. lia. }
  assert (H2 : total g (seq s b) <= INR b * hi).
  { rewrite <- (seq_length b s) at 2. apply total_le. intros a Ha. apply in_seq in Ha. apply Hg. lia. }
  split; apply (Rmult_le_reg_l (INR b)); auto; replace (INR b * (total g (seq s b) / INR b)) with (total g (seq s b)) by (field; lra); auto.
Qed.
Lemma term_within : forall lo hi g q s, within lo hi g -> (q < n)%nat -> (s < M)%nat ->
  lo <= (if inside s b q then total g (seq s b) / INR b else g q) <= hi.
Proof.
  intros lo hi g q s Hg Hq Hs. destruct (inside s b q); [|now apply Hg]. apply mean_within; [exact Hg|]. unfold M in Hs. lia.
Qed.
Lemma kernel_within : forall lo hi g, within lo hi g -> within lo hi (K g).
Proof.
  intros lo hi g Hg q Hq. unfold K, kernel.
  set (F := fun s => if inside s b q then total g (seq s b) / INR b else g q).
  assert (H1 : INR M * lo <= total F (seq 0 M)).
  { rewrite <- (seq_length M 0) at 1. apply total_ge. intros a Ha. apply in_seq in Ha. apply (term_within lo hi g q a Hg Hq). lia. }
  assert (H2 : total F (seq 0 M) <= INR M * hi).
  { rewrite <- (seq_length M 0) at 2. apply total_le. intros a Ha. apply in_seq in Ha. apply (term_within lo hi g q a Hg Hq). lia. }
  split; apply (Rmult_le_reg_l (INR M)); auto; replace (INR M * (total F (seq 0 M) / INR M)) with (total F (seq 0 M)) by (field; lra); auto.
Qed.
Let delta := / (INR M * INR b).
Let Pd : 0 < delta. Proof. apply Rinv_0_lt_compat, Rmult_lt_0_compat; auto. Qed.
Lemma delta_le_1 : delta <= 1.
Proof.
  unfold delta. rewrite <- Rinv_1. apply Rinv_le_contravar; [lra|].
  assert (1 <= INR M) by (change 1 with (INR 1); apply le_INR; unfold M; lia).
  assert (1 <= INR b) by (change 1 with (INR 1); apply le_INR; lia).
  rewrite <- (Rmult_1_l 1). apply Rmult_le_compat; lra.
Qed.
Lemma kernel_spreads : forall lo hi g q q', within lo hi g -> (2 <= b)%nat -> (q < n)%nat -> (q' < n)%nat ->
  (q <= S q')%nat -> (q' <= S q)%nat -> lo + delta * (g q' - lo) <= K g q.
Proof.
  intros lo hi g q q' Hg H2 Hq Hq' D1 D2.
  set (s0 := Nat.min (Nat.min q q') (M - 1)).
  assert (Hs0 : (s0 < M)%nat) by (unfold s0, M; lia).
  assert (Iq : inside s0 b q = true).
  { unfold inside. apply andb_true_intro. split; [apply Nat.leb_le|apply Nat.ltb_lt]; unfold s0, M; lia. }
  assert (Iq' : In q' (seq s0 b)) by (apply in_seq; unfold s0, M; lia).
  assert (T : lo + (g q' - lo) / INR b <= total g (seq s0 b) / INR b).
  { assert (B : INR b * lo + (g q' - lo) <= total g (seq s0 b)).
    { rewrite <- (seq_length b s0) at 1. apply total_ge_one; [|exact Iq']. intros a Ha. apply in_seq in Ha. apply Hg. unfold M in Hs0. lia. }
    apply (Rmult_le_reg_l (INR b)); auto.
    replace (INR b * (lo + (g q' - lo) / INR b)) with (INR b * lo + (g q' - lo)) by (field; lra).
    replace (INR b * (total g (seq s0 b) / INR b)) with (total g (seq s0 b)) by (field; lra). exact B. }
  unfold K, kernel. set (F := fun s => if inside s b q then total g (seq s b) / INR b else g q).
  assert (B : INR M * lo + (F s0 - lo) <= total F (seq 0 M)).
  { rewrite <- (seq_length M 0) at 1. apply total_ge_one; [|apply in_seq; lia].
    intros a Ha. apply in_seq in Ha. apply (term_within lo hi g q a Hg Hq). lia. }
  unfold F at 1 in B. rewrite Iq in B.
  apply (Rmult_le_reg_l (INR M)); auto. replace (INR M * (total F (seq 0 M) / INR M)) with (total F (seq 0 M)) by (field; lra).
  replace (INR M * (lo + delta * (g q' - lo))) with (INR M * lo + (g q' - lo) / INR b) by (unfold delta; field; lra).
  lra.
Qed.
Fixpoint iter_kernel (k : nat) (g : nat -> R) : nat -> R := match k with O => g | S k' => K (iter_kernel k' g) end.
Lemma iter_within : forall k lo hi g, within lo hi g -> within lo hi (iter_kernel k g).
Proof. induction k as [|k IH]; intros lo hi g Hg; [exact Hg|]. apply kernel_within, IH, Hg. Qed.
Lemma iter_plus : forall k j g, iter_kernel (k + j) g = iter_kernel k (iter_kernel j g).
Proof. induction k as [|k IH]; intros j g; [reflexivity|]. cbn [plus iter_kernel]. now rewrite IH. Qed.
Lemma iter_S : forall k g, iter_kernel (S k) g = iter_kernel k (K g).
Proof. intros k g. replace (S k) with (k + 1)%nat by lia. now rewrite iter_plus. Qed.
Lemma iter_spreads : forall k lo hi g q q', within lo hi g -> (2 <= b)%nat -> (q < n)%nat -> (q' < n)%nat ->
  (q <= k + q')%nat -> (q' <= k + q)%nat -> lo + delta ^ k * (g q' - lo) <= iter_kernel k g q.
Proof.
  induction k as [|k IH]; intros lo hi g q q' Hg H2 Hq Hq' D1 D2.
  - cbn [pow iter_kernel]. assert (q = q') by lia. subst q'. lra.
  - set (q'' := if (q =? q')%nat then q else if (q <? q')%nat then S q else (q - 1)%nat).
    assert (Hq'' : (q'' < n)%nat /\ (q <= S q'')%nat /\ (q'' <= S q)%nat /\ (q'' <= k + q')%nat /\ (q' <= k + q'')%nat).
    { unfold q''. destruct (Nat.eqb_spec q q'); [lia|]. destruct (Nat.ltb_spec q q'); lia. }
    destruct Hq'' as (A1 & A2 & A3 & A4 & A5).
    pose proof (IH lo hi g q'' q' Hg H2 A1 Hq' A4 A5) as B1.
    pose proof (kernel_spreads lo hi (iter_kernel k g) q q'' (iter_within k lo hi g Hg) H2 Hq A1 A2 A3) as B2.
    cbn [iter_kernel pow]. eapply Rle_trans; [|exact B2].
    rewrite Rmult_assoc. apply Rplus_le_compat_l, Rmult_le_compat_l; lra.
Qed.
Lemma extremes : forall g, exists qlo qhi, (qlo < n)%nat /\ (qhi < n)%nat /\ within (g qlo) (g qhi) g.
Proof.
  intros g. assert (Pn : (0 < n)%nat) by lia. unfold within. clear -Pn. induction n as [|m IH]; [lia|].
  destruct m as [|m].
  { exists 0%nat, 0%nat. repeat split; try lia; replace q with 0%nat by lia; lra. }
  destruct IH as (a & c & Ha & Hc & H); [lia|].
  exists (if Rle_dec (g a) (g (S m)) then a else S m), (if Rle_dec (g (S m)) (g c) then c else S m).
  split; [destruct (Rle_dec (g a) (g (S m))); lia|]. split; [destruct (Rle_dec (g (S m)) (g c)); lia|].
  intros q Hq. pose proof (H a Ha). destruct (Nat.eq_dec q (S m)) as [->|Hne].
  - destruct (Rle_dec (g a) (g (S m))), (Rle_dec (g (S m)) (g c)); lra.
  - specialize (H q). destruct H as [H1 H2]; [lia|]. destruct (Rle_dec (g a) (g (S m))), (Rle_dec (g (S m)) (g c)); lra.
Qed.
Let rho := mixing_rate b n.
Lemma rho_eq : rho = 1 - delta ^ (n - 1). Proof. reflexivity. Qed.
Lemma rho_range : 0 <= rho < 1.
Proof.
  rewrite rho_eq. pose proof (pow_lt delta (n - 1) Pd). pose proof delta_le_1.
  assert (delta ^ (n - 1) <= 1). { rewrite <- (pow1 (n - 1)). apply pow_incr. lra. } lra.
Qed.
Lemma round_contracts : forall lo hi g, within lo hi g -> (2 <= b)%nat ->
  exists lo' hi', within lo' hi' (iter_kernel (n - 1) g) /\ hi' - lo' <= rho * (hi - lo).
Proof.
  intros lo hi g Hg H2. destruct (extremes g) as (ql & qh & Hl & Hh & He).
  exists (g ql + delta ^ (n - 1) * (g qh - g ql)), (g qh). split.
  - intros q Hq. split; [|apply (iter_within (n - 1) _ _ g He q Hq)].
    apply (iter_spreads (n - 1) (g ql) (g qh)); auto; lia.
  - rewrite rho_eq. pose proof (Hg ql Hl). pose proof (Hg qh Hh).
    assert (Q : 0 <= 1 - delta ^ (n - 1)) by (rewrite <- rho_eq; apply rho_range).
    replace (g qh - (g ql + delta ^ (n - 1) * (g qh - g ql))) with ((1 - delta ^ (n - 1)) * (g qh - g ql)) by ring.
    apply Rmult_le_compat_l; lra.
Qed.
Lemma rounds_contract : forall m lo hi g, within lo hi g -> (2 <= b)%nat ->
  exists lo' hi', within lo' hi' (iter_kernel (m * (n - 1)) g) /\ hi' - lo' <= rho ^ m * (hi - lo).
Proof.
  induction m as [|m IH]; intros lo hi g Hg H2; [exists lo, hi; split; [exact Hg|cbn [pow]; lra]|].
  destruct (IH lo hi g Hg H2) as (l1 & h1 & W1 & C1).
  destruct (round_contracts l1 h1 _ W1 H2) as (l2 & h2 & W2 & C2).
  exists l2, h2. split; [cbn [Nat.mul]; rewrite iter_plus; exact W2|].
  eapply Rle_trans; [exact C2|]. cbn [pow]. rewrite Rmult_assoc. apply Rmult_le_compat_l; [apply rho_range|exact C1].
Qed.
Lemma kernel_sum : forall g, total (K g) (seq 0 n) = total g (seq 0 n).
Proof.
  intros g. unfold K, kernel.
  rewrite (total_ext _ _ (fun q => / INR M * total (fun s => if inside s b q then total g (seq s b) / INR b else g q) (seq 0 M))) by (intros; unfold Rdiv; ring).
  rewrite total_scal, total_exchange.
  rewrite (total_ext _ _ (fun _ => total g (seq 0 n))).
  - rewrite total_const, seq_length. field. lra.
  - intros s Hs. apply in_seq in Hs. rewrite (inside_sum s b n (fun _ => total g (seq s b) / INR b) g) by (unfold M in Hs; lia).
    rewrite total_const, seq_length. field. lra.
Qed.
Lemma iter_sum : forall k g, total (iter_kernel k g) (seq 0 n) = total g (seq 0 n).
Proof. induction k as [|k IH]; intros g; [reflexivity|]. cbn [iter_kernel]. now rewrite kernel_sum. Qed.
Lemma mixing : forall k lo hi g q, within lo hi g -> (2 <= b)%nat -> (q < n)%nat ->
  Rabs (iter_kernel k g q - total g (seq 0 n) / INR n) <= rho ^ (k / (n - 1)) * (hi - lo).
Proof.
  intros k lo hi g q Hg H2 Hq.
  destruct (rounds_contract (k / (n - 1)) lo hi g Hg H2) as (l1 & h1 & W1 & C1).
  pose proof (Nat.div_mod k (n - 1) ltac:(lia)) as Ek.
  assert (W : within l1 h1 (iter_kernel k g)).
  { rewrite Ek, Nat.add_comm, Nat.mul_comm, iter_plus. apply iter_within, W1. }
  assert (Pn : 0 < INR n) by (apply lt_0_INR; lia).
  assert (A : l1 <= total g (seq 0 n) / INR n <= h1).
  { rewrite <- (iter_sum k g).
    assert (H1 : INR n * l1 <= total (iter_kernel k g) (seq 0 n)).
    { rewrite <- (seq_length n 0) at 1. apply total_ge. intros a Ha. apply in_seq in Ha. apply W. lia. }
    assert (H3 : total (iter_kernel k g) (seq 0 n) <= INR n * h1).
    { rewrite <- (seq_length n 0) at 2. apply total_le. intros a Ha. apply in_seq in Ha. apply W. lia. }
    split; apply (Rmult_le_reg_l (INR n)); auto;
      replace (INR n * (total (iter_kernel k g) (seq 0 n) / INR n)) with (total (iter_kernel k g) (seq 0 n)) by (field; lra); auto. }
  pose proof (W q Hq). apply Rabs_le. lra.
Qed.
(** Batches of size one: the kernel is the identity. *)
Lemma kernel_single : b = 1%nat -> forall g q, (q < n)%nat -> K g q = g q.
Proof.
  intros E g q Hq. unfold K, kernel. rewrite E in *.
  rewrite (total_ext _ _ (fun _ => g q)).
  - rewrite total_const, seq_length. field. lra.
  - intros s _. unfold inside. destruct (Nat.leb_spec s q), (Nat.ltb_spec q (s + 1)); cbn [andb]; try reflexivity.
    assert (s = q) by lia. subst s. cbn [seq]. rewrite total_cons, total_nil. cbn [INR]. field.
Qed.
End Contract.
