(** C45-C48, C71: data normalization, incumbents and updates. *)
From Coq Require Import List Arith Lia ZArith Bool Reals Lra.
From Verif.Base Require Import Py Num Vec.
From Verif.Model Require Import BaseModel.
From Verif.Spec Require Import Svgd Stats.
From Verif.Proofs Require Import Svgd.
Import ListNotations.
Local Open Scope R_scope.
Local Open Scope list_scope.

Lemma triple_eq : forall A B C (a a' : A) (b b' : B) (c c' : C), (a, b, c) = (a', b', c') -> a = a' /\ b = b' /\ c = c'.
Proof. intros. injection H as -> -> ->. auto. Qed.
Lemma nint_nat_R : forall n, nint (Z.of_nat n) = INR n.
Proof. intros. rewrite nint_R. symmetry. apply INR_IZR_INZ. Qed.
Lemma np_mean_R : forall l : list R, np_mean l = mean l.
Proof. intros. unfold np_mean, mean. rewrite nsum_R, nint_nat_R. reflexivity. Qed.
Lemma np_std_R : forall l : list R, np_std l = sqrt (variance l).
Proof.
  intros. unfold np_std, variance. rewrite np_mean_R. cbn [nsqrt Num_R]. f_equal. rewrite np_mean_R.
  f_equal. apply map_ext. intros x. cbn [nmul nsub Num_R]. ring.
Qed.

Lemma INR_len_pos : forall A (l : list A), l <> [] -> 0 < INR (length l).
Proof. intros A l Hl. destruct l; [congruence|]. apply lt_0_INR. cbn. lia. Qed.

Lemma Rsum_affine : forall a b l, Rsum (map (fun x => a * x + b) l) = a * Rsum l + INR (length l) * b.
Proof.
  induction l as [|x l IH]; [cbn; ring|]. cbn [map Rsum length]. rewrite IH, S_INR. ring.
Qed.
Lemma mean_affine : forall a b l, l <> [] -> mean (map (fun x => a * x + b) l) = a * mean l + b.
Proof.
  intros a b l Hl. unfold mean. rewrite Rsum_affine, map_length. pose proof (INR_len_pos _ l Hl). field. lra.
Qed.
Lemma variance_affine : forall a b l, l <> [] -> variance (map (fun x => a * x + b) l) = a ^ 2 * variance l.
Proof.
  intros a b l Hl. unfold variance. rewrite mean_affine by auto. rewrite map_map.
  rewrite <- (Rplus_0_r (a ^ 2 * _)), <- (mean_affine (a ^ 2) 0) by (now destruct l).
  f_equal. rewrite map_map. apply map_ext. intros. ring.
Qed.
Lemma variance_nonneg : forall l, l <> [] -> 0 <= variance l.
Proof.
  intros l Hl. unfold variance, mean at 1. rewrite map_length. pose proof (INR_len_pos _ l Hl).
  apply Rmult_le_pos; [|left; now apply Rinv_0_lt_compat]. apply Rsum_nonneg. apply Forall_forall. intros x Hx.
  apply in_map_iff in Hx as (y & <- & _). apply pow2_ge_0.
Qed.
Lemma variance_pos : forall l, varied l -> 0 < variance l.
Proof.
  intros l (a & b & Ha & Hb & Hab). assert (Hl : l <> []) by (now destruct l).
  unfold variance, mean at 1. rewrite map_length. pose proof (INR_len_pos _ l Hl).
  apply Rmult_lt_0_compat; [|now apply Rinv_0_lt_compat]. apply Rsum_pos.
  - apply Forall_forall. intros x Hx. apply in_map_iff in Hx as (y & <- & _). apply pow2_ge_0.
  - apply Exists_exists. assert (a <> mean l \/ b <> mean l) as [Hn|Hn].
    { destruct (Req_dec a (mean l)); [right|left]; congruence. }
    + exists ((a - mean l) ^ 2). split; [apply in_map_iff; eauto|]. assert (a - mean l <> 0) by lra. nra.
    + exists ((b - mean l) ^ 2). split; [apply in_map_iff; eauto|]. assert (b - mean l <> 0) by lra. nra.
Qed.

(** ** Columns of the model's matrices *)
Lemma matrix_width : forall d X, matrix d X -> width X = d.
Proof. intros d X [Hn HF]. destruct X; [congruence|]. unfold width. cbn. now apply Forall_inv in HF. Qed.
Lemma columns_R : forall d X, matrix d X -> columns X = map (column X) (seq 0 d).
Proof.
  intros d X HM. unfold columns. rewrite (matrix_width d X HM). apply map_ext. intros j. unfold column.
  now rewrite n0_R.
Qed.
Lemma nth_map_seq : forall (f : nat -> R) d j, (j < d)%nat -> nth j (map f (seq 0 d)) 0 = f j.
Proof.
  intros f d j Hj. rewrite nth_indep with (d' := f 0%nat) by (now rewrite map_length, seq_length).
  rewrite map_nth, seq_nth; auto.
Qed.
Lemma nth_vmap2 : forall (f : R -> R -> R) a b j, (j < length a)%nat -> (j < length b)%nat ->
  nth j (vmap2 f a b) 0 = f (nth j a 0) (nth j b 0).
Proof.
  intros f a b j Ha Hb. apply nth_error_nth. rewrite nth_error_vmap2, !(nth_error_nth' _ 0) by auto. reflexivity.
Qed.
Lemma column_nonempty : forall d X j, matrix d X -> column X j <> [].
Proof. intros d X j [Hn _]. destruct X; [congruence|discriminate]. Qed.

Section Columnwise.
(** Row operations acting on each column separately. *)
Variables (d : nat) (g : list R -> list R) (f : nat -> R -> R).
Hypothesis Hlen : forall r, length r = d -> length (g r) = d.
Hypothesis Hnth : forall r j, length r = d -> (j < d)%nat -> nth j (g r) 0 = f j (nth j r 0).
Lemma column_map : forall X j, matrix d X -> (j < d)%nat -> column (map g X) j = map (f j) (column X j).
Proof.
  intros X j [_ HF] Hj. unfold column. rewrite !map_map. apply map_ext_in. intros r Hr.
  rewrite Forall_forall in HF. auto.
Qed.
Lemma matrix_map : forall X, matrix d X -> matrix d (map g X).
Proof.
  intros X [Hn HF]. split; [now destruct X|]. apply Forall_map. rewrite Forall_forall in *. auto.
Qed.
End Columnwise.

(** ** C45 *)
Lemma zmuv_row : forall d (m s r : list R), length m = d -> length s = d -> length r = d ->
  length (vmap2 ndiv (vmap2 nsub r m) s) = d /\
  forall j, (j < d)%nat -> nth j (vmap2 ndiv (vmap2 nsub r m) s) 0 = (nth j r 0 - nth j m 0) / nth j s 0.
Proof.
  intros d m s r Hm Hs Hr. assert (L : length (vmap2 nsub r m) = d) by (now apply vmap2_length).
  split; [now apply vmap2_length|]. intros j Hj. rewrite !nth_vmap2 by lia. reflexivity.
Qed.

Theorem C45_standardizes : forall d X Xn m s, (0 < d)%nat -> matrix d X ->
  (forall j, (j < d)%nat -> varied (column X j)) ->
  zmuv_normalization X None None = (Xn, m, s) ->
  matrix d Xn /\ length Xn = length X /\
  length m = d /\ length s = d /\
  (forall j, (j < d)%nat ->
     nth j m 0 = mean (column X j) /\
     0 < nth j s 0 /\ nth j s 0 ^ 2 = variance (column X j) /\
     mean (column Xn j) = 0 /\ variance (column Xn j) = 1) /\
  zmuv_unnormalization Xn m s = X.
Proof.
  intros d X Xn m s Hd HM HV H. unfold zmuv_normalization in H. cbn [default] in H.
  rewrite (columns_R d X HM), !map_map in H. apply triple_eq in H as (<- & <- & <-).
  set (m := map (fun j => np_mean (column X j)) (seq 0 d)). set (s := map (fun j => np_std (column X j)) (seq 0 d)).
  assert (Lm : length m = d) by (unfold m; now rewrite map_length, seq_length).
  assert (Ls : length s = d) by (unfold s; now rewrite map_length, seq_length).
  assert (Hm : forall j, (j < d)%nat -> nth j m 0 = mean (column X j)).
  { intros j Hj. unfold m. rewrite nth_map_seq by auto. apply np_mean_R. }
  assert (Hs : forall j, (j < d)%nat -> nth j s 0 = sqrt (variance (column X j))).
  { intros j Hj. unfold s. rewrite nth_map_seq by auto. apply np_std_R. }
  assert (Hp : forall j, (j < d)%nat -> 0 < nth j s 0).
  { intros j Hj. rewrite Hs by auto. apply sqrt_lt_R0. now apply variance_pos, HV. }
  set (g := fun r : list R => vmap2 ndiv (vmap2 nsub r m) s).
  assert (Hg : forall r, length r = d -> length (g r) = d) by (intros r Hr; now apply zmuv_row).
  assert (Hn : forall r j, length r = d -> (j < d)%nat -> nth j (g r) 0 = (fun j x => (x - nth j m 0) / nth j s 0) j (nth j r 0)).
  { intros r j Hr Hj. now apply zmuv_row with (d := d). }
  change (map (fun r => vmap2 ndiv (vmap2 nsub r m) s) X) with (map g X).
  assert (HMn : matrix d (map g X)) by (now apply matrix_map).
  split; [exact HMn|]. split; [apply map_length|]. split; [exact Lm|]. split; [exact Ls|]. split.
  - intros j Hj. specialize (Hp j Hj). split; [auto|]. split; [exact Hp|].
    assert (Hc : column X j <> []) by (now apply column_nonempty with (d := d)).
    assert (Hv : nth j s 0 ^ 2 = variance (column X j)).
    { rewrite Hs by auto. rewrite <- Rsqr_pow2. apply Rsqr_sqrt. now apply variance_nonneg. }
    split; [exact Hv|].
    rewrite (column_map d g _ Hn X j HM Hj).
    assert (HA : map (fun x => (x - nth j m 0) / nth j s 0) (column X j) =
                 map (fun x => / nth j s 0 * x + (- nth j m 0 / nth j s 0)) (column X j)).
    { apply map_ext. intros x. field. lra. }
    rewrite HA, mean_affine, variance_affine, Hm, <- Hv by auto. split; field; lra.
  - unfold zmuv_unnormalization. rewrite map_map.
    rewrite <- (map_id X) at 2. apply map_ext_in. intros r Hr.
    destruct HM as [_ HF]. rewrite Forall_forall in HF. specialize (HF r Hr).
    change (vmap2 ndiv (vmap2 nsub r m) s) with (g r).
    assert (L1 : length (vmap2 nmul (g r) s) = d) by (apply vmap2_length; auto).
    apply (nth_ext _ _ 0 0).
    + rewrite (vmap2_length _ _ _ _ _ _ d); auto.
    + intros j Hj. rewrite (vmap2_length _ _ _ _ _ _ d) in Hj by auto.
      rewrite nth_vmap2 by lia. rewrite nth_vmap2 by (rewrite ?Hg; auto; lia). rewrite Hn by auto.
      cbn [nadd nmul Num_R]. specialize (Hp j Hj). field. lra.
Qed.

Theorem C45_standardizes_targets : forall y yn m s, varied y -> zmuv_normalization1 y None None = (yn, m, s) ->
  length yn = length y /\ m = mean y /\ 0 < s /\ s ^ 2 = variance y /\
  mean yn = 0 /\ variance yn = 1 /\ zmuv_unnormalization1 yn m s = y.
Proof.
  intros y yn m s HV H. unfold zmuv_normalization1 in H. cbn [default] in H.
  rewrite np_mean_R, np_std_R in H. cbn [ndiv nsub Num_R] in H. apply triple_eq in H as (<- & <- & <-).
  assert (Hy : y <> []) by (destruct HV as (? & ? & ? & _); now destruct y).
  assert (Hs : 0 < sqrt (variance y)) by (apply sqrt_lt_R0; now apply variance_pos).
  assert (Hv : sqrt (variance y) ^ 2 = variance y).
  { rewrite <- Rsqr_pow2. apply Rsqr_sqrt. now apply variance_nonneg. }
  split; [apply map_length|]. split; [reflexivity|]. split; [exact Hs|]. split; [exact Hv|].
  assert (HA : map (fun v => (v - mean y) / sqrt (variance y)) y =
               map (fun v => / sqrt (variance y) * v + (- mean y / sqrt (variance y))) y).
  { apply map_ext. intros v. field. lra. }
  set (sd := sqrt (variance y)) in *. clearbody sd.
  split; [rewrite HA, mean_affine by auto; field; lra|].
  split; [rewrite HA, variance_affine, <- Hv by auto; field; lra|].
  unfold zmuv_unnormalization1. rewrite map_map. transitivity (map (fun v => v) y); [|apply map_id].
  apply map_ext. intros v. cbn [nadd nmul Num_R]. field. lra.
Qed.

(** With given constants exactly those are used and returned. *)
Theorem C45_given_constants : forall d X m s i j, length m = d -> length s = d ->
  Forall (fun r => length r = d) X -> (i < length X)%nat -> (j < d)%nat ->
  let '(Xn, m', s') := zmuv_normalization X (Some m) (Some s) in
  m' = m /\ s' = s /\ length Xn = length X /\ entry Xn i j = (entry X i j - nth j m 0) / nth j s 0.
Proof.
  intros d X m s i j Hm Hs HF Hi Hj. unfold zmuv_normalization. cbn [default].
  split; auto. split; auto. split; [apply map_length|]. unfold entry.
  assert (E : nth_error X i = Some (nth i X [])) by (now apply nth_error_nth').
  rewrite (nth_error_nth (map _ X) i [] (x := vmap2 ndiv (vmap2 nsub (nth i X []) m) s)).
  - rewrite Forall_forall in HF. apply zmuv_row with (d := d); auto. apply HF, nth_In, Hi.
  - rewrite nth_error_map, E. reflexivity.
Qed.

Example C45_example : varied (column [[1; 5]; [3; 6]; [2; 10]] 0) /\ varied (column [[1; 5]; [3; 6]; [2; 10]] 1) /\
  matrix 2 [[1; 5]; [3; 6]; [2; 10]].
Proof.
  repeat split; try (repeat constructor; fail); try discriminate.
  - exists 1, 3. cbn. repeat split; auto. lra.
  - exists 5, 6. cbn. repeat split; auto. lra.
Qed.

(** ** C46: constant columns, with infinities and NaN *)
Lemma nsum_repeat_fin : forall c n, nsum (repeat (Fin c) n) = Fin (INR n * c).
Proof.
  induction n as [|n IH]; [cbn; unfold Rfrac; f_equal; field|].
  cbn [repeat]. change (nsum (?x :: ?l)) with (nadd x (nsum l)). rewrite IH, S_INR. cbn. f_equal. ring.
Qed.
Lemma nint_nat_X : forall n, nint (Z.of_nat n) = Fin (INR n).
Proof. intros. unfold nint. cbn. unfold Rfrac. f_equal. rewrite INR_IZR_INZ. field. Qed.
Lemma np_mean_const : forall c n, (0 < n)%nat -> np_mean (repeat (Fin c) n) = Fin c.
Proof.
  intros c n Hn. unfold np_mean. rewrite nsum_repeat_fin, repeat_length, nint_nat_X. cbn [ndiv].
  assert (0 < INR n) by (now apply lt_0_INR).
  cbn. destruct (Req_EM_T (INR n) 0); [lra|]. f_equal. field. lra.
Qed.
Lemma map_repeat : forall A B (f : A -> B) x n, map f (repeat x n) = repeat (f x) n.
Proof. induction n; cbn; congruence. Qed.
Lemma np_std_const : forall c n, (0 < n)%nat -> np_std (repeat (Fin c) n) = Fin 0.
Proof.
  intros c n Hn. unfold np_std. rewrite np_mean_const, map_repeat by auto.
  replace (nmul (nsub (Fin c) (Fin c)) (nsub (Fin c) (Fin c))) with (Fin 0) by (cbn; f_equal; ring).
  rewrite np_mean_const by auto. cbn. destruct (Rlt_dec 0 0); [lra|]. now rewrite sqrt_0.
Qed.
Lemma const_entry : forall c, ndiv (nsub (Fin c) (Fin c)) (Fin 0) = NaN.
Proof.
  intros c. replace (nsub (Fin c) (Fin c)) with (Fin 0) by (cbn; f_equal; ring).
  cbn. destruct (Req_EM_T 0 0); [|lra]. unfold xsgn. destruct (Rlt_dec 0 0); [lra|reflexivity].
Qed.

(** Every entry of a constant column becomes NaN, for every constant. *)
Theorem C46_constant_column_nan : forall (X : list (list XR)) d j c,
  X <> [] -> Forall (fun r => length r = d) X -> (j < d)%nat ->
  Forall (fun r => nth j r n0 = Fin c) X ->
  let '(Xn, m, s) := zmuv_normalization X None None in
  length Xn = length X /\ Forall (fun r => nth_error r j = Some NaN) Xn.
Proof.
  intros X d j c Hn HF Hj HC. unfold zmuv_normalization. cbn [default]. split; [apply map_length|].
  assert (HW : width X = d) by (destruct X; [congruence|]; unfold width; cbn; now apply Forall_inv in HF).
  assert (Hcol : map (fun r => nth j r n0) X = repeat (Fin c) (length X)).
  { clear - HC. induction X as [|r X IH]; [reflexivity|]. cbn [map length repeat].
    rewrite (Forall_inv HC). f_equal. apply IH. now apply Forall_inv_tail in HC. }
  assert (HL : (0 < length X)%nat) by (destruct X; [congruence|cbn; lia]).
  assert (Hm : forall f : list XR -> XR, nth_error (map f (columns X)) j = Some (f (repeat (Fin c) (length X)))).
  { intros f. rewrite nth_error_map. unfold columns. rewrite nth_error_map, HW.
    rewrite (nth_error_nth' (seq 0 d) 0%nat) by (now rewrite seq_length). rewrite seq_nth by auto. cbn [option_map Nat.add]. now rewrite Hcol. }
  apply Forall_map. rewrite Forall_forall in *. intros r Hr.
  rewrite nth_error_vmap2, nth_error_vmap2, !Hm.
  rewrite (nth_error_nth' r n0) by (rewrite HF; auto). rewrite HC by auto.
  rewrite np_mean_const, np_std_const by auto. f_equal. apply const_entry.
Qed.

Theorem C46_constant_targets_nan : forall c n, (0 < n)%nat ->
  zmuv_normalization1 (repeat (Fin c) n) None None = (repeat NaN n, Fin c, Fin 0).
Proof.
  intros c n Hn. unfold zmuv_normalization1. cbn [default]. rewrite np_mean_const, np_std_const by auto.
  now rewrite map_repeat, const_entry.
Qed.

(** Contract: normalization of finite data gives finite data. *)
Definition finite_entry (v : XR) : Prop := exists r, v = Fin r.
Definition normalization_usable : Prop := forall y : list XR, y <> [] -> Forall finite_entry y ->
  Forall finite_entry (fst (fst (zmuv_normalization1 y None None))).
Theorem C46_normalization_usable_refuted : ~ normalization_usable.
Proof.
  intros H. specialize (H (repeat (Fin 5) 3)). rewrite C46_constant_targets_nan in H by lia. cbn in H.
  assert (HF : Forall finite_entry [Fin 5; Fin 5; Fin 5]) by (repeat constructor; eexists; reflexivity).
  specialize (H ltac:(discriminate) HF). apply Forall_inv in H as [r H]. discriminate.
Qed.

(** ** C47 *)
Lemma np_isnan_R : forall x : R, np_isnan x = false.
Proof.
  intros x. unfold np_isnan. rewrite n0_R, n1_R. cbn [nltb Num_R].
  destruct (Rltb x 1) eqn:E1; [reflexivity|]. apply Rltb_false in E1.
  destruct (Rltb 0 x) eqn:E2; [reflexivity|]. apply Rltb_false in E2. lra.
Qed.
Lemma np_min_spec : forall l : list R, l <> [] -> is_min l (np_min l).
Proof.
  intros [|x l] Hl; [congruence|]. clear Hl. cbn [np_min].
  revert x. induction l as [|y l IH]; intros x; cbn [fold_left].
  - split; [now left|]. intros z [->|[]]. lra.
  - replace (np_min2 x y) with (Rmin x y).
    2: { unfold np_min2. rewrite !np_isnan_R. symmetry. apply nmin_R. }
    destruct (IH (Rmin x y)) as [H1 H2]. split.
    + destruct H1 as [<-|H1]; [|right; now right]. unfold Rmin. destruct (Rle_dec x y); [now left|right; now left].
    + intros z [<-|[<-|Hz]].
      * apply Rle_trans with (Rmin x y); [apply H2; now left|apply Rmin_l].
      * apply Rle_trans with (Rmin x y); [apply H2; now left|apply Rmin_r].
      * apply H2. now right.
Qed.
Lemma np_max_spec : forall l : list R, l <> [] -> is_max l (np_max l).
Proof.
  intros [|x l] Hl; [congruence|]. clear Hl. cbn [np_max].
  revert x. induction l as [|y l IH]; intros x; cbn [fold_left].
  - split; [now left|]. intros z [->|[]]. lra.
  - replace (np_max2 x y) with (Rmax x y).
    2: { unfold np_max2. rewrite !np_isnan_R. symmetry. apply nmax_R. }
    destruct (IH (Rmax x y)) as [H1 H2]. split.
    + destruct H1 as [<-|H1]; [|right; now right]. unfold Rmax. destruct (Rle_dec x y); [right; now left|now left].
    + intros z [<-|[<-|Hz]].
      * apply Rle_trans with (Rmax x y); [apply Rmax_l|apply H2; now left].
      * apply Rle_trans with (Rmax x y); [apply Rmax_r|apply H2; now left].
      * apply H2. now right.
Qed.

Theorem C47_zero_one : forall d X Xn lo up, (0 < d)%nat -> matrix d X ->
  (forall j, (j < d)%nat -> varied (column X j)) ->
  zero_one_normalization X None None = (Xn, lo, up) ->
  matrix d Xn /\ length Xn = length X /\ length lo = d /\ length up = d /\
  (forall j, (j < d)%nat -> is_min (column X j) (nth j lo 0) /\ is_max (column X j) (nth j up 0) /\
                            is_min (column Xn j) 0 /\ is_max (column Xn j) 1) /\
  zero_one_unnormalization Xn lo up = X.
Proof.
  intros d X Xn lo up Hd HM HV H. unfold zero_one_normalization in H. cbn [default] in H.
  rewrite (columns_R d X HM), !map_map in H. apply triple_eq in H as (<- & <- & <-).
  set (lo := map (fun j => np_min (column X j)) (seq 0 d)). set (up := map (fun j => np_max (column X j)) (seq 0 d)).
  assert (Ll : length lo = d) by (unfold lo; now rewrite map_length, seq_length).
  assert (Lu : length up = d) by (unfold up; now rewrite map_length, seq_length).
  assert (Hl : forall j, (j < d)%nat -> is_min (column X j) (nth j lo 0)).
  { intros j Hj. unfold lo. rewrite nth_map_seq by auto. apply np_min_spec. now apply column_nonempty with (d := d). }
  assert (Hu : forall j, (j < d)%nat -> is_max (column X j) (nth j up 0)).
  { intros j Hj. unfold up. rewrite nth_map_seq by auto. apply np_max_spec. now apply column_nonempty with (d := d). }
  assert (Hp : forall j, (j < d)%nat -> nth j lo 0 < nth j up 0).
  { intros j Hj. destruct (HV j Hj) as (a & b & Ha & Hb & Hab). destruct (Hl j Hj) as [_ H1], (Hu j Hj) as [_ H2].
    pose proof (H1 a Ha). pose proof (H1 b Hb). pose proof (H2 a Ha). pose proof (H2 b Hb). lra. }
  set (w := vmap2 nsub up lo : list R).
  assert (Lw : length w = d) by (now apply vmap2_length).
  assert (Hw : forall j, (j < d)%nat -> nth j w 0 = nth j up 0 - nth j lo 0).
  { intros j Hj. unfold w. rewrite nth_vmap2 by lia. reflexivity. }
  set (g := fun r : list R => vmap2 ndiv (vmap2 nsub r lo) w).
  assert (Hg : forall r, length r = d -> length (g r) = d) by (intros r Hr; now apply zmuv_row).
  assert (Hn : forall r j, length r = d -> (j < d)%nat ->
    nth j (g r) 0 = (fun j x => (x - nth j lo 0) / (nth j up 0 - nth j lo 0)) j (nth j r 0)).
  { intros r j Hr Hj. cbn beta. rewrite <- Hw by auto. now apply zmuv_row with (d := d). }
  split; [now apply matrix_map|]. split; [apply map_length|]. split; [exact Ll|]. split; [exact Lu|]. split.
  - intros j Hj. split; [auto|]. split; [auto|]. rewrite (column_map d g _ Hn X j HM Hj).
    specialize (Hp j Hj). destruct (Hl j Hj) as [H1 H2], (Hu j Hj) as [H3 H4]. cbn beta.
    assert (Hi : 0 < / (nth j up 0 - nth j lo 0)) by (apply Rinv_0_lt_compat; lra). split; split.
    + apply in_map_iff. exists (nth j lo 0). split; auto. field. lra.
    + intros x Hx. apply in_map_iff in Hx as (z & <- & Hz). specialize (H2 z Hz). apply Rmult_le_pos; lra.
    + apply in_map_iff. exists (nth j up 0). split; auto. field. lra.
    + intros x Hx. apply in_map_iff in Hx as (z & <- & Hz). specialize (H4 z Hz).
      replace 1 with ((nth j up 0 - nth j lo 0) * / (nth j up 0 - nth j lo 0)) by (field; lra).
      apply Rmult_le_compat_r; lra.
  - unfold zero_one_unnormalization. rewrite map_map. rewrite <- (map_id X) at 2. apply map_ext_in. intros r Hr.
    destruct HM as [_ HF]. rewrite Forall_forall in HF. specialize (HF r Hr). fold w.
    change (vmap2 ndiv (vmap2 nsub r lo) w) with (g r).
    assert (L1 : length (vmap2 nmul w (g r)) = d) by (apply vmap2_length; auto).
    apply (nth_ext _ _ 0 0).
    + rewrite (vmap2_length _ _ _ _ _ _ d); auto.
    + intros j Hj. rewrite (vmap2_length _ _ _ _ _ _ d) in Hj by auto.
      rewrite nth_vmap2 by lia. rewrite nth_vmap2 by (rewrite ?Hg; auto; lia). rewrite Hn, Hw by auto.
      cbn [nadd nmul Num_R]. specialize (Hp j Hj). field. lra.
Qed.

(** ** C48 *)
Lemma argmin_from_spec : forall l i best (bv : R), (best < i)%nat ->
  let k := argmin_from i best bv l in
  (k = best /\ forall x, In x l -> bv <= x) \/
  (exists v j, k = (i + j)%nat /\ nth_error l j = Some v /\ v < bv /\ (forall x, In x l -> v <= x) /\
               forall j' x, (j' < j)%nat -> nth_error l j' = Some x -> v < x).
Proof.
  induction l as [|y l IH]; intros i best bv Hb; cbn [argmin_from].
  - left. split; auto. intros x [].
  - rewrite !np_isnan_R. cbn [negb andb orb nltb Num_R]. destruct (Rltb y bv) eqn:E.
    + apply Rltb_true in E. right. destruct (IH (S i) i y) as [[-> H1]|(v & j & -> & H1 & H2 & H3 & H4)]; [lia| |].
      * exists y, 0%nat. split; [lia|]. split; auto. split; auto. split.
        -- intros x [->|Hx]; [lra|auto].
        -- intros j' x Hj'. lia.
      * exists v, (S j). split; [lia|]. split; auto. split; [lra|]. split.
        -- intros x [->|Hx]; [lra|auto].
        -- intros j' x Hj' Hx. destruct j'; [cbn in Hx; injection Hx as <-; lra|]. apply (H4 j' x); [lia|auto].
    + apply Rltb_false in E. destruct (IH (S i) best bv) as [[-> H1]|(v & j & -> & H1 & H2 & H3 & H4)]; [lia| |].
      * left. split; auto. intros x [->|Hx]; auto.
      * right. exists v, (S j). split; [lia|]. split; auto. split; auto. split.
        -- intros x [->|Hx]; [lra|auto].
        -- intros j' x Hj' Hx. destruct j'; [cbn in Hx; injection Hx as <-; lra|]. apply (H4 j' x); [lia|auto].
Qed.

Theorem C48_incumbent_is_best : forall (X : list (list R)) y, y <> [] -> (length y <= length X)%nat ->
  exists i x v, get_incumbent (Some X) (Some y) = Ok (x, v) /\
    nth_error X i = Some x /\ nth_error y i = Some v /\
    (forall w, In w y -> v <= w) /\
    (forall j w, (j < i)%nat -> nth_error y j = Some w -> v < w).
Proof.
  intros X [|b y] Hy HL; [congruence|]. unfold get_incumbent. cbn [np_argmin bind].
  destruct (argmin_from_spec y 1 0 b) as [[-> H1]|(v & j & -> & H1 & H2 & H3 & H4)]; [lia| |].
  - destruct X as [|x X]; [cbn in HL; lia|]. exists 0%nat, x, b. cbn. repeat split; auto.
    + intros w [->|Hw]; [lra|auto].
    + intros j w Hj. lia.
  - destruct (nth_error X (1 + j)) as [x|] eqn:EX.
    2: { apply nth_error_None in EX. assert (j < length y)%nat by (apply nth_error_Some; congruence). cbn in HL. lia. }
    exists (1 + j)%nat, x, v. cbn [Nat.add nth_error] in *. rewrite H1. repeat split; auto.
    + intros w [->|Hw]; [lra|auto].
    + intros j' w Hj' Hw. destruct j'; [cbn in Hw; injection Hw as <-; lra|]. apply (H4 j' w); [lia|auto].
Qed.

(** No data: ValueError for an empty training set, TypeError before training. *)
Theorem C48_no_data : forall (X : option (list (list R))), get_incumbent X (Some []) = Raise ValueError /\ get_incumbent X None = Raise TypeError.
Proof. intros. split; reflexivity. Qed.

Example C48_example : exists i x v, get_incumbent (Some [[1]; [2]; [3]]) (Some [5; -1; -1]) = Ok (x, v) /\ nth_error [5; -1; -1] i = Some v.
Proof.
  destruct (C48_incumbent_is_best [[1]; [2]; [3]] [5; -1; -1]) as (i & x & v & H & _ & Hy & _); [discriminate|cbn; lia|].
  exists i, x, v. auto.
Qed.

(** ** C71: update *)
(** Any number of updates of any model whose train keeps its data: the model ends up trained
    on all data in order; its incumbent is the best of them all. *)
Section Updates.
Context {T : Type} `{Num T} {St : Type}.
Variable train : list (list T) -> list T -> model T St -> res unit * model T St.
Fixpoint updates (bs : list (list (list T) * list T)) (self : model T St) : res unit * model T St :=
  match bs with
  | [] => (Ok tt, self)
  | (X, y) :: bs' =>
      match update train X y self with
      | (Ok _, self') => updates bs' self'
      | r => r
      end
  end.
(** All data from the batches. *)
Definition all_X (bs : list (list (list T) * list T)) := flat_map fst bs.
Definition all_y (bs : list (list (list T) * list T)) := flat_map snd bs.

Theorem C71_updates_accumulate : forall bs self self' X0 y0,
  (forall X y s s', train X y s = (Ok tt, s') -> m_X s' = Some X /\ m_y s' = Some y) ->
  m_X self = Some X0 -> m_y self = Some y0 ->
  updates bs self = (Ok tt, self') ->
  m_X self' = Some (X0 ++ all_X bs) /\ m_y self' = Some (y0 ++ all_y bs).
Proof.
  intros bs self self' X0 y0 HT. revert self X0 y0. induction bs as [|[X y] bs IH]; intros self X0 y0 HX Hy H0; cbn [updates] in H0.
  - injection H0 as <-. unfold all_X, all_y. cbn. rewrite !app_nil_r. auto.
  - destruct (update train X y self) as [[u|e] s1] eqn:E; [|discriminate]. unfold update in E. rewrite HX, Hy in E.
    destruct (negb _) in E; [discriminate|]. destruct u. apply HT in E as [E1 E2].
    destruct (IH s1 _ _ E1 E2 H0) as [A B]. unfold all_X, all_y. cbn. rewrite A, B, !app_assoc. auto.
Qed.

(** Before any training, update fails and changes nothing. *)
Theorem C71_update_untrained : forall X y self, m_X self = None -> update train X y self = (Raise ValueError, self).
Proof. intros X y self HX. unfold update. now rewrite HX. Qed.
End Updates.

(** The shape checks let through exactly matrices, for training together with a vector of as many entries. *)
Theorem C71_shape_checks : forall A (f : res A) xs ys,
  (forall n d, xs = [n; d] -> ys = [n] -> check_shapes_train xs ys f = f) /\
  (xs <> [] -> ys <> [] -> ~ (exists n d, xs = [n; d] /\ ys = [n]) -> check_shapes_train xs ys f = Raise AssertionError) /\
  (xs = [] \/ ys = [] -> check_shapes_train xs ys f = Raise IndexError) /\
  (forall n d, xs = [n; d] -> check_shapes_predict xs f = f) /\
  (~ (exists n d, xs = [n; d]) -> check_shapes_predict xs f = Raise AssertionError).
Proof.
  intros A f xs ys. unfold check_shapes_train, check_shapes_predict. split; [|split; [|split; [|split]]].
  - intros n d -> ->. rewrite Nat.eqb_refl. reflexivity.
  - intros Hx Hy N. destruct xs as [|nx xs]; [congruence|]. destruct ys as [|ny ys]; [congruence|].
    destruct (Nat.eqb_spec nx ny) as [->|]; [|reflexivity]. cbn [assert_ bind].
    destruct xs as [|d xs]; [reflexivity|]. destruct xs; [|reflexivity]. cbn [length Nat.eqb assert_ bind].
    destruct ys; [|reflexivity]. exfalso. apply N. eauto.
  - intros [->| ->]; [reflexivity|]. now destruct xs.
  - intros n d ->. reflexivity.
  - intros N. destruct xs as [|a [|b [|c xs]]]; try reflexivity. exfalso. apply N. eauto.
Qed.
Example C71_shape_example : check_shapes_train [5; 2]%nat [5]%nat (Ok tt) = Ok tt /\
  check_shapes_train [5; 2]%nat [4]%nat (Ok tt) = Raise AssertionError /\ check_shapes_train [5; 2]%nat [5; 1]%nat (Ok tt) = Raise AssertionError.
Proof. repeat split. Qed.

Example C71_example :
  let train := fun (X : list (list R)) y (_ : model R unit) => (Ok tt, Model (Some X) (Some y) tt) in
  updates train [([[2]], [20]); ([[3]; [4]], [30; 40])] (Model (Some [[1]]) (Some [10]) tt) =
  (Ok tt, Model (Some [[1]; [2]; [3]; [4]]) (Some [10; 20; 30; 40]) tt).
Proof. reflexivity. Qed.
