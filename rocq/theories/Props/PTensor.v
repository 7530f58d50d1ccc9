(** Properties C35-C40: tensor utilities. *)
From Coq Require Import String List Arith Lia ZArith Reals Lra Bool Permutation.
From Flocq Require Import Core.Core.
From Verif.Base Require Import Py Num Lists.
From Verif.Model Require Import TensorUtils.
From Verif.Spec Require Import Tensor.
From Verif.Proofs Require Import Tensor Distances SafeFloat.
Import ListNotations.
Local Open Scope nat_scope.
Local Open Scope list_scope.

(** *** C35 *)
(** For a nested array [a] of any rank and shape. *)
Theorem C35_vectorize_row_major :
  forall (T : Type) k s (a : nd T k), has_shape k s a ->
  let t := {| shape := s; data := written k a |} in
  exists v,
    vectorize (OTensor t) = Ok v /\ vectorize (OVariable t) = Ok v /\
    shape v = [fold_right Nat.mul 1 s; 1] /\ length (data v) = fold_right Nat.mul 1 s /\
    (forall idx, in_bounds s idx ->
       offset s idx < fold_right Nat.mul 1 s /\ nth_error (data v) (offset s idx) = index k a idx) /\
    unvectorize v s = Ok t.
Proof.
  intros T k s a Ha t. exists {| shape := [prod s; 1]; data := written k a |}.
  assert (E : vectorize (OTensor t) = Ok {| shape := [prod s; 1]; data := written k a |}).
  { unfold vectorize, tf_reshape. cbn [shape t]. change (prod [prod s; 1]) with (prod s * 1).
    rewrite Nat.mul_1_r, Nat.eqb_refl. reflexivity. }
  split; [exact E|]. split; [exact E|]. split; [reflexivity|].
  split; [now apply written_length|]. split; [intros; now apply written_index|].
  unfold unvectorize, tf_reshape. cbn [shape]. change (prod [prod s; 1]) with (prod s * 1).
  rewrite Nat.mul_1_r, Nat.eqb_refl. reflexivity.
Qed.

Theorem C35_vectorize_rejects_others : forall T, @vectorize T OOther = Raise ValueError.
Proof. reflexivity. Qed.

(** Different multi-indices land on different positions: nothing is lost. *)
Theorem C35_positions_distinct : forall s i j,
  in_bounds s i -> in_bounds s j -> offset s i = offset s j -> i = j.
Proof.
  assert (B : forall s i, in_bounds s i -> offset s i < fold_right Nat.mul 1 s).
  { induction s as [|n s IH]; intros i Hi; inversion Hi; subst; cbn; [lia|].
    match goal with H : Forall2 _ _ s |- _ => specialize (IH _ H) end. nia. }
  induction s as [|n s IH]; intros i j Hi Hj HE; inversion Hi; inversion Hj; subst; auto.
  cbn in HE.
  match goal with H1 : Forall2 _ ?a s, H2 : Forall2 _ ?b s |- _ =>
    pose proof (B _ _ H1); pose proof (B _ _ H2);
    destruct (Nat.div_mod_unique (fold_right Nat.mul 1 s) x x0 (offset s a) (offset s b)); try lia
  end.
  f_equal; auto.
Qed.

Example C35_example :
  let a : nd nat 2 := [[1;2;3];[4;5;6]] in
  vectorize (OTensor {| shape := [2;3]; data := written 2 a |}) = Ok {| shape := [6;1]; data := [1;2;3;4;5;6] |}
  /\ index 2 a [1;2] = Some 6 /\ offset [2;3] [1;2] = 5.
Proof. repeat split. Qed.

(** *** C36 *)
Theorem C36_median_is_the_median :
  forall t : tensor R, data t <> [] ->
  exists v, median t = Ok v /\ is_median (data t) v /\ (forall w, is_median (data t) w -> w = v) /\
    length (data t) <= 2 * count (fun x => x <= v)%R (fun x => Rle_dec x v) (data t) /\
    length (data t) <= 2 * count (fun x => x >= v)%R (fun x => Rge_dec x v) (data t).
Proof.
  intros t Hne. destruct (median_is_median t Hne) as (v & Hv & Hm). exists v.
  split; [exact Hv|]. split; [exact Hm|]. split; [intros; eapply is_median_unique; eauto|].
  now apply median_halves.
Qed.

Theorem C36_median_permutation_and_shape_invariant :
  forall t1 t2 : tensor R, Permutation (data t1) (data t2) -> median t1 = median t2.
Proof. exact median_perm. Qed.

Example C36_example : is_median [5; 1; 3; 2]%R (5 / 2)%R.
Proof.
  exists [1; 2; 3; 5]%R. split.
  - apply Permutation_sym. change [5; 1; 3; 2]%R with ([] ++ 5 :: [1; 3; 2])%R.
    etransitivity; [apply Permutation_middle with (l1 := []%R)|].
    change [1; 2; 3; 5]%R with ([1; 2; 3] ++ [5])%R.
    transitivity ([1; 3; 2] ++ [5])%R; [apply (Permutation_cons_append [1;3;2]%R 5%R)|].
    apply Permutation_app_tail. constructor. constructor.
  - split; [repeat (constructor; [|repeat constructor; lra]); constructor|].
    split; [discriminate|]. intros _. exists 2%R, 3%R. cbn. repeat split. lra.
Qed.

(** *** C37 *)
(** Exact arithmetic. *)
Theorem C37_safe_divide_exact :
  forall x y c : R, (0 < c)%R ->
  let D := safe_divisor y c in
  (D <> 0)%R /\ (0 <= y <-> 0 < D)%R /\ (y < 0 <-> D < 0)%R /\
  (Rabs (D - y) <= 3 * c)%R /\ (Rabs y <= Rabs D)%R /\
  safe_divide_with c x y = (x / D)%R /\
  (y <> 0 -> Rabs (x / D - x / y) <= 3 * c * Rabs x / (y * y))%R.
Proof.
  intros x y c Hc D.
  assert (HD : D = if Rlt_dec y 0 then (y - c)%R else if Rlt_dec 0 y then (y + 3 * c)%R else c).
  { unfold D, safe_divisor, nsign. rewrite n0_R, n1_R, n2_R, nint_R. cbn. unfold Rltb.
    destruct (Rlt_dec y 0); [lra|]. destruct (Rlt_dec 0 y); lra. }
  assert (H1 : (D <> 0 /\ (0 <= y <-> 0 < D) /\ (y < 0 <-> D < 0) /\
                Rabs (D - y) <= 3 * c /\ Rabs y <= Rabs D)%R).
  { rewrite HD. destruct (Rlt_dec y 0); [|destruct (Rlt_dec 0 y)];
      (split; [lra|split; [lra|split; [lra|]]]);
      split; unfold Rabs; repeat destruct Rcase_abs; lra. }
  destruct H1 as (A1 & A2 & A3 & A4 & A5). do 5 (split; [assumption|]).
  split; [reflexivity|]. intros Hy.
  replace (x / D - x / y)%R with (x * (y - D) / (D * y))%R by (field; auto).
  unfold Rdiv. rewrite !Rabs_mult, Rabs_inv, Rabs_mult, (Rabs_minus_sym y D).
  assert (Hay : (0 < Rabs y)%R) by now apply Rabs_pos_lt.
  assert (Hyy : (Rabs y * Rabs y = y * y)%R).
  { unfold Rabs. destruct (Rcase_abs y); ring. }
  rewrite <- Hyy.
  replace (3 * c * Rabs x * / (Rabs y * Rabs y))%R with (Rabs x * (3 * c) * / (Rabs y * Rabs y))%R by ring.
  apply Rmult_le_compat.
  - apply Rmult_le_pos; apply Rabs_pos.
  - apply Rlt_le, Rinv_0_lt_compat. nra.
  - apply Rmult_le_compat_l; [apply Rabs_pos|lra].
  - apply Rinv_le_contravar; nra.
Qed.

(** Floating point: any binary format (binary64: 53, -1074; binary32: 24, -149),
    every operation rounded to nearest even; overflow is not modelled. *)
Theorem C37_safe_divisor_floating_point :
  forall (prec emin : Z) (Hp : Prec_gt_0 prec), (emin <= 0)%Z ->
  let format := generic_format radix2 (FLT_exp emin prec) in
  let rnd := round radix2 (FLT_exp emin prec) ZnearestE in
  forall y c, format y -> format c -> (0 < c)%R ->
  let D := @safe_divisor R (Num_rounded prec emin) y c in
  (D <> 0)%R /\ (0 <= y <-> 0 < D)%R /\ (y < 0 <-> D < 0)%R /\ (Rabs y <= Rabs D)%R /\
  D = if Rlt_dec y 0 then rnd (y - c)%R else if Rlt_dec 0 y then rnd (y + rnd (3 * c))%R else c.
Proof.
  intros prec emin Hp He format rnd y c Fy Fc Hc D.
  assert (ED : D = float_divisor prec emin y c) by (now apply safe_divisor_rounded).
  rewrite ED. clear D ED. destruct (Rlt_dec y 0) as [Hn|Hn]; [|destruct (Rlt_dec 0 y) as [Hp0|Hp0]].
  - destruct (float_divisor_neg prec emin y c Fy Fc He Hc Hn) as [E L].
    split; [lra|]. split; [lra|]. split; [lra|]. split; [|exact E].
    rewrite (Rabs_left y), (Rabs_left (float_divisor prec emin y c)); lra.
  - pose proof (float_divisor_pos prec emin y c Fy Fc He Hc Hp0) as L.
    split; [lra|]. split; [lra|]. split; [lra|]. split.
    + rewrite (Rabs_right y), (Rabs_right (float_divisor prec emin y c)); lra.
    + now apply float_divisor_pos_eq.
  - assert (y = 0)%R by lra. subst y. rewrite (float_divisor_zero prec emin c Fc).
    split; [lra|]. split; [lra|]. split; [lra|]. split; [|reflexivity].
    rewrite Rabs_R0. apply Rabs_pos.
Qed.

(** With infinities and NaN: finite over anything but NaN is finite. *)
Theorem C37_safe_divide_never_nan :
  forall x y c, (0 < c)%R -> y <> NaN -> exists r, safe_divide_with (Fin c) (Fin x) y = Fin r.
Proof.
  intros x y c Hc Hy. unfold safe_divide_with, safe_divisor, nsign.
  rewrite n0_XR, n1_XR, n2_XR, nint_XR. destruct y as [y| | |]; [| | |congruence]; cbn.
  - destruct (Rltb y 0) eqn:E1; [|destruct (Rltb 0 y) eqn:E2]; cbn.
    + apply Rltb_true in E1. destruct Req_EM_T; [lra|eauto].
    + apply Rltb_true in E2. destruct Req_EM_T; [lra|eauto].
    + apply Rltb_false in E1, E2. destruct Req_EM_T; [lra|eauto].
  - eauto.
  - eauto.
Qed.

Example C37_example : (@safe_divide R _ 1 0 = 10000000000000000)%R.
Proof.
  destruct (C37_safe_divide_exact 1 0 small_constant) as (_ & _ & _ & _ & _ & E & _).
  - unfold small_constant. cbn. unfold Rfrac. lra.
  - change (@safe_divide R _ 1 0)%R with (safe_divide_with small_constant 1%R 0%R). rewrite E.
    unfold safe_divisor, nsign. rewrite n0_R, n1_R, n2_R. cbn.
    replace (Rltb 0 0) with false by (symmetry; apply Rltb_false; lra).
    unfold Rfrac. lra.
Qed.

(** *** C38 *)
Theorem C38_safe_sqrt :
  (forall x : R, (0 <= x)%R -> safe_sqrt x = sqrt x) /\
  (forall x : R, (x < 0)%R -> safe_sqrt x = 0%R) /\
  (forall x : R, (0 <= safe_sqrt x)%R /\ (safe_sqrt x * safe_sqrt x = Rmax x 0)%R) /\
  (forall x : XR, x <> NaN ->
     safe_sqrt x = match x with Fin r => Fin (safe_sqrt r) | PInf => PInf | _ => Fin 0 end).
Proof.
  assert (E : forall x : R, safe_sqrt x = sqrt (Rmax x 0)).
  { intros. unfold safe_sqrt, safe_sqrt_with, clip_by_value. rewrite nmax_R, n0_R. reflexivity. }
  split; [intros; rewrite E, Rmax_left; auto|].
  split; [intros; rewrite E, Rmax_right, sqrt_0; lra|].
  split; [intros; rewrite E; split; [apply sqrt_pos|apply sqrt_sqrt, Rmax_r]|].
  intros x Hx. unfold safe_sqrt at 1, safe_sqrt_with, clip_by_value. rewrite n0_XR.
  destruct x as [r| | |]; [|reflexivity| |congruence].
  - rewrite nmax_XR_fin, E. apply xsqrt_fin, Rmax_r.
  - change (nsqrt (nmax NInf (Fin 0))) with (xsqrt (Fin 0)). rewrite xsqrt_fin by lra. now rewrite sqrt_0.
Qed.

(** With explicit bounds lo >= 0. *)
Theorem C38_safe_sqrt_bounds :
  forall lo hi x : R, (0 <= lo <= hi)%R ->
  safe_sqrt_with lo (Some hi) x = sqrt (Rmax (Rmin x hi) lo) /\
  (sqrt lo <= safe_sqrt_with lo (Some hi) x <= sqrt hi)%R /\
  (lo <= x <= hi -> safe_sqrt_with lo (Some hi) x = sqrt x)%R.
Proof.
  intros lo hi x Hb.
  assert (E : safe_sqrt_with lo (Some hi) x = sqrt (Rmax (Rmin x hi) lo)).
  { unfold safe_sqrt_with, clip_by_value. now rewrite nmax_R, nmin_R. }
  split; [exact E|]. rewrite E. split.
  - split; apply sqrt_le_1_alt; [apply Rmax_r|]. apply Rmax_lub; [apply Rmin_r|lra].
  - intros. rewrite Rmin_left, Rmax_left; lra.
Qed.

(** *** C39 *)
Theorem C39_pdist_squareform :
  forall (rows : list (list R)) m d, matrix_shape m d rows -> 1 <= m ->
  let t := {| shape := [m; d]; data := concat rows |} in
  exists v mat,
    pdist (OTensor t) "euclidean" = Ok v /\ shape v = [length (pairs m)] /\
    2 * length (pairs m) = m * (m - 1) /\
    (forall p i j a b, nth_error (pairs m) p = Some (i, j) ->
       nth_error rows i = Some a -> nth_error rows j = Some b -> nth_error (data v) p = Some (dist2 a b)) /\
    squareform (OTensor v) = Ok {| shape := [m; m]; data := mat |} /\
    length mat = m * m /\
    forall i j a b, nth_error rows i = Some a -> nth_error rows j = Some b ->
      nth_error mat (m * i + j) = Some (dist2 a b).
Proof.
  intros rows m d Hs Hm t.
  destruct (distance_matrix rows m d Hs Hm) as (v & mat & A & B & C & D & E & F).
  exists v, mat. repeat (split; auto using pairs_length).
Qed.

(** The distances form a metric. *)
Theorem C39_metric : forall a b c, length a = length b -> length b = length c ->
  (0 <= dist2 a b)%R /\ dist2 a b = dist2 b a /\ (dist2 a b = 0%R <-> a = b) /\
  (dist2 a c <= dist2 a b + dist2 b c)%R.
Proof.
  intros a b c H1 H2. split; [apply dist2_nonneg|]. split; [apply dist2_sym|].
  split; [split; [now apply dist2_zero|intros ->; apply dist2_refl]|now apply dist2_triangle].
Qed.

(** squareform on an arbitrary vector, for any number type with x + 0 = x = 0 + x. *)
Theorem C39_squareform_exact :
  forall (T : Type) (N : Num T), (forall x : T, nadd x n0 = x) -> (forall x : T, nadd n0 x = x) ->
  forall t : tensor T, well_shaped t -> length (shape t) = 1 ->
  (forall d, 1 <= d -> 2 * length (data t) = d * (d - 1) ->
     exists mat, squareform (OTensor t) = Ok {| shape := [d; d]; data := mat |} /\
                 symmetric_form n0 d (data t) mat) /\
  ((forall d, 1 <= d -> 2 * length (data t) <> d * (d - 1)) ->
     squareform (OTensor t) = Raise ValueError).
Proof.
  intros T N Hr Hl t Hw Hs. split.
  - intros. now apply squareform_ok.
  - intros Hb. destruct t as [[|n [|]] v]; try discriminate. unfold well_shaped in Hw. cbn in Hw.
    apply squareform_bad with (n := n); auto. intros d Hd. cbn [data] in Hb.
    specialize (Hb d Hd). lia.
Qed.

Theorem C39_error_cases : forall (t : tensor R) metric,
  (length (shape t) <> 2 -> pdist (OTensor t) metric = Raise ValueError) /\
  (length (shape t) = 2 -> metric <> "euclidean"%string ->
     pdist (OTensor t) metric = Raise NotImplementedError) /\
  (length (shape t) <> 1 -> squareform (OTensor t) = Raise NotImplementedError) /\
  pdist (@OOther R) metric = Raise AssertionError /\
  squareform (@OOther R) = Raise AssertionError /\ squareform (OVariable t) = Raise AssertionError.
Proof.
  intros [s v] metric. cbn [shape].
  repeat split; try reflexivity.
  - intros Hs. destruct s as [|a [|b [|]]]; try reflexivity. now elim Hs.
  - intros Hs Hm. destruct s as [|a [|b [|]]]; try discriminate. cbn.
    destruct (String.eqb_spec metric "euclidean"); congruence.
  - intros Hs. unfold squareform, is_vector. cbn [shape].
    now rewrite (proj2 (Nat.eqb_neq _ _) Hs).
Qed.

Example C39_example : matrix_shape 3 2 [[0;0];[3;4];[0;4]]%R /\ dist2 [0;0]%R [3;4]%R = 5%R.
Proof.
  split; [split; repeat constructor|]. unfold dist2; cbn.
  replace ((0 - 3) * ((0 - 3) * 1) + ((0 - 4) * ((0 - 4) * 1) + 0))%R with (5 * 5)%R by lra.
  apply sqrt_square. lra.
Qed.

(** *** C40 *)
Theorem C40_uninitialized_params :
  forall (A V : Type) (eqb : A -> A -> bool) (initial : A -> V) (store : A -> option V) (params : list A),
  (forall a b, reflect (a = b) (eqb a b)) ->
  let initialized v := match store v with Some _ => true | None => false end in
  exists us, uninitialized_params true initialized params = Ok us /\
    us = filter (fun v => negb (initialized v)) params /\
    (forall v, In v us <-> In v params /\ store v = None) /\
    let store' := run_initializers eqb initial us store in
    (forall v x, store v = Some x -> store' v = Some x) /\
    (forall v, In v params -> store v = None -> store' v = Some (initial v)) /\
    (forall v, ~ In v params -> store' v = store v).
Proof.
  intros A V eqb initial store params Heq initialized.
  exists (filter (fun v => negb (initialized v)) params).
  assert (Hin : forall v, In v (filter (fun v => negb (initialized v)) params) <->
                          In v params /\ store v = None).
  { intros v. rewrite filter_In. unfold initialized. destruct (store v); cbn; intuition discriminate. }
  split.
  - unfold uninitialized_params. cbn. f_equal.
    induction params as [|p params IH]; cbn; auto.
    destruct (initialized p); cbn; rewrite IH; auto;
      intros v; rewrite filter_In; unfold initialized; destruct (store v); cbn; intuition discriminate.
  - split; [reflexivity|]. split; [exact Hin|].
    assert (Hex : forall v, existsb (eqb v) (filter (fun v => negb (initialized v)) params) = true <->
                            In v params /\ store v = None).
    { intros v. rewrite existsb_exists. split.
      - intros (x & Hx & E). destruct (Heq v x); [subst; now apply Hin|discriminate].
      - intros Hv. exists v. split; [now apply Hin|]. now destruct (Heq v v). }
    cbn zeta. unfold run_initializers. split; [|split].
    + intros v x Hv. destruct (existsb (eqb v) _) eqn:E; auto. apply Hex in E as [_ E]. congruence.
    + intros v Hp Hs. now rewrite (proj2 (Hex v) (conj Hp Hs)).
    + intros v Hv. destruct (existsb (eqb v) _) eqn:E; auto. apply Hex in E. tauto.
Qed.

Theorem C40_session_required : forall A (ini : A -> bool) ps,
  uninitialized_params false ini ps = Raise AssertionError.
Proof. reflexivity. Qed.

Example C40_example :
  uninitialized_params true (fun n => Nat.even n) [3; 2; 5; 5; 8] = Ok [3; 5; 5].
Proof. reflexivity. Qed.

Print Assumptions C35_vectorize_row_major.
Print Assumptions C35_positions_distinct.
Print Assumptions C36_median_is_the_median.
Print Assumptions C36_median_permutation_and_shape_invariant.
Print Assumptions C37_safe_divide_exact.
Print Assumptions C37_safe_divisor_floating_point.
Print Assumptions C37_safe_divide_never_nan.
Print Assumptions C38_safe_sqrt.
Print Assumptions C38_safe_sqrt_bounds.
Print Assumptions C39_pdist_squareform.
Print Assumptions C39_metric.
Print Assumptions C39_squareform_exact.
Print Assumptions C39_error_cases.
Print Assumptions C40_uninitialized_params.
