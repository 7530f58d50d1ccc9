(** C27-C31: Stein variational gradient descent. *)
From Coq Require Import String List Arith Lia ZArith Bool Reals Lra Permutation.
From Verif.Base Require Import Py Num Vec Lists.
From Verif.Model Require Import TensorUtils SVGD.
From Verif.Spec Require Import Tensor Svgd.
From Verif.Proofs Require Import Tensor Distances Svgd SvgdStep SvgdFinite.
Import ListNotations.
Local Open Scope list_scope.

(** ** C27 *)
Lemma entry_map : forall (X : list (list R)) A (f : list R -> A -> R) (Y : list A) i k x y,
  nth_error X i = Some x -> nth_error Y k = Some y -> entry (map (fun a => map (f a) Y) X) i k = f x y.
Proof.
  intros X A f Y i k x y Hx Hy. unfold entry.
  rewrite (nth_error_nth (map (fun a => map (f a) Y) X) i [] (x := map (f x) Y)) by now rewrite nth_error_map, Hx.
  apply nth_error_nth. now rewrite nth_error_map, Hy.
Qed.

Lemma sqdist_replace : forall y x k t, k < length y -> length x = length y ->
  sqdist (replace_nth k t y) x = (sqdist y x - (nth k y 0 - nth k x 0) ^ 2 + (t - nth k x 0) ^ 2)%R.
Proof.
  induction y as [|a y IH]; intros x k t Hk Hl; cbn in Hk; [lia|].
  destruct x as [|b x]; cbn in Hl; [lia|]. destruct k; cbn; [ring|].
  rewrite IH by lia. ring.
Qed.

Lemma rbf_derivative : forall h y x k, h <> 0%R -> k < length y -> length x = length y ->
  derivable_pt_lim (fun t => rbf h (replace_nth k t y) x) (nth k y 0%R) (rbf_grad h y x k).
Proof.
  intros h y x k Hh Hk Hl. unfold rbf_grad.
  set (a := nth k y 0%R). set (b := nth k x 0%R). set (c := sqdist y x).
  assert (E : forall t, rbf h (replace_nth k t y) x = exp (- (c - (a - b) ^ 2 + (t - b) ^ 2) / (2 * h ^ 2))).
  { intros t. unfold rbf. rewrite sqdist_replace by auto. reflexivity. }
  assert (Ef : rbf h y x = exp (- (c - (a - b) ^ 2 + (a - b) ^ 2) / (2 * h ^ 2))).
  { unfold rbf. f_equal. f_equal. fold c. ring. }
  rewrite Ef.
  apply derivable_pt_lim_ext with (f := comp exp (fun t => - (c - (a - b) ^ 2 + (t - b) ^ 2) / (2 * h ^ 2))%R).
  - intros t. symmetry. unfold comp. apply E.
  - replace (exp (- (c - (a - b) ^ 2 + (a - b) ^ 2) / (2 * h ^ 2)) * (b - a) / h ^ 2)%R
      with (exp (- (c - (a - b) ^ 2 + (a - b) ^ 2) / (2 * h ^ 2)) * ((b - a) / h ^ 2))%R by (field; auto).
    apply derivable_pt_lim_comp; [|apply derivable_pt_lim_exp].
    apply derivable_pt_lim_ext with (f := (mult_real_fct (- / (2 * h ^ 2)) (fun t => (c - (a - b) ^ 2) + (t - b) ^ 2))%R).
    + intros t. unfold mult_real_fct. field. auto.
    + replace ((b - a) / h ^ 2)%R with (- / (2 * h ^ 2) * (0 + 2 * (a - b)))%R by (field; auto).
      apply derivable_pt_lim_scal. apply derivable_pt_lim_plus; [apply derivable_pt_lim_const|].
      apply derivable_pt_lim_ext with (f := (fun t => (t - b) * (t - b))%R); [intros; ring|].
      replace (2 * (a - b))%R with (1 * (a - b) + (a - b) * 1)%R by ring.
      assert (D : derivable_pt_lim (fun t => t - b)%R a 1%R).
      { replace 1%R with (1 - 0)%R by ring. apply derivable_pt_lim_minus; [apply derivable_pt_lim_id|apply derivable_pt_lim_const]. }
      exact (derivable_pt_lim_mult (fun t => t - b)%R (fun t => t - b)%R a 1 1 D D).
Qed.

Theorem C27_kernel_matrix : forall X n d, matrix_shape n d X -> 2 <= n -> NoDup X ->
  exists h K G, svgd_kernel n d X = Ok (h, K, G) /\ bandwidth X h /\ (0 < h)%R /\
    matrix_shape n n K /\ matrix_shape n d G /\
    (forall i j xi xj, nth_error X i = Some xi -> nth_error X j = Some xj ->
       entry K i j = rbf h xi xj /\ entry K i j = entry K j i /\
       (i = j -> entry K i j = 1%R) /\ (i <> j -> 0 < entry K i j < 1)%R) /\
    (forall i k xi, nth_error X i = Some xi -> k < d ->
       entry G i k = Rsum (map (fun xj => rbf_grad h xj xi k) X)) /\
    (forall xi xj k, In xi X -> In xj X -> k < d ->
       derivable_pt_lim (fun t => rbf h (replace_nth k t xj) xi) (nth k xj 0%R) (rbf_grad h xj xi k)).
Proof.
  intros X n d HX Hn HN. destruct (kernel_rbf X n d HX ltac:(lia)) as (h & Hb & E).
  pose proof (bandwidth_pos X n d h HX Hn HN Hb) as Hh.
  specialize (E ltac:(lra)). eexists _, _, _. split; [exact E|]. split; [auto|]. split; [auto|].
  destruct HX as [HL HF]. rewrite Forall_forall in HF.
  split; [|split; [|split; [|split]]].
  - split; [now rewrite map_length|]. apply Forall_forall. intros r Hr. apply in_map_iff in Hr as (? & <- & _). now rewrite map_length.
  - split; [now rewrite map_length|]. apply Forall_forall. intros r Hr. apply in_map_iff in Hr as (? & <- & _). now rewrite map_length, seq_length.
  - intros i j xi xj Hi Hj.
    rewrite (entry_map X _ (rbf h) X i j xi xj Hi Hj), (entry_map X _ (rbf h) X j i xj xi Hj Hi).
    assert (Hsq : (0 < 2 * h ^ 2)%R) by (apply Rmult_lt_0_compat; [lra|apply pow_lt; auto]).
    split; [auto|]. split; [unfold rbf; now rewrite sqdist_sym|]. split.
    + intros <-. assert (xi = xj) as <- by congruence. unfold rbf. rewrite sqdist_refl.
      replace (- 0 / (2 * h ^ 2))%R with 0%R by (field; lra). apply exp_0.
    + intros Hij. split; [apply exp_pos|]. unfold rbf. rewrite <- exp_0. apply exp_increasing.
      assert (sqdist xi xj <> 0)%R.
      { intros E0. apply sqdist_zero in E0; [|rewrite (HF xi), (HF xj); eauto using nth_error_In]. subst xj.
        apply Hij. apply (proj1 (NoDup_nth_error X) HN); [apply nth_error_Some; congruence|congruence]. }
      pose proof (sqdist_nonneg xi xj). unfold Rdiv. assert (0 < / (2 * h ^ 2))%R by now apply Rinv_0_lt_compat.
      assert (0 < sqdist xi xj * / (2 * h ^ 2))%R by (apply Rmult_lt_0_compat; lra). lra.
  - intros i k xi Hi Hk.
    rewrite (entry_map X _ (kernel_force h X) (seq 0 d) i k xi k Hi).
    + unfold kernel_force. apply Rsum_map_ext. intros y _. unfold rbf_grad, rbf. rewrite sqdist_sym. reflexivity.
    + rewrite (nth_error_nth' _ 0) by now rewrite seq_length. now rewrite seq_nth.
  - intros xi xj k Hi Hj Hk. apply rbf_derivative; [lra| |]; rewrite ?(HF xi), ?(HF xj); auto.
Qed.

Example C27_example : matrix_shape 2 2 [[0; 0]; [1; 0]]%R /\ NoDup [[0; 0]; [1; 0]]%R.
Proof.
  split; [split; [reflexivity|repeat constructor]|]. repeat constructor; cbn; auto.
  intros [E|[]]. injection E. lra.
Qed.

(** ** C28 *)
Definition neg (L : list (list R)) : list (list R) := map (map Ropp) L.

Lemma combine_neg : forall (X L : list (list R)), combine X (neg L) = map (fun '(y, l) => (y, map Ropp l)) (combine X L).
Proof. induction X; destruct L; cbn; auto. f_equal. apply IHX. Qed.
Lemma nth_map_opp : forall l k, nth k (map Ropp l) 0%R = (- nth k l 0)%R.
Proof. intros. replace 0%R with (- 0)%R at 1 by ring. apply map_nth. Qed.
Lemma Rsum_combine_fst : forall (f : list R -> R) X (L : list (list R)), length X = length L ->
  Rsum (map f X) = Rsum (map (fun '(y, _) => f y) (combine X L)).
Proof. intros. f_equal. now apply combine_map_fst_map. Qed.
Lemma rbf_sym : forall h a b, rbf h a b = rbf h b a.
Proof. intros. unfold rbf. now rewrite sqdist_sym. Qed.

Lemma gfun_flipped : forall h X L a k, h <> 0%R -> length X = length L ->
  gfun h X L a k = (- flipped_direction h (combine X (neg L)) a k)%R.
Proof.
  intros h X L a k Hh HL. rewrite gfun_rbf by auto. unfold flipped_direction, kernel_force.
  rewrite combine_length. unfold neg at 2. rewrite map_length, HL, Nat.min_id.
  rewrite (Rsum_combine_fst (fun y => rbf h a y * (nth k a 0 - nth k y 0) / h ^ 2)%R X L HL).
  rewrite combine_neg, map_map. unfold Rdiv at 1 3. rewrite Ropp_mult_distr_l. f_equal.
  induction (combine X L) as [|[y l] Z IH]; cbn [map Rsum]; [ring|].
  rewrite nth_map_opp. unfold rbf_grad. rewrite (rbf_sym h a y).
  transitivity (rbf h y a * nth k l 0 + rbf h y a * (nth k a 0 - nth k y 0) / h ^ 2 +
     (Rsum (map (fun '(b, l0) => rbf h a b * nth k l0 0) Z) + Rsum (map (fun '(y0, _) => rbf h a y0 * (nth k a 0 - nth k y0 0) / h ^ 2) Z)))%R; [ring|].
  rewrite IH. set (S1 := Rsum _). unfold Rdiv. ring_simplify. unfold S1. ring.
Qed.

Lemma step_entry : forall d (g : list R * list R -> nat -> R) Z i k z,
  nth_error Z i = Some z -> k < d -> entry (map (fun z => map (g z) (seq 0 d)) Z) i k = g z k.
Proof.
  intros d g Z i k z Hz Hk. unfold entry.
  rewrite (nth_error_nth _ i [] (x := map (g z) (seq 0 d))) by now rewrite nth_error_map, Hz.
  apply nth_error_nth. rewrite nth_error_map, (nth_error_nth' _ 0) by now rewrite seq_length. now rewrite seq_nth.
Qed.

Lemma nth_combine : forall (X H : list (list R)) i, length X = length H -> i < length X ->
  nth_error (combine X H) i = Some (nth i X [], nth i H []).
Proof.
  induction X; intros H i E Hi; cbn in Hi; [lia|]. destruct H; [discriminate|].
  destruct i; cbn; auto. apply IHX; cbn in E; lia.
Qed.

(** Entries of a step. *)
Lemma step_entries : forall c eps X L H n d,
  matrix_shape n d X -> matrix_shape n d L -> matrix_shape n d H -> 1 <= n ->
  exists h X' H', bandwidth X h /\ svgd_step c eps n d X L H = Ok (X', H') /\
    matrix_shape n d X' /\ matrix_shape n d H' /\
    forall i k, i < n -> k < d ->
      entry H' i k = new_hist (s_alpha c) (gfun h X L (nth i X []) k) (entry H i k) /\
      entry X' i k = new_coord (s_alpha c) (s_fudge c) eps (entry X i k) (gfun h X L (nth i X []) k) (entry H i k).
Proof.
  intros c eps X L H n d HX HL HH Hn.
  destruct (step_closed c eps X L H n d HX HL HH Hn) as (h & Hb & E).
  eexists h, _, _. split; [auto|]. split; [exact E|].
  destruct HX as [HX1 HX2], HH as [HH1 HH2].
  assert (SH : forall g : list R * list R -> nat -> R, matrix_shape n d (map (fun z => map (g z) (seq 0 d)) (combine X H))).
  { intros g. split; [rewrite map_length, combine_length; lia|]. apply Forall_forall. intros r Hr.
    apply in_map_iff in Hr as (? & <- & _). now rewrite map_length, seq_length. }
  assert (P : forall g : list R -> list R -> nat -> R,
    map (fun '(a, hr) => map (g a hr) (seq 0 d)) (combine X H) = map (fun z => map (g (fst z) (snd z)) (seq 0 d)) (combine X H)).
  { intros g. apply map_ext. now intros [? ?]. }
  rewrite (P (fun a hr k => new_coord (s_alpha c) (s_fudge c) eps (nth k a 0%R) (gfun h X L a k) (nth k hr 0%R))).
  rewrite (P (fun a hr k => new_hist (s_alpha c) (gfun h X L a k) (nth k hr 0%R))).
  split; [apply SH|]. split; [apply SH|]. intros i k Hi Hk.
  assert (NZ := nth_combine X H i ltac:(lia) ltac:(lia)).
  rewrite !(step_entry d _ _ i k _ NZ Hk). cbn. auto.
Qed.

(** The update performed: AdaGrad-scaled, in the published direction with the sign
    of the kernel gradient reversed.  (L: gradients of the cost, so -L those of log p.) *)
Theorem C28_update_formula : forall c eps X L H n d,
  matrix_shape n d X -> matrix_shape n d L -> matrix_shape n d H -> 2 <= n -> NoDup X ->
  exists h X' H', bandwidth X h /\ (0 < h)%R /\ svgd_step c eps n d X L H = Ok (X', H') /\
    forall i k, i < n -> k < d ->
      let D := flipped_direction h (combine X (neg L)) (nth i X []) k in
      entry H' i k = (s_alpha c * entry H i k + (1 - s_alpha c) * D ^ 2)%R /\
      entry X' i k = (entry X i k + eps * (D / (s_fudge c + sqrt (entry H' i k))))%R.
Proof.
  intros c eps X L H n d HX HL HH Hn HN.
  destruct (step_entries c eps X L H n d HX HL HH ltac:(lia)) as (h & X' & H' & Hb & E & _ & _ & HE).
  pose proof (bandwidth_pos X n d h HX Hn HN Hb) as Hh.
  exists h, X', H'. split; [auto|]. split; [auto|]. split; [auto|]. intros i k Hi Hk D.
  destruct (HE i k Hi Hk) as [EH EX].
  assert (EG : gfun h X L (nth i X []) k = (- D)%R) by (apply gfun_flipped; [lra|destruct HX, HL; lia]).
  rewrite EX, EH, EG. unfold new_coord, new_hist. split; [ring|].
  replace ((- D) ^ 2)%R with (D ^ 2)%R by ring. unfold Rdiv. ring.
Qed.

Definition flat (n d : nat) : list (list R) := repeat (repeat 0%R d) n.
Lemma flat_shape : forall n d, matrix_shape n d (flat n d).
Proof.
  intros. split; [apply repeat_length|]. apply Forall_forall. intros r Hr. apply repeat_spec in Hr as ->. apply repeat_length.
Qed.
Lemma nth_repeat0 : forall k d, nth k (repeat 0%R d) 0%R = 0%R.
Proof. induction k; destruct d; cbn; auto. Qed.
Lemma flat_sum : forall h a k X n d, Rsum (map (fun '(b, l) => rbf h a b * nth k l 0)%R (combine X (flat n d))) = 0%R.
Proof.
  intros. unfold flat. revert X. induction n; intros X; destruct X; cbn; auto.
  rewrite IHn, nth_repeat0. ring.
Qed.

Lemma flat_gfun : forall h X n d a k, h <> 0%R ->
  gfun h X (flat n d) a k = (kernel_force h X a k / INR (length X))%R.
Proof. intros. rewrite gfun_rbf, flat_sum by auto. f_equal. ring. Qed.

Lemma move_sign : forall alpha fudge eps x g0 hist, (0 < fudge -> 0 < eps ->
  (0 < g0 -> new_coord alpha fudge eps x g0 hist < x) /\ (g0 < 0 -> x < new_coord alpha fudge eps x g0 hist) /\
  (g0 = 0 -> new_coord alpha fudge eps x g0 hist = x))%R.
Proof.
  intros alpha fudge eps x g0 hist Hf He. unfold new_coord.
  set (q := (fudge + sqrt (new_hist alpha g0 hist))%R).
  assert (Hq : (0 < / q)%R).
  { apply Rinv_0_lt_compat. unfold q. pose proof (sqrt_pos (new_hist alpha g0 hist)). lra. }
  unfold Rdiv. repeat split; intros Hg.
  - assert (0 < eps * (g0 * / q))%R by (repeat apply Rmult_lt_0_compat; auto). lra.
  - assert (0 < eps * (- g0 * / q))%R by (repeat apply Rmult_lt_0_compat; auto; lra). lra.
  - rewrite Hg. ring.
Qed.

(** The kernel force on a particle that is extremal in coordinate k. *)
Lemma force_sign : forall h X a k, (0 < h)%R ->
  (forall b, In b X -> nth k b 0 <= nth k a 0)%R -> (exists b, In b X /\ nth k b 0 < nth k a 0)%R -> (0 < kernel_force h X a k)%R.
Proof.
  intros h X a k Hh Hall (b & Hb & Hlt). unfold kernel_force.
  assert (Hq : (0 < / h ^ 2)%R) by (apply Rinv_0_lt_compat, pow_lt; auto).
  apply Rsum_pos.
  - apply Forall_forall. intros v Hv. apply in_map_iff in Hv as (y & <- & Hy). unfold Rdiv.
    apply Rmult_le_pos; [|lra]. apply Rmult_le_pos; [left; apply exp_pos|]. specialize (Hall y Hy). lra.
  - apply Exists_exists. eexists. split; [apply in_map; exact Hb|]. unfold Rdiv.
    repeat apply Rmult_lt_0_compat; auto; [apply exp_pos|lra].
Qed.
Lemma force_sign_neg : forall h X a k, (0 < h)%R ->
  (forall b, In b X -> nth k a 0 <= nth k b 0)%R -> (exists b, In b X /\ nth k a 0 < nth k b 0)%R -> (kernel_force h X a k < 0)%R.
Proof.
  intros h X a k Hh Hall (b & Hb & Hlt). unfold kernel_force.
  assert (Hq : (0 < / h ^ 2)%R) by (apply Rinv_0_lt_compat, pow_lt; auto).
  enough (0 < Rsum (map (fun y => rbf h a y * (nth k y 0 - nth k a 0) / h ^ 2) X))%R.
  { rewrite <- (Ropp_involutive (Rsum _)). apply Ropp_lt_gt_0_contravar. red.
    replace (- Rsum _)%R with (-1 * Rsum (map (fun y => rbf h a y * (nth k a 0 - nth k y 0) / h ^ 2) X))%R by ring.
    rewrite <- Rsum_scale, map_map.
    erewrite Rsum_map_ext; [exact H|]. intros y _. cbn. unfold Rdiv. ring. }
  apply Rsum_pos.
  - apply Forall_forall. intros v Hv. apply in_map_iff in Hv as (y & <- & Hy). unfold Rdiv.
    apply Rmult_le_pos; [|lra]. apply Rmult_le_pos; [left; apply exp_pos|]. specialize (Hall y Hy). lra.
  - apply Exists_exists. eexists. split; [apply in_map; exact Hb|]. unfold Rdiv.
    repeat apply Rmult_lt_0_compat; auto; [apply exp_pos|lra].
Qed.

(** With a flat cost the outermost particles move inwards in every coordinate: the
    cloud contracts. *)
Theorem C28_flat_cost_contracts : forall c eps X H n d,
  matrix_shape n d X -> matrix_shape n d H -> 2 <= n -> NoDup X ->
  (0 <= s_alpha c <= 1)%R -> (0 < s_fudge c)%R -> (0 < eps)%R ->
  (forall i k, 0 <= entry H i k)%R ->
  exists X' H', svgd_step c eps n d X (flat n d) H = Ok (X', H') /\
    forall i k, i < n -> k < d ->
      ((forall j, j < n -> (entry X j k <= entry X i k)%R) -> (exists j, j < n /\ (entry X j k < entry X i k)%R) ->
         (entry X' i k < entry X i k)%R) /\
      ((forall j, j < n -> (entry X i k <= entry X j k)%R) -> (exists j, j < n /\ (entry X i k < entry X j k)%R) ->
         (entry X i k < entry X' i k)%R).
Proof.
  intros c eps X H n d HX HH Hn HN _ Hf He _.
  destruct (step_entries c eps X (flat n d) H n d HX (flat_shape n d) HH ltac:(lia)) as (h & X' & H' & Hb & E & _ & _ & HE).
  pose proof (bandwidth_pos X n d h HX Hn HN Hb) as Hh.
  exists X', H'. split; [auto|]. intros i k Hi Hk. destruct (HE i k Hi Hk) as [_ ->].
  rewrite flat_gfun by lra. destruct HX as [HX1 _].
  assert (HI : (0 < / INR (length X))%R) by (apply Rinv_0_lt_compat, lt_0_INR; lia).
  destruct (move_sign (s_alpha c) (s_fudge c) eps (entry X i k) (kernel_force h X (nth i X []) k / INR (length X)) (entry H i k) Hf He) as (M1 & M2 & _).
  split; intros Hall (j & Hj & Hlt); [apply M1|apply M2].
  - apply Rmult_lt_0_compat; auto. apply force_sign; auto.
    + intros b Hb'. destruct (In_nth X b [] Hb') as (q & Hq & <-). apply Hall. lia.
    + exists (nth j X []). split; [apply nth_In; lia|exact Hlt].
  - assert (kernel_force h X (nth i X []) k < 0)%R.
    { apply force_sign_neg; auto.
      + intros b Hb'. destruct (In_nth X b [] Hb') as (q & Hq & <-). apply Hall. lia.
      + exists (nth j X []). split; [apply nth_In; lia|exact Hlt]. }
    unfold Rdiv. rewrite <- (Rmult_0_l (/ INR (length X))). apply Rmult_lt_compat_r; auto.
Qed.

(** Two distinct particles with a flat cost: in every coordinate in which they
    differ each moves strictly towards the other; other coordinates stay. *)
Theorem C28_two_particles_attract : forall c eps x y H d,
  length x = d -> length y = d -> x <> y -> matrix_shape 2 d H ->
  (0 <= s_alpha c <= 1)%R -> (0 < s_fudge c)%R -> (0 < eps)%R -> (forall i k, 0 <= entry H i k)%R ->
  exists X' H', svgd_step c eps 2 d [x; y] (flat 2 d) H = Ok (X', H') /\
    forall k, k < d ->
      ((nth k x 0 < nth k y 0)%R -> (nth k x 0 < entry X' 0 k /\ entry X' 1 k < nth k y 0)%R) /\
      ((nth k y 0 < nth k x 0)%R -> (entry X' 0 k < nth k x 0 /\ nth k y 0 < entry X' 1 k)%R) /\
      (nth k x 0 = nth k y 0 -> entry X' 0 k = nth k x 0 /\ entry X' 1 k = nth k y 0)%R.
Proof.
  intros c eps x y H d Hx Hy Hxy HH Ha Hf He Hnn.
  assert (HX : matrix_shape 2 d [x; y]) by (split; [reflexivity|repeat constructor; auto]).
  assert (HN : NoDup [x; y]) by (constructor; [cbn; intros [->|[]]; congruence|constructor; [cbn; tauto|constructor]]).
  destruct (step_entries c eps [x; y] (flat 2 d) H 2 d HX (flat_shape 2 d) HH ltac:(lia)) as (h & X' & H' & Hb & E & _ & _ & HE).
  pose proof (bandwidth_pos [x; y] 2 d h HX ltac:(lia) HN Hb) as Hh.
  destruct (C28_flat_cost_contracts c eps [x; y] H 2 d HX HH ltac:(lia) HN Ha Hf He Hnn) as (X1 & H1 & E1 & HC).
  rewrite E in E1. injection E1 as <- <-. exists X', H'. split; [auto|]. intros k Hk.
  pose proof (HC 0 k ltac:(lia) Hk) as [C0a C0b]. pose proof (HC 1 k ltac:(lia) Hk) as [C1a C1b].
  unfold entry in C0a, C0b, C1a, C1b at 1 2 3 4 6. cbn [nth] in *.
  assert (Two : forall P : nat -> Prop, P 0 -> P 1 -> forall j, j < 2 -> P j) by (intros P P0 P1 [|[|j]] Hj; auto; lia).
  split; [|split]; intros Hlt; split.
  - apply C0b; [apply (Two (fun j => nth k x 0 <= entry [x; y] j k)%R); cbn; lra|exists 1; split; [lia|exact Hlt]].
  - apply C1a; [apply (Two (fun j => entry [x; y] j k <= nth k y 0)%R); cbn; lra|exists 0; split; [lia|exact Hlt]].
  - apply C0a; [apply (Two (fun j => entry [x; y] j k <= nth k x 0)%R); cbn; lra|exists 1; split; [lia|exact Hlt]].
  - apply C1b; [apply (Two (fun j => nth k y 0 <= entry [x; y] j k)%R); cbn; lra|exists 0; split; [lia|exact Hlt]].
  - destruct (HE 0 k ltac:(lia) Hk) as [_ ->]. rewrite flat_gfun by lra.
    apply (move_sign (s_alpha c) (s_fudge c) eps (nth k x 0%R)); auto. cbn. rewrite Hlt. unfold Rdiv. ring.
  - destruct (HE 1 k ltac:(lia) Hk) as [_ ->]. rewrite flat_gfun by lra.
    apply (move_sign (s_alpha c) (s_fudge c) eps (nth k y 0%R)); auto. cbn. rewrite Hlt. unfold Rdiv. ring.
Qed.

Example C28_example : exists X' H',
  svgd_step (SConfig (9 / 10) (1 / 1000000))%R (1 / 10)%R 2 2 [[0; 0]; [1; 0]]%R (flat 2 2) (flat 2 2) = Ok (X', H') /\
  (0 < entry X' 0 0)%R /\ (entry X' 1 0 < 1)%R /\ entry X' 0 1 = 0%R.
Proof.
  destruct (C28_two_particles_attract (SConfig (9 / 10) (1 / 1000000)) (1 / 10) [0; 0] [1; 0] (flat 2 2) 2)%R
    as (X' & H' & E & HA); cbn [s_alpha s_fudge]; auto using flat_shape; try lra.
  - intros E. injection E. lra.
  - intros i k. unfold entry, flat. destruct i as [|[|[|i]]]; destruct k as [|[|[|k]]]; cbn; lra.
  - exists X', H'. split; [exact E|]. destruct (HA 0%nat ltac:(lia)) as [A0 _]. destruct (HA 1%nat ltac:(lia)) as (_ & _ & A1).
    cbn [nth] in A0, A1. destruct (A0 ltac:(lra)). destruct (A1 eq_refl). auto.
Qed.

(** The published direction does the opposite. *)
Theorem C28_published_repels : forall h x y d k, (0 < h)%R -> length x = d -> length y = d ->
  (nth k x 0 < nth k y 0)%R ->
  (stein_direction h (combine [x; y] (flat 2 d)) x k < 0)%R /\ (0 < stein_direction h (combine [x; y] (flat 2 d)) y k)%R.
Proof.
  intros h x y d k Hh Hx Hy Hlt. unfold stein_direction, rbf_grad. cbn. rewrite !nth_repeat0.
  assert (0 < / h ^ 2)%R by (apply Rinv_0_lt_compat, pow_lt; auto).
  pose proof (exp_pos (- sqdist y x / (2 * h ^ 2))) as Ek. fold (rbf h y x) in Ek. rewrite (rbf_sym h x y).
  assert (0 < rbf h y x * (nth k y 0 - nth k x 0) * / h ^ 2)%R by (repeat apply Rmult_lt_0_compat; auto; lra).
  replace (h * (h * 1))%R with (h ^ 2)%R by ring. unfold Rdiv. split; lra.
Qed.

(** ** C29 *)
Lemma scaled_bound : forall alpha fudge eps x g0 hist, (0 <= alpha < 1 -> 0 < fudge -> 0 <= eps -> 0 <= hist ->
  0 <= new_hist alpha g0 hist /\ Rabs (new_coord alpha fudge eps x g0 hist - x) <= eps / sqrt (1 - alpha))%R.
Proof.
  intros alpha fudge eps x g0 hist Ha Hf He Hh. unfold new_coord.
  assert (Hg2 : (0 <= g0 ^ 2)%R) by apply pow2_ge_0.
  assert (Hn : (0 <= new_hist alpha g0 hist)%R).
  { unfold new_hist. apply Rplus_le_le_0_compat; apply Rmult_le_pos; lra. }
  split; auto.
  set (s := sqrt (new_hist alpha g0 hist)).
  assert (Hs : (sqrt (1 - alpha) * Rabs g0 <= s)%R).
  { unfold s. rewrite <- sqrt_Rsqr_abs. rewrite <- sqrt_mult by (lra || apply Rle_0_sqr).
    apply sqrt_le_1_alt. unfold new_hist, Rsqr.
    assert (0 <= alpha * hist)%R by (apply Rmult_le_pos; lra). cbn [pow]. lra. }
  assert (Hs0 : (0 <= s)%R) by apply sqrt_pos.
  assert (Hr : (0 < sqrt (1 - alpha))%R) by (apply sqrt_lt_R0; lra).
  replace (x - eps * (g0 / (fudge + s)) - x)%R with (- (eps * (g0 / (fudge + s))))%R by ring.
  rewrite Rabs_Ropp, Rabs_mult, (Rabs_pos_eq eps) by auto. unfold Rdiv at 2. apply Rmult_le_compat_l; auto.
  unfold Rdiv. rewrite Rabs_mult, (Rabs_pos_eq (/ (fudge + s))) by (left; apply Rinv_0_lt_compat; lra).
  apply Rmult_le_reg_r with (fudge + s)%R; [lra|]. rewrite Rmult_assoc, Rinv_l, Rmult_1_r by lra.
  apply Rmult_le_reg_l with (sqrt (1 - alpha)); auto.
  rewrite <- Rmult_assoc, Rinv_r, Rmult_1_l by lra. lra.
Qed.

Theorem C29_step_bound : forall c eps X L H n d,
  matrix_shape n d X -> matrix_shape n d L -> matrix_shape n d H -> 1 <= n ->
  (0 <= s_alpha c < 1)%R -> (0 < s_fudge c)%R -> (0 <= eps)%R ->
  (forall i k, i < n -> k < d -> (0 <= entry H i k)%R) ->
  exists X' H', svgd_step c eps n d X L H = Ok (X', H') /\ matrix_shape n d X' /\ matrix_shape n d H' /\
    forall i k, i < n -> k < d ->
      (0 <= entry H' i k)%R /\ (Rabs (entry X' i k - entry X i k) <= eps / sqrt (1 - s_alpha c))%R.
Proof.
  intros c eps X L H n d HX HL HH Hn Ha Hf He Hnn.
  destruct (step_entries c eps X L H n d HX HL HH Hn) as (h & X' & H' & Hb & E & SX & SH & HE).
  exists X', H'. repeat (split; [solve [auto]|]). intros i k Hi Hk. destruct (HE i k Hi Hk) as [-> ->].
  apply scaled_bound; auto.
Qed.

(** Along every run from a fresh sampler: histories stay nonnegative and no coordinate
    gets further than the sum of the stepsizes over sqrt(1-alpha). *)
Theorem C29_run_bound : forall c n d inputs X,
  matrix_shape n d X -> 1 <= n -> (0 <= s_alpha c < 1)%R -> (0 < s_fudge c)%R ->
  Forall (fun '(eps, L) => (0 <= eps)%R /\ matrix_shape n d L) inputs ->
  exists X' H', svgd_run c n d inputs (X, svgd_history n d) = Ok (X', H') /\ matrix_shape n d X' /\ matrix_shape n d H' /\
    forall i k, i < n -> k < d ->
      (0 <= entry H' i k)%R /\
      (Rabs (entry X' i k - entry X i k) <= Rsum (map fst inputs) / sqrt (1 - s_alpha c))%R.
Proof.
  intros c n d inputs X HX Hn Ha Hf HF.
  assert (H0 : @svgd_history R _ n d = flat n d) by (unfold svgd_history, flat; now rewrite n0_R).
  rewrite H0. assert (HH := flat_shape n d). assert (Hnn : forall i k, i < n -> k < d -> (0 <= entry (flat n d) i k)%R).
  { intros i k _ _. unfold entry, flat. destruct (nth_in_or_default i (repeat (repeat 0%R d) n) []) as [I| ->].
    - apply repeat_spec in I as ->. rewrite nth_repeat0. lra.
    - destruct k; cbn; lra. }
  revert HH Hnn. generalize (flat n d) as H. revert X HX.
  induction HF as [|[eps L] inputs [He HL] HF IH]; intros X HX H HH Hnn.
  - exists X, H. cbn. repeat split; auto; try apply HX; try apply HH.
    rewrite Rminus_diag_eq, Rabs_R0 by auto. unfold Rdiv. rewrite Rmult_0_l. lra.
  - destruct (C29_step_bound c eps X L H n d HX HL HH Hn Ha Hf He Hnn) as (X1 & H1 & E & SX & SH & HB).
    destruct (IH X1 SX H1 SH ltac:(intros; apply HB; auto)) as (X2 & H2 & E2 & SX2 & SH2 & HB2).
    exists X2, H2. cbn [svgd_run fst snd]. rewrite E. cbn [bind]. repeat (split; [solve [auto]|]).
    intros i k Hi Hk. destruct (HB i k Hi Hk) as [_ B1]. destruct (HB2 i k Hi Hk) as [B2 B3]. split; auto.
    cbn [map fst Rsum]. unfold Rdiv in *. rewrite Rmult_plus_distr_r.
    replace (entry X2 i k - entry X i k)%R with ((entry X1 i k - entry X i k) + (entry X2 i k - entry X1 i k))%R by ring.
    eapply Rle_trans; [apply Rabs_triang|]. lra.
Qed.

Example C29_example : Forall (fun '(eps, L) => (0 <= eps)%R /\ matrix_shape 2 2 L) [(1, [[5; -3]; [0; 7]])]%R.
Proof. repeat constructor; lra. Qed.

(** ** C30 *)
Lemma pick_shape : forall n d (A : list (list R)) sigma, matrix_shape n d A -> Permutation sigma (seq 0 n) ->
  matrix_shape n d (pick sigma A).
Proof.
  intros n d A sigma [HL HF] HP. split.
  - unfold pick. rewrite map_length, (Permutation_length HP). apply seq_length.
  - apply Forall_forall. intros r Hr. apply in_map_iff in Hr as (i & <- & Hi).
    rewrite Forall_forall in HF. apply HF, nth_In. apply (Permutation_in _ HP), in_seq in Hi. lia.
Qed.
Lemma combine_pick : forall (A B : list (list R)) sigma,
  combine (pick sigma A) (pick sigma B) = map (fun i => (nth i A [], nth i B [])) sigma.
Proof. intros. unfold pick. induction sigma; cbn; congruence. Qed.
Lemma combine_index : forall (A B : list (list R)) n, length A = n -> length B = n ->
  combine A B = map (fun i => (nth i A [], nth i B [])) (seq 0 n).
Proof.
  intros A B n HA HB. apply nth_error_ext. intros i. destruct (Nat.lt_ge_cases i n).
  - rewrite nth_combine by lia. rewrite nth_error_map, (nth_error_nth' _ 0) by now rewrite seq_length. now rewrite seq_nth.
  - rewrite !(proj2 (nth_error_None _ _)); auto; rewrite ?map_length, ?seq_length, ?combine_length; lia.
Qed.
Lemma pick_perm : forall (A : list (list R)) n sigma, length A = n -> Permutation sigma (seq 0 n) -> Permutation (pick sigma A) A.
Proof.
  intros A n sigma HA HP. unfold pick. rewrite (Permutation_map _ HP).
  erewrite (nth_error_ext _ (map (fun i => nth i A []) (seq 0 n)) A); [reflexivity|].
  intros i. rewrite nth_error_map. destruct (Nat.lt_ge_cases i n).
  - rewrite (nth_error_nth' _ 0) by now rewrite seq_length. rewrite seq_nth by auto. cbn. symmetry. apply nth_error_nth'. lia.
  - rewrite !(proj2 (nth_error_None _ _)); auto; rewrite ?seq_length; lia.
Qed.
Lemma sqdists_perm : forall X Y, Permutation X Y -> Permutation (sqdists X) (sqdists Y).
Proof.
  intros X Y HP. unfold sqdists.
  transitivity (flat_map (fun x => map (sqdist x) X) Y); [now apply Permutation_flat_map|].
  clear - HP. assert (G : forall Z, Permutation (flat_map (fun x => map (sqdist x) X) Z) (flat_map (fun x => map (sqdist x) Y) Z)).
  { induction Z; cbn; auto. apply Permutation_app; [now apply Permutation_map|auto]. }
  apply G.
Qed.

Theorem C30_permutation : forall c eps X L H n d sigma,
  matrix_shape n d X -> matrix_shape n d L -> matrix_shape n d H -> 1 <= n -> Permutation sigma (seq 0 n) ->
  exists X' H', svgd_step c eps n d X L H = Ok (X', H') /\
    svgd_step c eps n d (pick sigma X) (pick sigma L) (pick sigma H) = Ok (pick sigma X', pick sigma H').
Proof.
  intros c eps X L H n d sigma HX HL HH Hn HP.
  destruct (step_closed c eps X L H n d HX HL HH Hn) as (h & Hb & E).
  destruct (step_closed c eps (pick sigma X) (pick sigma L) (pick sigma H) n d) as (h' & Hb' & E');
    auto using pick_shape.
  eexists _, _. split; [exact E|]. rewrite E'.
  destruct HX as [HX _], HL as [HL _], HH as [HH _].
  assert (PX := pick_perm X n sigma HX HP).
  assert (h' = h) as ->.
  { destruct Hb as (m & Hm & ->), Hb' as (m' & Hm' & ->).
    rewrite (Permutation_length PX). do 2 f_equal.
    apply (is_median_unique (sqdists X)); auto.
    destruct Hm' as (s & P1 & P2 & P3). pose proof (sqdists_perm _ _ PX) as PS. exists s.
    rewrite <- (Permutation_length PS). split; [now rewrite P1|]. split; auto. }
  assert (PG : forall a k, gfun h (pick sigma X) (pick sigma L) a k = gfun h X L a k).
  { intros a k. unfold gfun. rewrite (Permutation_length PX). f_equal. f_equal.
    - apply Rsum_perm. rewrite combine_pick, (combine_index X L n) by auto. now apply Permutation_map, Permutation_map.
    - f_equal. f_equal; [f_equal|f_equal]; apply Rsum_perm; now apply Permutation_map. }
  rewrite combine_pick, (combine_index X H n) by auto. unfold pick. rewrite !map_map.
  assert (HS : forall A (f : nat -> list A) i, In i sigma -> nth i (map f (seq 0 n)) [] = f i).
  { intros A f i Hi. apply (Permutation_in _ HP), in_seq in Hi.
    apply nth_error_nth. rewrite nth_error_map, (nth_error_nth' _ 0) by (rewrite seq_length; lia). rewrite seq_nth by lia. reflexivity. }
  do 2 f_equal; apply map_ext_in; intros i Hi; rewrite HS by auto; apply map_ext; intros k;
    fold (pick sigma X); fold (pick sigma L); now rewrite PG.
Qed.

Example C30_example : Permutation [2; 0; 1] (seq 0 3).
Proof. cbn. apply perm_trans with [0; 2; 1]; [apply perm_swap|]. apply perm_skip, perm_swap. Qed.

(** ** C31 *)
(** The number of pairs (i,j) with coinciding particles. *)
Definition coinciding (X : list (list R)) : nat :=
  length (filter (fun '(x, y) => if list_eq_dec Req_EM_T x y then true else false) (list_prod X X)).

Lemma coinciding_zeros : forall X d, Forall (fun r => length r = d) X -> coinciding X = zeros (sqdists X).
Proof.
  intros X d HF. unfold coinciding, zeros, sqdists, count. rewrite Forall_forall in HF.
  assert (G : forall Y, incl Y X ->
    length (filter (fun '(x, y) => if list_eq_dec Req_EM_T x y then true else false) (list_prod Y X)) =
    length (filter (fun x => if Rle_dec x 0 then true else false) (flat_map (fun x => map (sqdist x) X) Y))).
  { induction Y as [|y Y IH]; intros Hi; [reflexivity|]. cbn [list_prod flat_map].
    rewrite !filter_app, !app_length, IH by (intros z Hz; apply Hi; now right). f_equal.
    assert (Ly : length y = d) by (apply HF, Hi; now left).
    assert (G2 : forall Z, incl Z X ->
      length (filter (fun '(x, y0) => if list_eq_dec Req_EM_T x y0 then true else false) (map (fun y0 => (y, y0)) Z)) =
      length (filter (fun x => if Rle_dec x 0 then true else false) (map (sqdist y) Z))).
    { induction Z as [|z Z IHZ]; intros Hz; [reflexivity|]. cbn [map filter].
      assert (Lz : length z = d) by (apply HF, Hz; now left).
      specialize (IHZ (fun w Hw => Hz w (or_intror Hw))).
      destruct (list_eq_dec Req_EM_T y z) as [E|N]; destruct (Rle_dec (sqdist y z) 0) as [H0|H0];
        cbn [length]; rewrite ?IHZ; auto; exfalso.
      - rewrite E, sqdist_refl in H0. lra.
      - apply N. apply sqdist_zero; [congruence|]. pose proof (sqdist_nonneg y z). lra. }
    apply G2. apply incl_refl. }
  apply G. apply incl_refl.
Qed.

Lemma bandwidth_zero_iff : forall X n d, matrix_shape n d X -> 1 <= n ->
  (bandwidth X 0 <-> n * n < 2 * coinciding X).
Proof.
  intros X n d HX Hn. destruct (kernel_closed X n d HX Hn) as (med & Hm & _). destruct HX as [HL HF].
  rewrite (coinciding_zeros X d HF).
  assert (Ls : length (sqdists X) = n * n) by (rewrite sqdists_length; congruence).
  assert (Hne : sqdists X <> []) by (intros E; rewrite E in Ls; cbn in Ls; nia).
  destruct (median_pos_iff (sqdists X) med Hne (sqdists_nonneg X) Hm) as [I1 I2]. rewrite Ls in I1, I2.
  pose proof (median_nonneg _ _ Hne (sqdists_nonneg X) Hm) as M0.
  assert (Hl : (0 < 2 * ln (INR (length X) + 1))%R) by (apply Rmult_lt_0_compat; [lra|apply ln_n1_pos; lia]).
  rewrite <- I2. split.
  - intros (m & Hm' & E). rewrite (is_median_unique _ _ _ Hm Hm') in *. 
    destruct (Rle_lt_or_eq_dec 0 m M0) as [Hpos|]; auto. exfalso.
    assert (0 < sqrt (m / (2 * ln (INR (length X) + 1))))%R; [|lra]. apply sqrt_lt_R0, Rdiv_lt_0_compat; auto.
  - intros ->. exists 0%R. split; auto. unfold Rdiv. now rewrite Rmult_0_l, sqrt_0.
Qed.

(** More than half of the pairs coincide: every coordinate of every particle and
    every history entry is NaN after one step, whatever gradients, history, stepsize and
    constants. *)
Theorem C31_degenerate_nan : forall (c : sconfig XR) eps X L H n d,
  matrix_shape n d X -> xshape n d H -> 1 <= n -> n * n < 2 * coinciding X ->
  svgd_step c eps n d (finm X) L H = Ok (nanm n d, nanm n d).
Proof.
  intros. apply step_nan; auto. eapply bandwidth_zero_iff; eauto.
Qed.

(** Otherwise the step is finite and is the one over the reals. *)
Theorem C31_otherwise_finite : forall c eps X L H n d,
  matrix_shape n d X -> matrix_shape n d L -> matrix_shape n d H -> 1 <= n ->
  2 * coinciding X <= n * n ->
  (0 <= s_alpha c <= 1)%R -> (0 < s_fudge c)%R -> Forall (Forall (fun x => 0 <= x)%R) H ->
  exists X' H', svgd_step c eps n d X L H = Ok (X', H') /\
    svgd_step (fin_config c) (Fin eps) n d (finm X) (finm L) (finm H) = Ok (finm X', finm H').
Proof.
  intros c eps X L H n d HX HL HH Hn Hc Ha Hf Hnn. apply step_fin; auto.
  rewrite (bandwidth_zero_iff X n d HX Hn). lia.
Qed.

Lemma coinciding_repeat : forall n x, coinciding (repeat x n) = n * n.
Proof.
  intros n x. unfold coinciding.
  assert (G : forall l, Forall (fun p => p = (x, x)) l ->
    length (filter (fun '(x0, y) => if list_eq_dec Req_EM_T x0 y then true else false) l) = length l).
  { intros l HF. induction HF as [|p l -> HF IH]; cbn; auto. destruct (list_eq_dec Req_EM_T x x); [|congruence]. cbn. now rewrite IH. }
  rewrite G.
  - now rewrite prod_length, repeat_length.
  - apply Forall_forall. intros [a b] Hi. apply in_prod_iff in Hi as [Ha Hb].
    apply repeat_spec in Ha as ->. apply repeat_spec in Hb as ->. reflexivity.
Qed.

(** All particles at one point. *)
Theorem C31_all_coincide : forall (c : sconfig XR) eps x L n d, length x = d -> 1 <= n ->
  svgd_step c eps n d (finm (repeat x n)) L (svgd_history n d) = Ok (nanm n d, nanm n d).
Proof.
  intros c eps x L n d Hx Hn. apply C31_degenerate_nan; auto.
  - split; [apply repeat_length|]. apply Forall_forall. intros r Hr. now apply repeat_spec in Hr as ->.
  - split; [apply repeat_length|]. apply Forall_forall. intros r Hr. apply repeat_spec in Hr as ->. apply repeat_length.
  - rewrite coinciding_repeat. nia.
Qed.

(** Two of three particles coinciding is already enough. *)
Example C31_two_of_three : 3 * 3 < 2 * coinciding [[0; 0]; [0; 0]; [1; 2]]%R.
Proof.
  unfold coinciding. cbn [list_prod map app].
  repeat (cbn [filter]; match goal with |- context [list_eq_dec ?d ?a ?b] =>
    destruct (list_eq_dec d a b) as [E|E];
    [try (exfalso; injection E; intros; lra); clear E | try (exfalso; apply E; reflexivity); clear E] end);
  cbn; lia.
Qed.

(** The constructor accepts exactly at least two vectors of equal dimension >= 2. *)
Definition python_number (v : pyval) : Prop := (exists z, v = PInt z) \/ (exists b, v = PBool b) \/ (exists n d, v = PFloat n d).
Lemma is_number_spec : forall v, is_number v = true <-> python_number v.
Proof. intros v. unfold python_number. split; [destruct v; try discriminate; eauto|intros [[z ->]|[[b ->]|(n & d & ->)]]; reflexivity]. Qed.
Theorem C31_shapes : forall alpha fudge cf shapes,
  svgd_construct alpha fudge cf shapes = Ok tt <->
  python_number alpha /\ python_number fudge /\ cf = true /\
  exists n d, 2 <= n /\ d <> 1 /\ shapes = repeat [d] n.
Proof.
  intros alpha fudge cf shapes. rewrite <- !is_number_spec. unfold svgd_construct.
  destruct (is_number alpha); cbn [assert_ bind]; [|split; [discriminate|intros (? & _); discriminate]].
  destruct (is_number fudge); cbn [assert_ bind]; [|split; [discriminate|intros (_ & ? & _); discriminate]].
  destruct cf; cbn [assert_ bind]; [|split; [discriminate|intros (_ & _ & ? & _); discriminate]].
  destruct shapes as [|s rest].
  - split; [discriminate|]. intros (_ & _ & _ & n & d & Hn & _ & E). destruct n; [lia|discriminate].
  - destruct (forallb _ rest) eqn:EF.
    + assert (ER : rest = repeat s (length rest)).
      { rewrite forallb_forall in EF. clear - EF. induction rest as [|r rest IH]; cbn; auto.
        f_equal; [|apply IH; intros; apply EF; now right].
        specialize (EF r (or_introl eq_refl)). destruct (list_eq_dec Nat.eq_dec s r); congruence. }
      set (n := length (s :: rest)).
      assert (ES : s :: rest = repeat s n) by (unfold n; cbn; congruence).
      rewrite ES. clear ER EF. destruct s as [|d [|e s]].
      * split; [discriminate|]. intros (_ & _ & _ & n' & d' & Hn' & _ & E). destruct n'; [lia|].
        destruct n; discriminate.
      * cbn [filter]. change (1 =? 1) with true. cbn [negb].
        destruct (n =? 1) eqn:En; cbn [negb].
        -- split; [destruct (negb (d =? 1)); discriminate|]. intros (_ & _ & _ & n' & d' & Hn' & _ & E). apply Nat.eqb_eq in En.
           apply (f_equal (@length _)) in E. rewrite !repeat_length in E. lia.
        -- apply Nat.eqb_neq in En. assert (n <> 0) by (unfold n; cbn; lia).
           destruct (d =? 1) eqn:Ed; cbn [negb].
           ++ apply Nat.eqb_eq in Ed. subst d. split; [discriminate|]. intros (_ & _ & _ & n' & d' & Hn' & Hd' & E).
              destruct n; [lia|]. destruct n'; [lia|]. cbn in E. injection E. intros. congruence.
           ++ apply Nat.eqb_neq in Ed. rewrite Nat.eqb_refl. split; [|auto]. intros _. repeat split; auto. exists n, d. repeat split; auto. lia.
      * split; [discriminate|]. intros (_ & _ & _ & n' & d' & Hn' & _ & E). destruct n'; [lia|].
        destruct n; discriminate.
    + split; [discriminate|]. intros (_ & _ & _ & n & d & Hn & _ & E). destruct n; [lia|]. cbn in E. injection E as -> ->.
      assert (forallb (fun s' => if list_eq_dec Nat.eq_dec [d] s' then true else false) (repeat [d] n) = true); [|congruence].
      apply forallb_forall. intros s Hs. apply repeat_spec in Hs as ->. destruct (list_eq_dec Nat.eq_dec [d] [d]); congruence.
Qed.
