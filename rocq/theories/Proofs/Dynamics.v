(** Lemmas for C17-C23: from the vector code to scalar recursions. *)
From Coq Require Import List Arith Lia ZArith Reals Lra Bool.
From Verif.Base Require Import Py Num Vec Lists.
From Verif.Model Require Import TensorUtils BurnIn SGHMC SGLD.
From Verif.Spec Require Import Dynamics.
Import ListNotations.

(** *** One entry of the vector code, for any number type *)
Section Any.
Context {T : Type} `{Num T}.

(** Entry [k] of every burn-in variable. *)
Record cell := Cell { c_tau : T; c_r : T; c_g : T; c_vhat : T; c_minv : T }.
Definition at_index (a : adapt T) (k : nat) (c : cell) : Prop :=
  nth_error (a_tau a) k = Some (c_tau c) /\ nth_error (a_r a) k = Some (c_r c) /\
  nth_error (a_g a) k = Some (c_g c) /\ nth_error (a_vhat a) k = Some (c_vhat c) /\
  nth_error (a_minv a) k = Some (c_minv c).

Definition cell_step (grad : T) (c : cell) : cell :=
  let r := ndiv n1 (nadd (c_tau c) n1) in
  {| c_tau := nadd (c_tau c)
       (nadd (safe_divide (nmul (nmul (nopp (c_g c)) (c_g c)) (c_tau c)) (c_vhat c)) n1);
     c_r := r;
     c_g := nadd (c_g c) (nadd (nmul (nopp r) (c_g c)) (nmul r grad));
     c_vhat := nadd (c_vhat c) (nadd (nmul (nopp r) (c_vhat c)) (nmul r (npow grad 2)));
     c_minv := safe_divide n1 (safe_sqrt (c_vhat c)) |}.

Definition cell_init : cell :=
  {| c_tau := n1; c_r := ndiv n1 (nadd n1 n1); c_g := n1; c_vhat := n1; c_minv := ndiv n1 (nsqrt n1) |}.

Lemma at_index_init : forall n k, k < n -> at_index (adapt_init n) k cell_init.
Proof.
  intros n k Hk. unfold at_index, adapt_init, cell_init; cbn [a_tau a_r a_g a_vhat a_minv c_tau c_r c_g c_vhat c_minv].
  rewrite !nth_error_map, !nth_error_repeat by auto. cbn. auto.
Qed.

Lemma at_index_step : forall a k c grad g, at_index a k c -> nth_error grad k = Some g ->
  at_index (adapt_step grad a) k (cell_step g c).
Proof.
  intros a k c grad g (H1 & H2 & H3 & H4 & H5) Hg.
  unfold at_index, adapt_step; cbn [a_tau a_r a_g a_vhat a_minv].
  repeat split;
    repeat (rewrite nth_error_vmap2 || rewrite nth_error_map || rewrite H1 || rewrite H3 ||
            rewrite H4 || rewrite Hg || cbn [option_map]); reflexivity.
Qed.

(** Lengths of the burn-in variables. *)
Definition adapt_len (n : nat) (a : adapt T) : Prop :=
  length (a_tau a) = n /\ length (a_r a) = n /\ length (a_g a) = n /\ length (a_vhat a) = n /\
  length (a_minv a) = n.
Lemma adapt_len_init : forall n, adapt_len n (adapt_init n).
Proof. intros. unfold adapt_len, adapt_init; cbn. rewrite !map_length, !repeat_length. auto. Qed.
Lemma adapt_len_step : forall n a grad, adapt_len n a -> length grad = n -> adapt_len n (adapt_step grad a).
Proof.
  intros n a grad (H1 & H2 & H3 & H4 & H5) Hg. unfold adapt_len, adapt_step; cbn.
  repeat split; repeat first [apply vmap2_length | rewrite map_length]; auto.
Qed.
Lemma at_index_exists : forall n a k, adapt_len n a -> k < n -> exists c, at_index a k c.
Proof.
  intros n a k (H1 & H2 & H3 & H4 & H5) Hk.
  destruct (nth_error_lt _ (a_tau a) k) as [x1 E1]; [lia|].
  destruct (nth_error_lt _ (a_r a) k) as [x2 E2]; [lia|].
  destruct (nth_error_lt _ (a_g a) k) as [x3 E3]; [lia|].
  destruct (nth_error_lt _ (a_vhat a) k) as [x4 E4]; [lia|].
  destruct (nth_error_lt _ (a_minv a) k) as [x5 E5]; [lia|].
  exists {| c_tau := x1; c_r := x2; c_g := x3; c_vhat := x4; c_minv := x5 |}. repeat split; auto.
Qed.
End Any.
Arguments cell : clear implicits.

(** *** The cell over the reals *)
Local Open Scope R_scope.

Lemma guard_pos : 0 < guard. Proof. unfold guard. lra. Qed.
Lemma small_constant_R : small_constant = guard.
Proof. unfold small_constant, guard. cbn. unfold Rfrac. lra. Qed.

Lemma safe_divide_R_pos : forall x y : R, 0 < y -> safe_divide x y = x / (y + 3 * guard).
Proof.
  intros x y Hy. unfold safe_divide, safe_divide_with, safe_divisor, nsign.
  rewrite n0_R, n1_R, n2_R, small_constant_R. cbn.
  replace (Rltb y 0) with false by (symmetry; apply Rltb_false; lra).
  replace (Rltb 0 y) with true by (symmetry; now apply Rltb_true).
  f_equal. ring.
Qed.
Lemma safe_sqrt_R : forall x : R, 0 <= x -> safe_sqrt x = sqrt x.
Proof.
  intros. unfold safe_sqrt, safe_sqrt_with, clip_by_value. rewrite nmax_R, n0_R, Rmax_left by auto. reflexivity.
Qed.

(** The invariant of the adaptation. *)
Definition well_posed (s : scalar) : Prop :=
  1 <= s_tau s /\ 0 < s_v s /\ s_g s ^ 2 <= s_v s.
Definition scalar_of (c : cell R) : scalar := Scalar (c_tau c) (c_g c) (c_vhat c).

Lemma cell_step_R : forall g c, 0 < c_vhat c -> c_tau c <> -1 ->
  scalar_of (cell_step g c) = adapt_scalar g (scalar_of c) /\
  c_r (cell_step g c) = rate (scalar_of c) /\
  c_minv (cell_step g c) = inverse_mass (c_vhat c).
Proof.
  intros g c Hv Ht. unfold scalar_of, adapt_scalar, cell_step, rate, inverse_mass; cbn [c_tau c_r c_g c_vhat c_minv s_tau s_g s_v].
  rewrite (safe_divide_R_pos _ (c_vhat c)) by auto.
  pose proof guard_pos. pose proof (sqrt_lt_R0 _ Hv).
  rewrite safe_sqrt_R, safe_divide_R_pos by lra. rewrite npow_R, n1_R. cbn [nadd nmul nopp ndiv Num_R].
  split; [|split; reflexivity]. f_equal; field; lra.
Qed.

Lemma rate_bounds : forall s, well_posed s -> 0 < rate s <= 1 / 2.
Proof.
  intros s (Ht & _). unfold rate. split.
  - apply Rdiv_lt_0_compat; lra.
  - apply (Rmult_le_reg_r (s_tau s + 1)); [lra|]. field_simplify; [|lra]. lra.
Qed.

Lemma well_posed_step : forall g s, well_posed s -> well_posed (adapt_scalar g s).
Proof.
  intros g s HW. pose proof (rate_bounds s HW) as Hr. destruct HW as (Ht & Hv & Hg).
  pose proof guard_pos as HG. unfold well_posed, adapt_scalar; cbn [s_tau s_g s_v].
  set (r := rate s) in *. split; [|split].
  - assert (0 <= 1 - s_g s ^ 2 / (s_v s + 3 * guard)).
    { apply (Rmult_le_reg_r (s_v s + 3 * guard)); [lra|]. field_simplify; [|lra]. lra. }
    assert (0 <= s_tau s * (1 - s_g s ^ 2 / (s_v s + 3 * guard))) by (apply Rmult_le_pos; lra). lra.
  - assert (0 < (1 - r) * s_v s) by nra. assert (0 <= r * g ^ 2) by (pose proof (pow2_ge_0 g); nra). lra.
  - assert (0 <= r * (1 - r) * (s_g s - g) ^ 2).
    { apply Rmult_le_pos; [nra|apply pow2_ge_0]. }
    assert (0 <= (1 - r) * (s_v s - s_g s ^ 2)) by nra. nra.
Qed.

Lemma well_posed0 : well_posed scalar0.
Proof. unfold well_posed, scalar0; cbn. lra. Qed.

(** Histories. *)
Definition scalar_run (gs : list R) : scalar := fold_left (fun s g => adapt_scalar g s) gs scalar0.

Lemma scalar_run_snoc : forall gs g, scalar_run (gs ++ [g]) = adapt_scalar g (scalar_run gs).
Proof. intros. unfold scalar_run. now rewrite fold_left_app. Qed.

Lemma well_posed_run : forall gs, well_posed (scalar_run gs).
Proof.
  intros gs. induction gs using rev_ind; [apply well_posed0|].
  rewrite scalar_run_snoc. now apply well_posed_step.
Qed.

Lemma scalar_run_bounds : forall gs lo hi, lo <= 1 <= hi -> (forall g, In g gs -> lo <= g ^ 2 <= hi) ->
  lo <= s_v (scalar_run gs) <= hi.
Proof.
  intros gs lo hi Hb. induction gs as [|g gs IH] using rev_ind; intros Hg; [cbn; lra|].
  rewrite scalar_run_snoc. pose proof (rate_bounds _ (well_posed_run gs)) as Hr.
  assert (Hl : lo <= s_v (scalar_run gs) <= hi) by (apply IH; intros; apply Hg, in_app_iff; auto).
  assert (Hx : lo <= g ^ 2 <= hi) by (apply Hg, in_app_iff; right; now left).
  unfold adapt_scalar; cbn [s_v]. nra.
Qed.

Lemma scalar_run_tau : forall gs, s_tau (scalar_run gs) <= 1 + INR (length gs).
Proof.
  induction gs as [|g gs IH] using rev_ind; [cbn; lra|].
  rewrite scalar_run_snoc, app_length, plus_INR. cbn [length INR].
  pose proof (well_posed_run gs) as (Ht & Hv & Hg). pose proof guard_pos as HG.
  unfold adapt_scalar; cbn [s_tau].
  assert (0 <= s_g (scalar_run gs) ^ 2 / (s_v (scalar_run gs) + 3 * guard)).
  { apply Rmult_le_pos; [apply pow2_ge_0|]. apply Rlt_le, Rinv_0_lt_compat. lra. }
  nra.
Qed.

Lemma inverse_mass_bounds : forall v, 0 < v -> 0 < inverse_mass v <= 1 / (3 * guard).
Proof.
  intros v Hv. pose proof guard_pos. pose proof (sqrt_lt_R0 _ Hv). unfold inverse_mass. split.
  - apply Rdiv_lt_0_compat; lra.
  - apply Rmult_le_compat_l; [lra|]. apply Rinv_le_contravar; lra.
Qed.

(** *** Vector histories *)
Definition adapt_run (n : nat) (gs : list (list R)) : adapt R :=
  fold_left (fun a g => adapt_step g a) gs (adapt_init n).

(** Column k of a list of gradient vectors. *)
Definition column (k : nat) (gs : list (list R)) : list R := map (fun g => nth k g 0) gs.

Lemma adapt_run_len : forall n gs, Forall (fun g => length g = n) gs -> adapt_len n (adapt_run n gs).
Proof.
  intros n gs. induction gs as [|g gs IH] using rev_ind; intros HF; [apply adapt_len_init|].
  apply Forall_app in HF as [HF Hg]. inversion Hg; subst. unfold adapt_run. rewrite fold_left_app. cbn.
  apply adapt_len_step; auto.
Qed.

Lemma adapt_run_cell : forall n gs k, Forall (fun g => length g = n) gs -> (k < n)%nat ->
  exists c, at_index (adapt_run n gs) k c /\ scalar_of c = scalar_run (column k gs).
Proof.
  intros n gs k. induction gs as [|g gs IH] using rev_ind; intros HF Hk.
  - exists cell_init. split; [now apply at_index_init|]. unfold scalar_of, cell_init, scalar_run, scalar0; cbn [c_tau c_g c_vhat column map fold_left].
    now rewrite n1_R.
  - apply Forall_app in HF as [HF Hg]. inversion Hg as [|? ? Hgl _]; subst. destruct IH as (c & Hc & Hs); auto.
    destruct (nth_error_lt _ g k Hk) as [x Hx].
    exists (cell_step x c). unfold adapt_run, column. rewrite fold_left_app, map_app. cbn [fold_left map].
    split; [now apply at_index_step|].
    fold (column k gs). rewrite scalar_run_snoc, (nth_error_nth _ _ _ Hx), <- Hs.
    pose proof (well_posed_run (column k gs)) as (Ht & Hv & _). rewrite <- Hs in Ht, Hv. cbn in Ht, Hv.
    apply cell_step_R; [exact Hv|lra].
Qed.

(** The mass matrix assigned by the step with gradient [g] after history [gs]. *)
Lemma adapt_run_minv : forall n gs g k, Forall (fun g => length g = n) gs -> length g = n -> (k < n)%nat ->
  nth_error (a_minv (adapt_step g (adapt_run n gs))) k =
  Some (inverse_mass (s_v (scalar_run (column k gs)))).
Proof.
  intros n gs g k HF Hg Hk. destruct (adapt_run_cell n gs k HF Hk) as (c & Hc & Hs).
  destruct (nth_error_lt _ g k ltac:(lia)) as [x Hx].
  pose proof (at_index_step _ _ _ _ _ Hc Hx) as (_ & _ & _ & _ & ->).
  pose proof (well_posed_run (column k gs)) as (Ht & Hv & _). rewrite <- Hs in Ht, Hv. cbn in Ht, Hv.
  destruct (cell_step_R x c Hv ltac:(lra)) as (_ & _ & ->). now rewrite <- Hs.
Qed.
