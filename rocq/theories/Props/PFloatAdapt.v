(** C93: the burn-in adaptation in floating point. *)
From Coq Require Import List Arith Lia ZArith Reals Lra.
From Flocq Require Import Core.Core.
From Verif.Base Require Import Py Num Vec Lists.
From Verif.Model Require Import TensorUtils BurnIn SGHMC SGLD.
From Verif.Spec Require Import Trajectory.
From Verif.Proofs Require Import SafeFloat FloatAdapt FloatCell Dynamics Trajectory.
Import ListNotations.
Local Open Scope R_scope.

(** Formats (binary64: 53, -1074; binary32: 24, -149; unbounded exponents upwards) that
    hold the guard 1e-16 as a normal number, and numbers of steps they can bear. *)
Definition fine_format (prec emin : Z) : Prop := (10 <= prec /\ emin + prec + 54 <= 0)%Z.
Definition within (prec : Z) (t : nat) : Prop := (2048 * (Z.of_nat t + 1) ^ 2 <= 2 ^ prec)%Z.

(** What holds of entry [k] of the burn-in variables after [t] steps: 2^-prec is the
    relative, 2^emin the absolute unit of rounding. *)
Definition float_ok (prec emin : Z) (k t : nat) (a : adapt R) : Prop :=
  exists tau r g v m,
    nth_error (a_tau a) k = Some tau /\ nth_error (a_r a) k = Some r /\
    nth_error (a_g a) k = Some g /\ nth_error (a_vhat a) k = Some v /\ nth_error (a_minv a) k = Some m /\
    1 / 2 <= tau <= INR t + 1 /\ 0 < r <= 3 / 4 /\ 0 <= v /\
    g ^ 2 <= (1 + 200 * INR t * bpow radix2 (- prec)) * v + INR t * bpow radix2 (emin + 7) /\
    0 <= m <= bpow radix2 54.

Lemma within_few : forall prec t, (0 <= prec)%Z -> within prec t -> few prec t.
Proof.
  intros prec t Hp HW. unfold few, within in *. apply IZR_le in HW.
  replace (IZR (2 ^ prec)) with (bpow radix2 prec) in HW by (symmetry; now apply (IZR_Zpower radix2)).
  rewrite mult_IZR in HW.
  replace (IZR ((Z.of_nat t + 1) ^ 2)) with ((INR t + 1) ^ 2) in HW.
  2:{ rewrite INR_IZR_INZ, <- (plus_IZR _ 1). rewrite pow_IZR. reflexivity. }
  rewrite bpow_opp. pose proof (bpow_gt_0 radix2 prec) as Hb. set (b := bpow radix2 prec) in *.
  apply (Rmult_le_reg_r b); [exact Hb|]. replace (2048 * / b * (INR t + 1) ^ 2 * b) with (2048 * (INR t + 1) ^ 2) by (field; lra). lra.
Qed.

Lemma kappa_abs : forall prec emin (Hp : Prec_gt_0 prec), fine_format prec emin ->
  kappa prec emin <= bpow radix2 (emin + 7).
Proof.
  intros prec emin Hp [H1 H2]. unfold kappa.
  set (u := bpow radix2 (- prec)). set (eta := bpow radix2 (emin - 1)).
  assert (Hu : 0 < u) by apply bpow_gt_0. assert (He : 0 < eta) by apply bpow_gt_0.
  assert (Hue : eta <= u) by (apply bpow_le; lia).
  assert (eta * eta / u <= eta).
  { apply (Rmult_le_reg_r u); [lra|]. replace (eta * eta / u * u) with (eta * eta) by (field; lra).
    apply Rmult_le_compat_l; lra. }
  replace (bpow radix2 (emin + 7)) with (eta * 256).
  2:{ unfold eta. change 256 with (bpow radix2 8). rewrite <- bpow_plus. f_equal. lia. }
  lra.
Qed.

Lemma float_ok_run : forall prec emin (Hp : Prec_gt_0 prec), fine_format prec emin ->
  forall n k (ins : list (step_input R)), Forall (sized n) ins -> (k < n)%nat -> within prec (length ins) ->
  float_ok prec emin k (length ins)
    (@adapt_fold R (Num_rounded prec emin) (map i_grad ins) (@adapt_init R (Num_rounded prec emin) n)).
Proof.
  intros prec emin Hp HFF n k ins HF Hk HW. pose proof HFF as [H1 H2].
  pose proof (sized_grads _ _ HF) as HG.
  destruct (ok_run prec emin H2 H1 n (map i_grad ins) k HG Hk) as (e & (E1 & E2 & E3 & E4 & E5) & [A1 A2 A3 A4 A5 A6]).
  { rewrite map_length. apply within_few; auto. lia. }
  rewrite map_length in *. exists (c_tau e), (c_r e), (c_g e), (c_vhat e), (c_minv e).
  repeat (split; [assumption|]). split; [|split].
  - eapply Rle_trans; [exact A4|]. apply Rplus_le_compat; [right; ring|].
    rewrite Rmult_comm. apply Rmult_le_compat_l; [apply pos_INR|now apply kappa_abs].
  - apply A6.
  - replace (bpow radix2 54) with 18014398509481984 by (cbn; lra). apply A6.
Qed.

(** Whatever the gradients, the window, averaging rate, second moment and inverse mass
    stay well-posed for as many steps as [within] allows. *)
Theorem C93_floating_point_adaptation :
  forall prec emin (Hp : Prec_gt_0 prec), fine_format prec emin ->
  forall (c : config R) (lc : lconfig R) v (ins : list (step_input R)) k,
  Forall (sized (length (data v))) ins -> (k < length (data v))%nat -> within prec (length ins) ->
  float_ok prec emin k (length ins)
    (p_adapt (@sghmc_run R (Num_rounded prec emin) c ins (@pinit R (Num_rounded prec emin) v))) /\
  float_ok prec emin k (length ins)
    (l_adapt (@sgld_run R (Num_rounded prec emin) lc ins (@linit R (Num_rounded prec emin) v))).
Proof.
  intros prec emin Hp HFF c lc v ins k HF Hk HW.
  rewrite (@sghmc_run_adapt R (Num_rounded prec emin)), (@sgld_run_adapt R (Num_rounded prec emin)).
  split; now apply float_ok_run.
Qed.

(** Double precision, the default dtype of the samplers: two million steps. Single
    precision: 89 steps. *)
Example C93_binary64 : fine_format 53 (-1074) /\ forall t, (Z.of_nat t <= 2097151)%Z -> within 53 t.
Proof.
  split; [unfold fine_format; lia|]. intros t Ht. unfold within.
  assert ((Z.of_nat t + 1) ^ 2 <= 2097152 ^ 2)%Z by (apply Z.pow_le_mono_l; lia).
  change (2097152 ^ 2)%Z with 4398046511104%Z in H. change (2 ^ 53)%Z with 9007199254740992%Z. lia.
Qed.
Example C93_binary32 : fine_format 24 (-149) /\ within 24 89.
Proof. split; [unfold fine_format; lia|]. unfold within. vm_compute. discriminate. Qed.

(** A history of three steps of two entries, with a gradient of 1e300. *)
Definition float_steps : list (step_input R) :=
  [StepInput (1/100) [2; 0] [1/2; 1] None; StepInput (1/100) [-2; 10 ^ 300] [-1; 0] None;
   StepInput (1/100) [3; 1] [0; 0] (Some [1; 1])].
Example C93_nontrivial :
  Forall (sized (length (data (Tensor [2%nat] [7; 8])))) float_steps /\ within 53 (length float_steps).
Proof. split; [repeat constructor|]. unfold within. vm_compute. discriminate. Qed.
