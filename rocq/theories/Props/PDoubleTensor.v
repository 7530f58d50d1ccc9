(** C105: tensor utilities in double precision. *)
From Coq Require Import String List Arith Lia ZArith Bool Reals Lra Permutation Sorting.
From Flocq Require Import Core.Core Relative Plus_error Mult_error.
From Flocq Require IEEE754.BinarySingleNaN.
From Verif.Proofs Require Import SafeFloat FloatCell FloatAdapt.
From Verif.Base Require Import Py Num Float64 Vec Lists.
From Verif.Model Require Import TensorUtils.
From Verif.Spec Require Import Tensor Doubles.
From Verif.Proofs Require Import Tensor Distances DoubleCell DoubleRun.
From Verif.Props Require Import PDoubleData.
From Verif.Props Require PTensor.
Import ListNotations.
Local Open Scope list_scope.
Local Open Scope R_scope.

(** *** Medians *)
Lemma insert_value : forall (x : f64) l, finite x -> Forall finite l -> map value (insert_desc x l) = insert_desc (value x) (map value l).
Proof.
  intros x l Fx. induction l as [|y l IH]; intros Fl; [reflexivity|]. inversion Fl as [|? ? Fy Fl']; subst. cbn [insert_desc map].
  rewrite (rep_ltb _ _ _ _ (rep_value x Fx) (rep_value y Fy)). change (nltb (value x) (value y)) with (Rltb (value x) (value y)).
  destruct (Rltb (value x) (value y)); cbn [map]; [now rewrite IH|reflexivity].
Qed.
Lemma insert_In : forall (x y : f64) l, In y (insert_desc x l) <-> y = x \/ In y l.
Proof.
  intros x y l. induction l as [|z l IH]; cbn [insert_desc In]; [intuition auto|]. destruct (nltb x z); cbn [In]; [rewrite IH|]; intuition auto.
Qed.
Lemma top_k_In : forall (l : list f64) y, In y (top_k_all l) <-> In y l.
Proof. induction l as [|x l IH]; intros y; [reflexivity|]. change (top_k_all (x :: l)) with (insert_desc x (top_k_all l)). rewrite insert_In, IH. cbn [In]. intuition auto. Qed.
Lemma top_k_finite : forall l : list f64, Forall finite l -> Forall finite (top_k_all l).
Proof. intros l H. rewrite Forall_forall in *. intros x Hx. apply H. now apply top_k_In. Qed.
Lemma top_k_value : forall l : list f64, Forall finite l -> map value (top_k_all l) = top_k_all (map value l).
Proof.
  induction l as [|x l IH]; intros Fl; [reflexivity|]. inversion Fl as [|? ? Fx Fl']; subst.
  change (top_k_all (x :: l)) with (insert_desc x (top_k_all l)). change (top_k_all (map value (x :: l))) with (insert_desc (value x) (top_k_all (map value l))).
  rewrite insert_value by auto using top_k_finite. now rewrite IH.
Qed.
Lemma top_k_length64 : forall l : list f64, Forall finite l -> length (top_k_all l) = length l.
Proof. intros l Fl. rewrite <- (map_length value), top_k_value, top_k_length, map_length; auto. Qed.

(** Half of the sum of two doubles lies between them. *)
Lemma rnd_between : forall (x y : f64) z, value x <= z <= value y -> value x <= rnd64 z <= value y.
Proof. intros x y z [H1 H2]. split; [rewrite <- (value_round x)|rewrite <- (value_round y)]; now apply rnd64_mono. Qed.
Lemma format_twice : forall x : f64, generic_format radix2 (FLT_exp (-1074) 53) (2 * value x).
Proof. intros x. apply (format_double 53 (-1074)). apply value_format. Qed.
Lemma rep_mid : forall a b, bounded64 1022 a -> bounded64 1022 b -> rep (ndiv (nadd a b) n2) (rnd64 (rnd64 (value a + value b) / 2)).
Proof.
  intros a b [Fa Ba] [Fb Bb].
  assert (B : Rabs (value a + value b) <= p2 1023) by (eapply Rle_trans; [apply Rabs_triang|]; pose proof (p2_twice 1022 1023 ltac:(lia)); unfold p2 in *; lra).
  assert (R1 : rep (nadd a b) (rnd64 (value a + value b))) by (apply rep_add; auto using rep_value; apply (below_huge 1023); [lia|exact B]).
  apply rep_div; [exact R1|apply rep_2|lra|]. apply (below_huge 1023); [lia|].
  pose proof (rnd64_bound 1023 _ ltac:(lia) B) as B'. unfold Rdiv. rewrite Rabs_mult, (Rabs_right (/ 2)) by lra. pose proof (Rabs_pos (rnd64 (value a + value b))). unfold p2 in *. lra.
Qed.
Lemma mid_between : forall a b : f64, value a <= value b -> value a <= rnd64 (rnd64 (value a + value b) / 2) <= value b.
Proof.
  intros a b L. apply rnd_between.
  assert (H1 : 2 * value a <= rnd64 (value a + value b)) by (rewrite <- (rnd64_id _ (format_twice a)); apply rnd64_mono; lra).
  assert (H2 : rnd64 (value a + value b) <= 2 * value b) by (rewrite <- (rnd64_id _ (format_twice b)); apply rnd64_mono; lra). lra.
Qed.
Lemma mid_error : forall a b : f64, Rabs (rnd64 (rnd64 (value a + value b) / 2) - (value a + value b) / 2) <= p2 (-53) * Rabs ((value a + value b) / 2) + p2 (-1075).
Proof.
  intros a b. set (s := value a + value b). destruct (Rle_dec (Rabs s) (p2 (-1021))) as [L|L].
  - assert (F : generic_format radix2 (FLT_exp (-1074) 53) s) by (apply FLT_format_plus_small; [reflexivity|apply value_format|apply value_format|exact L]).
    rewrite (rnd64_id _ F). apply err64.
  - assert (G : p2 (-1021) <= Rabs (rnd64 s)).
    { apply Rnot_le_lt in L. unfold rnd64. apply abs_round_ge_generic; [auto with typeclass_instances|apply valid_rnd_N|apply format64_bpow; lia|left; exact L]. }
    assert (F : generic_format radix2 (FLT_exp (-1074) 53) (rnd64 s / 2)).
    { change (rnd64 s / 2) with (rnd64 s * bpow radix2 (-1)). apply mult_bpow_exact_FLT.
      - apply generic_format_round; [auto with typeclass_instances|apply valid_rnd_N].
      - assert (-1020 <= mag radix2 (rnd64 s))%Z by (apply mag_ge_bpow; exact G). lia. }
    rewrite (rnd64_id _ F). replace (rnd64 s / 2 - s / 2) with ((rnd64 s - s) * / 2) by field. unfold Rdiv. rewrite !Rabs_mult, (Rabs_right (/ 2)) by lra.
    pose proof (err64 s). pose proof (p2_pos (-1075)). lra.
Qed.
Lemma nth_value : forall (l : list f64) i, (i < length l)%nat -> value (nth i l n0) = nth i (map value l) 0.
Proof. intros l i Hi. rewrite (nth_indep _ 0 (value n0)) by now rewrite map_length. symmetry. apply map_nth. Qed.

(** *** C105 *)
Theorem C105_median_in_doubles : forall t : tensor f64, data t <> [] -> Forall (bounded64 1022) (data t) ->
  exists v m, median t = Ok v /\ finite v /\ is_median (map value (data t)) m /\
    (Nat.odd (length (data t)) = true -> In v (data t) /\ value v = m) /\
    Rabs (value v - m) <= p2 (-53) * Rabs m + p2 (-1075) /\
    (length (data t) <= 2 * count (fun x => x <= value v)%R (fun x => Rle_dec x (value v)) (map value (data t)))%nat /\
    (length (data t) <= 2 * count (fun x => x >= value v)%R (fun x => Rge_dec x (value v)) (map value (data t)))%nat.
Proof.
  intros t Hne HB. unfold median. set (l := data t) in *.
  assert (Fl : Forall finite l) by (eapply Forall_impl; [|exact HB]; now intros x []).
  assert (Hn : length l <> 0%nat) by (destruct l; cbn; congruence). rewrite (proj2 (Nat.eqb_neq _ _) Hn).
  pose proof (top_k_length64 l Fl) as HL. pose proof (top_k_value l Fl) as HV. pose proof (top_k_sorted (map value l)) as HS. pose proof (top_k_perm (map value l)) as HP.
  rewrite <- HV in HS, HP. pose proof (fun y => top_k_In l y) as HI. set (s := top_k_all l) in *. clearbody s. clear HV. set (n := length l) in *.
  pose proof (Nat.div_mod n 2 ltac:(lia)) as HD. pose proof (Nat.mod_upper_bound n 2 ltac:(lia)) as HM.
  assert (Hodd : Nat.odd n = (n mod 2 =? 1)%nat) by now rewrite <- Nat.bit0_odd, Nat.bit0_eqb.
  assert (HR : StronglySorted Rle (rev (map value s))) by now apply rev_sorted.
  assert (HP' : Permutation (rev (map value s)) (map value l)) by now rewrite <- Permutation_rev, HP.
  assert (HX : forall i, (i < n)%nat -> nth_error (rev (map value s)) (n - 1 - i) = Some (value (nth i s n0))).
  { intros i Hi. assert (LM : length (map value s) = n) by now rewrite map_length. rewrite nth_error_rev by lia. rewrite LM.
    replace (n - 1 - (n - 1 - i))%nat with i by lia. rewrite (nth_error_nth_lt _ _ i 0) by lia. now rewrite <- nth_value by lia. }
  assert (LN : length (map value l) = n) by now rewrite map_length.
  assert (HC1 : forall v i, (i < n)%nat -> value (nth i s n0) <= v -> (n - i <= count (fun x => x <= v)%R (fun x => Rle_dec x v) (map value l))%nat).
  { intros v i Hi Hv. rewrite <- (count_perm _ _ _ _ HP'). replace (n - i)%nat with (S (n - 1 - i)) by lia. eapply half_below; [exact HR|apply HX; exact Hi|exact Hv]. }
  assert (HC2 : forall v i, (i < n)%nat -> v <= value (nth i s n0) -> (S i <= count (fun x => (x >= v)%R) (fun x => Rge_dec x v) (map value l))%nat).
  { intros v i Hi Hv. rewrite <- (count_perm _ _ _ _ HP'). replace (S i) with (length (rev (map value s)) - (n - 1 - i))%nat by (rewrite rev_length, map_length; lia).
    eapply half_above; [exact HR|apply HX; exact Hi|exact Hv]. }
  destruct (n mod 2 =? 1)%nat eqn:E.
  - apply Nat.eqb_eq in E. assert (IN : In (nth (n / 2) s n0) l) by (apply HI, nth_In; lia).
    exists (nth (n / 2) s n0), (value (nth (n / 2) s n0)). split; [reflexivity|]. rewrite Forall_forall in Fl. split; [now apply Fl|].
    split; [|split; [now split|split; [|split]]].
    + exists (rev (map value s)). split; [exact HP'|]. split; [exact HR|]. rewrite LN, Hodd. split; [intros _|discriminate].
      replace (n / 2)%nat with (n - 1 - n / 2)%nat at 1 by lia. apply HX. lia.
    + rewrite Rminus_diag_eq, Rabs_R0 by reflexivity. pose proof (p2_pos (-53)). pose proof (p2_pos (-1075)). pose proof (Rabs_pos (value (nth (n / 2) s n0))). nra.
    + pose proof (HC1 (value (nth (n / 2) s n0)) (n / 2)%nat ltac:(lia) ltac:(lra)). lia.
    + pose proof (HC2 (value (nth (n / 2) s n0)) (n / 2)%nat ltac:(lia) ltac:(lra)). lia.
  - apply Nat.eqb_neq in E. set (b := nth (n / 2 - 1) s n0) in *. set (a := nth (n / 2) s n0) in *.
    assert (Ba : bounded64 1022 a) by (rewrite Forall_forall in HB; apply HB, HI, nth_In; lia).
    assert (Bb : bounded64 1022 b) by (rewrite Forall_forall in HB; apply HB, HI, nth_In; lia).
    assert (AB : value a <= value b).
    { eapply (StronglySorted_nth _ (n - 1 - n / 2) (n - 1 - (n / 2 - 1))); [exact HR|lia|apply HX; lia|apply HX; lia]. }
    destruct (rep_mid b a Bb Ba) as [Fv Vv]. pose proof (mid_between a b AB) as MB. pose proof (mid_error b a) as ME. rewrite (Rplus_comm (value a)) in MB. rewrite <- Vv in MB, ME.
    exists (ndiv (nadd b a) n2), ((value b + value a) / 2). split; [reflexivity|]. split; [exact Fv|].
    split; [|split; [rewrite Hodd; discriminate|split; [exact ME|split]]].
    + exists (rev (map value s)). split; [exact HP'|]. split; [exact HR|]. rewrite LN, Hodd. split; [discriminate|intros _].
      exists (value a), (value b). split; [|split; [|field]].
      * replace (n / 2 - 1)%nat with (n - 1 - n / 2)%nat by lia. apply HX. lia.
      * replace (n / 2)%nat with (n - 1 - (n / 2 - 1))%nat at 1 by lia. apply HX. lia.
    + pose proof (HC1 (value (ndiv (nadd b a) n2)) (n / 2)%nat ltac:(lia) ltac:(apply MB)). lia.
    + pose proof (HC2 (value (ndiv (nadd b a) n2)) (n / 2 - 1)%nat ltac:(lia) ltac:(apply MB)). lia.
Qed.

(** Entries may be too large: the sum of the two middle ones overflows. *)
Theorem C105_median_of_equal_entries_refuted :
  exists (t : tensor f64) x, finite x /\ data t = [x; x] /\ exists v, median t = Ok v /\ spoilt v.
Proof.
  exists {| shape := [2%nat]; data := [f_of_Z (2 ^ 1023); f_of_Z (2 ^ 1023)] |}, (f_of_Z (2 ^ 1023)). split; [vm_compute; reflexivity|]. split; [reflexivity|].
  eexists. split; [reflexivity|]. vm_compute. reflexivity.
Qed.

(** *** safe_divide *)
Definition ulp64 (x : R) : R := ulp radix2 (FLT_exp (-1074) 53) x.
Lemma absorbed : forall y d e, generic_format radix2 (FLT_exp (-1074) 53) y -> p2 e <= y -> (-1022 <= e)%Z -> 0 <= d < p2 (e - 53) -> rnd64 (y + d) = y.
Proof.
  intros y d e Fy Hy He Hd. apply Rle_antisym.
  - apply round_N_le_midp; [apply FLT_exp_valid; reflexivity|exact Fy|]. pose proof (p2_pos e). rewrite succ_eq_pos by lra.
    assert (U : p2 (e - 52) <= ulp radix2 (FLT_exp (-1074) 53) y).
    { replace (p2 (e - 52)) with (ulp radix2 (FLT_exp (-1074) 53) (p2 e)).
      - apply ulp_le_pos; [apply FLT_exp_valid; reflexivity|apply FLT_exp_monotone|lra|exact Hy].
      - unfold p2. rewrite ulp_bpow. f_equal. unfold FLT_exp. lia. }
    pose proof (p2_twice (e - 53) (e - 52) ltac:(lia)). lra.
  - rewrite <- (rnd64_id y Fy) at 1. apply rnd64_mono. lra.
Qed.
Definition c16 : R := @small_constant R N64.
Lemma rep_c16 : rep small_constant c16. Proof. apply (fits_rep _ _ (-53)), fits_c. Qed.
Lemma c16_range : p2 (-54) <= c16 <= p2 (-53) - p2 (-60).
Proof.
  change c16 with (rnd64 (Rfrac 1 10000000000000000)). unfold Rfrac. split.
  - rewrite <- (rnd64_id (p2 (-54))) by (apply format64_bpow; lia). apply rnd64_mono. unfold p2. cbn. lra.
  - assert (F : generic_format radix2 (FLT_exp (-1074) 53) (p2 (-53) - p2 (-60))).
    { apply generic_format_FLT. exists (Float radix2 127 (-60)); cbn; [|lia|lia]. unfold p2, F2R. cbn. lra. }
    rewrite <- (rnd64_id _ F). apply rnd64_mono. unfold p2. cbn. lra.
Qed.
(** The divisor as a real number. *)
Definition divisor64 (y : R) : R := if Rlt_dec y 0 then rnd64 (y - c16) else if Rlt_dec 0 y then rnd64 (y + rnd64 (3 * c16)) else c16.
Lemma format_c16 : generic_format radix2 (FLT_exp (-1074) 53) c16.
Proof. destruct rep_c16 as [_ <-]. apply value_format. Qed.
Lemma three_c : 2 * p2 (-54) <= rnd64 (3 * c16) <= 3 * p2 (-53).
Proof.
  pose proof c16_range as C. pose proof (p2_pos (-60)). split.
  - assert (E : 2 * p2 (-54) = p2 (-53)) by (change (-53)%Z with (1 + -54)%Z; rewrite p2_plus; reflexivity). rewrite E.
    rewrite <- (rnd64_id (p2 (-53))) by (apply format64_bpow; lia). apply rnd64_mono. lra.
  - assert (F : generic_format radix2 (FLT_exp (-1074) 53) (3 * p2 (-53))).
    { apply generic_format_FLT. exists (Float radix2 3 (-53)); cbn; [reflexivity|lia|lia]. }
    rewrite <- (rnd64_id _ F). apply rnd64_mono. lra.
Qed.
Lemma divisor_far : forall y, generic_format radix2 (FLT_exp (-1074) 53) y -> 4 <= y \/ y <= -1 -> divisor64 y = y.
Proof.
  intros y Fy Hy. unfold divisor64. pose proof c16_range as C. pose proof three_c as C3. pose proof (p2_pos (-60)). pose proof (p2_pos (-54)). destruct (Rlt_dec y 0) as [L|L].
  - replace (y - c16) with (- (- y + c16)) by ring. rewrite rnd64_opp, (absorbed (- y) c16 0); [ring|now apply generic_format_opp|change (p2 0) with 1; lra|lia|].
    change (0 - 53)%Z with (-53)%Z. lra.
  - destruct (Rlt_dec 0 y); [|lra]. apply (absorbed y _ 2); [exact Fy|change (p2 2) with 4; lra|lia|]. change (2 - 53)%Z with (2 + -53)%Z. rewrite p2_plus. change (p2 2) with 4. pose proof (p2_pos (-53)). lra.
Qed.
(** The next double. *)
Definition next64 (y : R) : R := succ radix2 (FLT_exp (-1074) 53) y.
Lemma ulp_binade : forall y e, bpow radix2 e <= y < bpow radix2 (e + 1) -> (-1022 <= e)%Z -> ulp64 y = p2 (e - 52).
Proof.
  intros y e Hy He. pose proof (bpow_gt_0 radix2 e). unfold ulp64. rewrite ulp_neq_0 by lra. unfold cexp.
  assert (M : (mag radix2 y = e + 1 :> Z)%Z) by (apply mag_unique_pos; replace (e + 1 - 1)%Z with e by lia; exact Hy). rewrite M. unfold p2. f_equal. unfold FLT_exp. lia.
Qed.
Lemma three_c_tight : 9 * p2 (-55) <= rnd64 (3 * c16) <= 381 * p2 (-60).
Proof.
  assert (C1 : 3 * p2 (-55) <= c16).
  { assert (F : generic_format radix2 (FLT_exp (-1074) 53) (3 * p2 (-55))) by (apply generic_format_FLT; exists (Float radix2 3 (-55)); cbn; [reflexivity|lia|lia]).
    change c16 with (rnd64 (Rfrac 1 10000000000000000)). rewrite <- (rnd64_id _ F). apply rnd64_mono. unfold Rfrac, p2. cbn. lra. }
  pose proof c16_range as [_ C2].
  assert (F1 : generic_format radix2 (FLT_exp (-1074) 53) (9 * p2 (-55))) by (apply generic_format_FLT; exists (Float radix2 9 (-55)); cbn; [reflexivity|lia|lia]).
  assert (F2 : generic_format radix2 (FLT_exp (-1074) 53) (381 * p2 (-60))) by (apply generic_format_FLT; exists (Float radix2 381 (-60)); cbn; [reflexivity|lia|lia]).
  assert (E : p2 (-53) = 128 * p2 (-60)) by (change (-53)%Z with (7 + -60)%Z; rewrite p2_plus; reflexivity).
  split; [rewrite <- (rnd64_id _ F1)|rewrite <- (rnd64_id _ F2)]; apply rnd64_mono; lra.
Qed.
Lemma divisor_near : forall y, generic_format radix2 (FLT_exp (-1074) 53) y -> 1 <= y < 4 -> divisor64 y = next64 y.
Proof.
  intros y Fy Hy. unfold divisor64. destruct (Rlt_dec y 0); [lra|]. destruct (Rlt_dec 0 y); [|lra]. pose proof three_c_tight as T. set (d := rnd64 (3 * c16)) in *.
  assert (VE : Valid_exp (FLT_exp (-1074) 53)) by (apply FLT_exp_valid; reflexivity).
  assert (ES : next64 y = y + ulp64 y) by (apply succ_eq_pos; lra).
  assert (E1 : p2 (-52) = 256 * p2 (-60)) by (change (-52)%Z with (8 + -60)%Z; rewrite p2_plus; reflexivity).
  assert (E2 : p2 (-51) = 512 * p2 (-60)) by (change (-51)%Z with (9 + -60)%Z; rewrite p2_plus; reflexivity).
  assert (E3 : p2 (-55) = 32 * p2 (-60)) by (change (-55)%Z with (5 + -60)%Z; rewrite p2_plus; reflexivity).
  assert (U : 256 * p2 (-60) <= ulp64 y <= 512 * p2 (-60)).
  { pose proof (p2_pos (-60)). destruct (Rlt_dec y 2).
    - rewrite (ulp_binade y 0); [|change (bpow radix2 0) with 1; change (bpow radix2 (0 + 1)) with 2; lra|lia]. change (0 - 52)%Z with (-52)%Z. lra.
    - rewrite (ulp_binade y 1); [|change (bpow radix2 1) with 2; change (bpow radix2 (1 + 1)) with 4; lra|lia]. change (1 - 52)%Z with (-51)%Z. lra. }
  assert (FN : generic_format radix2 (FLT_exp (-1074) 53) (next64 y)) by (apply generic_format_succ; auto).
  pose proof (p2_pos (-60)) as P. apply Rle_antisym.
  - apply round_N_le_midp; auto. rewrite (succ_eq_pos _ _ (next64 y)) by lra.
    assert (ulp64 y <= ulp64 (next64 y)) by (apply ulp_le_pos; [exact VE|apply FLT_exp_monotone|lra|lra]). fold (ulp64 (next64 y)). lra.
  - apply round_N_ge_midp; auto. unfold next64 at 2. rewrite pred_succ by auto. lra.
Qed.
Lemma rep_divisor : forall y, finite y -> rep (safe_divisor y small_constant) (divisor64 (value y)).
Proof.
  intros y Fy. pose proof (value_format y) as FF. pose proof c16_range as C. pose proof three_c as C3. pose proof (p2_pos (-60)). pose proof (p2_pos (-54)) as P54. unfold safe_divisor, nsign.
  rewrite (rep_ltb _ _ _ _ (rep_value y Fy) rep_0), (rep_ltb _ _ _ _ rep_0 (rep_value y Fy)).
  assert (S1 : Rabs (rnd64 (divisor64 (value y))) < huge).
  { destruct (Rle_dec 4 (value y)) as [B1|B1]; [rewrite divisor_far, value_round by (auto; lra); apply value_bound|].
    destruct (Rle_dec (value y) (-1)) as [B2|B2]; [rewrite divisor_far, value_round by (auto; lra); apply value_bound|].
    assert (Q : p2 (-53) <= 1) by (unfold p2; cbn; lra).
    apply (below_huge 3); [lia|]. change (bpow radix2 3) with 8. unfold divisor64. destruct (Rlt_dec (value y) 0) as [L|L]; [|destruct (Rlt_dec 0 (value y)) as [L'|L']].
    - apply (rnd64_bound 3); [lia|]. change (bpow radix2 3) with 8. apply Rabs_le. lra.
    - apply (rnd64_bound 3); [lia|]. change (bpow radix2 3) with 8. apply Rabs_le. lra.
    - apply Rabs_le. lra. }
  assert (FD : generic_format radix2 (FLT_exp (-1074) 53) (divisor64 (value y))).
  { unfold divisor64. destruct (Rlt_dec (value y) 0); [|destruct (Rlt_dec 0 (value y))]; [apply generic_format_round..|apply format_c16]; auto with typeclass_instances. }
  rewrite (rnd64_id _ FD) in S1. unfold divisor64 in S1 |- *. unfold Rltb. pose proof rep_c16 as RC.
  assert (Q : p2 (-53) <= 1) by (unfold p2; cbn; lra).
  assert (F2 : generic_format radix2 (FLT_exp (-1074) 53) (2 * c16)) by (apply (format_double 53 (-1074)), format_c16).
  destruct (Rlt_dec (value y) 0) as [L|L]; [|destruct (Rlt_dec 0 (value y)) as [L'|L']].
  - assert (R1 : rep (nmul n2 (nint (-1))) (-2)).
    { replace (-2) with (rnd64 (2 * IZR (-1))) by (replace (2 * IZR (-1)) with (IZR (-2)) by (cbn; ring); now apply rnd64_Z).
      apply rep_mul; [apply rep_2|now apply rep_int|]. apply (below_huge 2); [lia|]. rewrite Rabs_left by lra. cbn. lra. }
    assert (R2 : rep (nmul (nmul n2 (nint (-1))) small_constant) (- 2 * c16)).
    { replace (- 2 * c16) with (rnd64 (- 2 * c16)) by (apply rnd64_id; replace (-2 * c16) with (- (2 * c16)) by ring; now apply generic_format_opp).
      apply rep_mul; auto. apply (below_huge 1); [lia|]. rewrite Rabs_left by lra. change (bpow radix2 1) with 2. lra. }
    assert (R3 : rep (nadd (nmul (nmul n2 (nint (-1))) small_constant) small_constant) (- c16)).
    { replace (- c16) with (rnd64 (- 2 * c16 + c16)) by (replace (-2 * c16 + c16) with (- c16) by ring; apply rnd64_id, generic_format_opp, format_c16).
      apply rep_add; auto. apply (below_huge 1); [lia|]. rewrite Rabs_left by lra. change (bpow radix2 1) with 2. lra. }
    apply rep_add; auto using rep_value.
  - assert (R1 : rep (nmul n2 n1) 2).
    { replace 2 with (rnd64 (2 * 1)) by (rewrite Rmult_1_r; now apply (rnd64_Z 2)). apply rep_mul; [apply rep_2|apply rep_1|]. apply (below_huge 2); [lia|]. rewrite Rabs_right by lra. cbn. lra. }
    assert (R2 : rep (nmul (nmul n2 n1) small_constant) (2 * c16)).
    { rewrite <- (rnd64_id _ F2). apply rep_mul; auto. apply (below_huge 1); [lia|]. rewrite Rabs_right by lra. change (bpow radix2 1) with 2. lra. }
    assert (R3 : rep (nadd (nmul (nmul n2 n1) small_constant) small_constant) (rnd64 (3 * c16))).
    { replace (3 * c16) with (2 * c16 + c16) by ring. apply rep_add; auto. apply (below_huge 2); [lia|]. rewrite Rabs_right by lra. change (bpow radix2 2) with 4. lra. }
    apply rep_add; auto using rep_value.
  - assert (Y0 : value y = 0) by lra. assert (R1 : rep (nmul n2 n0) 0).
    { rewrite <- rnd64_0. replace 0 with (2 * 0) by ring. apply rep_mul; [apply rep_2|apply rep_0|]. rewrite Rmult_0_r, rnd64_0, Rabs_R0. apply bpow_gt_0. }
    assert (R2 : rep (nmul (nmul n2 n0) small_constant) 0).
    { rewrite <- rnd64_0. replace 0 with (0 * c16) by ring. apply rep_mul; auto. rewrite Rmult_0_l, rnd64_0, Rabs_R0. apply bpow_gt_0. }
    assert (R3 : rep (nadd (nmul (nmul n2 n0) small_constant) small_constant) c16).
    { rewrite <- (rnd64_id _ format_c16). rewrite <- (Rplus_0_l c16) at 1. apply rep_add; auto. apply (below_huge 1); [lia|]. rewrite Rplus_0_l, Rabs_right by lra. change (bpow radix2 1) with 2. lra. }
    rewrite <- (rnd64_id _ format_c16). rewrite <- (Rplus_0_l c16). apply rep_add; [split; auto|exact R3|]. rewrite Rplus_0_l, (rnd64_id _ format_c16). exact S1.
Qed.

Lemma divisor_props : forall y, generic_format radix2 (FLT_exp (-1074) 53) y ->
  let D := divisor64 y in (0 <= y -> 0 < D) /\ (y < 0 -> D < 0) /\ Rabs y <= Rabs D /\ p2 (-54) <= Rabs D.
Proof.
  intros y Fy D. pose proof c16_range as C. pose proof three_c as C3. pose proof (p2_pos (-54)). unfold D, divisor64. destruct (Rlt_dec y 0) as [L|L]; [|destruct (Rlt_dec 0 y) as [L'|L']].
  - assert (A : rnd64 (y - c16) <= y) by (rewrite <- (rnd64_id y Fy) at 2; apply rnd64_mono; lra).
    assert (B : rnd64 (y - c16) <= - c16) by (rewrite <- (rnd64_id (- c16)) by apply generic_format_opp, format_c16; apply rnd64_mono; lra).
    split; [lra|]. split; [lra|]. rewrite (Rabs_left y), (Rabs_left (rnd64 (y - c16))) by lra. lra.
  - set (d := rnd64 (3 * c16)) in *. assert (A : y <= rnd64 (y + d)) by (rewrite <- (rnd64_id y Fy) at 1; apply rnd64_mono; lra).
    assert (B : d <= rnd64 (y + d)) by (replace d with (rnd64 d) at 1; [apply rnd64_mono; lra|apply rnd64_id, generic_format_round; auto with typeclass_instances]).
    split; [lra|]. split; [lra|]. rewrite !Rabs_right by lra. lra.
  - assert (y = 0) by lra. subst y. split; [lra|]. split; [lra|]. rewrite Rabs_R0, Rabs_right; lra.
Qed.
Lemma value_inj : forall x y : f64, finite x -> finite y -> value x = value y -> value x <> 0 -> x = y.
Proof.
  intros x y Fx Fy E N. apply BinarySingleNaN.B2R_inj; [| |exact E].
  - destruct x; try discriminate Fx; [elim N; reflexivity|reflexivity].
  - destruct y; try discriminate Fy; [elim N; rewrite E; reflexivity|reflexivity].
Qed.

(** Dividing by any finite [y] is division by a finite nonzero [D] of the same sign and at least the same size.
    [D] is [y] itself above 4 and below -1, but the next double between 1 and 4. *)
Theorem C105_safe_divide_in_doubles : forall x y : f64, bounded64 969 x -> finite y ->
  finite (safe_divide x y) /\
  exists D, finite D /\ safe_divide x y = ndiv x D /\ (0 <= value y -> 0 < value D) /\ (value y < 0 -> value D < 0) /\ Rabs (value y) <= Rabs (value D) /\
    (4 <= value y \/ value y <= -1 -> D = y) /\
    (1 <= value y < 4 -> value D = succ radix2 (FLT_exp (-1074) 53) (value y)).
Proof.
  intros x y [Fx Bx] Fy. destruct (rep_divisor y Fy) as [FD VD]. pose proof (value_format y) as FF. destruct (divisor_props _ FF) as (P1 & P2 & P3 & P4). rewrite <- VD in P1, P2, P3, P4.
  assert (FX : fits x (value x) 969) by (split; [now split|exact Bx]).
  split.
  - assert (BD : exists e, fits (safe_divisor y small_constant) (value (safe_divisor y small_constant)) e) by (exists 1024%Z; split; [now split|left; apply value_bound]).
    destruct BD as [e BD]. pose proof (fits_div x _ _ _ 969 e 1023 (-54) FX BD P4 ltac:(lia) ltac:(lia)) as [[F _] _]. exact F.
  - exists (safe_divisor y small_constant). split; [exact FD|]. split; [reflexivity|]. split; [exact P1|]. split; [exact P2|]. split; [exact P3|]. split.
    + intros H. apply value_inj; auto; rewrite VD, divisor_far by auto; [reflexivity|lra].
    + intros H. rewrite VD. now apply divisor_near.
Qed.
(** Dividing by one is not the identity. *)
Theorem C105_safe_divide_exact_refuted : exists x : f64, finite x /\ value (safe_divide x n1) <> value (ndiv x n1).
Proof.
  exists n1. split; [apply rep_1|]. intros E.
  assert (L : nltb (safe_divide (n1 : f64) n1) n1 = true) by (vm_compute; reflexivity).
  assert (F : finite (safe_divide (n1 : f64) n1)) by (vm_compute; reflexivity).
  assert (L' : nltb (ndiv (n1 : f64) n1) n1 = false) by (vm_compute; reflexivity).
  assert (F' : finite (ndiv (n1 : f64) n1)) by (vm_compute; reflexivity).
  rewrite (rep_ltb _ _ _ _ (rep_value _ F) rep_1) in L. rewrite (rep_ltb _ _ _ _ (rep_value _ F') rep_1) in L'. congruence.
Qed.

(** *** safe_sqrt *)
Theorem C105_safe_sqrt_in_doubles : forall x : f64, finite x ->
  finite (safe_sqrt x) /\ value (safe_sqrt x) = rnd64 (sqrt (Rmax (value x) 0)) /\
  forall y, finite y -> value x <= value y -> value (safe_sqrt x) <= value (safe_sqrt y).
Proof.
  assert (H : forall x : f64, finite x -> rep (safe_sqrt x) (rnd64 (sqrt (Rmax (value x) 0)))).
  { intros x Fx. unfold safe_sqrt, safe_sqrt_with, clip_by_value. apply rep_sqrt; [|apply Rmax_r]. apply rep_max; [now split|apply rep_0]. }
  intros x Fx. destruct (H x Fx) as [F V]. split; [exact F|]. split; [exact V|]. intros y Fy L. destruct (H y Fy) as [_ V']. rewrite V, V'.
  apply rnd64_mono, sqrt_le_1_alt. apply Rle_max_compat_r. exact L.
Qed.

(** *** Distances *)
(** The sum of squares, every operation rounded. *)
Fixpoint sq64 (a b : list f64) : R :=
  match a, b with
  | x :: a', y :: b' => rnd64 (rnd64 (rnd64 (value x - value y) * rnd64 (value x - value y)) + sq64 a' b')
  | _, _ => 0
  end.
Lemma sq64_format : forall a b, generic_format radix2 (FLT_exp (-1074) 53) (sq64 a b).
Proof. intros a b. destruct a, b; cbn [sq64]; try apply generic_format_0. apply generic_format_round; auto with typeclass_instances. Qed.
Lemma sq64_nonneg : forall a b, 0 <= sq64 a b.
Proof.
  induction a as [|x a IH]; intros [|y b]; cbn [sq64]; try lra. rewrite <- rnd64_0. apply rnd64_mono.
  assert (0 <= rnd64 (rnd64 (value x - value y) * rnd64 (value x - value y))) by (rewrite <- rnd64_0 at 1; apply rnd64_mono; nra). specialize (IH b). lra.
Qed.
Lemma sq64_sym : forall a b, sq64 a b = sq64 b a.
Proof.
  induction a as [|x a IH]; intros [|y b]; cbn [sq64]; auto. rewrite (IH b). replace (value y - value x) with (- (value x - value y)) by ring. rewrite rnd64_opp. do 2 f_equal. f_equal. ring.
Qed.
Lemma sq64_refl : forall a, sq64 a a = 0.
Proof. induction a as [|x a IH]; cbn [sq64]; auto. rewrite IH. replace (value x - value x) with 0 by ring. now rewrite rnd64_0, Rmult_0_r, rnd64_0, Rplus_0_r, rnd64_0. Qed.
Lemma add_rel : forall a b, generic_format radix2 (FLT_exp (-1074) 53) a -> generic_format radix2 (FLT_exp (-1074) 53) b -> Rabs (rnd64 (a + b) - (a + b)) <= p2 (-53) * Rabs (a + b).
Proof.
  intros a b Fa Fb. destruct (FLT_plus_error_N_ex radix2 (-1074) 53 (fun z => negb (Z.even z)) a b Fa Fb) as (e & He & E).
  change (round radix2 (FLT_exp (-1074) 53) (Znearest (fun z => negb (Z.even z))) (a + b)) with (rnd64 (a + b)) in E. rewrite E.
  replace ((a + b) * (1 + e) - (a + b)) with (e * (a + b)) by ring. rewrite Rabs_mult. apply Rmult_le_compat_r; [apply Rabs_pos|]. eapply Rle_trans; [exact He|].
  assert (U : Relative.u_ro radix2 53 = p2 (-53)) by (unfold Relative.u_ro; change (/ 2) with (bpow radix2 (-1)); rewrite <- bpow_plus; reflexivity). rewrite U. pose proof (p2_pos (-53)) as P.
  apply Rle_trans with (p2 (-53) / 1); [|lra]. unfold Rdiv. apply Rmult_le_compat_l; [lra|]. apply Rinv_le_contravar; lra.
Qed.
Lemma sq_term : forall x y : f64, let q := rnd64 (rnd64 (value x - value y) * rnd64 (value x - value y)) in let s := (value x - value y) ^ 2 in
  Rabs (q - s) <= 5 * p2 (-53) * s + p2 (-1075).
Proof.
  intros x y q s. set (rel := p2 (-53)). set (tiny := p2 (-1075)). assert (Pr : 0 < rel <= / 1000) by (split; [apply p2_pos|unfold rel, p2; cbn; lra]).
  assert (E1 : Rabs (rnd64 (value x - value y) - (value x - value y)) <= rel * Rabs (value x - value y)) by (apply add_rel; [apply value_format|apply generic_format_opp, value_format]).
  unfold q, s. set (z := value x - value y) in *. set (d := rnd64 z) in *.
  assert (E2 : Rabs (d * d - z ^ 2) <= 3 * rel * z ^ 2).
  { replace (d * d - z ^ 2) with ((d - z) * (d - z) + 2 * z * (d - z)) by ring. eapply Rle_trans; [apply Rabs_triang|]. rewrite !Rabs_mult, (Rabs_right 2) by lra.
    set (A := Rabs (d - z)) in *. set (B := Rabs z) in *. assert (0 <= A) by apply Rabs_pos. assert (0 <= B) by apply Rabs_pos. assert (BB : z ^ 2 = B * B) by (unfold B; rewrite <- Rabs_mult; rewrite Rabs_right; [ring|nra]).
    rewrite BB. assert (A * A <= (rel * B) * (rel * B)) by (apply Rmult_le_compat; lra). assert (B * A <= B * (rel * B)) by (apply Rmult_le_compat_l; lra). assert (rel * (rel * (B * B)) <= 1 * (rel * (B * B))) by (apply Rmult_le_compat_r; [apply Rmult_le_pos; [lra|nra]|lra]). nra. }
  pose proof (err64 (d * d)) as E3. fold rel tiny in E3. rewrite (Rabs_right (d * d)) in E3 by nra. apply abs_inv in E2. assert (Z0 : 0 <= z ^ 2) by nra.
  assert (E4 : rel * (d * d) <= rel * (2 * z ^ 2)) by (apply Rmult_le_compat_l; [lra|nra]).
  replace (rnd64 (d * d) - z ^ 2) with ((rnd64 (d * d) - d * d) + (d * d - z ^ 2)) by ring. eapply Rle_trans; [apply Rabs_triang|].
  assert (Rabs (d * d - z ^ 2) <= 3 * rel * z ^ 2) by (apply Rabs_le; lra). lra.
Qed.
Lemma sq64_close : forall a b, INR (length a) <= p2 20 -> let T := sqdist (map value a) (map value b) in
  Rabs (sq64 a b - T) <= INR (length a) * p2 (-50) * T + INR (length a) * p2 (-1073).
Proof.
  induction a as [|x a IH]; intros b HN; [cbn [sq64 map sqdist length INR]; cbv zeta; rewrite Rminus_0_r, Rabs_R0; lra|]. destruct b as [|y b].
  - cbn [sq64 map sqdist]. cbv zeta. rewrite Rminus_0_r, Rabs_R0, Rmult_0_r, Rplus_0_l. apply Rmult_le_pos; [apply pos_INR|left; apply p2_pos].
  - change (length (x :: a)) with (S (length a)) in *. rewrite S_INR in *. cbn [sq64 map sqdist]. cbv zeta. set (k := INR (length a)) in *. assert (K0 : 0 <= k) by apply pos_INR.
    specialize (IH b ltac:(lra)). cbv zeta in IH. pose proof (sqdist_nonneg (map value a) (map value b)) as T0. pose proof (sq64_nonneg a b) as S0. pose proof (sq64_format a b) as FS.
    pose proof (sq_term x y) as Q. cbv zeta in Q. set (q := rnd64 (rnd64 (value x - value y) * rnd64 (value x - value y))) in *. assert (Z0 : 0 <= (value x - value y) ^ 2) by apply pow2_ge_0. set (z := (value x - value y) ^ 2) in *.
    assert (Q0 : 0 <= q) by (unfold q; rewrite <- rnd64_0 at 1; apply rnd64_mono, Rle_0_sqr).
    assert (FQ : generic_format radix2 (FLT_exp (-1074) 53) q) by (apply generic_format_round; auto with typeclass_instances).
    pose proof (add_rel q (sq64 a b) FQ FS) as R1. set (s := sq64 a b) in *. set (T := sqdist (map value a) (map value b)) in *. clearbody q z s T.
    rewrite (Rabs_right (q + s)) in R1 by lra.
    set (rel := p2 (-53)) in *. set (tiny := p2 (-1075)) in *. assert (Pr : 0 < rel) by apply p2_pos. assert (Pt : 0 < tiny) by apply p2_pos.
    assert (W : p2 (-50) = 8 * rel) by (change (-50)%Z with (3 + -53)%Z; rewrite p2_plus; reflexivity). assert (H : p2 (-1073) = 4 * tiny) by (change (-1073)%Z with (2 + -1075)%Z; rewrite p2_plus; reflexivity). rewrite W, H in *.
    assert (KR : 8 * rel * k <= / 1000).
    { apply Rle_trans with (8 * rel * p2 20); [apply Rmult_le_compat_l; lra|]. unfold rel, p2. cbn. lra. }
    assert (RS : rel <= / 1000000) by (unfold rel, p2; cbn; lra).
    clearbody k rel tiny.
    replace (rnd64 (q + s) - (z + T)) with ((rnd64 (q + s) - (q + s)) + ((q - z) + (s - T))) by ring. eapply Rle_trans; [apply Rabs_triang|]. eapply Rle_trans; [apply Rplus_le_compat; [exact R1|apply Rabs_triang]|].
    assert (QS : q + s <= 2 * (z + T) + (k + 1) * 4 * tiny).
    { apply abs_inv in Q. apply abs_inv in IH. assert (k * (8 * rel) * T <= / 1000 * T) by (apply Rmult_le_compat_r; lra). assert (5 * rel * z <= / 100 * z) by (apply Rmult_le_compat_r; lra). nra. }
    assert (M1 : rel * (q + s) <= rel * (2 * (z + T) + (k + 1) * 4 * tiny)) by (apply Rmult_le_compat_l; lra).
    assert (M2 : rel * ((k + 1) * 4 * tiny) <= tiny).
    { replace (rel * ((k + 1) * 4 * tiny)) with ((4 * rel * k + 4 * rel) * tiny) by ring. rewrite <- (Rmult_1_l tiny) at 2. apply Rmult_le_compat_r; lra. }
    assert (M3 : 0 <= k * rel * z) by (apply Rmult_le_pos; [apply Rmult_le_pos; lra|lra]). assert (M4 : 0 <= rel * T) by (apply Rmult_le_pos; lra). assert (M5 : 0 <= rel * z) by (apply Rmult_le_pos; lra). nra.
Qed.

Lemma sqdist_bound : forall a b, Forall (bounded64 490) a -> Forall (bounded64 490) b -> sqdist (map value a) (map value b) <= INR (length a) * p2 982.
Proof.
  induction a as [|x a IH]; intros b Ha Hb; [cbn [map sqdist length INR]; lra|]. change (length (x :: a)) with (S (length a)). rewrite S_INR. pose proof (pos_INR (length a)) as K. pose proof (p2_pos 982) as P.
  destruct b as [|y b]; cbn [map sqdist]; [apply Rmult_le_pos; lra|]. inversion Ha as [|? ? [_ Bx] Ha']; subst. inversion Hb as [|? ? [_ By] Hb']; subst. specialize (IH b Ha' Hb').
  assert (Z : Rabs (value x - value y) <= p2 491).
  { eapply Rle_trans; [apply Rabs_triang|]. rewrite Rabs_Ropp. pose proof (p2_twice 490 491 ltac:(lia)). unfold p2 in *. lra. }
  assert ((value x - value y) ^ 2 <= p2 982).
  { replace ((value x - value y) ^ 2) with (Rabs (value x - value y) * Rabs (value x - value y)) by (rewrite <- Rabs_mult, Rabs_right by (apply Rle_ge, Rle_0_sqr); ring).
    change 982%Z with (491 + 491)%Z. rewrite p2_plus. apply Rmult_le_compat; auto using Rabs_pos. }
  lra.
Qed.
Lemma sq64_bound : forall a b, INR (length a) <= p2 20 -> Forall (bounded64 490) a -> Forall (bounded64 490) b -> sq64 a b <= p2 1004.
Proof.
  intros a b HN Ha Hb. pose proof (sq64_close a b HN) as C. cbv zeta in C. pose proof (sqdist_bound a b Ha Hb) as B. pose proof (sqdist_nonneg (map value a) (map value b)) as T0. set (T := sqdist (map value a) (map value b)) in *.
  pose proof (pos_INR (length a)) as K. set (k := INR (length a)) in *. apply abs_inv in C.
  assert (B2 : T <= p2 1002) by (eapply Rle_trans; [exact B|]; change 1002%Z with (20 + 982)%Z; rewrite p2_plus; apply Rmult_le_compat_r; [left; apply p2_pos|exact HN]).
  assert (C1 : k * p2 (-50) * T <= 1 * T).
  { apply Rmult_le_compat_r; [exact T0|]. apply Rle_trans with (p2 20 * p2 (-50)); [apply Rmult_le_compat_r; [left; apply p2_pos|exact HN]|]. unfold p2. cbn. lra. }
  assert (C2 : k * p2 (-1073) <= p2 0).
  { apply Rle_trans with (p2 20 * p2 (-1073)); [apply Rmult_le_compat_r; [left; apply p2_pos|exact HN]|]. rewrite <- p2_plus. apply p2_le. lia. }
  pose proof (p2_twice 1002 1003 ltac:(lia)). pose proof (p2_twice 1003 1004 ltac:(lia)). pose proof (p2_le 0 1003 ltac:(lia)). lra.
Qed.
Lemma rep_sq : forall a b, INR (length a) <= p2 20 -> Forall (bounded64 490) a -> Forall (bounded64 490) b ->
  rep (nsum (map (fun '(x, y) => nmul (nsub x y) (nsub x y)) (combine a b))) (sq64 a b).
Proof.
  induction a as [|x a IH]; intros b HN Ha Hb; [apply rep_0|]. destruct b as [|y b]; [apply rep_0|].
  pose proof (sq64_bound (x :: a) (y :: b) HN Ha Hb) as BB. inversion Ha as [|? ? Bx Ha']; subst. inversion Hb as [|? ? By Hb']; subst.
  assert (HN' : INR (length a) <= p2 20) by (change (length (x :: a)) with (S (length a)) in HN; rewrite S_INR in HN; lra). specialize (IH b HN' Ha' Hb').
  cbn [combine map]. unfold nsum in *. cbn [fold_right]. cbn [sq64] in BB |- *.
  assert (R1 : fits (nsub x y) (rnd64 (value x - value y)) 491).
  { destruct Bx as [Fx Bx], By as [Fy By]. apply (fits_sub x y (value x) (value y) 490 490 491); [split; [now split|exact Bx]|split; [now split|exact By]|lia|lia|lia]. }
  assert (R2 : fits (nmul (nsub x y) (nsub x y)) (rnd64 (rnd64 (value x - value y) * rnd64 (value x - value y))) 982) by (apply (fits_mul _ _ _ _ 491 491 982 R1 R1); lia).
  apply rep_add; [apply R2|exact IH|]. pose proof (sq64_nonneg (x :: a) (y :: b)) as NN. cbn [sq64] in NN. rewrite Rabs_right by lra. eapply Rle_lt_trans; [exact BB|]. apply bpow_lt. lia.
Qed.
Lemma rep_dist : forall a b, INR (length a) <= p2 20 -> Forall (bounded64 490) a -> Forall (bounded64 490) b -> rep (euclidean_distance a b) (rnd64 (sqrt (sq64 a b))).
Proof. intros a b HN Ha Hb. apply rep_sqrt; [now apply rep_sq|apply sq64_nonneg]. Qed.
Lemma sqrt_close : forall S T al be, 0 <= S -> 0 <= T -> 0 <= al <= 1 -> 0 <= be -> Rabs (S - T) <= al * T + be -> Rabs (sqrt S - sqrt T) <= al * sqrt T + sqrt be.
Proof.
  intros s T al be H0 T0 Ha Hb H. apply abs_inv in H. pose proof (sqrt_pos T) as P1. pose proof (sqrt_pos be) as P2. pose proof (sqrt_pos s) as P3.
  pose proof (sqrt_sqrt T T0) as Q1. pose proof (sqrt_sqrt be Hb) as Q2. pose proof (sqrt_sqrt s H0) as Q3. apply Rabs_le. split.
  - destruct (Rle_dec ((1 - al) * sqrt T) (sqrt s + sqrt be)) as [|N]; [lra|exfalso]. apply Rnot_le_lt in N.
    assert (X : (sqrt s + sqrt be) * (sqrt s + sqrt be) < ((1 - al) * sqrt T) * ((1 - al) * sqrt T)) by (apply Rmult_le_0_lt_compat; lra).
    assert (Y : ((1 - al) * sqrt T) * ((1 - al) * sqrt T) <= (1 - al) * T) by (replace (((1 - al) * sqrt T) * ((1 - al) * sqrt T)) with (((1 - al) * (1 - al)) * T) by (rewrite <- Q1 at 1; ring); apply Rmult_le_compat_r; nra).
    assert (0 <= sqrt s * sqrt be) by nra. nra.
  - destruct (Rle_dec (sqrt s) ((1 + al) * sqrt T + sqrt be)) as [|N]; [lra|exfalso]. apply Rnot_le_lt in N.
    assert (A0 : 0 <= (1 + al) * sqrt T) by nra.
    assert (X : ((1 + al) * sqrt T + sqrt be) * ((1 + al) * sqrt T + sqrt be) < sqrt s * sqrt s) by (apply Rmult_le_0_lt_compat; lra).
    assert (Y : (1 + al) * T <= ((1 + al) * sqrt T) * ((1 + al) * sqrt T)) by (replace (((1 + al) * sqrt T) * ((1 + al) * sqrt T)) with (((1 + al) * (1 + al)) * T) by (rewrite <- Q1 at 1; ring); apply Rmult_le_compat_r; nra).
    assert (0 <= ((1 + al) * sqrt T) * sqrt be) by (apply Rmult_le_pos; lra). nra.
Qed.

Lemma pdist_entry : forall (rows : list (list f64)) m d v p i j a b, grid m d rows -> pdist (OTensor {| shape := [m; d]; data := concat rows |}) "euclidean" = Ok v ->
  nth_error (pairs m) p = Some (i, j) -> nth_error rows i = Some a -> nth_error rows j = Some b ->
  nth_error (data v) p = Some (euclidean_distance a b) /\ length a = d /\ length b = d.
Proof.
  intros rows m d v p i j a b [HL HF] E Hp Ha Hb. cbn [pdist shape data] in E. change (String.eqb "euclidean" "euclidean") with true in E. cbv iota zeta in E.
  assert (V : data v = pairwise_euclidean_distance m d (concat rows)) by (change (data v) with (match Ok v with Ok v => data v | _ => [] end); now rewrite <- E).
  split; [rewrite V, pairwise_pairs, nth_error_map, Hp; cbn [option_map]; now rewrite (row_concat d rows i a), (row_concat d rows j b)|].
  rewrite Forall_forall in HF. split; apply HF; eapply nth_error_In; eauto.
Qed.
(** Entry [p] of pdist, for points [a] and [b]: finite, not negative, zero for equal points, and close to the true distance. *)
Theorem C105_distances_in_doubles : forall (rows : list (list f64)) m d, grid m d rows -> INR d <= p2 20 -> Forall (Forall (bounded64 490)) rows ->
  exists v, pdist (OTensor {| shape := [m; d]; data := concat rows |}) "euclidean" = Ok v /\ shape v = [length (pairs m)] /\
    forall p i j a b, nth_error (pairs m) p = Some (i, j) -> nth_error rows i = Some a -> nth_error rows j = Some b ->
      exists D, nth_error (data v) p = Some D /\ finite D /\ 0 <= value D /\ (map value a = map value b -> value D = 0) /\
        Rabs (value D - dist2 (map value a) (map value b)) <= INR (d + 1) * p2 (-50) * dist2 (map value a) (map value b) + p2 (-525).
Proof.
  intros rows m d [HL HF] HD HB. eexists. split; [reflexivity|]. split; [cbn [shape]; now rewrite pairwise_pairs, map_length|].
  intros p i j a b Hp Ha Hb. exists (euclidean_distance a b). cbn [data].
  split; [rewrite pairwise_pairs, nth_error_map, Hp; cbn [option_map]; now rewrite (row_concat d rows i a), (row_concat d rows j b)|].
  rewrite Forall_forall in HF, HB. pose proof (nth_error_In _ _ Ha) as Ia. pose proof (nth_error_In _ _ Hb) as Ib.
  pose proof (HF _ Ia) as La. pose proof (HF _ Ib) as Lb. pose proof (HB _ Ia) as Ba. pose proof (HB _ Ib) as Bb.
  destruct (rep_dist a b) as [F1 V1]; auto; [now rewrite La|].
  split; [exact F1|]. split; [rewrite V1, <- rnd64_0; apply rnd64_mono, sqrt_pos|]. split.
  - intros E. assert (ES : sq64 a b = 0).
    { clear - E. revert b E. induction a as [|x a IH]; intros [|y b] E; try reflexivity. cbn [map] in E. injection E as E1 E2. cbn [sq64]. rewrite (IH b E2), E1.
      replace (value y - value y) with 0 by ring. now rewrite rnd64_0, Rmult_0_r, rnd64_0, Rplus_0_r, rnd64_0. }
    rewrite V1, ES, sqrt_0. apply rnd64_0.
  - assert (HN : INR (length a) <= p2 20) by now rewrite La. pose proof (sq64_close a b HN) as C. cbv zeta in C. rewrite La in C. rewrite V1. unfold dist2. rewrite plus_INR. change (INR 1) with 1.
    pose proof (sqdist_nonneg (map value a) (map value b)) as T0. set (T := sqdist (map value a) (map value b)) in *. pose proof (sq64_nonneg a b) as S0. set (s := sq64 a b) in *.
    pose proof (pos_INR d) as K. set (k := INR d) in *.
    assert (AL : 0 <= k * p2 (-50) <= 1).
    { split; [apply Rmult_le_pos; [exact K|left; apply p2_pos]|]. apply Rle_trans with (p2 20 * p2 (-50)); [apply Rmult_le_compat_r; [left; apply p2_pos|exact HD]|]. unfold p2. cbn. lra. }
    assert (BE : 0 <= k * p2 (-1073)) by (apply Rmult_le_pos; [exact K|left; apply p2_pos]).
    pose proof (sqrt_close s T _ _ S0 T0 AL BE C) as SC.
    assert (BB : sqrt (k * p2 (-1073)) <= p2 (-526)).
    { rewrite <- (sqrt_square (p2 (-526))) by (left; apply p2_pos). apply sqrt_le_1_alt. rewrite <- p2_plus. apply Rle_trans with (p2 20 * p2 (-1073)); [apply Rmult_le_compat_r; [left; apply p2_pos|exact HD]|]. rewrite <- p2_plus. apply p2_le. lia. }
    pose proof (err64 (sqrt s)) as E. pose proof (sqrt_pos s) as P1. pose proof (sqrt_pos T) as P2. rewrite (Rabs_right (sqrt s)) in E by lra. clear - SC BB E P1 P2 AL K.
    set (rs := sqrt s) in *. set (rt := sqrt T) in *. set (sb := sqrt (k * p2 (-1073))) in *. clearbody rs rt sb.
    set (rel := p2 (-53)) in *. assert (Pr : 0 < rel) by apply p2_pos. assert (RS : rel <= / 1000000) by (unfold rel, p2; cbn; lra).
    assert (W : p2 (-50) = 8 * rel) by (change (-50)%Z with (3 + -53)%Z; rewrite p2_plus; reflexivity). rewrite W in *.
    assert (G1 : 2 * p2 (-526) <= p2 (-525)) by (apply p2_twice; lia). assert (G2 : 4 * p2 (-1075) <= p2 (-526)) by (pose proof (p2_twice (-1075) (-1074) ltac:(lia)); pose proof (p2_twice (-1074) (-526) ltac:(lia)); lra).
    pose proof (p2_pos (-1075)). set (g := p2 (-526)) in *. set (tiny := p2 (-1075)) in *. clearbody rel g tiny.
    replace (rnd64 rs - rt) with ((rnd64 rs - rs) + (rs - rt)) by ring. eapply Rle_trans; [apply Rabs_triang|].
    assert (U : rs <= 2 * rt + g) by (apply abs_inv in SC; nra).
    assert (rel * rs <= rel * (2 * rt + g)) by (apply Rmult_le_compat_l; lra). assert (0 <= rel * rt) by (apply Rmult_le_pos; lra). assert (rel * g <= / 4 * g) by (apply Rmult_le_compat_r; lra). lra.
Qed.

(** The distance depends on the two points only, not on their order or on the matrix they are in. *)
Theorem C105_distances_symmetric : forall rows rows' m m' d v v' p p' i j i' j' a b D D',
  grid m d rows -> grid m' d rows' -> INR d <= p2 20 -> Forall (bounded64 490) a -> Forall (bounded64 490) b ->
  pdist (OTensor {| shape := [m; d]; data := concat rows |}) "euclidean" = Ok v -> pdist (OTensor {| shape := [m'; d]; data := concat rows' |}) "euclidean" = Ok v' ->
  nth_error (pairs m) p = Some (i, j) -> nth_error rows i = Some a -> nth_error rows j = Some b -> nth_error (data v) p = Some D ->
  nth_error (pairs m') p' = Some (i', j') -> nth_error rows' i' = Some b -> nth_error rows' j' = Some a -> nth_error (data v') p' = Some D' ->
  value D = value D'.
Proof.
  intros rows rows' m m' d v v' p p' i j i' j' a b D D' G G' HD Ba Bb E E' Hp Ha Hb HV Hp' Hb' Ha' HV'.
  destruct (pdist_entry _ _ _ _ _ _ _ _ _ G E Hp Ha Hb) as (N & La & Lb). destruct (pdist_entry _ _ _ _ _ _ _ _ _ G' E' Hp' Hb' Ha') as (N' & _ & _).
  rewrite HV in N. rewrite HV' in N'. apply some_inj in N, N'. rewrite N, N'.
  destruct (rep_dist a b) as [F1 V1]; auto; [now rewrite La|]. destruct (rep_dist b a) as [F2 V2]; auto; [now rewrite Lb|]. now rewrite V1, V2, sq64_sym.
Qed.
(** Different points may have distance zero. *)
Theorem C105_distance_separates_refuted : exists (x y : f64) v D, bounded64 490 x /\ bounded64 490 y /\ value x <> value y /\
  pdist (OTensor {| shape := [2%nat; 1%nat]; data := [x; y] |}) "euclidean" = Ok v /\ data v = [D] /\ finite D /\ value D = 0.
Proof.
  exists n0, (ndiv n1 (f_of_Z (2 ^ 600))), {| shape := [1%nat]; data := [euclidean_distance [n0] [ndiv n1 (f_of_Z (2 ^ 600))]] |}, (euclidean_distance [n0] [ndiv n1 (f_of_Z (2 ^ 600))]).
  set (y := ndiv n1 (f_of_Z (2 ^ 600))).
  assert (Fy : finite y) by (vm_compute; reflexivity).
  assert (L1 : nltb n0 y = true) by (vm_compute; reflexivity). assert (L2 : nltb n1 y = false) by (vm_compute; reflexivity).
  rewrite (rep_ltb _ _ _ _ rep_0 (rep_value y Fy)) in L1. rewrite (rep_ltb _ _ _ _ rep_1 (rep_value y Fy)) in L2. apply Rltb_true in L1. apply Rltb_false in L2.
  assert (FD : finite (euclidean_distance [n0] [y])) by (vm_compute; reflexivity).
  assert (L3 : nltb n0 (euclidean_distance [n0] [y]) = false) by (vm_compute; reflexivity). assert (L4 : nltb (euclidean_distance [n0] [y]) n0 = false) by (vm_compute; reflexivity).
  rewrite (rep_ltb _ _ _ _ rep_0 (rep_value _ FD)) in L3. rewrite (rep_ltb _ _ _ _ (rep_value _ FD) rep_0) in L4. apply Rltb_false in L3, L4.
  assert (ONE : 1 <= bpow radix2 490) by (change 1 with (bpow radix2 0); apply bpow_le; lia).
  split; [split; [apply rep_0|rewrite (proj2 rep_0), Rabs_R0; apply bpow_ge_0]|]. split; [split; [exact Fy|rewrite Rabs_right; lra]|]. split; [rewrite (proj2 rep_0); lra|].
  split; [reflexivity|]. split; [reflexivity|]. split; [exact FD|lra].
Qed.

(** Cases. *)
Example C105_example_median : exists t : tensor f64, data t <> [] /\ Forall (bounded64 1022) (data t) /\ length (data t) = 4%nat.
Proof.
  exists {| shape := [4%nat]; data := [nint 5; nint 1; nint 3; nint 2] |}. split; [discriminate|]. split; [|reflexivity]. cbn [data].
  assert (H : forall z, (Z.abs z < 2 ^ 53)%Z -> bounded64 1022 (nint z)).
  { intros z Hz. destruct (rep_int z Hz) as [F V]. split; [exact F|]. rewrite V, <- abs_IZR. apply Rle_trans with (IZR (2 ^ 53)); [apply IZR_le; lia|].
    change (IZR (2 ^ 53)) with (bpow radix2 53). apply bpow_le. lia. }
  repeat (constructor; [now apply H|]). constructor.
Qed.
Example C105_example_divide : exists x y : f64, bounded64 969 x /\ finite y /\ 1 <= value y < 4.
Proof.
  exists n1, n2. split; [split; [apply rep_1|rewrite (proj2 rep_1), Rabs_R1; change 1 with (bpow radix2 0); apply bpow_le; lia]|]. split; [apply rep_2|]. rewrite (proj2 rep_2). lra.
Qed.
Example C105_example_distances : let rows := [[nint 0; nint 0]; [nint 3; nint 4]; [nint 0; nint 4]] : list (list f64) in
  grid 3 2 rows /\ INR 2 <= p2 20 /\ Forall (Forall (bounded64 490)) rows /\ dist2 [0; 0] [3; 4] = 5.
Proof.
  assert (H : forall z, (Z.abs z < 2 ^ 53)%Z -> bounded64 490 (nint z)).
  { intros z Hz. destruct (rep_int z Hz) as [F V]. split; [exact F|]. rewrite V, <- abs_IZR. apply Rle_trans with (IZR (2 ^ 53)); [apply IZR_le; lia|].
    change (IZR (2 ^ 53)) with (bpow radix2 53). apply bpow_le. lia. }
  cbv zeta. split; [split; [reflexivity|repeat constructor]|]. split; [unfold p2; cbn; lra|]. split; [|exact (proj2 PTensor.C39_example)].
  repeat (constructor; [repeat (constructor; [now apply H|]); constructor|]). constructor.
Qed.

Print Assumptions C105_median_in_doubles.
Print Assumptions C105_median_of_equal_entries_refuted.
Print Assumptions C105_safe_divide_in_doubles.
Print Assumptions C105_safe_divide_exact_refuted.
Print Assumptions C105_safe_sqrt_in_doubles.
Print Assumptions C105_distances_in_doubles.
Print Assumptions C105_distances_symmetric.
Print Assumptions C105_distance_separates_refuted.
