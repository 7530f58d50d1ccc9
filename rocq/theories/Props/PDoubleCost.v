(** C112: the training cost of a network in double precision. *)
From Coq Require Import List Arith Lia ZArith Bool Reals Lra.
From Flocq Require Import Core.Core.
From Flocq Require IEEE754.BinarySingleNaN.
From Verif.Proofs Require Import FloatCell SafeFloat FloatAdapt.
From Verif.Base Require Import Py Num Float64 Vec Lists.
From Verif.Model Require Import TensorUtils BaseModel BNN.
From Verif.Spec Require Import Doubles DoubleCost.
From Verif.Proofs Require Import DoubleCell DoubleRun DoubleStein DoubleKernel.
From Verif.Props Require Import PSpoilt PDoubleTensor PDoubleSvgd PDoubleObjectives.
Import ListNotations.
Local Open Scope R_scope.
#[local] Hint Resolve add_spoilt_l add_spoilt_r sub_spoilt_l sub_spoilt_r mul_spoilt_l mul_spoilt_r div_spoilt_l opp_spoilt : spoil.

(** *** Sizes *)
Lemma forall2_length : forall A B (P : A -> B -> Prop) l l', Forall2 P l l' -> length l = length l'.
Proof. intros A B P l l' H. induction H; cbn [length]; congruence. Qed.
Lemma b_safe_divide : forall x y e k, bounded64 e x -> finite y -> p2 k <= value y -> (e <= 969)%Z -> (-1000 <= e - k < 1024)%Z -> bounded64 (e - k) (safe_divide x y).
Proof.
  intros x y e k B F L H1 H2. destruct (C105_safe_divide_in_doubles x y (b_weaken _ _ _ B H1) F) as (_ & D & FD & E & P & _ & A & _). rewrite E. pose proof (p2_pos k). specialize (P ltac:(lra)). rewrite (Rabs_right (value y)), (Rabs_right (value D)) in A by lra.
  eapply (b_div x D e k); [exact B|exact FD|unfold p2 in *; lra|lia|lia].
Qed.
Lemma count_nat : forall n, (1 <= n)%nat -> (Z.of_nat n < 2 ^ 53)%Z -> finite (nint (Z.of_nat n)) /\ 1 <= value (nint (Z.of_nat n)).
Proof. intros n H1 H2. destruct (rep_int (Z.of_nat n) ltac:(lia)) as [F V]. split; [exact F|]. rewrite V. apply IZR_le. lia. Qed.
Lemma b_mean : forall l e, Forall (bounded64 e) l -> (0 < length l)%nat -> (Z.of_nat (length l) <= 2 ^ 20)%Z -> (-1000 <= e <= 900)%Z -> bounded64 (e + 21) (np_mean l).
Proof.
  intros l e H L U He. unfold np_mean. destruct (count_nat (length l) ltac:(lia) ltac:(lia)) as [F V]. eapply (b_div _ _ (e + 21) 0); [|exact F|exact V|lia|lia]. apply b_sum; [exact H| |lia]. rewrite INR_IZR_INZ. unfold p2. rewrite <- (IZR_Zpower radix2) by lia. apply IZR_le. exact U.
Qed.
Lemma sum_size : forall l e, Forall (bounded64 e) l -> (Z.of_nat (length l) <= 2 ^ 20)%Z -> (-1000 <= e <= 900)%Z -> bounded64 (e + 21) (nsum l).
Proof. intros l e H U He. apply b_sum; [exact H| |lia]. rewrite INR_IZR_INZ. unfold p2. rewrite <- (IZR_Zpower radix2) by lia. apply IZR_le. exact U. Qed.

(** *** The precision 1 / (exp lv + 1e-16) *)
Definition tiny : f64 := nfrac 1 10000000000000000.
Lemma tiny_range : finite tiny /\ p2 (-54) <= value tiny <= p2 (-53).
Proof. split; [vm_compute; reflexivity|]. unfold tiny, value, p2. vm_compute. lra. Qed.
Lemma precision_range : forall e : f64, (finite e /\ 0 <= value e) \/ e = BinarySingleNaN.B754_infinity false -> bounded64 54 (ndiv n1 (nadd e tiny)) /\ 0 <= value (ndiv n1 (nadd e tiny)).
Proof.
  intros e [[F P]| ->].
  - destruct tiny_range as [FT [LT UT]]. pose proof (p2_pos (-54)) as P54. assert (G : Rabs (rnd64 (value e + value tiny)) < huge).
    { pose proof (rnd64_nearest (value e + value tiny) (value e) (value_format e)) as N. replace (value e - (value e + value tiny)) with (- value tiny) in N by lra. rewrite Rabs_Ropp, (Rabs_right (value tiny)) in N by lra.
      pose proof (BinarySingleNaN.abs_B2R_le_emax_minus_prec 53 1024 ltac:(reflexivity) e) as M. change (BinarySingleNaN.B2R e) with (value e) in M. rewrite (Rabs_right (value e)) in M by lra. change (bpow radix2 1024) with huge in M.
      assert (S : 1 <= bpow radix2 (1024 - 53)) by (change 1 with (bpow radix2 0); apply bpow_le; lia). assert (T : p2 (-53) <= / 4) by (replace (/ 4) with (p2 (-2)) by (unfold p2; cbn; lra); apply p2_le; lia).
      pose proof (Rabs_triang (rnd64 (value e + value tiny) - (value e + value tiny)) (value e + value tiny)) as TR. replace (rnd64 (value e + value tiny) - (value e + value tiny) + (value e + value tiny)) with (rnd64 (value e + value tiny)) in TR by lra. rewrite (Rabs_right (value e + value tiny)) in TR by lra. lra. }
    destruct (rep_add e tiny _ _ (conj F eq_refl) (conj FT eq_refl) G) as [FA VA]. assert (LA : p2 (-54) <= value (nadd e tiny)). { rewrite VA. rewrite <- (rnd64_id (p2 (-54))) by (apply format64_bpow; lia). apply rnd64_mono. lra. }
    assert (B1 : bounded64 0 n1) by (split; [apply rep_1|]; rewrite (proj2 rep_1), Rabs_R1; cbn; lra). assert (B : bounded64 54 (ndiv n1 (nadd e tiny))) by (eapply (b_div _ _ 0 (-54)); [exact B1|exact FA|exact LA|lia|lia]). split; [exact B|].
    assert (Q : 0 <= 1 / value (nadd e tiny) <= p2 54). { split; [apply Rlt_le, Rdiv_lt_0_compat; lra|]. unfold Rdiv. rewrite Rmult_1_l. change 54%Z with (- -54)%Z. unfold p2. rewrite bpow_opp. apply Rinv_le; [apply bpow_gt_0|exact LA]. }
    destruct (rep_div n1 (nadd e tiny) 1 _ rep_1 (conj FA eq_refl) ltac:(lra)) as [_ V]; [apply (below_huge 54); [lia|]; rewrite Rabs_right by lra; apply Q|]. rewrite V, <- rnd64_0. apply rnd64_mono. lra.
  - assert (E : ndiv n1 (nadd (BinarySingleNaN.B754_infinity false : f64) tiny) = n0) by (vm_compute; reflexivity). rewrite E. split; [apply b_0|]. rewrite (proj2 rep_0). lra.
Qed.
Section Cost.
Context (NT : NumT f64) (EL : usual_exp_ln NT).
Definition term (r : f64 * (f64 * f64)) : f64 :=
  let '(y, (m, lv)) := r in nsub (nmul (nopp (nmul (nsub y m) (nsub y m))) (nmul (nfrac 5 10) (ndiv n1 (nadd (nexp lv) tiny)))) (nmul (nfrac 5 10) lv).
Lemma term_range : forall y m lv, bounded64 200 y -> bounded64 200 m -> bounded64 200 lv -> bounded64 470 (term (y, (m, lv))).
Proof.
  intros y m lv Y M L. destruct (precision_range (nexp lv) (proj1 EL lv (fin _ _ L))) as [P _]. unfold term. set (p := ndiv n1 (nadd (nexp lv) tiny)) in *. clearbody p. eapply b_weaken; [bnd|lia].
Qed.
Lemma square_range : forall y m, bounded64 200 y -> bounded64 200 m -> bounded64 410 (nmul (nsub y m) (nsub y m)).
Proof. intros y m Y M. eapply b_weaken; [bnd|lia]. Qed.
Lemma prior_range : forall rows, moderate_rows rows -> bounded64 470 (log_variance_prior_log_like (map (fun '(_, (_, lv)) => [lv]) rows) mean_prior var_prior).
Proof.
  intros rows (L1 & L2 & HF). destruct EL as (_ & K1 & K2). unfold log_variance_prior_log_like. rewrite map_map. eapply (b_weaken _ (440 + 21)); [|lia]. apply b_mean; [|rewrite map_length; exact L1|rewrite map_length; exact L2|lia].
  apply Forall_map. eapply Forall_impl; [|exact HF]. intros (y & m & lv) (_ & _ & B). cbn [fst snd map] in *. change mean_prior with (nfrac 1 1000000 : f64). change var_prior with (nfrac 1 100 : f64). eapply (b_weaken _ (419 + 21)); [|lia]. apply sum_size; [|cbn; lia|lia]. apply Forall_cons; [|apply Forall_nil].
  assert (BQ : bounded64 410 (nopp (nmul (nsub lv (nln (nfrac 1 1000000))) (nsub lv (nln (nfrac 1 1000000)))))) by (eapply b_weaken; [bnd|lia]).
  assert (D : finite (nmul n2 (nfrac 1 100) : f64) /\ p2 (-6) <= value (nmul n2 (nfrac 1 100))) by (split; [vm_compute; reflexivity|unfold value, p2; vm_compute; lra]). destruct D as [FD VD].
  pose proof (b_safe_divide _ _ 410 (-6) BQ FD VD ltac:(lia) ltac:(lia)) as BD. eapply (b_sub _ _ (410 - -6) 12); [exact BD| |lia|lia|lia]. eapply b_weaken; [bnd|lia].
Qed.
Lemma squares_fold : forall params ll e, Forall (fun p => length (data p) = prod (shape p) /\ (0 < length (data p))%nat /\ (Z.of_nat (length (data p)) <= 2 ^ 20)%Z /\ Forall (bounded64 200) (data p)) params -> bounded64 e ll -> (450 <= e)%Z -> (e + Z.of_nat (length params) <= 900)%Z ->
  bounded64 (e + Z.of_nat (length params)) (fold_left (fun ll p => (ll + nsum (map (fun v => - n1 * nfrac 5 10 * (v * v)) (data p)))%num) params ll).
Proof.
  induction params as [|p params IH]; intros ll e HF BL He HL; [cbn [fold_left length]; eapply b_weaken; [exact BL|lia]|]. inversion HF as [|? ? (_ & _ & U & BP) HF']; subst. cbn [fold_left length] in *. eapply (b_weaken _ (e + 1 + Z.of_nat (length params))); [|lia]. apply IH; [exact HF'| |lia|lia].
  eapply (b_add _ _ e 441); [exact BL| |lia|lia|lia]. apply (sum_size _ 420); [|rewrite map_length; exact U|lia]. apply Forall_map. eapply Forall_impl; [|exact BP]. intros v BV. eapply b_weaken; [bnd|lia].
Qed.
Lemma counts_fold : forall (params : list (tensor f64)) n e, Forall (fun p => length (data p) = prod (shape p) /\ (0 < length (data p))%nat /\ (Z.of_nat (length (data p)) <= 2 ^ 20)%Z /\ Forall (bounded64 200) (data p)) params -> bounded64 e n -> 0 <= value n -> (21 <= e)%Z -> (e + Z.of_nat (length params) <= 900)%Z ->
  let r := fold_left (fun n p => (n + nint (Z.of_nat (prod (shape p))))%num) params n in finite r /\ value n <= value r /\ ((0 < length params)%nat -> 1 <= value r).
Proof.
  cbv zeta. induction params as [|p params IH]; intros n e HF BN PN He HL; [cbn [fold_left length]; split; [exact (fin _ _ BN)|]; split; [lra|lia]|]. inversion HF as [|? ? (E & L & U & _) HF']; subst. cbn [fold_left length] in *. rewrite <- E. destruct (count_nat (length (data p)) ltac:(lia) ltac:(lia)) as [FC VC].
  destruct (b_int (Z.of_nat (length (data p))) 20 ltac:(lia) ltac:(lia) ltac:(lia)) as [BC _]. set (c := nint (Z.of_nat (length (data p))) : f64) in *. assert (BA : bounded64 (e + 1) (nadd n c)) by (eapply b_add; [exact BN|exact BC|lia|lia|lia]).
  assert (VA : value n <= value (nadd n c) /\ 1 <= value (nadd n c)). { rewrite (add_value _ _ (fin _ _ BN) FC (fin _ _ BA)). split; [rewrite <- (rnd64_id (value n) (value_format n)) at 1; apply rnd64_mono; lra|]. change 1 with (bpow radix2 0). rewrite <- (rnd64_id _ (format64_bpow 0 ltac:(lia))). apply rnd64_mono. change (bpow radix2 0) with 1. lra. }
  destruct (IH (nadd n c) (e + 1)%Z HF' BA ltac:(lra) ltac:(lia) ltac:(lia)) as (F & V & _). split; [exact F|]. split; [lra|]. intros _. lra.
Qed.
Lemma weight_range : forall params, moderate_variables params -> bounded64 850 (weight_prior_log_like params n1).
Proof.
  intros params (L & HF). unfold weight_prior_log_like. pose proof (squares_fold params n0 450 HF (b_0 450) ltac:(lia) ltac:(lia)) as B. assert (P0 : 0 <= value (n0 : f64)) by (rewrite (proj2 rep_0); lra). destruct (counts_fold params n0 21 HF (b_0 21) P0 ltac:(lia) ltac:(lia)) as (F & _ & V). specialize (V ltac:(lia)).
  set (e := (450 + Z.of_nat (length params))%Z) in *. eapply (b_weaken _ (e - 0)); [|unfold e; lia]. apply b_safe_divide; [exact B|exact F|exact V|unfold e; lia|unfold e; lia].
Qed.
(** The cost and the mean squared error of moderate outputs, labels and variables are finite, however large or small the predicted variances. *)
Theorem C112_cost_finite : forall batch_size n_examples params rows,
  moderate_rows rows -> moderate_variables params -> (0 < batch_size)%nat -> (0 < n_examples)%nat -> (Z.of_nat batch_size < 2 ^ 53)%Z -> (Z.of_nat n_examples < 2 ^ 53)%Z ->
  bounded64 852 (fst (negative_log_likelihood batch_size n_examples params rows)) /\ bounded64 431 (snd (negative_log_likelihood batch_size n_examples params rows)).
Proof.
  intros bs n params rows HR HP B0 N0 B1 N1. pose proof (prior_range rows HR) as BP. pose proof (weight_range params HP) as BW. destruct HR as (L1 & L2 & HF). destruct (count_nat bs ltac:(lia) B1) as [FB VB]. destruct (count_nat n ltac:(lia) N1) as [FN VN].
  unfold negative_log_likelihood. cbn [fst snd]. split.
  - apply b_opp. assert (BS : bounded64 491 (nsum (map term rows))). { apply (sum_size _ 470); [|rewrite map_length; exact L2|lia]. apply Forall_map. eapply Forall_impl; [|exact HF]. intros (y & m & lv) (Y & M & L). now apply term_range. }
    change (map _ rows) with (map term rows) at 1. set (p1 := log_variance_prior_log_like _ _ _) in *. set (p2' := weight_prior_log_like _ _) in *. set (s := nsum _) in *. clearbody p1 p2' s.
    eapply (b_add _ _ 492 850); [|eapply (b_div _ _ 850 0); [exact BW|exact FN|exact VN|lia|lia]|lia|lia|lia]. eapply (b_add _ _ 491 470); [|eapply (b_div _ _ 470 0); [exact BP|exact FN|exact VN|lia|lia]|lia|lia|lia]. eapply (b_div _ _ 491 0); [exact BS|exact FB|exact VB|lia|lia].
  - apply (b_mean _ 410); [|rewrite map_length; exact L1|rewrite map_length; exact L2|lia]. apply Forall_map. eapply Forall_impl; [|exact HF]. intros (y & m & lv) (Y & M & _). now apply square_range.
Qed.
(** A label more than 2^513 away from its prediction makes cost and error infinite or NaN. *)
Theorem C112_cost_overflow : forall batch_size n_examples params rows y m lv,
  In (y, (m, lv)) rows -> finite y -> finite m -> bpow radix2 513 <= Rabs (value y - value m) ->
  spoilt (fst (negative_log_likelihood batch_size n_examples params rows)) /\ spoilt (snd (negative_log_likelihood batch_size n_examples params rows)).
Proof.
  intros bs n params rows y m lv Hin Fy Fm H. apply In_nth_error in Hin as [i Hi].
  assert (S : spoilt (nmul (nsub y m) (nsub y m))).
  { destruct (BinarySingleNaN.is_finite (nsub y m)) eqn:E; [|assert (spoilt (nsub y m)) by exact E; auto with spoil]. rewrite square_overflows; [reflexivity|exact E|]. rewrite (sub_value _ _ Fy Fm E). apply (Rle_trans _ (p2 513)); [apply p2_le; lia|]. apply rnd64_large; [lia|exact H]. }
  unfold negative_log_likelihood. cbn [fst snd]. split.
  - apply opp_spoilt. apply add_spoilt_l, add_spoilt_l, div_spoilt_l. apply (nsum_spoilt _ i (term (y, (m, lv)))); [rewrite nth_error_map, Hi; reflexivity|]. unfold term. auto with spoil.
  - unfold np_mean. apply div_spoilt_l. apply (nsum_spoilt _ i (nmul (nsub y m) (nsub y m))); [rewrite nth_error_map, Hi; reflexivity|exact S].
Qed.

(** *** Order *)
Lemma rnd64_abs_mono : forall a b, Rabs a <= Rabs b -> Rabs (rnd64 a) <= Rabs (rnd64 b).
Proof.
  assert (G : forall x, Rabs (rnd64 x) = rnd64 (Rabs x)).
  { intros x. unfold Rabs at 2. destruct (Rcase_abs x) as [N|N]; [rewrite rnd64_opp; apply Rabs_left1; rewrite <- rnd64_0; apply rnd64_mono; lra|apply Rabs_right, Rle_ge; rewrite <- rnd64_0; apply rnd64_mono; lra]. }
  intros a b H. rewrite !G. now apply rnd64_mono.
Qed.
Lemma square_mono : forall y m y' m', bounded64 200 y -> bounded64 200 m -> bounded64 200 y' -> bounded64 200 m' -> Rabs (value y - value m) <= Rabs (value y' - value m') ->
  value (nmul (nsub y m) (nsub y m)) <= value (nmul (nsub y' m') (nsub y' m')).
Proof.
  intros y m y' m' Y M Y' M' H. pose proof (b_sub y m 200 200 201 Y M ltac:(lia) ltac:(lia) ltac:(lia)) as B. pose proof (b_sub y' m' 200 200 201 Y' M' ltac:(lia) ltac:(lia) ltac:(lia)) as B'.
  pose proof (square_range y m Y M) as S. pose proof (square_range y' m' Y' M') as S'. rewrite (mul_value _ _ (fin _ _ S)), (mul_value _ _ (fin _ _ S')). apply rnd64_mono.
  rewrite (sub_value _ _ (fin _ _ Y) (fin _ _ M) (fin _ _ B)), (sub_value _ _ (fin _ _ Y') (fin _ _ M') (fin _ _ B')). apply rnd64_abs_mono in H. change (Rsqr (rnd64 (value y - value m)) <= Rsqr (rnd64 (value y' - value m'))). now apply Rsqr_le_abs_1.
Qed.
Lemma term_mono : forall y m y' m' lv, bounded64 200 y -> bounded64 200 m -> bounded64 200 y' -> bounded64 200 m' -> bounded64 200 lv -> Rabs (value y - value m) <= Rabs (value y' - value m') ->
  value (term (y', (m', lv))) <= value (term (y, (m, lv))).
Proof.
  intros y m y' m' lv Y M Y' M' L H. pose proof (term_range y m lv Y M L) as T. pose proof (term_range y' m' lv Y' M' L) as T'. pose proof (square_mono y m y' m' Y M Y' M' H) as S. destruct (precision_range (nexp lv) (proj1 EL lv (fin _ _ L))) as [P PP].
  pose proof (square_range y m Y M) as B. pose proof (square_range y' m' Y' M') as B'. unfold term in *. set (s := nmul (nsub y m) (nsub y m)) in *. set (s' := nmul (nsub y' m') (nsub y' m')) in *. set (p := ndiv n1 (nadd (nexp lv) tiny)) in *. clearbody s s' p.
  assert (K : bounded64 100 (nmul (nfrac 5 10) p)) by (eapply b_weaken; [bnd|lia]). assert (K0 : 0 <= value (nmul (nfrac 5 10) p)). { rewrite (mul_value _ _ (fin _ _ K)), <- rnd64_0. apply rnd64_mono, Rmult_le_pos; [unfold value; vm_compute; lra|exact PP]. }
  assert (HL : bounded64 210 (nmul (nfrac 5 10) lv)) by (eapply b_weaken; [bnd|lia]). set (k := nmul (nfrac 5 10) p) in *. clearbody k.
  assert (Q : bounded64 600 (nmul (nopp s) k)) by (eapply b_weaken; [bnd|lia]). assert (Q' : bounded64 600 (nmul (nopp s') k)) by (eapply b_weaken; [bnd|lia]).
  apply sub_mono; try (eapply fin; eassumption); [|lra]. rewrite (mul_value _ _ (fin _ _ Q)), (mul_value _ _ (fin _ _ Q')). apply rnd64_mono. destruct (rep_opp s _ (conj (fin _ _ B) eq_refl)) as [_ V]. destruct (rep_opp s' _ (conj (fin _ _ B') eq_refl)) as [_ V']. rewrite V, V'. nra.
Qed.
Lemma sum_mono : forall l l' e, Forall2 (fun a b : f64 => bounded64 e a /\ bounded64 e b /\ value a <= value b) l l' -> (Z.of_nat (length l) <= 2 ^ 20)%Z -> (-1000 <= e <= 900)%Z -> value (nsum l) <= value (nsum l').
Proof.
  intros l l' e H. induction H as [|a b l l' (A & B & O) H IH]; intros U He; [unfold nsum; cbn [fold_right]; lra|]. cbn [length] in U. specialize (IH ltac:(lia) He).
  assert (F : Forall (bounded64 e) l) by (clear - H; induction H as [|? ? ? ? (? & _)]; constructor; auto). assert (F' : Forall (bounded64 e) l') by (clear - H; induction H as [|? ? ? ? (_ & ? & _)]; constructor; auto). pose proof (forall2_length _ _ _ _ _ H) as HL.
  pose proof (sum_size l e F ltac:(lia) He) as S1. pose proof (sum_size l' e F' ltac:(lia) He) as S1'. pose proof (sum_size (a :: l) e (Forall_cons _ A F) ltac:(cbn [length]; lia) He) as S2. pose proof (sum_size (b :: l') e (Forall_cons _ B F') ltac:(cbn [length]; lia) He) as S2'.
  change (nsum (a :: l)) with (nadd a (nsum l)) in *. change (nsum (b :: l')) with (nadd b (nsum l')) in *. apply add_mono; try (eapply fin; eassumption); assumption.
Qed.
Lemma div_mono : forall x x' d e, bounded64 e x -> bounded64 e x' -> finite d -> 1 <= value d -> (0 <= e < 1024)%Z -> value x <= value x' -> value (ndiv x d) <= value (ndiv x' d).
Proof.
  intros x x' d e B B' F V He H. assert (G : forall z, bounded64 e z -> value (ndiv z d) = rnd64 (value z / value d)).
  { intros z [FZ BZ]. apply (rep_div z d _ _ (conj FZ eq_refl) (conj F eq_refl) ltac:(lra)). apply (below_huge e); [lia|]. unfold Rdiv. rewrite Rabs_mult, (Rabs_right (/ value d)) by (apply Rle_ge, Rlt_le, Rinv_0_lt_compat; lra). rewrite <- (Rmult_1_r (bpow radix2 e)). apply Rmult_le_compat; [apply Rabs_pos|apply Rlt_le, Rinv_0_lt_compat; lra|exact BZ|]. rewrite <- Rinv_1. apply Rinv_le; lra. }
  rewrite (G x B), (G x' B'). apply rnd64_mono. unfold Rdiv. apply Rmult_le_compat_r; [apply Rlt_le, Rinv_0_lt_compat; lra|exact H].
Qed.
Lemma better_terms : forall rows rows', fits_better rows rows' -> Forall (fun r => bounded64 200 (fst r) /\ bounded64 200 (fst (snd r)) /\ bounded64 200 (snd (snd r))) rows -> Forall (fun r => bounded64 200 (fst r) /\ bounded64 200 (fst (snd r)) /\ bounded64 200 (snd (snd r))) rows' ->
  map (fun '(_, (_, lv)) => [lv]) rows = map (fun '(_, (_, lv)) => [lv]) rows' /\
  Forall2 (fun a b : f64 => bounded64 470 a /\ bounded64 470 b /\ value a <= value b) (map term rows') (map term rows) /\
  Forall2 (fun a b : f64 => bounded64 410 a /\ bounded64 410 b /\ value a <= value b) (map (fun '(y, (m, _)) => nmul (nsub y m) (nsub y m)) rows) (map (fun '(y, (m, _)) => nmul (nsub y m) (nsub y m)) rows').
Proof.
  intros rows rows' H. induction H as [|(y & m & lv) (y' & m' & lv') rows rows' (E & O) H IH]; intros F F'; [repeat constructor|]. inversion F as [|? ? (Y & M & L) F2]; subst. inversion F' as [|? ? (Y' & M' & _) F2']; subst. destruct (IH F2 F2') as (I1 & I2 & I3). cbn [fst snd] in *. subst lv'. cbn [map]. split; [|split].
  - now rewrite I1.
  - constructor; [|exact I2]. split; [now apply term_range|]. split; [now apply term_range|]. now apply term_mono.
  - constructor; [|exact I3]. split; [now apply square_range|]. split; [now apply square_range|]. now apply square_mono.
Qed.
(** Rounding never turns a better fit into a higher cost: with the same predicted variances, predictions at least as close to their labels have at most the cost and the mean squared error of the others. *)
Theorem C112_cost_monotone : forall batch_size n_examples params rows rows',
  moderate_rows rows -> moderate_rows rows' -> moderate_variables params -> (0 < batch_size)%nat -> (0 < n_examples)%nat -> (Z.of_nat batch_size < 2 ^ 53)%Z -> (Z.of_nat n_examples < 2 ^ 53)%Z ->
  fits_better rows rows' ->
  value (fst (negative_log_likelihood batch_size n_examples params rows)) <= value (fst (negative_log_likelihood batch_size n_examples params rows')) /\
  value (snd (negative_log_likelihood batch_size n_examples params rows)) <= value (snd (negative_log_likelihood batch_size n_examples params rows')).
Proof.
  intros bs n params rows rows' HR HR' HP B0 N0 B1 N1 H. pose proof (prior_range rows HR) as BP. pose proof (weight_range params HP) as BW. destruct (count_nat bs ltac:(lia) B1) as [FB VB]. destruct (count_nat n ltac:(lia) N1) as [FN VN].
  pose proof HR as (L1 & L2 & HF). pose proof HR' as (L1' & L2' & HF'). destruct (better_terms rows rows' H HF HF') as (E1 & E2 & E3). pose proof (forall2_length _ _ _ _ _ H) as HL.
  assert (S : bounded64 491 (nsum (map term rows))). { apply (sum_size _ 470); [|rewrite map_length; exact L2|lia]. apply Forall_map. eapply Forall_impl; [|exact HF]. intros (y & m & lv) (Y & M & L). now apply term_range. }
  assert (S' : bounded64 491 (nsum (map term rows'))). { apply (sum_size _ 470); [|rewrite map_length; exact L2'|lia]. apply Forall_map. eapply Forall_impl; [|exact HF']. intros (y & m & lv) (Y & M & L). now apply term_range. }
  assert (O : value (nsum (map term rows')) <= value (nsum (map term rows))) by (apply (sum_mono _ _ 470 E2); [rewrite map_length; exact L2'|lia]).
  unfold negative_log_likelihood. cbn [fst snd]. split.
  - change (map _ rows) with (map term rows) at 1. change (map _ rows') with (map term rows') at 1. rewrite <- E1. set (p1 := log_variance_prior_log_like _ _ _) in *. set (w := weight_prior_log_like _ _) in *. set (s := nsum (map term rows)) in *. set (s' := nsum (map term rows')) in *. clearbody p1 w s s'.
    set (d := nint (Z.of_nat n)) in *. set (b := nint (Z.of_nat bs)) in *. clearbody d b.
    assert (Q1 : bounded64 491 (ndiv s b)) by (eapply (b_div _ _ 491 0); [exact S|exact FB|exact VB|lia|lia]). assert (Q1' : bounded64 491 (ndiv s' b)) by (eapply (b_div _ _ 491 0); [exact S'|exact FB|exact VB|lia|lia]).
    assert (Q2 : bounded64 470 (ndiv p1 d)) by (eapply (b_div _ _ 470 0); [exact BP|exact FN|exact VN|lia|lia]). assert (Q3 : bounded64 850 (ndiv w d)) by (eapply (b_div _ _ 850 0); [exact BW|exact FN|exact VN|lia|lia]).
    assert (O1 : value (ndiv s' b) <= value (ndiv s b)) by (apply (div_mono s' s b 491); [exact S'|exact S|exact FB|exact VB|lia|exact O]).
    assert (R : bounded64 492 (nadd (ndiv s b) (ndiv p1 d))) by (eapply b_add; [exact Q1|exact Q2|lia|lia|lia]). assert (R' : bounded64 492 (nadd (ndiv s' b) (ndiv p1 d))) by (eapply b_add; [exact Q1'|exact Q2|lia|lia|lia]).
    assert (T : bounded64 851 (nadd (nadd (ndiv s b) (ndiv p1 d)) (ndiv w d))) by (eapply b_add; [exact R|exact Q3|lia|lia|lia]). assert (T' : bounded64 851 (nadd (nadd (ndiv s' b) (ndiv p1 d)) (ndiv w d))) by (eapply b_add; [exact R'|exact Q3|lia|lia|lia]).
    destruct (rep_opp _ _ (conj (fin _ _ T) eq_refl)) as [_ V]. destruct (rep_opp _ _ (conj (fin _ _ T') eq_refl)) as [_ V']. rewrite V, V'. apply Ropp_le_contravar. apply add_mono; try (eapply fin; eassumption); [|lra]. apply add_mono; try (eapply fin; eassumption); [exact O1|lra].
  - unfold np_mean. rewrite !map_length, <- HL. assert (C : finite (nint (Z.of_nat (length rows)) : f64) /\ 1 <= value (nint (Z.of_nat (length rows)))) by (apply count_nat; lia). destruct C as [FC VC].
    apply (div_mono _ _ _ 431); [| |exact FC|exact VC|lia|apply (sum_mono _ _ 410 E3); [rewrite map_length; exact L2|lia]].
    + apply (sum_size _ 410); [|rewrite map_length; exact L2|lia]. apply Forall_map. eapply Forall_impl; [|exact HF]. intros (y & m & lv) (Y & M & _). now apply square_range.
    + apply (sum_size _ 410); [|rewrite map_length; exact L2'|lia]. apply Forall_map. eapply Forall_impl; [|exact HF']. intros (y & m & lv) (Y & M & _). now apply square_range.
Qed.
End Cost.

(** The guard 1e-16 added to the variance is lost in rounding as soon as the variance is at least one; it is the whole variance once the variance underflows, and the precision is then 10^16. *)
Theorem C112_guard : forall v : f64, finite v ->
  (1 <= value v -> nadd v (nfrac 1 10000000000000000) = v) /\
  (value v = 0 -> value (ndiv n1 (nadd v (nfrac 1 10000000000000000))) = IZR (10 ^ 16)).
Proof.
  intros v F. change (nfrac 1 10000000000000000) with tiny. destruct tiny_range as [FT [LT UT]]. pose proof (p2_pos (-54)) as P54. assert (ST : value tiny < p2 (-53)) by (unfold tiny, value, p2; vm_compute; lra). pose proof (value_format v) as FV. split.
  - intros L. assert (R : rnd64 (value v + value tiny) = value v).
    { pose proof (rnd64_nearest (value v + value tiny) (value v) FV) as N. replace (value v - (value v + value tiny)) with (- value tiny) in N by lra. rewrite Rabs_Ropp, (Rabs_right (value tiny)) in N by lra. apply Rabs_le_inv in N.
      assert (M : value v <= rnd64 (value v + value tiny)) by (rewrite <- (rnd64_id _ FV) at 1; apply rnd64_mono; lra). destruct (Rle_lt_or_eq_dec _ _ M) as [M'|M']; [exfalso|congruence].
      assert (G : generic_format radix2 (FLT_exp (-1074) 53) (rnd64 (value v + value tiny))) by (apply generic_format_round; auto with typeclass_instances). pose proof (succ_le_lt radix2 (FLT_exp (-1074) 53) _ _ FV G M') as S. rewrite succ_eq_pos in S by lra.
      assert (U : p2 (-52) <= ulp radix2 (FLT_exp (-1074) 53) (value v)). { unfold p2. replace (bpow radix2 (-52)) with (ulp radix2 (FLT_exp (-1074) 53) (bpow radix2 0)) by (rewrite ulp_bpow; reflexivity). apply ulp_le_pos; [apply FLT_exp_valid; reflexivity|apply FLT_exp_monotone|apply bpow_ge_0|exact L]. }
      pose proof (p2_twice (-53) (-52) ltac:(lia)). lra. }
    destruct (rep_add v tiny _ _ (conj F eq_refl) (conj FT eq_refl)) as [FA VA]; [rewrite R; apply BinarySingleNaN.abs_B2R_lt_emax|]. apply value_inj; [exact FA|exact F|congruence|rewrite VA, R; lra].
  - intros Z. assert (R : rnd64 (value v + value tiny) = value tiny) by (rewrite Z, Rplus_0_l; apply rnd64_id, value_format). destruct (rep_add v tiny _ _ (conj F eq_refl) (conj FT eq_refl)) as [FA VA]; [rewrite R; apply BinarySingleNaN.abs_B2R_lt_emax|].
    rewrite (value_inj (nadd v tiny) tiny FA FT ltac:(congruence) ltac:(rewrite VA, R; lra)). unfold tiny, value. vm_compute. lra.
Qed.


(** *** NaN *)
Notation nan64 := (BinarySingleNaN.B754_nan : f64).
Lemma add_nan_l : forall x : f64, nadd nan64 x = nan64. Proof. intros x. reflexivity. Qed.
Lemma add_nan_r : forall x : f64, nadd x nan64 = nan64. Proof. intros [| | |]; reflexivity. Qed.
Lemma nsum_nan : forall (l : list f64), In nan64 l -> nsum l = nan64.
Proof. induction l as [|x l IH]; [intros []|]. intros [E|H]; change (nsum (x :: l)) with (nadd x (nsum l)); [rewrite E; apply add_nan_l|rewrite (IH H); apply add_nan_r]. Qed.
Lemma square_inf : forall y m : f64, finite y -> finite m -> p2 513 <= Rabs (value y - value m) -> nmul (nsub y m) (nsub y m) = inf64.
Proof.
  intros y m Fy Fm H. destruct (BinarySingleNaN.is_finite (nsub y m)) eqn:E.
  - apply square_overflows; [exact E|]. rewrite (sub_value _ _ Fy Fm E). apply (Rle_trans _ (p2 513)); [apply p2_le; lia|]. apply rnd64_large; [lia|exact H].
  - pose proof (BinarySingleNaN.Bminus_correct 53 1024 prec64 emax64 BinarySingleNaN.mode_NE y m Fy Fm) as C. change (BinarySingleNaN.Bminus BinarySingleNaN.mode_NE y m) with (nsub y m) in C. destruct (Rlt_bool _ _); [destruct C as (_ & C & _); congruence|]. destruct C as [C _]. set (d := nsub y m) in *. clearbody d. destruct d as [s|s| |s mm ee pf]; try discriminate C. destruct s; vm_compute; reflexivity.
Qed.
(** A squared error that overflows times the precision 0 of a variance that overflows is NaN, and one such row makes the whole cost NaN. *)
Theorem C112_cost_nan : forall (NT : NumT f64) batch_size n_examples params rows y m lv,
  In (y, (m, lv)) rows -> finite y -> finite m -> p2 513 <= Rabs (value y - value m) -> nexp lv = inf64 ->
  fst (negative_log_likelihood batch_size n_examples params rows) = nan64.
Proof.
  intros NT bs n params rows y m lv Hin Fy Fm H E. unfold negative_log_likelihood. cbn [fst]. change (map _ rows) with (map (@term NT) rows) at 1.
  assert (T : @term NT (y, (m, lv)) = nan64). { unfold term. rewrite E, (square_inf y m Fy Fm H). set (h := nmul (nfrac 5 10) lv). assert (Q : nmul (nopp inf64) (nmul (nfrac 5 10) (ndiv n1 (nadd inf64 tiny))) = nan64) by (vm_compute; reflexivity). rewrite Q. reflexivity. }
  rewrite (nsum_nan (map (@term NT) rows)) by (rewrite <- T; now apply in_map). reflexivity.
Qed.
(** An exponential that is right at 0, overflows above 1000 and is 0 below -1000. *)
Definition stand_in : NumT f64 := {| nexp := fun x => if nltb (nint 1000) x then inf64 else if nltb x (nint (-1000)) then n0 else n1; nln := fun x => nint (-10); nsin := fun x => x; ncos := fun x => x; npi := n1 |}.
Lemma stand_in_usual : usual_exp_ln stand_in.
Proof.
  split; [|split; split; [vm_compute; reflexivity|cbn [nln stand_in]; rewrite (proj2 (rep_int (-10) ltac:(lia))), <- abs_IZR; cbn; lra|vm_compute; reflexivity|cbn [nln stand_in]; rewrite (proj2 (rep_int (-10) ltac:(lia))), <- abs_IZR; cbn; lra]].
  intros x F. cbn [nexp stand_in]. destruct (nltb (nint 1000) x); [right; reflexivity|left]. destruct (nltb x (nint (-1000))); [rewrite (proj2 rep_0)|rewrite (proj2 rep_1)]; split; try lra; [apply rep_0|apply rep_1].
Qed.
(** Finite labels and outputs need not give a number. *)
Theorem C112_cost_is_a_number_refuted :
  exists rows : list (f64 * (f64 * f64)), Forall (fun r => finite (fst r) /\ finite (fst (snd r)) /\ finite (snd (snd r))) rows /\ usual_exp_ln stand_in /\
    fst (@negative_log_likelihood f64 _ stand_in 1 1 [Tensor [1%nat] [n1]] rows) = nan64.
Proof.
  exists [(npow (nint 10) 200, (n0, nint 2000))]. split; [|split; [exact stand_in_usual|]].
  - apply Forall_cons; [|apply Forall_nil]. cbn [fst snd]. split; [|split]; vm_compute; reflexivity.
  - apply (C112_cost_nan stand_in 1 1 _ _ (npow (nint 10) 200) n0 (nint 2000)); [left; reflexivity|vm_compute; reflexivity|vm_compute; reflexivity| |vm_compute; reflexivity].
    rewrite (proj2 rep_0), Rminus_0_r. eapply Rle_trans; [|apply Rle_abs]. change (p2 513) with (IZR (2 ^ 513)). unfold value. vm_compute. lra.
Qed.
Definition near_rows : list (f64 * (f64 * f64)) := [(n1, (nfrac 3 4, nint 2)); (nint 3, (nint 2, nint (-2000)))].
Definition far_rows : list (f64 * (f64 * f64)) := [(n1, (nfrac 1 2, nint 2)); (nint 3, (nint 5, nint (-2000)))].
Example C112_example :
  moderate_rows near_rows /\ moderate_rows far_rows /\ fits_better near_rows far_rows /\ moderate_variables [Tensor [2%nat] [n1; nfrac 1 3]] /\
  (exists v : f64, finite v /\ 1 <= value v) /\ (exists y m : f64, finite y /\ finite m /\ p2 513 <= Rabs (value y - value m)).
Proof.
  assert (W : forall x : f64, bounded64 7 x -> bounded64 200 x) by (intros x B; apply (b_weaken _ 7); [exact B|lia]). assert (BM : bounded64 200 (nint (-2000))) by (apply (b_int (-2000) 200); vm_compute; congruence).
  split; [|split; [|split; [|split; [|split]]]].
  - split; [cbn; lia|]. split; [cbn; lia|]. repeat (apply Forall_cons; [cbn [fst snd]; split; [apply W; const|split; [apply W; const|first [exact BM|apply W; const]]]|]). apply Forall_nil.
  - split; [cbn; lia|]. split; [cbn; lia|]. repeat (apply Forall_cons; [cbn [fst snd]; split; [apply W; const|split; [apply W; const|first [exact BM|apply W; const]]]|]). apply Forall_nil.
  - assert (V1 : value (nfrac 3 4) = 3 / 4) by (unfold value; vm_compute; lra). assert (V2 : value (nfrac 1 2) = 1 / 2) by (unfold value; vm_compute; lra). destruct (rep_int 3 ltac:(lia)) as [_ I3], (rep_int 2 ltac:(lia)) as [_ I2], (rep_int 5 ltac:(lia)) as [_ I5]. pose proof (proj2 rep_1) as I1.
    apply Forall2_cons; [|apply Forall2_cons; [|apply Forall2_nil]]; cbn [fst snd]; (split; [reflexivity|]).
    + rewrite I1, V1, V2, !Rabs_right by lra. lra.
    + rewrite I3, I2, I5, Rabs_right, Rabs_left by lra. lra.
  - split; [cbn [length]; lia|]. apply Forall_cons; [|apply Forall_nil]. cbn [data shape length]. split; [reflexivity|]. split; [lia|]. split; [lia|]. repeat (apply Forall_cons; [apply W; const|]). apply Forall_nil.
  - exists n1. split; [apply rep_1|]. rewrite (proj2 rep_1). lra.
  - exists (npow (nint 10) 200), n0. split; [vm_compute; reflexivity|]. split; [apply rep_0|]. rewrite (proj2 rep_0), Rminus_0_r. eapply Rle_trans; [|apply Rle_abs]. change (p2 513) with (IZR (2 ^ 513)). unfold value. vm_compute. lra.
Qed.
Print Assumptions C112_cost_finite.
Print Assumptions C112_cost_monotone.
Print Assumptions C112_cost_overflow.
Print Assumptions C112_guard.
Print Assumptions C112_cost_nan.
Print Assumptions C112_cost_is_a_number_refuted.
Print Assumptions C112_example.
