(** The bandwidth of SVGD in double precision. *)
From Coq Require Import String List Arith Lia ZArith Bool Reals Lra Permutation Sorted.
From Flocq Require Import Core.Core.
From Flocq Require IEEE754.BinarySingleNaN.
From Verif.Proofs Require Import SafeFloat FloatCell FloatAdapt.
From Verif.Base Require Import Py Num Float64 Vec Lists.
From Verif.Model Require Import TensorUtils SVGD.
From Verif.Spec Require Import Tensor Svgd Doubles DoubleParticles.
From Verif.Proofs Require Import Tensor Distances DoubleCell DoubleRun DoubleMean DoubleStein DoubleKernel.
From Verif.Props Require Import PSpoilt PDoubleData PDoubleTensor.
Import ListNotations.
Local Open Scope list_scope.
Local Open Scope R_scope.
Local Notation count := Verif.Spec.Tensor.count.
#[local] Hint Resolve add_spoilt_l add_spoilt_r sub_spoilt_l sub_spoilt_r mul_spoilt_l mul_spoilt_r div_spoilt_l opp_spoilt : spoil.

(** *** Medians of matrices with small entries on the diagonal only *)
Lemma at_most_one : forall (P : R -> Prop) dec r i, (forall k x, nth_error r k = Some x -> P x -> k = i) -> (count P dec r <= 1)%nat.
Proof.
  intros P dec r. induction r as [|x r IH]; intros i H; [cbn; lia|]. unfold count in *. cbn [filter]. destruct (dec x) as [Px|Nx].
  - pose proof (H 0%nat x eq_refl Px) as E. subst i. cbn [length]. replace (filter _ r) with (@nil R); [cbn; lia|]. symmetry.
    destruct (filter _ r) as [|y l] eqn:Ef; [reflexivity|exfalso]. assert (Hy : In y (y :: l)) by now left. rewrite <- Ef in Hy. apply filter_In in Hy as [Hy1 Hy2]. destruct (dec y) as [Py|]; [|discriminate Hy2].
    apply In_nth_error in Hy1 as [k Hk]. pose proof (H (S k) y Hk Py). discriminate.
  - apply (IH (Nat.pred i)). intros k y Hk Py. pose proof (H (S k) y Hk Py). lia.
Qed.
Lemma diagonal_count : forall (P : R -> Prop) dec n l m o, length l = (m * n)%nat ->
  (forall i j x, (i < m)%nat -> (j < n)%nat -> nth_error l (n * i + j) = Some x -> P x -> j = (o + i)%nat) -> (count P dec l <= m)%nat.
Proof.
  intros P dec n l m. revert l. induction m as [|m IH]; intros l o HL H; [destruct l; [cbn; lia|discriminate HL]|].
  rewrite <- (firstn_skipn n l), count_app. assert (count P dec (firstn n l) <= 1)%nat.
  { apply (at_most_one P dec _ o). intros k x Hk Px. assert (Hkn : (k < n)%nat) by (assert (k < length (firstn n l))%nat by (apply nth_error_Some; congruence); rewrite firstn_length in *; lia).
    rewrite nth_error_firstn in Hk by exact Hkn. rewrite <- (Nat.add_0_r o). apply (H 0%nat k x); [lia|exact Hkn| |exact Px]. now rewrite Nat.mul_0_r. }
  assert (count P dec (skipn n l) <= m)%nat; [|lia]. apply (IH _ (S o)); [rewrite skipn_length; lia|]. intros i j x Hi Hj Hx Px. rewrite nth_error_skipn in Hx.
  replace (S o + i)%nat with (o + S i)%nat by lia. apply (H (S i) j x); [lia|exact Hj| |exact Px]. now replace (n * S i + j)%nat with (n + (n * i + j))%nat by lia.
Qed.
Lemma median_lower : forall n l m Q, (2 <= n)%nat -> length l = (n * n)%nat -> Forall (fun x => 0 <= x) l ->
  (forall i j x, (i < n)%nat -> (j < n)%nat -> i <> j -> nth_error l (n * i + j) = Some x -> Q <= x) -> is_median l m -> Q / 2 <= m.
Proof.
  intros n l m Q Hn HL HP HQ (s & HPm & HS & Ho & He). assert (Ls : length s = (n * n)%nat) by (rewrite <- HL; now apply Permutation_length).
  assert (Up : forall b, nth_error s (length l / 2) = Some b -> Q <= b).
  { intros b Hb. destruct (Rle_dec Q b) as [|N]; [assumption|exfalso]. pose proof (half_below s _ b b HS Hb (Rle_refl b)) as HC. rewrite (count_perm _ _ _ _ HPm) in HC.
    assert (HD : (count (fun x => x <= b)%R (fun x => Rle_dec x b) l <= n)%nat).
    { apply (diagonal_count _ _ n l n 0 HL). intros i j x Hi Hj Hx Px. destruct (Nat.eq_dec j i) as [E|E]; [cbn; exact E|exfalso]. pose proof (HQ i j x Hi Hj ltac:(congruence) Hx). lra. }
    assert (n <= length l / 2)%nat; [|lia]. rewrite HL. apply Nat.div_le_lower_bound; nia. }
  assert (PS : forall k a, nth_error s k = Some a -> 0 <= a).
  { intros k a Hk. rewrite Forall_forall in HP. apply HP. eapply Permutation_in; [exact HPm|]. eapply nth_error_In; exact Hk. }
  destruct (Nat.odd (length l)).
  - pose proof (Up _ (Ho eq_refl)). pose proof (PS _ _ (Ho eq_refl)). lra.
  - destruct (He eq_refl) as (a & b & Ea & Eb & ->). pose proof (Up _ Eb). pose proof (PS _ _ Ea). lra.
Qed.

(** *** The squared distances, entry by entry *)
Section Band.
Context {NT : NumT f64}.
Variables n d : nat.
Hypothesis Hn : (2 <= n)%nat.
Hypothesis Hd20 : INR d <= p2 20.
Variable X : list (list f64).
Hypothesis GX : grid n d X.
Hypothesis BX : Forall (Forall (bounded64 400)) X.
Hypothesis Hln : usual_ln NT n.

(** Data of the matrix of distances. *)
Definition table : list f64 := map (fun '(a, b) => nadd a b) (combine (stitched n (pairwise_euclidean_distance n d (concat X))) (transpose n (stitched n (pairwise_euclidean_distance n d (concat X))))).
Lemma table_is : squareform (OTensor {| shape := [length (pairwise_euclidean_distance n d (concat X))]; data := pairwise_euclidean_distance n d (concat X) |}) = Ok {| shape := [n; n]; data := table |}.
Proof.
  unfold table. set (v := pairwise_euclidean_distance n d (concat X)). assert (HL : (length v * 2 = n * (n - 1))%nat) by (unfold v; rewrite pairwise_pairs, map_length; pose proof (pairs_length n); lia).
  clearbody v. unfold squareform. cbn [is_vector shape hd length Nat.eqb data]. destruct (length v =? 0)%nat eqn:E0; [apply Nat.eqb_eq in E0; nia|]. rewrite HL, sqrt_up_binomial by exact Hn. rewrite Nat.eqb_refl. reflexivity.
Qed.
Lemma table_length : length table = (n * n)%nat.
Proof. unfold table. rewrite map_length, combine_length, stitched_length, transpose_length. lia. Qed.
Lemma pair_position : forall i j, (i < j < n)%nat -> exists p, nth_error (pairs n) p = Some (i, j).
Proof. intros i j H. apply In_nth_error. now apply pairs_in. Qed.
Lemma table_off : forall i j, (i < j < n)%nat -> exists a b D, nth_error X i = Some a /\ nth_error X j = Some b /\
  nth_error table (n * i + j) = Some (nadd D n0) /\ nth_error table (n * j + i) = Some (nadd n0 D) /\
  finite D /\ 0 <= value D /\ (map value a = map value b -> value D = 0) /\
  Rabs (value D - dist2 (map value a) (map value b)) <= INR (d + 1) * p2 (-50) * dist2 (map value a) (map value b) + p2 (-525).
Proof.
  intros i j Hij. destruct (pair_position i j Hij) as [p Hp]. destruct (grid_row _ _ _ i GX ltac:(lia)) as (a & Ha & _). destruct (grid_row _ _ _ j GX ltac:(lia)) as (b & Hb & _).
  destruct (C105_distances_in_doubles X n d GX Hd20 (bounded_490 400 X ltac:(lia) BX)) as (v & Hv & _ & HD). destruct (HD p i j a b Hp Ha Hb) as (D & ED & FD & PD & ZD & CD).
  change (Ok {| shape := [length (pairwise_euclidean_distance n d (concat X))]; data := pairwise_euclidean_distance n d (concat X) |} = Ok v) in Hv. apply ok_inj in Hv. subst v. cbn [data] in ED.
  exists a, b, D. split; [exact Ha|]. split; [exact Hb|]. unfold table. set (w := pairwise_euclidean_distance n d (concat X)) in *. assert (HL : length w = length (pairs n)) by (unfold w; now rewrite pairwise_pairs, map_length). clearbody w.
  pose proof (stitched_upper n w p i j HL Hp) as HU. rewrite ED in HU. pose proof (stitched_other n w j i ltac:(lia) ltac:(lia) ltac:(lia)) as HO.
  split; [apply sum_nth; [lia|lia|exact HU|exact HO]|]. split; [apply sum_nth; [lia|lia|exact HO|exact HU]|]. auto.
Qed.
Lemma table_diag : forall i, (i < n)%nat -> nth_error table (n * i + i) = Some (nadd n0 n0).
Proof. intros i Hi. unfold table. apply sum_nth; [exact Hi|exact Hi|apply stitched_other; lia|apply stitched_other; lia]. Qed.
Lemma add_zero : forall x : f64, finite x -> value (nadd x n0) = value x /\ finite (nadd x n0) /\ value (nadd n0 x) = value x /\ finite (nadd n0 x).
Proof.
  intros x F. destruct rep_0 as [F0 V0]. assert (B : Rabs (rnd64 (value x)) < huge) by (rewrite (rnd64_id (value x)) by apply value_format; apply value_bound).
  destruct (rep_add x n0 (value x) 0 (conj F eq_refl) (conj F0 V0)) as [F1 V1]; [now rewrite Rplus_0_r|]. destruct (rep_add n0 x 0 (value x) (conj F0 V0) (conj F eq_refl)) as [F2 V2]; [now rewrite Rplus_0_l|].
  rewrite V1, V2, Rplus_0_r, Rplus_0_l. rewrite (rnd64_id (value x)) by apply value_format. auto.
Qed.
Lemma table_range : Forall (fun x => finite x /\ 0 <= value x <= p2 503) table.
Proof.
  apply Forall_forall. intros x Hx. apply In_nth_error in Hx as [k Hk]. assert (Hkn : (k < n * n)%nat) by (rewrite <- table_length; apply nth_error_Some; congruence).
  assert (RG : finite x /\ 0 <= value x).
  { assert (Hq : (k / n < n)%nat) by (apply Nat.div_lt_upper_bound; lia). assert (Hr : (k mod n < n)%nat) by (apply Nat.mod_upper_bound; lia). rewrite (Nat.div_mod k n) in Hk by lia.
    set (i := (k / n)%nat) in *. set (j := (k mod n)%nat) in *. destruct (lt_eq_lt_dec i j) as [[L|L]|L].
    - destruct (table_off i j ltac:(lia)) as (a & b & D & _ & _ & E1 & _ & FD & PD & _). rewrite Hk in E1. apply some_inj in E1. subst x. destruct (add_zero D FD) as (-> & F & _). split; [exact F|exact PD].
    - rewrite <- L, table_diag in Hk by lia. apply some_inj in Hk. subst x. destruct rep_0 as [F0 V0]. destruct (add_zero n0 F0) as (-> & F & _). split; [exact F|rewrite V0; lra].
    - destruct (table_off j i ltac:(lia)) as (a & b & D & _ & _ & _ & E2 & FD & PD & _). rewrite Hk in E2. apply some_inj in E2. subst x. destruct (add_zero D FD) as (_ & _ & -> & F). split; [exact F|exact PD]. }
  destruct RG as [F P]. split; [exact F|]. split; [exact P|]. apply nth_error_In in Hk.
  destruct (squareform_in _ _ x table_is Hk) as [->|(a & b & -> & Ha & Hb)]; [destruct rep_0 as [_ ->]; left; apply p2_pos|].
  assert (G : forall z, z = n0 \/ In z (pairwise_euclidean_distance n d (concat X)) -> bounded64 502 z).
  { intros z [->|Hz]; [apply b_0|]. destruct (distance_range n d X {| shape := [length (pairwise_euclidean_distance n d (concat X))]; data := pairwise_euclidean_distance n d (concat X) |} z GX Hd20 (bounded_490 400 X ltac:(lia) BX) eq_refl Hz) as (Fz & Pz & Bz). split; [exact Fz|]. rewrite Rabs_right by lra. exact Bz. }
  destruct (b_add a b 502 502 503 (G a Ha) (G b Hb) ltac:(lia) ltac:(lia) ltac:(lia)) as [_ B]. rewrite Rabs_right in B by lra. exact B.
Qed.
Lemma square_range : forall x, finite x -> 0 <= value x <= p2 503 -> finite (npow x 2) /\ value (npow x 2) = rnd64 (value x * value x) /\ 0 <= value (npow x 2) <= p2 1006.
Proof.
  intros x F R. change (npow x 2) with (nmul x x). assert (B : 0 <= value x * value x <= p2 1006) by (split; [nra|]; change 1006%Z with (503 + 503)%Z; rewrite p2_plus; apply Rmult_le_compat; lra).
  destruct (rep_mul x x _ _ (conj F eq_refl) (conj F eq_refl)) as [FM VM]; [apply (below_huge 1006); [lia|rewrite Rabs_right by lra; exact (proj2 B)]|]. split; [exact FM|]. split; [exact VM|]. rewrite VM. split; [rewrite <- rnd64_0; now apply rnd64_mono|].
  unfold p2. rewrite <- (rnd64_id _ (format64_bpow 1006 ltac:(lia))). now apply rnd64_mono.
Qed.
(** The bandwidth of particles that are 2^-20 apart. *)
Lemma bandwidth_lower : forall h K G, svgd_kernel n d X = Ok (h, K, G) -> apart (p2 (-20)) X -> finite h /\ p2 (-30) <= value h.
Proof.
  intros h K G HK HA. unfold svgd_kernel in HK. change (pdist (OTensor {| shape := [n; d]; data := concat X |}) "euclidean") with (Ok {| shape := [length (pairwise_euclidean_distance n d (concat X))]; data := pairwise_euclidean_distance n d (concat X) |}) in HK.
  cbn [bind] in HK. rewrite table_is in HK. cbn [bind data shape] in HK. set (pd := map (fun x : f64 => npow x 2) table) in *. pose proof table_range as TR. rewrite Forall_forall in TR.
  assert (PR : Forall (fun x => finite x /\ 0 <= value x <= p2 1006) pd).
  { apply Forall_map. apply Forall_forall. intros x Hx. destruct (TR x Hx) as [F R]. destruct (square_range x F R) as (F2 & _ & R2). now split. }
  assert (LP : length pd = (n * n)%nat) by (unfold pd; rewrite map_length; apply table_length).
  destruct (C105_median_in_doubles {| shape := [n; n]; data := pd |}) as (med & m & Em & Fm & Mm & _ & Cm & _ & HU).
  { cbn [data]. intros E. rewrite E in LP. cbn in LP. nia. }
  { cbn [data]. eapply Forall_impl; [|exact PR]. intros x (F & R). split; [exact F|]. rewrite Rabs_right by lra. pose proof (p2_le 1006 1022 ltac:(lia)). unfold p2 in *. lra. }
  cbn [data] in Mm, HU. assert (UM : value med <= p2 1006).
  { destruct (filter (fun x => if Rge_dec x (value med) then true else false) (map value pd)) as [|y l'] eqn:Ef; [unfold count in HU; rewrite Ef in HU; cbn [length] in HU; nia|].
    assert (Hy : In y (y :: l')) by now left. rewrite <- Ef in Hy. apply filter_In in Hy as [Hy1 Hy2]. destruct (Rge_dec y (value med)) as [G'|]; [|discriminate Hy2]. apply in_map_iff in Hy1 as (x & <- & Hx). rewrite Forall_forall in PR. destruct (PR x Hx) as (_ & R). lra. }
  rewrite Em in HK. cbn [bind] in HK. cbv zeta in HK. apply ok_inj in HK. apply pair_equal_spec in HK as [HK _]. apply pair_equal_spec in HK as [Hh _].
  assert (LM : p2 (-42) / 2 <= m).
  { apply (median_lower n (map value pd) m (p2 (-42)) Hn); [now rewrite map_length| | |exact Mm].
    - apply Forall_map. eapply Forall_impl; [|exact PR]. intros x (_ & R). lra.
    - intros i j x Hi Hj Hij Hx. assert (OFF : exists e, nth_error table (n * i + j) = Some e /\ finite e /\ p2 (-21) <= value e <= p2 503).
      { assert (LOW : forall q r D a b, (q < r)%nat -> nth_error X q = Some a -> nth_error X r = Some b -> Rabs (value D - dist2 (map value a) (map value b)) <= INR (d + 1) * p2 (-50) * dist2 (map value a) (map value b) + p2 (-525) -> p2 (-21) <= value D).
        { intros q r D a b Hqr Ha Hb HC. pose proof (HA q r a b Hqr Ha Hb) as HL. set (t := dist2 (map value a) (map value b)) in *. assert (Hd1 : INR (d + 1) * p2 (-50) <= p2 (-29)).
          { rewrite plus_INR. change (INR 1) with 1. apply Rle_trans with (p2 21 * p2 (-50)); [apply Rmult_le_compat_r; [left; apply p2_pos|change (p2 21) with (2 * p2 20); pose proof (p2_le 0 20 ltac:(lia)); change (p2 0) with 1 in *; lra]|]. rewrite <- p2_plus. apply p2_le. lia. }
          assert (Pt : 0 <= t) by (pose proof (p2_pos (-20)); lra). assert (INR (d + 1) * p2 (-50) * t <= p2 (-29) * t) by (apply Rmult_le_compat_r; assumption). apply Rabs_le_inv in HC.
          pose proof (p2_le (-525) (-40) ltac:(lia)). assert (E1 : p2 (-20) = 1 / 1048576) by (unfold p2; cbn; lra). assert (E2 : p2 (-21) = 1 / 2097152) by (unfold p2; cbn; lra). assert (E3 : p2 (-29) = 1 / 536870912) by (unfold p2; cbn; lra). assert (E4 : p2 (-40) = 1 / 1099511627776) by (unfold p2; cbn; lra). rewrite E1 in *. rewrite E2 in *. rewrite E3 in *. rewrite E4 in *. lra. }
        destruct (lt_eq_lt_dec i j) as [[L|L]|L]; [|congruence|].
        - destruct (table_off i j ltac:(lia)) as (a & b & D & Ha & Hb & E1 & _ & FD & _ & _ & HC). exists (nadd D n0). split; [exact E1|]. destruct (TR _ (nth_error_In _ _ E1)) as [F R]. split; [exact F|]. split; [|exact (proj2 R)]. destruct (add_zero D FD) as (-> & _). eapply LOW; eauto.
        - destruct (table_off j i ltac:(lia)) as (a & b & D & Ha & Hb & _ & E1 & FD & _ & _ & HC). exists (nadd n0 D). split; [exact E1|]. destruct (TR _ (nth_error_In _ _ E1)) as [F R]. split; [exact F|]. split; [|exact (proj2 R)]. destruct (add_zero D FD) as (_ & _ & -> & _). eapply LOW; eauto. }
      destruct OFF as (e & Ee & Fe & Re). unfold pd in Hx. rewrite map_map, nth_error_map, Ee in Hx. cbn [option_map] in Hx. apply some_inj in Hx. subst x. pose proof (p2_pos (-21)) as P21. destruct (square_range e Fe ltac:(lra)) as (_ & -> & _).
      unfold p2. rewrite <- (rnd64_id _ (format64_bpow (-42) ltac:(lia))). apply rnd64_mono. change (-42)%Z with (-21 + -21)%Z. rewrite bpow_plus. fold (p2 (-21)). apply Rmult_le_compat; lra. }
  assert (LV : p2 (-44) <= value med).
  { apply Rabs_le_inv in Cm. rewrite Rabs_right in Cm by (pose proof (p2_pos (-42)); lra). pose proof (p2_le (-1075) (-100) ltac:(lia)). assert (E1 : p2 (-42) = 4 * p2 (-44)) by (unfold p2; cbn; lra). assert (E2 : p2 (-100) <= / 16 * p2 (-44)) by (unfold p2; cbn; lra). assert (E3 : p2 (-53) <= / 16) by (unfold p2; cbn; lra).
    pose proof (p2_pos (-44)). assert (p2 (-53) * m <= / 16 * m) by (apply Rmult_le_compat_r; lra). lra. }
  destruct Hln as [Fl Rl]. set (lg := nln (nadd (nint (Z.of_nat n)) n1)) in *. fold (n_particles n : f64) in Hh. change (nln (nadd (n_particles n) n1)) with lg in Hh.
  assert (HH : rep (nfrac 1 2) (1 / 2)) by (split; [vm_compute; reflexivity|]; unfold value; vm_compute; lra).
  pose proof (p2_pos (-44)) as P44. pose proof (value_bound med) as VB. rewrite Rabs_right in VB by lra.
  assert (Half : rep (nmul (nfrac 1 2) med) (rnd64 (1 / 2 * value med)) /\ 0 <= rnd64 (1 / 2 * value med) <= value med /\ p2 (-45) <= rnd64 (1 / 2 * value med)).
  { assert (B1 : rnd64 (1 / 2 * value med) <= value med) by (rewrite <- (rnd64_id (value med)) at 2 by apply value_format; apply rnd64_mono; lra).
    assert (B2 : p2 (-45) <= rnd64 (1 / 2 * value med)) by (unfold p2; rewrite <- (rnd64_id _ (format64_bpow (-45) ltac:(lia))); apply rnd64_mono; change (-45)%Z with (-1 + -44)%Z; rewrite bpow_plus; change (bpow radix2 (-1)) with (/ 2); fold (p2 (-44)); lra).
    pose proof (p2_pos (-45)). split; [|lra]. apply rep_mul; [exact HH|now split|]. rewrite Rabs_right; lra. }
  destruct Half as ([FH VH] & RH & LH). set (z := rnd64 (1 / 2 * value med)) in *.
  assert (RQ : exists q, rep (ndiv (nmul (nfrac 1 2) med) lg) q /\ p2 (-50) <= q).
  { exists (rnd64 (z / value lg)). assert (B0 : z / 16 <= z / value lg <= z / (1 / 2)) by (split; apply Rmult_le_compat_l; try lra; apply Rinv_le_contravar; lra).
    assert (LQ : p2 (-50) <= rnd64 (z / value lg)) by (unfold p2; rewrite <- (rnd64_id _ (format64_bpow (-50) ltac:(lia))); apply rnd64_mono; change (bpow radix2 (-50)) with (p2 (-5 + -45)); rewrite p2_plus; change (p2 (-5)) with (/ 32); lra).
    split; [|exact LQ]. apply rep_div; [now split|now split|lra|]. pose proof (p2_pos (-50)). rewrite Rabs_right by lra.
    rewrite <- (Rabs_right (rnd64 (z / value lg))) by lra. apply (below_huge 1007); [lia|]. rewrite Rabs_right by lra. change (bpow radix2 1007) with (p2 (1 + 1006)). rewrite p2_plus. change (p2 1) with 2. lra. }
  destruct RQ as (q & RQ & LQ). destruct (rep_sqrt _ q RQ) as [FS VS]; [pose proof (p2_pos (-50)); lra|]. rewrite <- Hh. split; [exact FS|]. rewrite VS.
  apply Rle_trans with (p2 (-25)); [apply p2_le; lia|]. unfold p2. rewrite <- (rnd64_id _ (format64_bpow (-25) ltac:(lia))). apply rnd64_mono. rewrite <- (sqrt_square (bpow radix2 (-25))) by apply bpow_ge_0. apply sqrt_le_1_alt. rewrite <- bpow_plus. exact LQ.
Qed.

(** *** Particles that coincide *)
Lemma zero_cases : forall x : f64, finite x -> value x = 0 -> exists s, x = BinarySingleNaN.B754_zero s.
Proof.
  intros x F V. destruct x as [s|s| |s m e B]; try discriminate F; [now exists s|exfalso]. unfold value in V. cbn [BinarySingleNaN.B2R] in V. apply eq_0_F2R in V. destruct s; discriminate V.
Qed.
Lemma filter_le : forall A B (f : A -> bool) (g : B -> bool) l m, length l = length m -> (forall k x y, nth_error l k = Some x -> nth_error m k = Some y -> f x = true -> g y = true) ->
  (length (filter f l) <= length (filter g m))%nat.
Proof.
  intros A B f g l. induction l as [|x l IH]; intros m HL H; [cbn; lia|]. destruct m as [|y m]; [discriminate HL|]. cbn [filter]. assert (length (filter f l) <= length (filter g m))%nat.
  { apply IH; [now injection HL|]. intros k x' y' Hx Hy. exact (H (S k) x' y' Hx Hy). }
  pose proof (H 0%nat x y eq_refl eq_refl) as HF. destruct (f x); [rewrite HF by reflexivity; cbn [length]; lia|]. destruct (g y); cbn [length]; lia.
Qed.
Lemma prod_nth : forall A (l m : list A) i j a b, nth_error l i = Some a -> nth_error m j = Some b -> nth_error (list_prod l m) (length m * i + j) = Some (a, b).
Proof.
  intros A l m. induction l as [|x l IH]; intros i j a b Hi Hj; [destruct i; discriminate Hi|]. cbn [list_prod]. destruct i as [|i].
  - cbn [nth_error] in Hi. apply some_inj in Hi. subst x. rewrite Nat.mul_0_r. cbn [Nat.add]. rewrite nth_error_app1 by (rewrite map_length; apply nth_error_Some; congruence). now rewrite nth_error_map, Hj.
  - rewrite nth_error_app2 by (rewrite map_length; lia). rewrite map_length. replace (length m * S i + j - length m)%nat with (length m * i + j)%nat by lia. now apply IH.
Qed.
Lemma bandwidth_zero : forall h K G, svgd_kernel n d X = Ok (h, K, G) -> (n * n < 2 * coinciding X)%nat -> exists s, h = BinarySingleNaN.B754_zero s.
Proof.
  intros h K G HK HC. unfold svgd_kernel in HK. change (pdist (OTensor {| shape := [n; d]; data := concat X |}) "euclidean") with (Ok {| shape := [length (pairwise_euclidean_distance n d (concat X))]; data := pairwise_euclidean_distance n d (concat X) |}) in HK.
  cbn [bind] in HK. rewrite table_is in HK. cbn [bind data shape] in HK. set (pd := map (fun x : f64 => npow x 2) table) in *. pose proof table_range as TR. rewrite Forall_forall in TR.
  assert (PR : Forall (fun x => finite x /\ 0 <= value x <= p2 1006) pd).
  { apply Forall_map. apply Forall_forall. intros x Hx. destruct (TR x Hx) as [F R]. destruct (square_range x F R) as (F2 & _ & R2). now split. }
  assert (LP : length pd = (n * n)%nat) by (unfold pd; rewrite map_length; apply table_length).
  destruct (C105_median_in_doubles {| shape := [n; n]; data := pd |}) as (med & m & Em & Fm & _ & _ & _ & HLo & HU).
  { cbn [data]. intros E. rewrite E in LP. cbn in LP. nia. }
  { cbn [data]. eapply Forall_impl; [|exact PR]. intros x (F & R). split; [exact F|]. rewrite Rabs_right by lra. pose proof (p2_le 1006 1022 ltac:(lia)). unfold p2 in *. lra. }
  cbn [data] in HLo, HU. rewrite Em in HK. cbn [bind] in HK. cbv zeta in HK. apply ok_inj in HK. apply pair_equal_spec in HK as [HK _]. apply pair_equal_spec in HK as [Hh _].
  assert (ZC : (coinciding X <= count (fun x => x = 0)%R (fun x => Req_EM_T x 0) (map value pd))%nat).
  { unfold coinciding, count. apply filter_le; [rewrite prod_length, map_length, LP, (proj1 GX); reflexivity|]. intros k [a b] y Hk Hy Hf.
    assert (Hkn : (k < n * n)%nat) by (rewrite <- LP, <- (map_length value); apply nth_error_Some; congruence).
    assert (Hq : (k / n < n)%nat) by (apply Nat.div_lt_upper_bound; lia). assert (Hr : (k mod n < n)%nat) by (apply Nat.mod_upper_bound; lia). rewrite (Nat.div_mod k n) in Hk, Hy by lia.
    set (i := (k / n)%nat) in *. set (j := (k mod n)%nat) in *. destruct (grid_row _ _ _ i GX Hq) as (a' & Ha' & _). destruct (grid_row _ _ _ j GX Hr) as (b' & Hb' & _).
    pose proof (prod_nth _ X X i j a' b' Ha' Hb') as HP. rewrite (proj1 GX), Hk in HP. apply some_inj in HP. apply pair_equal_spec in HP as [-> ->].
    destruct (list_eq_dec Req_EM_T (map value a') (map value b')) as [Eab|]; [|discriminate Hf]. destruct rep_0 as [F0 V0].
    assert (ZE : exists e, nth_error table (n * i + j) = Some e /\ value e = 0).
    { destruct (lt_eq_lt_dec i j) as [[L|L]|L].
      - destruct (table_off i j ltac:(lia)) as (p & q & D & Hp & Hq' & E1 & _ & FD & _ & HZ & _). exists (nadd D n0). split; [exact E1|]. destruct (add_zero D FD) as (-> & _). apply HZ. congruence.
      - rewrite <- L. exists (nadd n0 n0). split; [apply table_diag; exact Hq|]. destruct (add_zero n0 F0) as (-> & _). exact V0.
      - destruct (table_off j i ltac:(lia)) as (p & q & D & Hp & Hq' & _ & E1 & FD & _ & HZ & _). exists (nadd n0 D). split; [exact E1|]. destruct (add_zero D FD) as (_ & _ & -> & _). apply HZ. congruence. }
    destruct ZE as (e & Ee & Ve). unfold pd in Hy. rewrite map_map, nth_error_map, Ee in Hy. cbn [option_map] in Hy. apply some_inj in Hy. subst y. destruct (TR e (nth_error_In _ _ Ee)) as [Fe Re]. destruct (square_range e Fe Re) as (_ & -> & _).
    rewrite Ve, Rmult_0_l, rnd64_0. destruct (Req_EM_T 0 0); congruence. }
  assert (VM : value med = 0).
  { rewrite LP in HLo, HU. rewrite Forall_forall in PR. assert (P0 : 0 <= value med).
    { destruct (filter (fun x => if Rle_dec x (value med) then true else false) (map value pd)) as [|y l'] eqn:Ef; [unfold count in HLo; rewrite Ef in HLo; cbn [length] in HLo; nia|].
      assert (Hy : In y (y :: l')) by now left. rewrite <- Ef in Hy. apply filter_In in Hy as [Hy1 Hy2]. destruct (Rle_dec y (value med)) as [G'|]; [|discriminate Hy2]. apply in_map_iff in Hy1 as (x & <- & Hx). destruct (PR x Hx) as (_ & R). lra. }
    destruct (Req_dec (value med) 0) as [|NZ]; [assumption|exfalso]. assert (Pm : 0 < value med) by lra.
    assert (DJ : forall l, (count (fun x => x = 0)%R (fun x => Req_EM_T x 0) l + count (fun x => x >= value med)%R (fun x => Rge_dec x (value med)) l <= length l)%nat).
    { induction l as [|x l IH]; [cbn; lia|]. unfold count in *. cbn [filter length]. destruct (Req_EM_T x 0) as [->|]; destruct (Rge_dec _ (value med)) as [G'|]; cbn [length]; try lia. lra. }
    specialize (DJ (map value pd)). rewrite map_length, LP in DJ. lia. }
  destruct (zero_cases med Fm VM) as [s ->]. destruct Hln as [Fl Rl]. set (lg := nln (nadd (nint (Z.of_nat n)) n1)) in *. change (nln (nadd (n_particles n) n1)) with lg in Hh.
  rewrite <- Hh. clearbody lg. destruct lg as [sl|sl| |sl ml el Bl]; try discriminate Fl; [unfold value in Rl; cbn in Rl; lra|]. exists (xorb s sl). assert (EH : nmul (nfrac 1 2) (BinarySingleNaN.B754_zero s : f64) = BinarySingleNaN.B754_zero s) by (destruct s; vm_compute; reflexivity). rewrite EH. destruct s, sl; reflexivity.
Qed.
(** A zero bandwidth spoils the whole kernel gradient. *)
Hypothesis Hnan : spoilt (nexp (not_a_number : f64)).
Lemma zero_bandwidth_spoils : forall h K G s, svgd_kernel n d X = Ok (h, K, G) -> h = BinarySingleNaN.B754_zero s -> forall a k, (a < n)%nat -> (k < d)%nat -> bad_at G a k.
Proof.
  intros h K G s HK Hs a k Ha Hk. pose proof (proj1 (kernel_grids n d X h K G GX ltac:(lia) HK)) as GK. unfold svgd_kernel in HK. change (pdist (OTensor {| shape := [n; d]; data := concat X |}) "euclidean") with (Ok {| shape := [length (pairwise_euclidean_distance n d (concat X))]; data := pairwise_euclidean_distance n d (concat X) |}) in HK.
  cbn [bind] in HK. rewrite table_is in HK. cbn [bind data shape] in HK. destruct (median _) as [med|e]; [|discriminate HK]. cbn [bind] in HK. cbv zeta in HK. apply ok_inj in HK. apply pair_equal_spec in HK as [HK HG]. apply pair_equal_spec in HK as [Hh HK]. rewrite Hh in HK, HG. rewrite HK in HG.
  assert (KA : bad_at K a a).
  { rewrite <- HK. unfold bad_at, rows_of. eexists. eexists. split; [rewrite nth_error_map, (nth_error_nth' _ 0%nat) by (now rewrite seq_length); rewrite seq_nth by exact Ha; reflexivity|].
    unfold row, window. cbn [Nat.add]. rewrite nth_error_firstn by exact Ha. rewrite nth_error_skipn. rewrite !nth_error_map. rewrite (Nat.mul_comm a n), table_diag by exact Ha. cbn [option_map]. split; [reflexivity|].
    rewrite Hs. replace (ndiv (ndiv (nopp (npow (nadd n0 n0) 2)) (npow (BinarySingleNaN.B754_zero s : f64) 2)) n2) with (not_a_number : f64) by (destruct s; vm_compute; reflexivity). exact Hnan. }
  destruct KA as (r & x & Hr & Hx & Sx). assert (SS : spoilt (nsum r)) by (eapply nsum_spoilt; eauto).
  rewrite <- HG. apply bad_mmap; [auto with spoil|]. apply (bad_mmap2_r _ n d); [auto with spoil|apply grid_mmap, grid_matmul; exact (proj1 GK)| |].
  - apply grid_intro; [apply vmap2_length; [exact (proj1 GX)|rewrite map_length; exact (proj1 GK)]|]. intros b q Hq. rewrite nth_error_vmap2 in Hq.
    destruct (nth_error X b) as [y|] eqn:Ey; [|discriminate Hq]. destruct (nth_error (map nsum K) b) as [t|]; [|discriminate Hq]. apply some_inj in Hq. subst q. rewrite map_length.
    destruct GX as [_ F]. rewrite Forall_forall in F. apply F. eapply nth_error_In; eauto.
  - destruct (grid_row _ _ _ a GX Ha) as (q & Hq & Lq). destruct (nth_error q k) as [y|] eqn:Ey; [|apply nth_error_None in Ey; lia].
    exists (map (fun y : f64 => nmul y (nsum r)) q), (nmul y (nsum r)). rewrite nth_error_vmap2, Hq, nth_error_map, Hr. cbn [option_map]. rewrite nth_error_map, Ey. split; [reflexivity|]. split; [reflexivity|]. auto with spoil.
Qed.
(** ... and the step. *)
Lemma coinciding_step : forall c eps L H X' H', grid n d L -> grid n d H -> svgd_step c eps n d X L H = Ok (X', H') -> (n * n < 2 * coinciding X)%nat ->
  forall a k, (a < n)%nat -> (k < d)%nat -> bad_at X' a k.
Proof.
  intros c eps L H X' H' GL GH HS HC a k Ha Hk. unfold svgd_step, svgd_grad in HS. destruct (svgd_kernel n d X) as [[[h K] G]|e] eqn:Ek; [|discriminate HS]. cbn [bind] in HS. cbv zeta in HS.
  destruct (kernel_grids _ _ _ _ _ _ GX ltac:(lia) Ek) as (GK & GG & _). destruct (bandwidth_zero h K G Ek HC) as [s Hs]. pose proof (zero_bandwidth_spoils h K G s Ek Hs a k Ha Hk) as HB.
  apply ok_inj in HS. apply pair_equal_spec in HS as [HS1 _]. rewrite <- HS1.
  assert (GM : grid n d (matmul d K L)) by (apply grid_matmul; exact (proj1 GK)).
  set (g := mmap (fun y : f64 => ndiv y (n_particles n)) (mmap2 nadd (matmul d K L) G)). assert (Gg : grid n d g) by (apply grid_mmap, grid_mmap2; assumption).
  assert (GH' : grid n d (mmap2 (fun h y => (s_alpha c * h + (n1 - s_alpha c) * npow y 2)%num) H g)) by (apply grid_mmap2; assumption).
  eapply bad_mmap2_r; [auto with spoil|exact GX|apply grid_mmap2; [exact Gg|exact GH']|]. eapply bad_mmap2_l; [auto with spoil|exact Gg|exact GH'|].
  apply bad_mmap; [auto with spoil|]. eapply bad_mmap2_r; [auto with spoil|exact GM|exact GG|exact HB].
Qed.
End Band.
