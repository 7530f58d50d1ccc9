(** The kernel of SVGD in double precision. *)
From Coq Require Import String List Arith Lia ZArith Bool Reals Lra.
From Flocq Require Import Core.Core.
From Flocq Require IEEE754.BinarySingleNaN.
From Verif.Proofs Require Import SafeFloat FloatCell FloatAdapt.
From Verif.Base Require Import Py Num Float64 Vec Lists.
From Verif.Model Require Import TensorUtils SVGD.
From Verif.Spec Require Import Tensor Svgd Doubles DoubleParticles.
From Verif.Proofs Require Import Distances DoubleCell DoubleRun DoubleMean DoubleStein.
From Verif.Props Require Import PSpoilt PDoubleData PDoubleTensor.
Import ListNotations.
Local Open Scope list_scope.
Local Open Scope R_scope.

(** *** Signs of quotients *)
Definition neg_inf64 : f64 := BinarySingleNaN.B754_infinity true.
Definition nonpos (x : f64) : Prop := (finite x /\ value x <= 0) \/ x = neg_inf64.
Lemma nonpos_div : forall a b : f64, nonpos a -> finite b -> 0 < value b -> nonpos (ndiv a b).
Proof.
  intros a b [[Fa Pa]| ->] Fb Pb.
  - pose proof (BinarySingleNaN.Bdiv_correct 53 1024 prec64 emax64 BinarySingleNaN.mode_NE a b) as C. specialize (C ltac:(unfold value in Pb; lra)). destruct (Rlt_bool _ _).
    + destruct C as (C1 & C2 & _). left. split; [unfold finite in *; cbn [ndiv Num_f64]; rewrite C2; exact Fa|]. unfold value at 1. cbn [ndiv Num_f64]. rewrite C1, <- rnd64_0. apply rnd64_mono.
      unfold value in *. assert (0 < / BinarySingleNaN.B2R b) by now apply Rinv_0_lt_compat. unfold Rdiv. nra.
    + right. assert (Sb : BinarySingleNaN.Bsign b = false).
      { destruct b as [s|s| |s m e B]; try discriminate Fb; [unfold value in Pb; cbn in Pb; lra|]. destruct s; [|reflexivity]. exfalso. unfold value in Pb. cbn in Pb. pose proof (F2R_lt_0 radix2 (Float radix2 (Z.neg m) e) eq_refl). lra. }
      assert (Sa : BinarySingleNaN.Bsign a = true \/ value a = 0).
      { destruct a as [s|s| |s m e B]; try discriminate Fa; [right; reflexivity|]. destruct s; [left; reflexivity|]. exfalso. unfold value in Pa. cbn in Pa. pose proof (F2R_gt_0 radix2 (Float radix2 (Z.pos m) e) eq_refl). lra. }
      rewrite Sb in C. cbn [ndiv Num_f64]. destruct Sa as [Sa|Sa].
      * rewrite Sa in C. cbn [xorb] in C. destruct (BinarySingleNaN.Bdiv _ a b) as [s|s| |s m e B]; cbn in C; unfold BinarySingleNaN.binary_overflow in C; cbn in C; try discriminate C. injection C as ->. reflexivity.
      * exfalso. destruct a as [s|s| |s m e B]; try discriminate Fa.
        { destruct b as [s'|s'| |s' m' e' B']; try discriminate Fb; [unfold value in Pb; cbn in Pb; lra|]. cbn in C. unfold BinarySingleNaN.binary_overflow in C. cbn in C. discriminate C. }
        { unfold value in Sa. cbn [BinarySingleNaN.B2R] in Sa. apply eq_0_F2R in Sa. destruct s; discriminate Sa. }
  - right. destruct b as [s|s| |s m e B]; try discriminate Fb; [unfold value in Pb; cbn in Pb; lra|]. destruct s; [|reflexivity]. exfalso. unfold value in Pb. cbn in Pb. pose proof (F2R_lt_0 radix2 (Float radix2 (Z.neg m) e) eq_refl). lra.
Qed.
Lemma nonpos_over_inf : forall a : f64, finite a -> value a <= 0 -> nonpos (ndiv a inf64) /\ rep (ndiv a inf64) 0.
Proof. intros a Fa Pa. assert (R0 : rep (ndiv a inf64) 0) by (destruct a as [s|s| |s m e B]; try discriminate Fa; split; reflexivity). split; [|exact R0]. left. destruct R0 as [F V]. split; [exact F|rewrite V; lra]. Qed.

(** *** Bounds as powers of two *)
Lemma b_small : forall e x, small x e -> bounded64 e x. Proof. intros e x (a & [F V] & B). split; [exact F|]. rewrite V. exact B. Qed.
Lemma small_b : forall e x, bounded64 e x -> small x e. Proof. intros e x [F B]. exists (value x). split; [now split|exact B]. Qed.
Lemma b_add : forall x y e1 e2 e, bounded64 e1 x -> bounded64 e2 y -> (e1 < e)%Z -> (e2 < e)%Z -> (-1074 <= e < 1024)%Z -> bounded64 e (nadd x y).
Proof. intros x y e1 e2 e H1 H2 L1 L2 L. apply b_small. apply (small_add x y e1 e2 e); auto using small_b. Qed.
Lemma b_mul : forall x y e1 e2 e, bounded64 e1 x -> bounded64 e2 y -> (e1 + e2 <= e)%Z -> (-1074 <= e < 1024)%Z -> bounded64 e (nmul x y).
Proof. intros x y e1 e2 e H1 H2 L1 L. apply b_small. apply (small_mul x y e1 e2 e); auto using small_b. Qed.
Lemma b_opp : forall x e, bounded64 e x -> bounded64 e (nopp x). Proof. intros x e H. now apply b_small, small_opp, small_b. Qed.
Lemma b_weaken : forall x e e', bounded64 e x -> (e <= e')%Z -> bounded64 e' x.
Proof. intros x e e' [F B] L. split; [exact F|]. eapply Rle_trans; [exact B|]. now apply bpow_le. Qed.
Lemma b_0 : forall e, bounded64 e n0. Proof. intros e. destruct rep_0 as [F V]. split; [exact F|]. rewrite V, Rabs_R0. apply bpow_ge_0. Qed.
Lemma b_div : forall x y e1 e2 e, bounded64 e1 x -> finite y -> bpow radix2 e2 <= value y -> (e1 - e2 <= e)%Z -> (-1074 <= e < 1024)%Z -> bounded64 e (ndiv x y).
Proof.
  intros x y e1 e2 e [Fx Bx] Fy Ly L R. pose proof (bpow_gt_0 radix2 e2) as P. assert (B : Rabs (value x / value y) <= bpow radix2 e).
  { unfold Rdiv. rewrite Rabs_mult, Rabs_inv, (Rabs_right (value y)) by lra. apply (Rmult_le_reg_r (value y)); [lra|]. rewrite Rmult_assoc, Rinv_l, Rmult_1_r by lra.
    eapply Rle_trans; [exact Bx|]. apply Rle_trans with (bpow radix2 e * bpow radix2 e2); [rewrite <- bpow_plus; apply bpow_le; lia|]. apply Rmult_le_compat_l; [apply bpow_ge_0|exact Ly]. }
  destruct (rep_div x y (value x) (value y) (conj Fx eq_refl) (conj Fy eq_refl)) as [F V]; [lra|apply (below_huge e); [lia|exact B]|]. split; [exact F|]. rewrite V. apply rnd64_bound; [lia|exact B].
Qed.
Lemma b_sum : forall l e, Forall (bounded64 e) l -> INR (length l) <= p2 20 -> (-1000 <= e <= 900)%Z -> bounded64 (e + 21) (nsum l).
Proof.
  intros l e HF HN He. destruct (added_err (p2 e) l (nsum l) (added_nsum l)) as [F E]; [split; [left; apply p2_pos|apply p2_le; lia]|exact HF|exact HN|]. split; [exact F|].
  pose proof (within_sum (p2 e) l HF) as W. pose proof (pos_INR (length l)) as K0. set (k := INR (length l)) in *. pose proof (p2_pos e) as Pe. fold (p2 (e + 21)).
  replace (e + 21)%Z with (21 + e)%Z by lia. rewrite p2_plus. change (p2 21) with (2 * p2 20). pose proof (Rabs_triang (value (nsum l) - Rsum (map value l)) (Rsum (map value l))) as TR.
  replace (value (nsum l) - Rsum (map value l) + Rsum (map value l)) with (value (nsum l)) in TR by ring.
  assert (KK : p2 (-52) * (k * k) <= p2 20).
  { apply Rle_trans with (p2 (-52) * (p2 20 * p2 20)); [apply Rmult_le_compat_l; [left; apply p2_pos|apply Rmult_le_compat; lra]|]. rewrite <- !p2_plus. apply p2_le. lia. }
  assert (p2 (-52) * (k * k) * p2 e <= p2 20 * p2 e) by (apply Rmult_le_compat_r; lra). assert (k * p2 e <= p2 20 * p2 e) by (apply Rmult_le_compat_r; lra). lra.
Qed.

(** *** The squared distances *)
Lemma stitch_in : forall n (l : list (nat * f64)) x, In x (dynamic_stitch n l) -> x = n0 \/ exists i, In (i, x) l.
Proof.
  intros n l x H. unfold dynamic_stitch in H. apply in_map_iff in H as (k & <- & _).
  assert (G : forall (l : list (nat * f64)) acc, fold_left (fun acc '(i, v) => if (i =? k)%nat then v else acc) l acc = acc \/ exists i, In (i, fold_left (fun acc '(i, v) => if (i =? k)%nat then v else acc) l acc) l).
  { intros m. induction m as [|[i v] m IH]; intros acc; [left; reflexivity|]. cbn [fold_left]. destruct (IH (if (i =? k)%nat then v else acc)) as [E|(i' & E)].
    - rewrite E. destruct (i =? k)%nat; [right; exists i; now left|now left].
    - right. exists i'. now right. }
  destruct (G l n0) as [E|E]; [left; exact E|right; exact E].
Qed.
Lemma squareform_in : forall (t sq : tensor f64) x, squareform (OTensor t) = Ok sq -> In x (data sq) ->
  x = n0 \/ exists a b, x = nadd a b /\ (a = n0 \/ In a (data t)) /\ (b = n0 \/ In b (data t)).
Proof.
  intros t sq x HS HI. unfold squareform in HS. destruct (is_vector t); [|discriminate HS]. destruct (_ =? 0)%nat; [apply ok_inj in HS; subst sq; left; destruct HI as [<-|[]]; reflexivity|].
  destruct (negb _); [discriminate HS|]. apply ok_inj in HS. subst sq. cbn [data] in HI. apply in_map_iff in HI as ([a b] & <- & HI). right. exists a, b. split; [reflexivity|].
  apply in_combine_l in HI as Ha. apply in_combine_r in HI as Hb.
  set (S := dynamic_stitch _ _) in *.
  assert (HSt : forall z, In z S -> z = n0 \/ In z (data t)).
  { intros z Hz. apply stitch_in in Hz as [->|(i & Hz)]; [now left|]. rewrite !in_app_iff in Hz. destruct Hz as [Hz|[Hz|Hz]].
    - apply in_combine_r, repeat_spec in Hz. now left.
    - apply in_combine_r in Hz. now right.
    - apply in_combine_r, repeat_spec in Hz. now left. }
  split; [now apply HSt|]. unfold transpose in Hb. apply in_flat_map in Hb as (i & _ & Hb). apply in_map_iff in Hb as (j & <- & _).
  match goal with |- context [nth ?q S n0] => destruct (nth_in_or_default q S n0) as [H|H] end; [now apply HSt|now left].
Qed.
Lemma distance_range : forall n d (X : list (list f64)) t x, grid n d X -> INR d <= p2 20 -> Forall (Forall (bounded64 490)) X ->
  pdist (OTensor {| shape := [n; d]; data := concat X |}) "euclidean" = Ok t -> In x (data t) -> finite x /\ 0 <= value x <= p2 502.
Proof.
  intros n d X t x [HL HF] HD HB HP HI. change (Ok {| shape := [length (pairwise_euclidean_distance n d (concat X))]; data := pairwise_euclidean_distance n d (concat X) |} = Ok t) in HP.
  apply ok_inj in HP. subst t. cbn [data] in HI. rewrite pairwise_pairs in HI. apply in_map_iff in HI as ([i j] & <- & HI).
  apply In_nth_error in HI as (p & Hp). pose proof (pairs_nth_lt _ _ _ _ Hp) as Hij.
  destruct (nth_error X i) as [a|] eqn:Ea; [|apply nth_error_None in Ea; lia]. destruct (nth_error X j) as [b|] eqn:Eb; [|apply nth_error_None in Eb; lia].
  rewrite (row_concat d X i a), (row_concat d X j b) by auto. rewrite Forall_forall in HF, HB. pose proof (nth_error_In _ _ Ea) as Ia. pose proof (nth_error_In _ _ Eb) as Ib.
  assert (La : INR (length a) <= p2 20) by (rewrite (HF a Ia); exact HD). destruct (rep_dist a b La (HB a Ia) (HB b Ib)) as [F V]. split; [exact F|]. rewrite V. split; [rewrite <- rnd64_0; apply rnd64_mono, sqrt_pos|].
  unfold p2. rewrite <- (rnd64_id _ (format64_bpow 502 ltac:(lia))). apply rnd64_mono. rewrite <- (sqrt_square (bpow radix2 502)) by apply bpow_ge_0. apply sqrt_le_1_alt. rewrite <- bpow_plus. exact (sq64_bound a b La (HB a Ia) (HB b Ib)).
Qed.

Lemma bounded_490 : forall e (X : list (list f64)), (e <= 490)%Z -> Forall (Forall (bounded64 e)) X -> Forall (Forall (bounded64 490)) X.
Proof. intros e X He. apply Forall_impl. intros r. apply Forall_impl. intros x H. eapply b_weaken; [exact H|exact He]. Qed.
Lemma rows_of_in : forall n (l : list f64) r x, In r (rows_of n l) -> In x r -> In x l.
Proof.
  intros n l r x Hr Hx. unfold rows_of in Hr. apply in_map_iff in Hr as (i & <- & _). unfold row, window in Hx. apply In_nth_error in Hx as (k & Hk).
  assert (Hk2 : nth_error (skipn (i * n) l) k = Some x).
  { revert Hk. generalize (skipn (i * n) l) as m. clear. induction n as [|n IH] in k |- *; intros m Hk; [destruct k; discriminate Hk|]. destruct m as [|y m]; [destruct k; discriminate Hk|]. destruct k as [|k]; [exact Hk|]. cbn [firstn nth_error] in *. eapply IH; exact Hk. }
  apply nth_error_In in Hk2. rewrite <- (firstn_skipn (i * n) l). apply in_or_app. now right.
Qed.
Lemma forall_mmap : forall (P Q : f64 -> Prop) f M, (forall x, P x -> Q (f x)) -> Forall (Forall P) M -> Forall (Forall Q) (mmap f M).
Proof. intros P Q f M H HF. apply Forall_map. eapply Forall_impl; [|exact HF]. intros r Hr. apply Forall_map. eapply Forall_impl; [|exact Hr]. exact H. Qed.
Lemma forall_vmap2 : forall A B C (P : A -> Prop) (Q : B -> Prop) (S : C -> Prop) (f : A -> B -> C), (forall x y, P x -> Q y -> S (f x y)) -> forall l m, Forall P l -> Forall Q m -> Forall S (vmap2 f l m).
Proof.
  intros A B C P Q S f H l m HP HQ. unfold vmap2. apply Forall_map. apply Forall_forall. intros [x y] Hxy. rewrite Forall_forall in HP, HQ. apply H; [apply HP; eapply in_combine_l; eauto|apply HQ; eapply in_combine_r; eauto].
Qed.
Lemma forall_mmap2 : forall (P Q S : f64 -> Prop) f A B, (forall x y, P x -> Q y -> S (f x y)) -> Forall (Forall P) A -> Forall (Forall Q) B -> Forall (Forall S) (mmap2 f A B).
Proof. intros P Q S f A B H HA HB. unfold mmap2. eapply forall_vmap2; [|exact HA|exact HB]. intros r q Hr Hq. cbv beta in *. eapply forall_vmap2; [|exact Hr|exact Hq]. exact H. Qed.
Lemma forall_matmul : forall n d (K X : list (list f64)) e, grid n n K -> length X = n -> INR n <= p2 20 -> (0 <= e <= 800)%Z ->
  Forall (Forall (between64 0 1)) K -> Forall (Forall (bounded64 e)) X -> Forall (Forall (bounded64 (e + 21))) (matmul d K X).
Proof.
  intros n d K X e [LK FK] LX HN He HK HX. unfold matmul. apply Forall_map. apply Forall_forall. intros r Hr. apply Forall_map. apply Forall_forall. intros j _.
  rewrite Forall_forall in HK, FK. pose proof (HK r Hr) as Kr. pose proof (FK r Hr) as Lr. apply b_sum; [|rewrite (vmap2_length _ _ _ _ _ _ n); [exact HN|exact Lr|now rewrite map_length]|lia].
  apply (forall_vmap2 _ _ _ (between64 0 1) (bounded64 e)); [|exact Kr|].
  - intros x y [Fx Bx] Hy. cbv beta in *. apply (b_mul x y 0 e e); [split; [exact Fx|rewrite Rabs_right by lra; cbn; lra]|exact Hy|lia|lia].
  - cbv beta. apply Forall_map. eapply Forall_impl; [|exact HX]. intros q Hq. cbv beta. destruct (nth_in_or_default j q n0) as [H|H]; [|rewrite H; apply b_0]. rewrite Forall_forall in Hq. now apply Hq.
Qed.
(** The square of the bandwidth. *)
Lemma bandwidth_square : forall h : f64, finite h -> p2 (-30) <= value h -> npow h 2 = inf64 \/ (finite (npow h 2) /\ p2 (-60) <= value (npow h 2)).
Proof.
  intros h Fh Lh. change (npow h 2) with (nmul h h). destruct (upper_cases _ (upper_square h)) as [[F P]|[E|E]]; [right|now left|exfalso; now apply (mul_nan h h)].
  split; [exact F|]. rewrite (mul_value _ _ F). unfold p2. rewrite <- (rnd64_id _ (format64_bpow (-60) ltac:(lia))). apply rnd64_mono. change (-60)%Z with (-30 + -30)%Z. rewrite bpow_plus. pose proof (p2_pos (-30)). unfold p2 in *. apply Rmult_le_compat; lra.
Qed.

Section Kernel.
Context {NT : NumT f64}.
Hypothesis Hexp : usual_exp NT.
Variables n d : nat.
Hypothesis Hn : (1 <= n)%nat.
Hypothesis Hn20 : INR n <= p2 20.
Hypothesis Hd20 : INR d <= p2 20.
Variable X : list (list f64).
Hypothesis GX : grid n d X.
Hypothesis BX : Forall (Forall (bounded64 400)) X.

Lemma kernel_range : forall h K G, svgd_kernel n d X = Ok (h, K, G) -> finite h -> p2 (-30) <= value h ->
  Forall (Forall (between64 0 1)) K /\ Forall (Forall (bounded64 483)) G.
Proof.
  intros h K G HK Fh Lh. pose proof (proj1 (kernel_grids n d X h K G GX Hn HK)) as GK. unfold svgd_kernel in HK.
  destruct (pdist (OTensor {| shape := [n; d]; data := concat X |}) "euclidean") as [v|e] eqn:Ep; [|discriminate HK]. cbn [bind] in HK.
  destruct (squareform (OTensor v)) as [sq|e] eqn:Es; [|discriminate HK]. cbn [bind] in HK. destruct (median _) as [med|e]; [|discriminate HK]. cbn [bind] in HK. cbv zeta in HK.
  apply ok_inj in HK. apply pair_equal_spec in HK as [HK HG]. apply pair_equal_spec in HK as [Hh HK]. rewrite Hh in HK, HG. rewrite HK in HG.
  destruct rep_2 as [F2 V2].
  assert (KB : Forall (Forall (between64 0 1)) K).
  { rewrite <- HK. apply Forall_forall. intros r Hr. apply Forall_forall. intros x Hx. pose proof (rows_of_in _ _ _ _ Hr Hx) as Hx'. apply in_map_iff in Hx' as (p & <- & Hp). apply in_map_iff in Hp as (D & <- & HD).
    assert (RD : exists D', rep D D' /\ Rabs D' <= p2 503).
    { destruct (squareform_in _ _ _ Es HD) as [->|(a & b & -> & Ha & Hb)]; [exists 0; split; [apply rep_0|rewrite Rabs_R0; left; apply p2_pos]|].
      assert (RG : forall z, z = n0 \/ In z (data v) -> bounded64 502 z).
      { intros z [->|Hz]; [apply b_0|]. destruct (distance_range n d X v z GX Hd20 (bounded_490 400 X ltac:(lia) BX) Ep Hz) as (Fz & Pz & Bz). split; [exact Fz|]. rewrite Rabs_right by lra. exact Bz. }
      destruct (b_add a b 502 502 503 (RG a Ha) (RG b Hb) ltac:(lia) ltac:(lia) ltac:(lia)) as [F B]. exists (value (nadd a b)). split; [now split|exact B]. }
    destruct RD as (D' & [FD VD] & BD). assert (RQ : rep (npow D 2) (rnd64 (D' * D'))).
    { change (npow D 2) with (nmul D D). apply rep_mul; [now split|now split|]. apply (below_huge 1006); [lia|]. rewrite Rabs_mult. change 1006%Z with (503 + 503)%Z. rewrite bpow_plus. apply Rmult_le_compat; try apply Rabs_pos; exact BD. }
    destruct RQ as [FQ VQ]. assert (PQ : 0 <= value (npow D 2)) by (rewrite VQ, <- rnd64_0; apply rnd64_mono, Rle_0_sqr).
    destruct (rep_opp (npow D 2) _ (conj FQ eq_refl)) as [FO VO]. assert (NO : nonpos (nopp (npow D 2))) by (left; split; [exact FO|rewrite VO; lra]).
    apply Hexp. change (nonpos (ndiv (ndiv (nopp (npow D 2)) (npow h 2)) n2)). apply nonpos_div; [|exact F2|rewrite V2; lra].
    destruct (bandwidth_square h Fh Lh) as [->|[FS LS]]; [apply nonpos_over_inf; [exact FO|rewrite VO; lra]|]. apply nonpos_div; [exact NO|exact FS|pose proof (p2_pos (-60)); lra]. }
  split; [exact KB|]. rewrite <- HG.
  assert (BG : Forall (Forall (bounded64 423)) (mmap2 nadd (mmap nopp (matmul d K X)) (vmap2 (fun x s => map (fun y : f64 => nmul y s) x) X (map nsum K)))).
  { apply (forall_mmap2 (bounded64 421) (bounded64 422)).
    - intros x y Hx Hy. apply (b_add x y 421 422 423); auto; lia.
    - apply (forall_mmap (bounded64 421)); [intros x; apply b_opp|]. change 421%Z with (400 + 21)%Z. apply (forall_matmul n); auto; [exact (proj1 GX)|lia].
    - eapply (forall_vmap2 _ _ _ (Forall (bounded64 400)) (bounded64 21)); [|exact BX|].
      + intros x s Hx Hs. apply Forall_map. eapply Forall_impl; [|exact Hx]. intros y Hy. cbv beta. apply (b_mul y s 400 21 422); auto; lia.
      + apply Forall_map. apply Forall_forall. intros r Hr. change 21%Z with (0 + 21)%Z. apply b_sum; [|destruct GK as [_ FK]; rewrite Forall_forall in FK; rewrite (FK r Hr); exact Hn20|lia].
        rewrite Forall_forall in KB. eapply Forall_impl; [|exact (KB r Hr)]. intros x [Fx Bx]. split; [exact Fx|]. rewrite Rabs_right by lra. cbn. lra. }
  eapply forall_mmap; [|exact BG]. intros x Hx. destruct (bandwidth_square h Fh Lh) as [->|[FS LS]]; [|apply (b_div x _ 423 (-60)); auto; lia].
  destruct Hx as [Fx _]. assert (R0 : rep (ndiv x inf64) 0) by (destruct x as [s|s| |s m e B]; try discriminate Fx; split; reflexivity). destruct R0 as [F V]. split; [exact F|]. rewrite V, Rabs_R0. apply bpow_ge_0.
Qed.
Lemma direction_range : forall h K G L g, svgd_kernel n d X = Ok (h, K, G) -> finite h -> p2 (-30) <= value h -> grid n d L -> Forall (Forall (bounded64 400)) L ->
  svgd_grad n d X L = Ok g -> Forall (Forall (bounded64 484)) g.
Proof.
  intros h K G L g HK Fh Lh GL BL Hg. destruct (kernel_range h K G HK Fh Lh) as [BK BG]. pose proof (proj1 (kernel_grids n d X h K G GX Hn HK)) as GK.
  unfold svgd_grad in Hg. rewrite HK in Hg. cbn [bind] in Hg. apply ok_inj in Hg. subst g.
  apply (forall_mmap (bounded64 484)).
  - intros x Hx. assert (RN : rep (n_particles n) (INR n)).
    { unfold n_particles. rewrite INR_IZR_INZ. apply rep_int. apply lt_IZR. rewrite abs_IZR, <- INR_IZR_INZ, Rabs_right by (apply Rle_ge, pos_INR). eapply Rle_lt_trans; [exact Hn20|]. change (IZR (2 ^ 53)) with (p2 53). apply bpow_lt. lia. }
    destruct RN as [FN VN]. apply (b_div x _ 484 0); [exact Hx|exact FN| |lia|lia]. rewrite VN. change (bpow radix2 0) with (INR 1). now apply le_INR.
  - apply (forall_mmap2 (bounded64 421) (bounded64 483)); [intros x y Hx Hy; apply (b_add x y 421 483 484); auto; lia| |exact BG].
    change 421%Z with (400 + 21)%Z. apply (forall_matmul n); auto; [exact (proj1 GL)|lia].
Qed.
End Kernel.
