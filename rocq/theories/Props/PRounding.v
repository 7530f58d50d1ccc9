(** C114: rounding errors of SGLD do not accumulate. *)
From Coq Require Import List Arith Lia ZArith Bool Reals Lra Psatz.
From Flocq Require Import Core.Core.
From Flocq Require IEEE754.BinarySingleNaN.
From Verif.Proofs Require Import FloatCell SafeFloat FloatAdapt.
From Verif.Base Require Import Py Num Float64 Vec Lists.
From Verif.Model Require Import TensorUtils BurnIn SGLD.
From Verif.Spec Require Import Doubles Dynamics Convex Rounding.
From Verif.Proofs Require Import DoubleCell DoubleRun DoubleStein DoubleKernel DoubleRel Convex.
From Verif.Props Require Import PDoubleData PDoubleTensor.
From Verif.Props Require PMinibatch PMomentumBatch PRange.
Import ListNotations.
Local Open Scope R_scope.

(** *** Positive doubles close to exact numbers *)
Lemma dlk : forall k, 0 <= k <= 100 -> 0 <= k * dl <= 1 / 1000.
Proof. intros k K. pose proof dl_range as D. split; nra. Qed.
Definition pos (x : f64) (r k : R) (a b : Z) : Prop := finite x /\ near k (value x) r /\ p2 a <= r <= p2 b /\ 0 <= k <= 40.
Lemma pos_self : forall x a b, finite x -> p2 a <= value x <= p2 b -> pos x (value x) 0 a b.
Proof. intros x a b F B. split; [exact F|]. split; [apply near_refl|]. split; [exact B|lra]. Qed.
Lemma near_small : forall k x r, 0 <= k <= 100 -> 0 <= r -> near k x r -> 0 <= x <= 2 * r /\ Rabs (x - r) <= k * dl * r.
Proof. intros k x r K P [A B]. pose proof (dlk k K) as H. set (t := k * dl) in *. split; [split; nra|]. apply Rabs_le. lra. Qed.
Lemma pos_value : forall x r k a b, pos x r k a b -> 0 < p2 a /\ 0 <= value x <= 2 * p2 b.
Proof. intros x r k a b (F & N & B & K). pose proof (p2_pos a). destruct (near_small k _ r ltac:(lra) ltac:(lra) N). lra. Qed.
Lemma pos_mul : forall x y r s k1 k2 a1 b1 a2 b2, pos x r k1 a1 b1 -> pos y s k2 a2 b2 -> (-900 <= a1 + a2)%Z -> (b1 + b2 <= 900)%Z -> k1 + k2 + 3 <= 40 -> (-900 <= b1 + b2)%Z ->
  pos (nmul x y) (r * s) (k1 + k2 + 3) (a1 + a2) (b1 + b2).
Proof.
  intros x y r s k1 k2 a1 b1 a2 b2 X Y LA LB LK LC. destruct (pos_value _ _ _ _ _ X) as [PX VX]. destruct (pos_value _ _ _ _ _ Y) as [PY VY]. destruct X as (FX & NX & BX & KX), Y as (FY & NY & BY & KY).
  assert (B : p2 (a1 + a2) <= r * s <= p2 (b1 + b2)) by (rewrite !p2_plus; split; apply Rmult_le_compat; lra).
  assert (R : rep (nmul x y) (rnd64 (value x * value y))).
  { apply rep_mul; [now apply rep_value..|]. apply (below (b1 + b2 + 2)); [lia|]. rewrite Rabs_right by (apply Rle_ge, Rmult_le_pos; lra). rewrite !p2_plus. change (p2 2) with 4. replace (p2 b1 * p2 b2 * 4) with ((2 * p2 b1) * (2 * p2 b2)) by ring. apply Rmult_le_compat; lra. }
  destruct R as [F V]. split; [exact F|]. split; [|split; [exact B|lra]]. rewrite V. replace (k1 + k2 + 3) with (k1 + k2 + 1 + 2) by ring. apply near_rnd; [lra| |apply near_mul; auto; lra].
  pose proof (p2_le (-1000) (a1 + a2) ltac:(lia)). lra.
Qed.
Lemma pos_div : forall x y r s k1 k2 a1 b1 a2 b2, pos x r k1 a1 b1 -> pos y s k2 a2 b2 -> (-900 <= a1 - b2)%Z -> (b1 - a2 <= 900)%Z -> k1 + k2 + 4 <= 40 -> (-900 <= b1 - a2)%Z ->
  pos (ndiv x y) (r / s) (k1 + k2 + 4) (a1 - b2) (b1 - a2).
Proof.
  intros x y r s k1 k2 a1 b1 a2 b2 X Y LA LB LK LC. destruct (pos_value _ _ _ _ _ X) as [PX VX]. destruct (pos_value _ _ _ _ _ Y) as [PY VY]. destruct X as (FX & NX & BX & KX), Y as (FY & NY & BY & KY).
  assert (PS : 0 < s) by lra. pose proof (near_inv k2 (value y) s ltac:(lra) PS NY) as NI.
  assert (IS : p2 (- b2) <= / s <= p2 (- a2)) by (unfold p2 in *; rewrite !bpow_opp; split; apply Rinv_le; lra).
  assert (B : p2 (a1 - b2) <= r / s <= p2 (b1 - a2)) by (unfold Z.sub, Rdiv; rewrite !p2_plus; pose proof (p2_pos (- b2)); split; apply Rmult_le_compat; lra).
  assert (NN : near (k1 + (k2 + 1) + 1) (value x / value y) (r / s)) by (unfold Rdiv; apply near_mul; auto; try lra; pose proof (p2_pos (- b2)); lra).
  pose proof (p2_pos (a1 - b2)) as PQ. destruct (near_small (k1 + (k2 + 1) + 1) _ (r / s) ltac:(lra) ltac:(lra) NN) as [Q _].
  assert (Y0 : value y <> 0) by (destruct NY as [NY _]; pose proof (dlk k2 ltac:(lra)); assert (0 < (1 - k2 * dl) * s) by (apply Rmult_lt_0_compat; lra); intros Z0; lra).
  assert (R : rep (ndiv x y) (rnd64 (value x / value y))).
  { apply rep_div; [now apply rep_value..|exact Y0|]. apply (below (b1 - a2 + 1)); [lia|]. rewrite Rabs_right by lra. rewrite p2_plus. change (p2 1) with 2. lra. }
  destruct R as [F V]. split; [exact F|]. split; [|split; [exact B|lra]]. rewrite V. replace (k1 + k2 + 4) with (k1 + (k2 + 1) + 1 + 2) by ring. apply near_rnd; [lra| |exact NN].
  pose proof (p2_le (-1000) (a1 - b2) ltac:(lia)). lra.
Qed.
Lemma pos_sqrt : forall x r k a b a' b', pos x r k a b -> (2 * a' <= a)%Z -> (b <= 2 * b')%Z -> (-900 <= a')%Z -> k + 2 <= 40 -> pos (safe_sqrt x) (sqrt r) (k + 2) a' b'.
Proof.
  intros x r k a b a' b' X LA LB LC LK. destruct (pos_value _ _ _ _ _ X) as [PX VX]. destruct X as (FX & NX & BX & KX).
  assert (R : rep (safe_sqrt x) (rnd64 (sqrt (value x)))).
  { unfold safe_sqrt, safe_sqrt_with, clip_by_value. apply rep_sqrt; [|lra]. replace (value x) with (Rmax (value x) 0) by (apply Rmax_left; lra). apply rep_max; [now apply rep_value|apply rep_0]. }
  assert (SQ : forall z, sqrt (p2 (2 * z)) = p2 z) by (intros z; replace (2 * z)%Z with (z + z)%Z by lia; rewrite p2_plus; apply sqrt_square; left; apply p2_pos).
  assert (B : p2 a' <= sqrt r <= p2 b') by (rewrite <- (SQ a'), <- (SQ b'); split; apply sqrt_le_1_alt; [pose proof (p2_le _ _ LA)|pose proof (p2_le _ _ LB)]; lra).
  destruct R as [F V]. split; [exact F|]. split; [|split; [exact B|lra]]. rewrite V. apply near_rnd; [lra| |apply near_sqrt; auto; lra].
  pose proof (p2_le (-1000) a' ltac:(lia)). lra.
Qed.
(** The guarded divisor. *)
Lemma pos_divisor : forall s, between64 1 (bpow radix2 100) s -> pos (safe_divisor s small_constant) (value s + 3 * guard) 3 0 101.
Proof.
  intros s [F B]. fold (p2 100) in B. destruct (rep_divisor s F) as [FD VD]. split; [exact FD|]. pose proof three_c_tight as T. assert (G : 0 <= 3 * guard <= / 1000) by (unfold guard; lra).
  assert (B' : p2 0 <= value s + 3 * guard <= p2 101). { change (p2 0) with 1. change 101%Z with (1 + 100)%Z. rewrite p2_plus. change (p2 1) with 2. lra. }
  split; [|split; [exact B'|lra]]. rewrite VD. unfold divisor64. destruct (Rlt_dec _ _); [lra|]. destruct (Rlt_dec _ _); [|lra].
  replace 3 with (1 + 2) at 1 by ring. apply near_rnd; [lra| |].
  - pose proof (p2_le (-1000) 0 ltac:(lia)). lra.
  - assert (E : Rabs (rnd64 (3 * c16) - 3 * guard) <= dl). { apply Rabs_le. unfold dl, guard, p2 in *. change (bpow radix2 (-55)) with (/ 36028797018963968) in T. change (bpow radix2 (-60)) with (/ 1152921504606846976) in T. change (bpow radix2 (-52)) with (/ 4503599627370496). lra. }
    apply abs_inv in E. pose proof dl_range. unfold near. rewrite Rmult_1_l. nra.
Qed.

(** *** One entry *)
Section Entry.
Variables (c : lconfig f64) (eps m : f64).
Hypothesis HU : usual_sgld eps (l_A c) (l_scale_grad c).
Hypothesis Hm : between64 (bpow radix2 (-20)) (bpow radix2 20) m.
Let h := sgld_drift (value eps) (value (l_A c)) (value m).
Let sig := sqrt (2 * h / (value (l_scale_grad c) + 3 * guard)).
Lemma coefficient : let q := nmul (nmul (nopp eps) m) (l_A c) in finite q /\ value q <= 0 /\ near 6 (- value q) h /\ 0 < h.
Proof.
  destruct HU as ((Fe & Be) & (FA & BA) & _). destruct Hm as [Fm Bm].
  pose proof (pos_self eps (-20) 20 Fe Be) as PE. pose proof (pos_self m (-20) 20 Fm Bm) as PM. pose proof (pos_self _ (-20) 20 FA BA) as PA.
  pose proof (pos_mul _ _ _ _ _ _ _ _ _ _ (pos_mul _ _ _ _ _ _ _ _ _ _ PE PM ltac:(lia) ltac:(lia) ltac:(lra) ltac:(lia)) PA ltac:(lia) ltac:(lia) ltac:(lra) ltac:(lia)) as P.
  pose proof (pos_mul _ _ _ _ _ _ _ _ _ _ PE PM ltac:(lia) ltac:(lia) ltac:(lra) ltac:(lia)) as P1.
  cbv zeta. destruct (rep_opp _ _ (rep_value _ Fe)) as [FO VO].
  assert (B1 : bounded64 40 (nmul (nopp eps) m)). { apply (b_mul _ _ 20 20); [split; [exact FO|]; rewrite VO, Rabs_Ropp, Rabs_right; [lra|]; pose proof (p2_pos (-20)); unfold p2 in *; lra|split; [exact Fm|]; rewrite Rabs_right; [lra|]; pose proof (p2_pos (-20)); unfold p2 in *; lra|lia|lia]. }
  assert (B2 : bounded64 60 (nmul (nmul (nopp eps) m) (l_A c))). { apply (b_mul _ _ 40 20); [exact B1|split; [exact FA|]; rewrite Rabs_right; [lra|]; pose proof (p2_pos (-20)); unfold p2 in *; lra|lia|lia]. }
  assert (E1 : value (nmul (nopp eps) m) = - value (nmul eps m)).
  { rewrite (mul_value _ _ (proj1 B1)), (mul_value _ _ (proj1 P1)), VO. rewrite <- rnd64_opp. f_equal. ring. }
  assert (E2 : value (nmul (nmul (nopp eps) m) (l_A c)) = - value (nmul (nmul eps m) (l_A c))).
  { rewrite (mul_value _ _ (proj1 B2)), (mul_value _ _ (proj1 P)), E1. rewrite <- rnd64_opp. f_equal. ring. }
  destruct (pos_value _ _ _ _ _ P) as [PP VP]. destruct P as (_ & NP & BP & _). split; [exact (proj1 B2)|]. rewrite E2, Ropp_involutive. split; [lra|].
  replace (0 + 0 + 3 + 0 + 3) with 6 in NP by ring. split; [exact NP|]. unfold h, sgld_drift. lra.
Qed.
Lemma noise_scale : finite (lsigma c eps m) /\ near 20 (value (lsigma c eps m)) sig.
Proof.
  destruct HU as ((Fe & Be) & (FA & BA) & HS). destruct Hm as [Fm Bm].
  pose proof (pos_self eps (-20) 20 Fe Be) as PE. pose proof (pos_self m (-20) 20 Fm Bm) as PM.
  assert (EA : rep (nsub (l_A c) lnoise) (value (l_A c))). { rewrite <- (value_round (l_A c)). replace (value (l_A c)) with (value (l_A c) - 0) at 1 by ring. apply rep_sub; [now apply rep_value|apply rep_0|]. rewrite Rminus_0_r, value_round. apply value_bound. }
  destruct EA as [FA' VA]. assert (PA : pos (nsub (l_A c) lnoise) (value (l_A c)) 0 (-20) 20) by (rewrite <- VA; apply pos_self; [exact FA'|]; rewrite VA; exact BA).
  assert (P2' : pos n2 2 0 1 1) by (destruct rep_2 as [F2 V2]; split; [exact F2|]; split; [rewrite V2; apply near_refl|]; split; [change (p2 1) with 2; lra|lra]).
  pose proof (pos_mul _ _ _ _ _ _ _ _ _ _ P2' PE ltac:(lia) ltac:(lia) ltac:(lra) ltac:(lia)) as P1.
  pose proof (pos_mul _ _ _ _ _ _ _ _ _ _ PM PA ltac:(lia) ltac:(lia) ltac:(lra) ltac:(lia)) as P3.
  pose proof (pos_div _ _ _ _ _ _ _ _ _ _ P3 (pos_divisor _ HS) ltac:(lia) ltac:(lia) ltac:(lra) ltac:(lia)) as P4.
  pose proof (pos_mul _ _ _ _ _ _ _ _ _ _ P1 P4 ltac:(lia) ltac:(lia) ltac:(lra) ltac:(lia)) as P5.
  destruct (pos_sqrt _ _ _ _ _ (-100) 100 P5 ltac:(lia) ltac:(lia) ltac:(lia) ltac:(lra)) as (F & NF & BF & KF).
  change (lsigma c eps m) with (safe_sqrt (nmul (nmul n2 eps) (ndiv (nmul m (nsub (l_A c) lnoise)) (safe_divisor (l_scale_grad c) small_constant)))).
  split; [exact F|]. unfold sig, h, sgld_drift. match type of NF with near ?k _ ?r => replace (sqrt (2 * (value eps * value m * value (l_A c)) / (value (l_scale_grad c) + 3 * guard))) with r by (f_equal; unfold Rdiv; ring); replace k with 18 in NF by ring end.
  destruct NF as [N1 N2]. pose proof dl_range. assert (0 <= sqrt (2 * value eps * (value m * value (l_A c) / (value (l_scale_grad c) + 3 * guard)))) by apply sqrt_pos. split; nra.
Qed.
Variables (x g xi : f64) (e : Z).
Hypothesis He : (-900 <= e <= 1000)%Z.
Hypothesis HW : within e eps (l_A c) (l_scale_grad c) m x g xi.
(** A product whose first factor is known up to [k] relative units. *)
Lemma scaled_error : forall q y a k, finite q -> finite y -> near k (Rabs (value q)) a -> 0 <= k <= 40 -> 0 <= a -> Rabs (a * value y) <= p2 e ->
  bounded64 (e + 1) (nmul q y) /\ Rabs (value (nmul q y) - (if Rle_dec 0 (value q) then a else - a) * value y) <= (k + 2) * p2 (e - 52).
Proof.
  intros q y a k Fq Fy N K Pa Hy. destruct (near_small k _ _ ltac:(lra) Pa N) as [Q1 Q2]. pose proof (Rabs_pos (value y)) as Py. rewrite Rabs_mult, (Rabs_right a) in Hy by lra.
  assert (Q3 : Rabs (value q * value y) <= p2 (e + 1)). { rewrite Rabs_mult, p2_plus. change (p2 1) with 2. nra. }
  assert (R : rep (nmul q y) (rnd64 (value q * value y))) by (apply rep_mul; [now apply rep_value..|]; apply (below (e + 1)); [lia|exact Q3]).
  destruct R as [F V]. split.
  - split; [exact F|]. rewrite V. apply (rnd64_bound (e + 1)); [lia|exact Q3].
  - rewrite V. pose proof (rnd64_err (e + 1) _ ltac:(lia) Q3) as E1. replace (e + 1 - 52)%Z with (1 + (e - 52))%Z in E1 by lia. rewrite p2_plus in E1. change (p2 1) with 2 in E1.
    assert (E2 : Rabs (value q * value y - (if Rle_dec 0 (value q) then a else - a) * value y) <= k * p2 (e - 52)).
    { rewrite <- Rmult_minus_distr_r, Rabs_mult. assert (E3 : Rabs (value q - (if Rle_dec 0 (value q) then a else - a)) <= k * dl * a).
      { destruct (Rle_dec 0 (value q)) as [L|L]; [rewrite (Rabs_right (value q)) in Q2 by lra; exact Q2|]. rewrite (Rabs_left (value q)) in Q2 by lra. replace (value q - - a) with (- (- value q - a)) by ring. now rewrite Rabs_Ropp. }
      replace (p2 (e - 52)) with (p2 e * dl) by (unfold dl; rewrite <- p2_plus; f_equal; lia). pose proof dl_range. apply Rle_trans with (k * dl * a * Rabs (value y)); [apply Rmult_le_compat_r; assumption|]. assert (0 <= k * dl) by nra. replace (k * dl * a * Rabs (value y)) with (k * dl * (a * Rabs (value y))) by ring. replace (k * (p2 e * dl)) with (k * dl * p2 e) by ring. apply Rmult_le_compat_l; assumption. }
    pose proof (Rabs_triang (rnd64 (value q * value y) - value q * value y) (value q * value y - (if Rle_dec 0 (value q) then a else - a) * value y)) as T.
    match type of T with Rabs ?u <= _ => replace u with (rnd64 (value q * value y) - (if Rle_dec 0 (value q) then a else - a) * value y) in T by ring end. lra.
Qed.
Lemma entry_error : let y := nadd x (nadd (nmul (nmul (nmul (nopp eps) m) (l_A c)) g) (nmul (lsigma c eps m) xi)) in
  finite y /\ Rabs (value y - sgld_theta (value eps) (value (l_A c)) (value (l_scale_grad c)) (value m) (value g) (value xi) (value x)) <= p2 (e - 46).
Proof.
  cbv zeta. destruct coefficient as (Fq & Nq & NQ & Ph). destruct noise_scale as (Fs & NS). destruct HW as (Bx & Fg & Fxi & W1 & W2). fold h in W1, W2. fold sig in W2.
  assert (Ps : 0 <= sig) by apply sqrt_pos. destruct (near_small 20 _ _ ltac:(lra) Ps NS) as [PS _].
  set (q := nmul (nmul (nopp eps) m) (l_A c)) in *. set (s := lsigma c eps m) in *. fold (p2 e) in W1, W2.
  destruct (scaled_error q g h 6 Fq Fg) as [B1 E1]; [rewrite Rabs_left1 by lra; exact NQ|lra|lra|exact W1|].
  destruct (scaled_error s xi sig 20 Fs Fxi) as [B2 E2]; [rewrite Rabs_right by lra; exact NS|lra|lra|exact W2|].
  set (D := nmul q g) in *. set (S := nmul s xi) in *.
  assert (B3 : bounded64 (e + 2) (nadd D S)) by (apply (b_add _ _ (e + 1) (e + 1)); [exact B1|exact B2|lia..]).
  assert (B4 : bounded64 (e + 3) (nadd x (nadd D S))) by (apply (b_add _ _ e (e + 2)); [exact Bx|exact B3|lia..]).
  assert (V3 := add_value D S (proj1 B1) (proj1 B2) (proj1 B3)). assert (V4 := add_value x _ (proj1 Bx) (proj1 B3) (proj1 B4)).
  assert (T3 : Rabs (value D + value S) <= p2 (e + 2)). { eapply Rle_trans; [apply Rabs_triang|]. pose proof (proj2 B1) as C1. pose proof (proj2 B2) as C2. fold (p2 (e + 1)) in C1, C2. replace (e + 2)%Z with (1 + (e + 1))%Z by lia. rewrite p2_plus. change (p2 1) with 2. lra. }
  assert (T4 : Rabs (value x + value (nadd D S)) <= p2 (e + 3)). { eapply Rle_trans; [apply Rabs_triang|]. pose proof (proj2 Bx) as C1. pose proof (proj2 B3) as C2. fold (p2 e) in C1. fold (p2 (e + 2)) in C2. pose proof (p2_le e (e + 2) ltac:(lia)). replace (e + 3)%Z with (1 + (e + 2))%Z by lia. rewrite p2_plus. change (p2 1) with 2. lra. }
  pose proof (rnd64_err (e + 2) _ ltac:(lia) T3) as R3. pose proof (rnd64_err (e + 3) _ ltac:(lia) T4) as R4. rewrite <- V3 in R3. rewrite <- V4 in R4.
  replace (e + 2 - 52)%Z with (2 + (e - 52))%Z in R3 by lia. replace (e + 3 - 52)%Z with (3 + (e - 52))%Z in R4 by lia. rewrite p2_plus in R3, R4. change (p2 2) with 4 in R3. change (p2 3) with 8 in R4.
  split; [exact (proj1 B4)|]. replace (e - 46)%Z with (6 + (e - 52))%Z by lia. rewrite p2_plus. change (p2 6) with 64. unfold sgld_theta. fold h. fold sig.
  destruct (Rle_dec 0 (value s)) as [_|C] in E2; [|lra].
  assert (E1' : Rabs (value D - - h * value g) <= 8 * p2 (e - 52)).
  { destruct (Rle_dec 0 (value q)) as [L|L] in E1; [|lra]. exfalso. assert (Z : value q = 0) by lra. rewrite Z in NQ. destruct NQ as [N1 _]. pose proof dl_range. nra. }
  apply abs_inv in E1'. apply abs_inv in E2. apply abs_inv in R3. apply abs_inv in R4. pose proof (p2_pos (e - 52)). apply Rabs_le. split; lra.
Qed.
End Entry.

(** *** All entries *)
Lemma langevin_nth : forall eps A s ms gs xis xs i m g xi x, nth_error ms i = Some m -> nth_error gs i = Some g -> nth_error xis i = Some xi -> nth_error xs i = Some x ->
  nth_error (langevin eps A s ms gs xis xs) i = Some (sgld_theta eps A s m g xi x).
Proof.
  intros eps A s ms. induction ms as [|m0 ms IH]; intros [|g0 gs] [|z0 xis] [|x0 xs] [|i] m g xi x H1 H2 H3 H4; try discriminate; cbn [langevin nth_error] in *.
  - injection H1 as ->. injection H2 as ->. injection H3 as ->. injection H4 as ->. reflexivity.
  - now apply IH.
Qed.
Lemma langevin_length : forall eps A s ms gs xis xs, length gs = length ms -> length xis = length ms -> length xs = length ms -> length (langevin eps A s ms gs xis xs) = length ms.
Proof. intros eps A s ms. induction ms as [|m0 ms IH]; intros [|g0 gs] [|z0 xis] [|x0 xs] H1 H2 H3; try discriminate; cbn [langevin length] in *; auto. Qed.
Lemma langevin_moves : forall eps A s ms gs xis xs, length gs = length ms -> length xis = length ms -> length xs = length ms ->
  langevin eps A s ms gs xis xs = kick (eps * A) (s + 3 * guard) ms xis (descend (eps * A) ms gs xs).
Proof.
  intros eps A s ms. induction ms as [|m0 ms IH]; intros [|g0 gs] [|z0 xis] [|x0 xs] H1 H2 H3; try discriminate; cbn [langevin kick descend length] in *; auto.
  rewrite IH by lia. f_equal. unfold sgld_theta, sgld_drift. replace (2 * (eps * m0 * A)) with (2 * (eps * A * m0)) by ring. ring.
Qed.

(** One step with fed masses: every new entry is finite and within 2^(e-46) of the exact step, if entries, drifts and
    noises are at most 2^e. *)
Theorem C114_step_error :
  forall c eps ms grad xi p e n,
  usual_sgld eps (l_A c) (l_scale_grad c) -> Forall (between64 (bpow radix2 (-20)) (bpow radix2 20)) ms ->
  length ms = n -> length grad = n -> length xi = n -> length (l_vec p) = n -> (-900 <= e <= 1000)%Z ->
  all_within e eps (l_A c) (l_scale_grad c) ms (l_vec p) grad xi ->
  let p' := sgld_step c eps grad xi (Some ms) p in
  length (l_vec p') = n /\ Forall finite (l_vec p') /\ data (l_val p') = l_vec p' /\
  forall i y, nth_error (l_vec p') i = Some y -> exists x',
    nth_error (langevin (value eps) (value (l_A c)) (value (l_scale_grad c)) (map value ms) (map value grad) (map value xi) (map value (l_vec p))) i = Some x' /\
    Rabs (value y - x') <= bpow radix2 (e - 46).
Proof.
  intros c eps ms grad xi p e n HU HM L1 L2 L3 L4 He HW p'.
  assert (K : forall i y, nth_error (l_vec p') i = Some y -> finite y /\ exists x',
    nth_error (langevin (value eps) (value (l_A c)) (value (l_scale_grad c)) (map value ms) (map value grad) (map value xi) (map value (l_vec p))) i = Some x' /\
    Rabs (value y - x') <= bpow radix2 (e - 46)).
  { intros i y Hy. unfold p', sgld_step in Hy. cbn [l_vec minv_used] in Hy. rewrite !nth_error_vmap2, !nth_error_map in Hy.
    destruct (nth_error (l_vec p) i) as [x|] eqn:E4; [|discriminate Hy]. destruct (nth_error ms i) as [m|] eqn:E1; [|discriminate Hy]. cbn [option_map] in Hy.
    destruct (nth_error grad i) as [g|] eqn:E2; [|discriminate Hy]. destruct (nth_error xi i) as [z|] eqn:E3; [|discriminate Hy].
    assert (EY : nadd x (nadd (nmul (nmul (nmul (nopp eps) m) (l_A c)) g) (nmul (lsigma c eps m) z)) = y) by congruence. subst y.
    rewrite Forall_forall in HM. specialize (HM m (nth_error_In _ _ E1)).
    destruct (entry_error c eps m HU HM x g z e He (HW _ _ _ _ _ E1 E4 E2 E3)) as [F B]. split; [exact F|].
    eexists. split; [apply langevin_nth; apply map_nth_error; eassumption|exact B]. }
  split; [unfold p', sgld_step; cbn [l_vec minv_used]; repeat apply vmap2_length; rewrite ?map_length; assumption|]. split; [|split; [reflexivity|intros i y Hy; now apply K]].
  apply Forall_forall. intros y Hy. apply In_nth_error in Hy as [i Hi]. now apply K in Hi.
Qed.
Lemma near_dist : forall lo d ms xs ys, 0 < lo -> 0 <= d -> Forall (fun m => lo <= m) ms -> length xs = length ms -> length ys = length ms ->
  (forall i x, nth_error xs i = Some x -> exists y, nth_error ys i = Some y /\ Rabs (x - y) <= d) ->
  scaled_dist2 ms xs ys <= INR (length ms) * (d ^ 2 / lo).
Proof.
  intros lo d ms xs ys Hlo Hd HM. revert xs ys. induction HM as [|m ms Hm _ IH]; intros [|x xs] [|y ys] L1 L2 H; try discriminate; cbn [scaled_dist2 length]; [cbn; lra|].
  rewrite S_INR. assert (I := IH xs ys ltac:(cbn in L1; lia) ltac:(cbn in L2; lia) (fun i => H (S i))). destruct (H O x eq_refl) as (y' & Hy & B). cbn in Hy. injection Hy as <-.
  assert (Q : (x - y) ^ 2 <= d ^ 2) by (rewrite <- (pow2_abs (x - y)); apply pow_incr; split; [apply Rabs_pos|exact B]).
  assert ((x - y) ^ 2 / m <= d ^ 2 / lo). { unfold Rdiv. apply Rmult_le_compat; [apply pow2_ge_0|left; apply Rinv_0_lt_compat; lra|exact Q|apply Rinv_le; lra]. }
  lra.
Qed.

(** A chain in double precision and the exact chain with the same masses and noise, on a strongly convex cost whose
    gradient is computed with an error of at most [delta]: their distance is bounded uniformly in the number of steps. *)
Theorem C114_rounding_does_not_accumulate :
  forall c eps ms n U G mu L delta lo hi e (grad xi : nat -> list f64) (X : nat -> lstate f64) (Y : nat -> list R) N,
  usual_sgld eps (l_A c) (l_scale_grad c) -> Forall (between64 (bpow radix2 (-20)) (bpow radix2 20)) ms -> length ms = n ->
  strongly_convex n mu U G -> lipschitz n L G -> (forall z, length z = n -> length (G z) = n) ->
  0 < lo -> Forall (fun m => lo <= value m <= hi) ms -> let h := value eps * value (l_A c) in h * hi * L ^ 2 < 2 * mu ->
  0 <= delta -> (-900 <= e <= 1000)%Z -> length (l_vec (X O)) = n -> length (Y O) = n ->
  (forall k, (k < N)%nat -> length (grad k) = n /\ length (xi k) = n /\ all_within e eps (l_A c) (l_scale_grad c) ms (l_vec (X k)) (grad k) (xi k) /\
     dist2 (map value (grad k)) (G (map value (l_vec (X k)))) <= delta ^ 2 /\
     X (S k) = sgld_step c eps (grad k) (xi k) (Some ms) (X k) /\
     Y (S k) = langevin (value eps) (value (l_A c)) (value (l_scale_grad c)) (map value ms) (G (Y k)) (map value (xi k)) (Y k)) ->
  let r := sqrt (1 - lo * h * (2 * mu - h * hi * L ^ 2)) in
  let err := h * sqrt hi * delta + sqrt (INR n / lo) * bpow radix2 (e - 46) in
  (0 < n)%nat -> r < 1 /\
  forall k, (k <= N)%nat ->
  sqrt (scaled_dist2 (map value ms) (map value (l_vec (X k))) (Y k)) <=
    r ^ k * sqrt (scaled_dist2 (map value ms) (map value (l_vec (X O))) (Y O)) + (1 - r ^ k) * (err / (1 - r)).
Proof.
  intros c eps ms n U G mu L delta lo hi e grad xi X Y N HU HM Lm HC HL HG Hlo HB h Hh Hd He LX LY HS r err Hn.
  assert (Ph : 0 < h). { destruct HU as ((_ & Be) & (_ & BA) & _). pose proof (p2_pos (-20)) as P. unfold p2 in P. apply Rmult_lt_0_compat; lra. }
  assert (MB : Forall (fun m => lo <= m <= hi) (map value ms)) by (apply Forall_map; exact HB).
  assert (MP : Forall (fun m => 0 < m) (map value ms)) by (eapply Forall_impl; [|exact MB]; cbn; intros; lra).
  assert (Hhi : 0 <= hi). { destruct ms as [|m ms']; [cbn in Lm; lia|]. inversion HB; subst. lra. }
  assert (R0 : 0 < lo * h * (2 * mu - h * hi * L ^ 2)) by (apply Rmult_lt_0_compat; [apply Rmult_lt_0_compat|]; lra).
  assert (R1 : 0 <= r < 1). { split; [apply sqrt_pos|]. unfold r. set (q := 1 - _). assert (Q : q < 1) by (unfold q; lra). clearbody q. destruct (Rle_or_lt 0 q) as [P|P]; [pose proof (sqrt_lt_1_alt q 1 (conj P Q)) as S; now rewrite sqrt_1 in S|]. rewrite sqrt_neg_0 by lra. lra. }
  assert (LEN : forall k, (k <= N)%nat -> length (l_vec (X k)) = n /\ length (Y k) = n).
  { induction k as [|k IH]; intros Hk; [auto|]. destruct (IH ltac:(lia)) as [I1 I2]. destruct (HS k ltac:(lia)) as (G1 & G2 & G3 & G4 & G5 & G6).
    destruct (C114_step_error c eps ms (grad k) (xi k) (X k) e n HU HM Lm G1 G2 I1 He G3) as (S1 & _). rewrite G5, G6. split; [exact S1|]. rewrite langevin_length; rewrite ?map_length, ?HG; congruence. }
  split; [lra|]. intros k Hk.
  apply (PMomentumBatch.geometric r err (fun k => sqrt (scaled_dist2 (map value ms) (map value (l_vec (X k))) (Y k))) N); [lra| |exact Hk]. clear k Hk. intros k Hk.
  destruct (LEN k ltac:(lia)) as [I1 I2]. destruct (LEN (S k) ltac:(lia)) as [J1 J2]. destruct (HS k ltac:(lia)) as (G1 & G2 & G3 & G4 & G5 & G6).
  destruct (C114_step_error c eps ms (grad k) (xi k) (X k) e n HU HM Lm G1 G2 I1 He G3) as (S1 & _ & _ & S2). rewrite <- G5 in S1, S2.
  set (W := map value ms) in *. set (x := map value (l_vec (X k))) in *. set (gs := map value (grad k)) in *. set (z := map value (xi k)) in *. set (y := Y k) in *.
  assert (LW : length W = n) by (unfold W; now rewrite map_length). assert (Lx : length x = n) by (unfold x; now rewrite map_length). assert (Lg : length gs = n) by (unfold gs; now rewrite map_length). assert (Lz : length z = n) by (unfold z; now rewrite map_length).
  assert (LD : forall g w, length g = n -> length w = n -> length (descend h W g w) = n) by (intros g w A B; rewrite descend_length; congruence).
  set (x1 := langevin (value eps) (value (l_A c)) (value (l_scale_grad c)) W gs z x) in *.
  assert (E1 : sqrt (scaled_dist2 W (map value (l_vec (X (S k)))) x1) <= sqrt (INR n / lo) * bpow radix2 (e - 46)).
  { pose proof (p2_pos (e - 46)) as PP. assert (0 <= INR n / lo) by (apply Rmult_le_pos; [apply pos_INR|left; now apply Rinv_0_lt_compat]).
    fold (p2 (e - 46)). rewrite <- (sqrt_pow2 (p2 (e - 46))) by lra. rewrite <- sqrt_mult by (auto; apply pow2_ge_0). apply sqrt_le_1_alt.
    replace (INR n / lo * p2 (e - 46) ^ 2) with (INR (length W) * (p2 (e - 46) ^ 2 / lo)) by (rewrite LW; unfold Rdiv; ring).
    apply near_dist; [exact Hlo|lra|eapply Forall_impl; [|exact MB]; cbn; intros; lra|rewrite map_length; congruence|unfold x1; rewrite langevin_length; congruence|].
    intros i v Hv. rewrite nth_error_map in Hv. destruct (nth_error (l_vec (X (S k))) i) as [q|] eqn:Eq; [|discriminate Hv]. injection Hv as <-. exact (S2 i q Eq). }
  assert (E2 : sqrt (scaled_dist2 W x1 (Y (S k))) <= r * sqrt (scaled_dist2 W x y) + h * sqrt hi * delta).
  { rewrite G6. unfold x1. rewrite !langevin_moves by (rewrite ?HG; congruence). rewrite kick_dist by (rewrite ?LD; rewrite ?HG; congruence).
    fold h. assert (T := PMinibatch.scaled_triangle W (descend h W gs x) (descend h W (G x) x) (descend h W (G y) y) MP ltac:(rewrite LD; rewrite ?HG; congruence) ltac:(rewrite LD; rewrite ?HG; congruence) ltac:(rewrite LD; rewrite ?HG; congruence)).
    assert (T1 := PMinibatch.descend_error h hi delta W gs (G x) x ltac:(lra) Hd MP ltac:(eapply Forall_impl; [|exact MB]; cbn; intros; lra) ltac:(congruence) ltac:(rewrite HG; congruence) ltac:(congruence) G4).
    assert (T2 := PMinibatch.contraction_root n h lo hi mu L U G W x y HC HL HG Hlo MB ltac:(lra) ltac:(lra) LW Lx I2). unfold factor in T2. fold r in T2. lra. }
  assert (T := PMinibatch.scaled_triangle W (map value (l_vec (X (S k)))) x1 (Y (S k)) MP ltac:(rewrite map_length; congruence) ltac:(unfold x1; rewrite langevin_length; congruence) ltac:(congruence)). unfold err. lra.
Qed.

(** The cost x^2/2, stepsize 1/4, start 10 and any noise up to 8 in size: the computed chain stays within 2^-39 of the
    exact one forever. *)
Definition toy : lconfig f64 := LConfig n1 n1.
Definition quarter : f64 := nfrac 1 4.
Fixpoint toy_run (xi : nat -> f64) (k : nat) : lstate f64 :=
  match k with O => linit (Tensor [1%nat] [nint 10]) | S k => let p := toy_run xi k in sgld_step toy quarter (l_vec p) [xi k] (Some [n1]) p end.
Fixpoint toy_exact (xi : nat -> f64) (k : nat) : list R :=
  match k with O => [10] | S k => langevin (/ 4) 1 1 [1] (toy_exact xi k) [value (xi k)] (toy_exact xi k) end.
Lemma quarter_value : value quarter = / 4. Proof. unfold value. vm_compute. lra. Qed.
Lemma toy_usual : usual_sgld quarter (l_A toy) (l_scale_grad toy).
Proof.
  destruct rep_1 as [F1 V1]. pose proof (p2_le (-20) (-2) ltac:(lia)) as B1. pose proof (p2_le 0 20 ltac:(lia)) as B2. pose proof (p2_le 0 100 ltac:(lia)) as B3. unfold p2 in *. change (bpow radix2 (-2)) with (/ 4) in B1. change (bpow radix2 0) with 1 in B2, B3.
  split; [split; [vm_compute; reflexivity|]; rewrite quarter_value; lra|]. cbn [l_A l_scale_grad toy]. split; split; [exact F1|rewrite V1; lra|exact F1|rewrite V1; lra].
Qed.
Lemma toy_mass : Forall (between64 (bpow radix2 (-20)) (bpow radix2 20)) [n1].
Proof.
  destruct rep_1 as [F1 V1]. pose proof (p2_le (-20) 0 ltac:(lia)) as B1. pose proof (p2_le 0 20 ltac:(lia)) as B2. unfold p2 in *. change (bpow radix2 0) with 1 in B1, B2. constructor; [|constructor]. split; [exact F1|]. rewrite V1. lra.
Qed.
Lemma toy_noise : 0 <= sqrt (2 * (/ 4 * 1 * 1) / (1 + 3 * guard)) <= 3 / 4.
Proof.
  split; [apply sqrt_pos|]. rewrite <- (sqrt_pow2 (3 / 4)) by lra. apply sqrt_le_1_alt. assert (G : 0 <= 3 * guard) by (unfold guard; lra). apply (Rmult_le_reg_r (1 + 3 * guard)); [lra|]. unfold Rdiv. rewrite (Rmult_assoc (2 * _)), Rinv_l by lra. nra.
Qed.
Lemma toy_within : forall x z, bounded64 5 x -> bounded64 3 z -> all_within 5 quarter (l_A toy) (l_scale_grad toy) [n1] [x] [x] [z].
Proof.
  intros x z [Fx Bx] [Fz Bz] [|i] m x' g z' H1 H2 H3 H4; try (cbn [nth_error] in H1; destruct i; discriminate H1). cbn [nth_error] in H1, H2, H3, H4.
  assert (m = n1) by congruence. assert (x' = x) by congruence. assert (g = x) by congruence. assert (z' = z) by congruence. subst.
  destruct rep_1 as [F1 V1]. pose proof toy_noise as T. change (bpow radix2 5) with 32 in *. change (bpow radix2 3) with 8 in Bz.
  unfold within. cbn [l_A l_scale_grad toy]. unfold sgld_drift. rewrite V1, quarter_value. change (bpow radix2 5) with 32. split; [split; [exact Fx|exact Bx]|]. split; [exact Fx|]. split; [exact Fz|].
  split; rewrite Rabs_mult; [rewrite (Rabs_right (/ 4 * 1 * 1)) by lra; lra|]. rewrite Rabs_right by lra. pose proof (Rabs_pos (value z)). nra.
Qed.
Lemma toy_state : forall xi, (forall k, bounded64 3 (xi k)) -> forall k, exists x, l_vec (toy_run xi k) = [x] /\ bounded64 5 x.
Proof.
  intros xi HX. induction k as [|k (x & E & B)].
  - exists (nint 10). split; [reflexivity|]. destruct (rep_int 10 ltac:(reflexivity)) as [F V]. split; [exact F|]. rewrite V. rewrite Rabs_right by lra. cbn. lra.
  - cbn [toy_run]. set (p := toy_run xi k) in *. rewrite E.
    destruct (C114_step_error toy quarter [n1] [x] [xi k] p 5 1 toy_usual toy_mass eq_refl eq_refl eq_refl ltac:(rewrite E; reflexivity) ltac:(lia) ltac:(rewrite E; now apply toy_within)) as (L & F & _ & N).
    set (p' := sgld_step _ _ _ _ _ _) in *. destruct (l_vec p') as [|y [|]]; try discriminate L. exists y. split; [reflexivity|]. inversion F as [|? ? Fy _]; subst. split; [exact Fy|].
    destruct (N O y eq_refl) as (x' & Hx & D). rewrite E in Hx. cbn [map langevin nth_error] in Hx. pose proof (f_equal (fun o => match o with Some v => v | None => 0 end) Hx) as EX. cbv beta iota in EX. rewrite <- EX in D. destruct rep_1 as [F1 V1]. cbn [l_A l_scale_grad toy] in D. rewrite V1, quarter_value in D.
    unfold sgld_theta, sgld_drift in D. pose proof toy_noise as T. set (sg := sqrt _) in *. change (5 - 46)%Z with (-41)%Z in D. pose proof (p2_le (-41) 0 ltac:(lia)) as P. unfold p2 in P. change (bpow radix2 0) with 1 in P.
    destruct B as [_ B]. destruct (HX k) as [_ Z]. change (bpow radix2 5) with 32 in *. change (bpow radix2 3) with 8 in Z. apply abs_inv in B. apply abs_inv in Z. apply abs_inv in D. apply Rabs_le. nra.
Qed.
Lemma toy_exact_length : forall xi k, length (toy_exact xi k) = 1%nat.
Proof. intros xi. induction k as [|k IH]; [reflexivity|]. cbn [toy_exact]. now rewrite langevin_length. Qed.
Definition half_square (v : list R) : R := match v with [x] => x ^ 2 / 2 | _ => 0 end.
Example C114_example :
  forall xi, (forall k, bounded64 3 (xi k)) -> forall k, exists x y,
  l_vec (toy_run xi k) = [x] /\ finite x /\ toy_exact xi k = [y] /\ Rabs (value x - y) <= bpow radix2 (-39).
Proof.
  intros xi HX k. destruct rep_1 as [F1 V1].
  assert (SC : strongly_convex 1 1 half_square (fun v => v)) by (intros [|x [|]] [|y [|]] H1 H2; try discriminate; cbn [half_square minus inner dist2]; nra).
  assert (LP : lipschitz 1 1 (fun v => v)) by (intros x y _ _; lra).
  destruct (C114_rounding_does_not_accumulate toy quarter [n1] 1 half_square (fun v => v) 1 1 0 1 1 5 (fun k => l_vec (toy_run xi k)) (fun k => [xi k]) (toy_run xi) (toy_exact xi) k
    toy_usual toy_mass eq_refl SC LP (fun z H => H) ltac:(lra)) as [_ H].
  - constructor; [|constructor]. rewrite V1. lra.
  - cbn [l_A toy]. rewrite V1, quarter_value. lra.
  - lra.
  - lia.
  - reflexivity.
  - reflexivity.
  - intros j _. destruct (toy_state xi HX j) as (x & E & B). rewrite E. split; [reflexivity|]. split; [reflexivity|]. split; [now apply toy_within|]. split; [cbn [map dist2]; lra|].
    split; [cbn [toy_run]; now rewrite E|]. cbn [toy_exact l_A l_scale_grad toy map]. now rewrite V1, quarter_value.
  - lia.
  - destruct (toy_state xi HX k) as (x & E & B). pose proof (toy_exact_length xi k) as L. destruct (toy_exact xi k) as [|y [|]] eqn:EY; try discriminate L. exists x, y. split; [exact E|]. split; [exact (proj1 B)|]. split; [reflexivity|].
    specialize (H k (le_n _)). rewrite E, EY in H. cbn [l_A toy toy_run toy_exact linit l_vec data map scaled_dist2 INR] in H. rewrite V1, quarter_value in H. destruct (rep_int 10 ltac:(reflexivity)) as [_ V]. rewrite V in H.
    replace (1 - 1 * (/ 4 * 1) * (2 * 1 - / 4 * 1 * 1 * 1 ^ 2)) with ((3 / 4) ^ 2) in H by field. rewrite (sqrt_pow2 (3 / 4)) in H by lra.
    replace ((10 - 10) ^ 2 / 1 + 0) with 0 in H by field. replace ((value x - y) ^ 2 / 1 + 0) with (Rsqr (value x - y)) in H by (unfold Rsqr; field). rewrite sqrt_Rsqr_abs, sqrt_0 in H. replace (1 / 1) with 1 in H by field. rewrite sqrt_1 in H.
    change (5 - 46)%Z with (-41)%Z in H. change (-39)%Z with (2 + -41)%Z. rewrite bpow_plus. change (bpow radix2 2) with 4. pose proof (p2_pos (-41)) as P. unfold p2 in P. set (b := bpow radix2 (-41)) in *.
    assert (Q : 0 <= (3 / 4) ^ k) by (apply pow_le; lra). set (q := (3 / 4) ^ k) in *. replace ((/ 4 * 1 * 1 * 0 + 1 * b) / (1 - 3 / 4)) with (4 * b) in H by field. nra.
Qed.
