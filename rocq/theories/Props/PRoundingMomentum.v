(** C115: one step of SGHMC in double precision is close to the exact step. *)
From Coq Require Import List Arith Lia ZArith Bool Reals Lra Psatz.
From Flocq Require Import Core.Core.
From Flocq Require IEEE754.BinarySingleNaN.
From Verif.Proofs Require Import FloatCell SafeFloat FloatAdapt.
From Verif.Base Require Import Py Num Float64 Vec Lists.
From Verif.Model Require Import TensorUtils BurnIn SGHMC.
From Verif.Spec Require Import Doubles Dynamics RoundingMomentum.
From Verif.Proofs Require Import DoubleCell DoubleRun DoubleStein DoubleKernel DoubleRel.
From Verif.Props Require Import PDoubleData PDoubleTensor PRounding.
From Verif.Props Require PDoubleObjectives.
Import ListNotations.
Local Open Scope R_scope.

(** A difference whose subtrahend is at most half of the minuend. *)
Lemma pos_sub : forall x y r s k1 k2 a1 b1 a2 b2, pos x r k1 a1 b1 -> pos y s k2 a2 b2 -> s <= r / 2 -> 2 * k1 + k2 <= 98 -> (-900 <= a1 - 1)%Z -> (b1 <= 900)%Z -> (-900 <= b1)%Z ->
  finite (nsub x y) /\ near (2 * k1 + k2 + 2) (value (nsub x y)) (r - s) /\ p2 (a1 - 1) <= r - s <= p2 b1.
Proof.
  intros x y r s k1 k2 a1 b1 a2 b2 X Y HS LK LA LB LC. destruct (pos_value _ _ _ _ _ X) as [PX VX]. destruct (pos_value _ _ _ _ _ Y) as [PY VY]. destruct X as (FX & NX & BX & KX), Y as (FY & NY & BY & KY).
  assert (B : p2 (a1 - 1) <= r - s <= p2 b1). { replace a1 with (1 + (a1 - 1))%Z in BX, PX by lia. rewrite p2_plus in BX, PX. change (p2 1) with 2 in BX, PX. lra. }
  assert (N : near (2 * k1 + k2) (value x - value y) (r - s)).
  { destruct NX as [X1 X2], NY as [Y1 Y2]. pose proof dl_range as D. assert (Q1 : 0 <= k1 * dl) by nra. assert (Q2 : 0 <= k2 * dl) by nra. set (p := k1 * dl) in *. set (q := k2 * dl) in *. unfold near. replace ((2 * k1 + k2) * dl) with (2 * p + q) by (unfold p, q; ring). split; nra. }
  pose proof (p2_pos (a1 - 1)) as Pa. destruct (near_small (2 * k1 + k2) _ (r - s) ltac:(lra) ltac:(lra) N) as [M _].
  assert (R : rep (nsub x y) (rnd64 (value x - value y))). { apply rep_sub; [now apply rep_value..|]. apply (below (b1 + 1)); [lia|]. rewrite Rabs_right by lra. rewrite p2_plus. change (p2 1) with 2. lra. }
  destruct R as [F V]. split; [exact F|]. split; [|exact B]. rewrite V. apply near_rnd; [lra| |exact N]. pose proof (p2_le (-1000) (a1 - 1) ltac:(lia)). lra.
Qed.
Lemma near_max : forall k x y r s, 0 <= k <= 100 -> near k x r -> near k y s -> near k (Rmax x y) (Rmax r s).
Proof.
  intros k x y r s K [X1 X2] [Y1 Y2]. pose proof (dlk k K) as D. set (p := k * dl) in *. unfold near. fold p. unfold Rmax. destruct (Rle_dec x y), (Rle_dec r s); split; nra.
Qed.
Lemma near_more : forall k k' x r, 0 <= r -> k <= k' -> near k x r -> near k' x r.
Proof. intros k k' x r P L [A B]. pose proof dl_range. assert (0 <= (k' - k) * dl * r) by (apply Rmult_le_pos; [apply Rmult_le_pos|]; lra). split; lra. Qed.
Lemma guard_near : near 2 (value (nfrac 1 10000000000000000)) guard /\ finite (nfrac 1 10000000000000000 : f64).
Proof.
  assert (F : finite (nfrac 1 10000000000000000 : f64)) by (vm_compute; reflexivity). split; [|exact F].
  assert (E : Rabs (value (nfrac 1 10000000000000000) - guard) <= / 25000000000000000000000000000000). { apply Rabs_le. unfold value, guard. vm_compute. lra. }
  apply abs_inv in E. unfold near, dl, p2, guard in *. change (bpow radix2 (-52)) with (/ 4503599627370496). lra.
Qed.

(** *** One entry *)
Section Entry.
Variables (c : config f64) (eps m : f64).
Hypothesis HU : usual_sghmc eps (mdecay c) (scale_grad c).
Hypothesis Hm : usual_mass eps (mdecay c) (scale_grad c) m.
Let h := value eps ^ 2 * value m.
Let var := sghmc_noise_var (value eps) (value (mdecay c)) (value (scale_grad c)) (value m).
Let sig := sqrt (Rmax var guard).
Lemma push : let q := nmul (nopp (npow eps 2)) m in finite q /\ value q <= 0 /\ near 6 (- value q) h /\ 0 < h.
Proof.
  destruct HU as ((Fe & Be) & _). destruct Hm as [[Fm Bm] _].
  pose proof (pos_self eps (-20) 20 Fe Be) as PE. pose proof (pos_self m (-20) 20 Fm Bm) as PM.
  pose proof (pos_mul _ _ _ _ _ _ _ _ _ _ PE PE ltac:(lia) ltac:(lia) ltac:(lra) ltac:(lia)) as P1. change (nmul eps eps) with (npow eps 2) in P1.
  pose proof (pos_mul _ _ _ _ _ _ _ _ _ _ P1 PM ltac:(lia) ltac:(lia) ltac:(lra) ltac:(lia)) as P.
  cbv zeta. set (e2 := npow eps 2) in *. destruct (pos_value _ _ _ _ _ P1) as [_ V1]. destruct (rep_opp _ _ (rep_value _ (proj1 P1))) as [FO VO].
  assert (B2 : bounded64 61 (nmul (nopp e2) m)).
  { apply (b_mul _ _ 41 20); [split; [exact FO|]; rewrite VO, Rabs_Ropp, Rabs_right by lra|split; [exact Fm|]; rewrite Rabs_right; [lra|]; pose proof (p2_pos (-20)); unfold p2 in *; lra|lia|lia].
    change 41%Z with (1 + (20 + 20))%Z. rewrite bpow_plus. change (bpow radix2 1) with 2. exact (proj2 V1). }
  assert (E2 : value (nmul (nopp e2) m) = - value (nmul e2 m)). { rewrite (mul_value _ _ (proj1 B2)), (mul_value _ _ (proj1 P)), VO. rewrite <- rnd64_opp. f_equal. ring. }
  destruct (pos_value _ _ _ _ _ P) as [PP VP]. destruct P as (_ & NP & BP & _). split; [exact (proj1 B2)|]. rewrite E2, Ropp_involutive. split; [lra|].
  replace (0 + 0 + 3 + 0 + 3) with 6 in NP by ring. replace (value eps * value eps * value m) with h in * by (unfold h; ring). split; [exact NP|]. lra.
Qed.
Lemma spread : finite (sigma c eps m) /\ near 85 (value (sigma c eps m)) sig.
Proof.
  destruct HU as ((Fe & Be) & (FA & BA) & (Fs & Bs)). destruct Hm as [[Fm Bm] HQ].
  pose proof (pos_self eps (-20) 20 Fe Be) as PE. pose proof (pos_self m (-20) 20 Fm Bm) as PM. pose proof (pos_self (mdecay c) (-20) 0 FA BA) as PA. pose proof (pos_self (scale_grad c) 0 100 Fs Bs) as PS.
  assert (PR : pos (nsqrt (scale_grad c)) (sqrt (value (scale_grad c))) 2 0 50).
  { destruct (pos_sqrt _ _ _ _ _ 0 50 PS ltac:(lia) ltac:(lia) ltac:(lia) ltac:(lra)) as (F & N & B & K). assert (R : rep (nsqrt (scale_grad c)) (rnd64 (sqrt (value (scale_grad c))))) by (apply rep_sqrt; [now apply rep_value|lra]).
    assert (R' : rep (safe_sqrt (scale_grad c)) (rnd64 (sqrt (value (scale_grad c))))).
    { unfold safe_sqrt, safe_sqrt_with, clip_by_value. apply rep_sqrt; [|lra]. replace (value (scale_grad c)) with (Rmax (value (scale_grad c)) 0) by (apply Rmax_left; lra). apply rep_max; [now apply rep_value|apply rep_0]. }
    destruct R as [F1 V1], R' as [F2 V2]. split; [exact F1|]. split; [rewrite V1, <- V2; replace 2 with (0 + 2) by ring; exact N|]. split; [exact B|lra]. }
  pose proof (pos_div _ _ _ _ _ _ _ _ _ _ PE PR ltac:(lia) ltac:(lia) ltac:(lra) ltac:(lia)) as P1. fold (epsilon_scaled c eps) in P1. set (es := epsilon_scaled c eps) in *. set (r := value eps / sqrt (value (scale_grad c))) in *.
  pose proof (pos_mul _ _ _ _ _ _ _ _ _ _ P1 P1 ltac:(lia) ltac:(lia) ltac:(lra) ltac:(lia)) as P2'.
  pose proof (pos_mul _ _ _ _ _ _ _ _ _ _ P1 P2' ltac:(lia) ltac:(lia) ltac:(lra) ltac:(lia)) as P3.
  pose proof (pos_mul _ _ _ _ _ _ _ _ _ _ P1 P3 ltac:(lia) ltac:(lia) ltac:(lra) ltac:(lia)) as P4.
  assert (PT : pos n2 2 0 1 1) by (destruct rep_2 as [F2 V2]; split; [exact F2|]; split; [rewrite V2; apply near_refl|]; split; [change (p2 1) with 2; lra|lra]).
  pose proof (pos_mul _ _ _ _ _ _ _ _ _ _ PT P2' ltac:(lia) ltac:(lia) ltac:(lra) ltac:(lia)) as Q1.
  pose proof (pos_mul _ _ _ _ _ _ _ _ _ _ Q1 PA ltac:(lia) ltac:(lia) ltac:(lra) ltac:(lia)) as Q2.
  pose proof (pos_mul _ _ _ _ _ _ _ _ _ _ Q2 PM ltac:(lia) ltac:(lia) ltac:(lra) ltac:(lia)) as Q3.
  assert (HR : r * r = value eps ^ 2 / value (scale_grad c)). { unfold r. pose proof (sqrt_sqrt (value (scale_grad c)) ltac:(change (p2 0) with 1 in *; destruct Bs; lra)) as SS. assert (0 < sqrt (value (scale_grad c))) by (apply sqrt_lt_R0; destruct Bs; lra). rewrite <- SS at 3. field. lra. }
  assert (HV : var = 2 * (r * r) * value (mdecay c) * value m - r * (r * (r * r))) by (unfold var, sghmc_noise_var; rewrite <- HR; ring).
  assert (HL : r * (r * (r * r)) <= 2 * (r * r) * value (mdecay c) * value m / 2).
  { rewrite <- HR in HQ. assert (0 <= r * r) by apply Rle_0_sqr. replace (r * (r * (r * r))) with (r * r * (r * r)) by ring. replace (2 * (r * r) * value (mdecay c) * value m / 2) with (r * r * (value (mdecay c) * value m)) by field. apply Rmult_le_compat_l; assumption. }
  set (A := nmul (nmul (nmul n2 (nmul es es)) (mdecay c)) m) in *. set (F4 := nmul es (nmul es (nmul es es))) in *.
  assert (ZT : rep (nmul (nmul (nmul n2 (npow es 3)) (npow m 2)) noise) 0).
  { change (npow es 3) with (nmul es (nmul es es)). change (npow m 2) with (nmul m m). pose proof (pos_mul _ _ _ _ _ _ _ _ _ _ PT P3 ltac:(lia) ltac:(lia) ltac:(lra) ltac:(lia)) as Z1. pose proof (pos_mul _ _ _ _ _ _ _ _ _ _ PM PM ltac:(lia) ltac:(lia) ltac:(lra) ltac:(lia)) as Z2.
    pose proof (pos_mul _ _ _ _ _ _ _ _ _ _ Z1 Z2 ltac:(lia) ltac:(lia) ltac:(lra) ltac:(lia)) as Z3. rewrite <- rnd64_0. rewrite <- (Rmult_0_r (value (nmul (nmul n2 (nmul es (nmul es es))) (nmul m m)))). apply rep_mul; [exact (rep_value _ (proj1 Z3))|apply rep_0|]. rewrite Rmult_0_r, rnd64_0, Rabs_R0. pose proof (value_bound n1). pose proof (Rabs_pos (value n1)). lra. }
  set (Z := nmul (nmul (nmul n2 (npow es 3)) (npow m 2)) noise) in *.
  assert (RA : rep (nsub A Z) (value A)). { rewrite <- (value_round A). replace (value A) with (value A - 0) at 1 by ring. apply rep_sub; [exact (rep_value _ (proj1 Q3))|exact ZT|]. rewrite Rminus_0_r, value_round. apply value_bound. }
  destruct RA as [FA' VA']. assert (Q4 : pos (nsub A Z) (2 * (r * r) * value (mdecay c) * value m) (0 + (0 + 2 + 4 + (0 + 2 + 4) + 3) + 3 + 0 + 3 + 0 + 3) (1 + (-20 - 50 + (-20 - 50)) + -20 + -20) (1 + (20 - 0 + (20 - 0)) + 0 + 20)).
  { destruct Q3 as (_ & G2 & G3 & G4). split; [exact FA'|]. rewrite VA'. split; [|split; [exact G3|lra]]. match type of G2 with near ?k _ _ => replace (0 + (0 + 2 + 4 + (0 + 2 + 4) + 3) + 3 + 0 + 3 + 0 + 3) with k by ring end. exact G2. }
  destruct (pos_sub _ _ _ _ _ _ _ _ _ _ Q4 P4 HL ltac:(lra) ltac:(lia) ltac:(lia) ltac:(lia)) as (FD & ND & BD). rewrite <- HV in ND, BD.
  change (nsub (nsub A Z) F4) with (SGHMC.noise_scale c eps m) in *. set (ns := SGHMC.noise_scale c eps m) in *.
  destruct guard_near as [NG FG]. assert (PG : 0 < guard) by (unfold guard; lra). set (gd := nfrac 1 10000000000000000 : f64) in *. pose proof (p2_pos (1 + (-20 - 50 + (-20 - 50)) + -20 + -20 - 1)) as PV.
  assert (NM : near 83 (Rmax (value ns) (value gd)) (Rmax var guard)).
  { apply near_max; [lra| |]; [match type of ND with near ?k _ _ => apply (near_more k); [lra|lra|exact ND] end|apply (near_more 2); [lra|lra|exact NG]]. }
  assert (PM' : guard <= Rmax var guard) by apply Rmax_r. destruct (near_small 83 _ (Rmax var guard) ltac:(lra) ltac:(lra) NM) as [M1 _].
  assert (R : rep (sigma c eps m) (rnd64 (sqrt (Rmax (value ns) (value gd))))). { unfold sigma. apply rep_sqrt; [|lra]. apply rep_max; now apply rep_value. }
  destruct R as [F V]. split; [exact F|]. rewrite V. replace 85 with (83 + 2) by ring. apply near_rnd; [lra| |apply near_sqrt; [lra|lra|exact NM]].
  assert (S1 : p2 (-30) <= sqrt guard). { replace (p2 (-30)) with (sqrt (p2 (-60))) by (change (-60)%Z with (-30 + -30)%Z; rewrite p2_plus; apply sqrt_square; left; apply p2_pos). apply sqrt_le_1_alt. unfold p2, guard. change (bpow radix2 (-60)) with (/ 1152921504606846976). lra. }
  eapply Rle_trans; [apply (p2_le (-1000) (-30)); lia|]. eapply Rle_trans; [exact S1|]. exact (sqrt_le_1_alt _ _ PM').
Qed.
Variables (x v g xi : f64) (e : Z).
Hypothesis He : (-900 <= e <= 1000)%Z.
Hypothesis HW : moderate_entry e eps (mdecay c) (scale_grad c) m g xi v x.
Lemma scaled_entry : forall q y a k, finite q -> finite y -> near k (Rabs (value q)) a -> 0 <= k <= 98 -> 0 <= a -> Rabs (a * value y) <= p2 e ->
  bounded64 (e + 1) (nmul q y) /\ forall t, Rabs (t - value q * value y) <= k * dl * (a * Rabs (value y)) -> Rabs (value (nmul q y) - t) <= (k + 2) * p2 (e - 52).
Proof.
  intros q y a k Fq Fy N K Pa Hy. destruct (near_small k _ _ ltac:(lra) Pa N) as [Q1 Q2]. pose proof (Rabs_pos (value y)) as Py. rewrite Rabs_mult, (Rabs_right a) in Hy by lra.
  assert (Q3 : Rabs (value q * value y) <= p2 (e + 1)). { rewrite Rabs_mult, p2_plus. change (p2 1) with 2. nra. }
  assert (R : rep (nmul q y) (rnd64 (value q * value y))) by (apply rep_mul; [now apply rep_value..|]; apply (below (e + 1)); [lia|exact Q3]).
  destruct R as [F V]. split.
  - split; [exact F|]. rewrite V. apply (rnd64_bound (e + 1)); [lia|exact Q3].
  - intros t Ht. rewrite V. pose proof (rnd64_err (e + 1) _ ltac:(lia) Q3) as E1. replace (e + 1 - 52)%Z with (1 + (e - 52))%Z in E1 by lia. rewrite p2_plus in E1. change (p2 1) with 2 in E1.
    replace (p2 (e - 52)) with (p2 e * dl) in * by (unfold dl; rewrite <- p2_plus; f_equal; lia). pose proof dl_range.
    assert (k * dl * (a * Rabs (value y)) <= k * dl * p2 e) by (apply Rmult_le_compat_l; [nra|exact Hy]).
    apply abs_inv in E1. apply abs_inv in Ht. apply Rabs_le. lra.
Qed.
Lemma rounded_sum : forall a b ea eb f, bounded64 ea a -> bounded64 eb b -> (ea < e + f)%Z -> (eb < e + f)%Z -> (0 <= f <= 20)%Z ->
  bounded64 (e + f) (nadd a b) /\ Rabs (value (nadd a b) - (value a + value b)) <= p2 f * p2 (e - 52).
Proof.
  intros a b ea eb f Ba Bb L1 L2 Lf. assert (B : bounded64 (e + f) (nadd a b)) by (apply (b_add _ _ ea eb); [exact Ba|exact Bb|lia..]). split; [exact B|].
  rewrite (add_value _ _ (proj1 Ba) (proj1 Bb) (proj1 B)), <- p2_plus. replace (f + (e - 52))%Z with (e + f - 52)%Z by lia. apply rnd64_err; [lia|].
  eapply Rle_trans; [apply Rabs_triang|]. pose proof (proj2 Ba) as C1. pose proof (proj2 Bb) as C2. pose proof (p2_le ea (e + f - 1) ltac:(lia)). pose proof (p2_le eb (e + f - 1) ltac:(lia)). replace (e + f)%Z with (1 + (e + f - 1))%Z by lia. rewrite (p2_plus 1). change (p2 1) with 2. unfold p2 in *. lra.
Qed.
Lemma rounded_difference : forall a b ea eb f, bounded64 ea a -> bounded64 eb b -> (ea < e + f)%Z -> (eb < e + f)%Z -> (0 <= f <= 20)%Z ->
  bounded64 (e + f) (nsub a b) /\ Rabs (value (nsub a b) - (value a - value b)) <= p2 f * p2 (e - 52).
Proof.
  intros a b ea eb f Ba Bb L1 L2 Lf. assert (B : bounded64 (e + f) (nsub a b)) by (apply (PDoubleObjectives.b_sub _ _ ea eb); [exact Ba|exact Bb|lia..]). split; [exact B|].
  rewrite (sub_value _ _ (proj1 Ba) (proj1 Bb) (proj1 B)), <- p2_plus. replace (f + (e - 52))%Z with (e + f - 52)%Z by lia. apply rnd64_err; [lia|].
  unfold Rminus. eapply Rle_trans; [apply Rabs_triang|]. rewrite Rabs_Ropp. pose proof (proj2 Ba) as C1. pose proof (proj2 Bb) as C2. pose proof (p2_le ea (e + f - 1) ltac:(lia)). pose proof (p2_le eb (e + f - 1) ltac:(lia)). replace (e + f)%Z with (1 + (e + f - 1))%Z by lia. rewrite (p2_plus 1). change (p2 1) with 2. unfold p2 in *. lra.
Qed.
Lemma momentum_error :
  let v' := nadd v (nadd (nsub (nmul (nmul (nopp (npow eps 2)) m) g) (nmul (mdecay c) v)) (nmul (sigma c eps m) xi)) in
  let w := sghmc_momentum (value eps) (value (mdecay c)) (value (scale_grad c)) (value m) (value g) (value xi) (value v) in
  finite v' /\ Rabs (value v' - w) <= p2 (e - 45) /\ finite (nadd x v') /\ Rabs (value (nadd x v') - (value x + w)) <= p2 (e - 44).
Proof.
  cbv zeta. destruct push as (Fq & Nq & NQ & Ph). destruct spread as (Fs & NS). destruct HW as (Bx & Bv & Fg & Fxi & W1 & W2). fold h in W1. fold var in W2. fold sig in W2. destruct HU as (_ & (FA & BA) & _).
  assert (Ps : 0 <= sig) by apply sqrt_pos. destruct (near_small 85 _ _ ltac:(lra) Ps NS) as [PS DS]. destruct (near_small 6 _ h ltac:(lra) ltac:(lra) NQ) as [PQ DQ].
  set (q := nmul (nopp (npow eps 2)) m) in *. set (s := sigma c eps m) in *. fold (p2 e) in W1, W2.
  destruct (scaled_entry q g h 6 Fq Fg) as [B1 E1]; [rewrite Rabs_left1 by lra; exact NQ|lra|lra|exact W1|].
  destruct (scaled_entry s xi sig 85 Fs Fxi) as [B2 E2]; [rewrite Rabs_right by lra; exact NS|lra|lra|exact W2|].
  assert (E1' : Rabs (value (nmul q g) - - h * value g) <= (6 + 2) * p2 (e - 52)).
  { apply E1. replace (- h * value g - value q * value g) with ((- value q - h) * value g) by ring. rewrite Rabs_mult, <- Rmult_assoc. apply Rmult_le_compat_r; [apply Rabs_pos|exact DQ]. }
  assert (E2' : Rabs (value (nmul s xi) - sig * value xi) <= (85 + 2) * p2 (e - 52)).
  { apply E2. replace (sig * value xi - value s * value xi) with (- (value s - sig) * value xi) by ring. rewrite Rabs_mult, Rabs_Ropp, <- Rmult_assoc. apply Rmult_le_compat_r; [apply Rabs_pos|exact DS]. }
  assert (QA : Rabs (value (mdecay c) * value v) <= p2 e). { pose proof (proj2 Bv) as C. fold (p2 e) in C. pose proof (p2_pos (-20)) as P. unfold p2 in P. rewrite Rabs_mult, (Rabs_right (value (mdecay c))) by lra. pose proof (Rabs_pos (value v)). nra. }
  assert (RA : rep (nmul (mdecay c) v) (rnd64 (value (mdecay c) * value v))) by (apply rep_mul; [now apply rep_value|exact (rep_value _ (proj1 Bv))|]; apply (below e); [lia|exact QA]).
  destruct RA as [FAv VAv]. assert (BAv : bounded64 e (nmul (mdecay c) v)) by (split; [exact FAv|]; rewrite VAv; apply (rnd64_bound e); [lia|exact QA]). pose proof (rnd64_err e _ ltac:(lia) QA) as EA. rewrite <- VAv in EA.
  set (D := nmul q g) in *. set (S := nmul s xi) in *. set (A := nmul (mdecay c) v) in *.
  destruct (rounded_difference D A _ _ 2 B1 BAv ltac:(lia) ltac:(lia) ltac:(lia)) as [B3 E3]. destruct (rounded_sum (nsub D A) S _ _ 3 B3 B2 ltac:(lia) ltac:(lia) ltac:(lia)) as [B4 E4].
  destruct (rounded_sum v _ _ _ 4 Bv B4 ltac:(lia) ltac:(lia) ltac:(lia)) as [B5 E5]. destruct (rounded_sum x _ _ _ 5 Bx B5 ltac:(lia) ltac:(lia) ltac:(lia)) as [B6 E6].
  change (p2 2) with 4 in E3. change (p2 3) with 8 in E4. change (p2 4) with 16 in E5. change (p2 5) with 32 in E6.
  replace (e - 45)%Z with (7 + (e - 52))%Z by lia. replace (e - 44)%Z with (8 + (e - 52))%Z by lia. rewrite !p2_plus. change (p2 7) with 128. change (p2 8) with 256.
  unfold sghmc_momentum. fold var sig. replace (value eps ^ 2 * value m * value g) with (h * value g) by reflexivity.
  apply abs_inv in E1'. apply abs_inv in E2'. apply abs_inv in EA. apply abs_inv in E3. apply abs_inv in E4. apply abs_inv in E5. apply abs_inv in E6. pose proof (p2_pos (e - 52)).
  split; [exact (proj1 B5)|]. split; [apply Rabs_le; split; lra|]. split; [exact (proj1 B6)|apply Rabs_le; split; lra].
Qed.
End Entry.

(** One step with fed masses: the new momentum and the new value of every entry are finite, and within 2^(e-45) and
    2^(e-44) of those of the exact step. *)
Theorem C115_sghmc_step_error :
  forall c eps ms grad xi p e, usual_sghmc eps (mdecay c) (scale_grad c) -> (-900 <= e <= 1000)%Z ->
  let p' := sghmc_step c eps grad xi (Some ms) p in data (p_val p') = p_vec p' /\
  forall i m g z v x, nth_error ms i = Some m -> nth_error grad i = Some g -> nth_error xi i = Some z -> nth_error (p_mom p) i = Some v -> nth_error (p_vec p) i = Some x ->
  usual_mass eps (mdecay c) (scale_grad c) m -> moderate_entry e eps (mdecay c) (scale_grad c) m g z v x ->
  exists v' x', nth_error (p_mom p') i = Some v' /\ nth_error (p_vec p') i = Some x' /\ finite v' /\ finite x' /\
    let w := sghmc_momentum (value eps) (value (mdecay c)) (value (scale_grad c)) (value m) (value g) (value z) (value v) in
    Rabs (value v' - w) <= bpow radix2 (e - 45) /\ Rabs (value x' - (value x + w)) <= bpow radix2 (e - 44).
Proof.
  intros c eps ms grad xi p e HU He p'. split; [reflexivity|]. intros i m g z v x E1 E2 E3 E4 E5 HM HW.
  destruct (momentum_error c eps m HU HM x v g z e He HW) as (F1 & D1 & F2 & D2).
  eexists. eexists. unfold p', sghmc_step. cbn [p_mom p_vec minv_used]. rewrite !nth_error_vmap2, !nth_error_map, E1, E2, E3, E4, E5. cbn [option_map].
  split; [reflexivity|]. split; [reflexivity|]. split; [exact F1|]. split; [exact F2|]. split; [exact D1|exact D2].
Qed.

(** *** Example: x = 3, momentum 1/2, gradient 3, noise -1, mass 2, stepsize 1/4, friction 1/2 *)
Definition swing : config f64 := Config (nfrac 1 2) n1.
Definition swing_state : pstate f64 := PState (adapt_init 1) [nfrac 1 2] [nint 3] (Tensor [1%nat] [nint 3]).
Lemma half_rep : rep (nfrac 1 2) (/ 2). Proof. split; [vm_compute; reflexivity|]. unfold value. vm_compute. lra. Qed.
Example C115_example :
  usual_sghmc quarter (mdecay swing) (scale_grad swing) /\ usual_mass quarter (mdecay swing) (scale_grad swing) n2 /\
  moderate_entry 2 quarter (mdecay swing) (scale_grad swing) n2 (nint 3) (nint (-1)) (nfrac 1 2) (nint 3) /\
  exists v' x', p_mom (sghmc_step swing quarter [nint 3] [nint (-1)] (Some [n2]) swing_state) = [v'] /\ p_vec (sghmc_step swing quarter [nint 3] [nint (-1)] (Some [n2]) swing_state) = [x'] /\
    Rabs (value v' - (/ 4 - 3 / 8 - sqrt (/ 8 - / 256))) <= bpow radix2 (-43) /\ Rabs (value x' - (3 + (/ 4 - 3 / 8 - sqrt (/ 8 - / 256)))) <= bpow radix2 (-42).
Proof.
  destruct rep_1 as [F1 V1], rep_2 as [F2 V2], half_rep as [FH VH], (rep_int 3 ltac:(lia)) as [F3 V3], (rep_int (-1) ltac:(lia)) as [FM VM]. assert (FQ : finite quarter) by (vm_compute; reflexivity). pose proof quarter_value as VQ.
  pose proof (p2_le (-20) (-2) ltac:(lia)) as L1. pose proof (p2_le 1 20 ltac:(lia)) as L2. pose proof (p2_le 0 100 ltac:(lia)) as L3. unfold p2 in *. change (bpow radix2 (-2)) with (/ 4) in L1. change (bpow radix2 1) with 2 in L2. change (bpow radix2 0) with 1 in L3.
  assert (U : usual_sghmc quarter (mdecay swing) (scale_grad swing)). { cbn [mdecay scale_grad swing]. split; [split; [exact FQ|rewrite VQ; lra]|]. split; split; [exact FH|rewrite VH; lra|exact F1|rewrite V1; lra]. }
  assert (M : usual_mass quarter (mdecay swing) (scale_grad swing) n2). { cbn [mdecay scale_grad swing]. split; [split; [exact F2|rewrite V2; lra]|]. rewrite VQ, V1, VH, V2. lra. }
  assert (VV : Rmax (sghmc_noise_var (/ 4) (/ 2) 1 2) guard = / 8 - / 256). { unfold sghmc_noise_var. rewrite Rmax_left by (unfold guard; lra). lra. }
  assert (S1 : 0 <= sqrt (/ 8 - / 256) <= 1). { split; [apply sqrt_pos|]. pose proof (sqrt_le_1_alt (/ 8 - / 256) 1 ltac:(lra)) as SL. rewrite sqrt_1 in SL. exact SL. }
  assert (W : moderate_entry 2 quarter (mdecay swing) (scale_grad swing) n2 (nint 3) (nint (-1)) (nfrac 1 2) (nint 3)).
  { unfold moderate_entry, bounded64. cbn [mdecay scale_grad swing]. rewrite VQ, V1, VH, V2, V3, VM, VV. change (bpow radix2 2) with 4.
    split; [split; [exact F3|rewrite Rabs_right; lra]|]. split; [split; [exact FH|rewrite Rabs_right; lra]|]. split; [exact F3|]. split; [exact FM|]. split; apply Rabs_le; lra. }
  split; [exact U|]. split; [exact M|]. split; [exact W|].
  destruct (C115_sghmc_step_error swing quarter [n2] [nint 3] [nint (-1)] swing_state 2 U ltac:(lia)) as [_ H].
  destruct (H O n2 (nint 3) (nint (-1)) (nfrac 1 2) (nint 3) eq_refl eq_refl eq_refl eq_refl eq_refl M W) as (v' & x' & E1 & E2 & _ & _ & D1 & D2).
  exists v', x'. set (p' := sghmc_step _ _ _ _ _ _) in *.
  assert (L : length (p_mom p') = 1%nat /\ length (p_vec p') = 1%nat) by (split; reflexivity). destruct L as [LM LV]. clearbody p'.
  destruct (p_mom p') as [|? [|? ?]]; try discriminate LM. destruct (p_vec p') as [|? [|? ?]]; try discriminate LV. cbn [nth_error] in E1, E2.
  split; [congruence|]. split; [congruence|]. unfold sghmc_momentum in D1, D2. cbn [mdecay scale_grad swing] in D1, D2. rewrite VQ, V1, VH, V2, V3, VM, VV in D1, D2. change (2 - 45)%Z with (-43)%Z in D1. change (2 - 44)%Z with (-42)%Z in D2.
  replace (/ 2 - (/ 4) ^ 2 * 2 * 3 - / 2 * / 2 + sqrt (/ 8 - / 256) * -1) with (/ 4 - 3 / 8 - sqrt (/ 8 - / 256)) in D1, D2 by field. split; assumption.
Qed.
