(** C111: the Gaussian mixtures in double precision. *)
From Coq Require Import List Arith Lia ZArith Bool Reals Lra.
From Flocq Require Import Core.Core.
From Flocq Require IEEE754.BinarySingleNaN.
From Verif.Proofs Require Import FloatCell SafeFloat FloatAdapt.
From Verif.Base Require Import Py Num Float64 Vec Lists.
From Verif.Model Require Import Objectives.
From Verif.Spec Require Import Svgd Doubles Optima DoubleMixture.
From Verif.Proofs Require Import DoubleCell DoubleRun DoubleMean DoubleStein DoubleKernel.
From Verif.Props Require Import PDoubleData PDoubleSvgd PDoubleObjectives.
From Verif.Props Require PObjectives.
Import ListNotations.
Local Open Scope R_scope.

(** *** A double near a real number *)
Definition near (x : f64) (r : R) (d e : Z) : Prop := bounded64 e x /\ Rabs (value x - r) <= p2 d.
Lemma near_self : forall x d e, bounded64 e x -> near x (value x) d e.
Proof. intros x d e B. split; [exact B|]. rewrite Rminus_diag_eq, Rabs_R0 by reflexivity. left. apply p2_pos. Qed.
Lemma three : forall a b c d, (a <= d - 2)%Z -> (b <= d - 2)%Z -> (c <= d - 2)%Z -> p2 a + p2 b + p2 c <= p2 d.
Proof.
  intros a b c d A B C. replace d with (2 + (d - 2))%Z by lia. rewrite (p2_plus 2). change (p2 2) with 4. pose proof (p2_le a (d - 2) A). pose proof (p2_le b (d - 2) B). pose proof (p2_le c (d - 2) C). pose proof (p2_pos (d - 2)). lra.
Qed.
Lemma near_round : forall x q r d e, bounded64 e x -> value x = rnd64 q -> Rabs q <= p2 e -> (-1021 <= e)%Z -> Rabs (q - r) + p2 (e - 52) <= p2 d -> near x r d e.
Proof. intros x q r d e B V Q He H. split; [exact B|]. rewrite V. pose proof (rnd64_err e q He Q) as E. pose proof (Rabs_triang (rnd64 q - q) (q - r)) as T. replace (rnd64 q - q + (q - r)) with (rnd64 q - r) in T by lra. lra. Qed.
Lemma near_add : forall x y r s d1 d2 e1 e2 d e, near x r d1 e1 -> near y s d2 e2 -> (e1 < e)%Z -> (e2 < e)%Z -> (-1021 <= e < 1024)%Z -> (d1 <= d - 2)%Z -> (d2 <= d - 2)%Z -> (e - 52 <= d - 2)%Z -> near (nadd x y) (r + s) d e.
Proof.
  intros x y r s d1 d2 e1 e2 d e [Bx Nx] [By Ny] L1 L2 L D1 D2 D3. assert (B : bounded64 e (nadd x y)) by (eapply b_add; eauto; lia). apply (near_round _ (value x + value y)); [exact B|apply add_value; [exact (fin _ _ Bx)|exact (fin _ _ By)|exact (fin _ _ B)]| |lia|].
  - destruct Bx as [_ Bx], By as [_ By]. eapply Rle_trans; [apply Rabs_triang|]. replace e with (1 + (e - 1))%Z by lia. rewrite (p2_plus 1). change (p2 1) with 2. pose proof (p2_le e1 (e - 1) ltac:(lia)). pose proof (p2_le e2 (e - 1) ltac:(lia)). unfold p2 in *. lra.
  - pose proof (three d1 d2 (e - 52) d D1 D2 D3). pose proof (Rabs_triang (value x - r) (value y - s)) as T. replace (value x - r + (value y - s)) with (value x + value y - (r + s)) in T by lra. lra.
Qed.
Lemma near_opp : forall x r d e, near x r d e -> near (nopp x) (- r) d e.
Proof. intros x r d e [B N]. split; [now apply b_opp|]. destruct (rep_opp x _ (conj (fin _ _ B) eq_refl)) as [_ V]. rewrite V. replace (- value x - - r) with (- (value x - r)) by lra. now rewrite Rabs_Ropp. Qed.
Lemma near_sub : forall x y r s d1 d2 e1 e2 d e, near x r d1 e1 -> near y s d2 e2 -> (e1 < e)%Z -> (e2 < e)%Z -> (-1021 <= e < 1024)%Z -> (d1 <= d - 2)%Z -> (d2 <= d - 2)%Z -> (e - 52 <= d - 2)%Z -> near (nsub x y) (r - s) d e.
Proof.
  intros x y r s d1 d2 e1 e2 d e [Bx Nx] [By Ny] L1 L2 L D1 D2 D3. assert (B : bounded64 e (nsub x y)) by (eapply b_sub; eauto; lia). apply (near_round _ (value x - value y)); [exact B|apply sub_value; [exact (fin _ _ Bx)|exact (fin _ _ By)|exact (fin _ _ B)]| |lia|].
  - destruct Bx as [_ Bx], By as [_ By]. unfold Rminus. eapply Rle_trans; [apply Rabs_triang|]. rewrite Rabs_Ropp. replace e with (1 + (e - 1))%Z by lia. rewrite (p2_plus 1). change (p2 1) with 2. pose proof (p2_le e1 (e - 1) ltac:(lia)). pose proof (p2_le e2 (e - 1) ltac:(lia)). unfold p2 in *. lra.
  - pose proof (three d1 d2 (e - 52) d D1 D2 D3). pose proof (Rabs_triang (value x - r) (- (value y - s))) as T. rewrite Rabs_Ropp in T. replace (value x - r + - (value y - s)) with (value x - value y - (r - s)) in T by lra. lra.
Qed.
Lemma near_mul : forall x y r s d1 d2 e1 e2 d e, near x r d1 e1 -> near y s d2 e2 -> Rabs s <= p2 e2 -> (e1 + e2 <= e)%Z -> (-1021 <= e < 1024)%Z -> (e1 + d2 <= d - 2)%Z -> (e2 + d1 <= d - 2)%Z -> (e - 52 <= d - 2)%Z -> near (nmul x y) (r * s) d e.
Proof.
  intros x y r s d1 d2 e1 e2 d e [Bx Nx] [By Ny] Hs L1 L D1 D2 D3. assert (B : bounded64 e (nmul x y)) by (eapply b_mul; eauto; lia). apply (near_round _ (value x * value y)); [exact B|apply mul_value; exact (fin _ _ B)| |lia|].
  - destruct Bx as [_ Bx], By as [_ By]. rewrite Rabs_mult. apply (Rle_trans _ (p2 (e1 + e2))); [|apply p2_le; lia]. rewrite p2_plus. apply Rmult_le_compat; auto using Rabs_pos.
  - pose proof (three (e1 + d2) (e2 + d1) (e - 52) d D1 D2 D3) as T. rewrite !p2_plus in T. rewrite <- p2_plus in T. replace (value x * value y - r * s) with (value x * (value y - s) + s * (value x - r)) by lra. pose proof (Rabs_triang (value x * (value y - s)) (s * (value x - r))) as TR. rewrite !Rabs_mult in TR.
    destruct Bx as [_ Bx]. fold (p2 e1) in Bx. assert (M1 : Rabs (value x) * Rabs (value y - s) <= p2 e1 * p2 d2) by (apply Rmult_le_compat; auto using Rabs_pos). assert (M2 : Rabs s * Rabs (value x - r) <= p2 e2 * p2 d1) by (apply Rmult_le_compat; auto using Rabs_pos).
    rewrite !p2_plus in *. lra.
Qed.
Lemma near_div : forall x y r d1 e1 k d e, near x r d1 e1 -> finite y -> p2 k <= value y -> (e1 - k <= e)%Z -> (-1021 <= e < 1024)%Z -> (d1 - k <= d - 2)%Z -> (e - 52 <= d - 2)%Z -> near (ndiv x y) (r / value y) d e.
Proof.
  intros x y r d1 e1 k d e [Bx Nx] Fy Ly L1 L D1 D2. pose proof (p2_pos k) as Pk. assert (B : bounded64 e (ndiv x y)) by (eapply b_div; eauto; lia).
  assert (I : / value y <= p2 (- k)). { replace (p2 (- k)) with (/ p2 k) by (unfold p2; now rewrite bpow_opp). apply Rinv_le; lra. } assert (PI : 0 < / value y) by (apply Rinv_0_lt_compat; lra).
  assert (Q : Rabs (value x / value y) <= p2 e). { unfold Rdiv. rewrite Rabs_mult, (Rabs_right (/ value y)) by lra. apply (Rle_trans _ (p2 (e1 - k))); [|apply p2_le; lia]. unfold Z.sub. rewrite p2_plus. destruct Bx as [_ Bx]. apply Rmult_le_compat; auto using Rabs_pos; lra. }
  apply (near_round _ (value x / value y)); [exact B| |exact Q|lia|].
  - apply (rep_div x y _ _ (conj (fin _ _ Bx) eq_refl) (conj Fy eq_refl)); [lra|]. apply (below_huge e); [lia|exact Q].
  - pose proof (three (d1 - k) (d1 - k) (e - 52) d D1 D1 D2) as T. replace (value x / value y - r / value y) with ((value x - r) * / value y) by (unfold Rdiv; ring). rewrite Rabs_mult, (Rabs_right (/ value y)) by lra.
    assert (M : Rabs (value x - r) * / value y <= p2 (d1 - k)). { unfold Z.sub. rewrite p2_plus. apply Rmult_le_compat; auto using Rabs_pos; lra. } pose proof (p2_pos (d1 - k)). lra.
Qed.

(** *** Logarithms and exponentials *)
Lemma ln_lipschitz : forall c a b, 0 < c -> c <= a -> c <= b -> Rabs (ln a - ln b) <= Rabs (a - b) / c.
Proof.
  assert (H : forall c a b, 0 < c -> c <= a -> a <= b -> ln b - ln a <= (b - a) / c).
  { intros c a b C A B. assert (E : ln b - ln a = ln (b / a)) by (unfold Rdiv; rewrite ln_mult, ln_Rinv; [lra|lra|lra|apply Rinv_0_lt_compat; lra]). rewrite E.
    assert (P : 0 < b / a) by (apply Rdiv_lt_0_compat; lra). assert (L : ln (b / a) <= b / a - 1). { pose proof (exp_ineq1_le (ln (b / a))) as X. rewrite exp_ln in X by exact P. lra. }
    replace (b / a - 1) with ((b - a) * / a) in L by (field; lra). eapply Rle_trans; [exact L|]. unfold Rdiv. apply Rmult_le_compat_l; [lra|]. apply Rinv_le; lra. }
  intros c a b C A B. destruct (Rle_or_lt a b) as [L|L].
  - rewrite (Rabs_left1 (a - b)) by lra. assert (ln a <= ln b) by (destruct L as [L| ->]; [left; apply ln_increasing; lra|lra]). rewrite Rabs_left1 by lra. pose proof (H c a b C A L). replace (- (a - b)) with (b - a) by lra. lra.
  - rewrite (Rabs_right (a - b)) by lra. assert (ln b <= ln a) by (left; apply ln_increasing; lra). rewrite Rabs_right by lra. apply H; lra.
Qed.
Lemma exp_lipschitz : forall a b, a <= 0 -> b <= 0 -> Rabs (exp a - exp b) <= Rabs (a - b).
Proof.
  assert (H : forall a b, a <= b -> b <= 0 -> exp b - exp a <= b - a).
  { intros a b L B. assert (exp b - exp a = exp b * (1 - exp (a - b))) by (rewrite Rmult_minus_distr_l, <- exp_plus; replace (b + (a - b)) with a by lra; ring). pose proof (exp_ineq1_le (a - b)). pose proof (exp_pos b).
    assert (exp b <= 1) by (rewrite <- exp_0; destruct B as [B| ->]; [left; now apply exp_increasing|lra]). assert (exp (a - b) <= 1) by (rewrite <- exp_0; destruct L as [L| ->]; [left; apply exp_increasing; lra|right; f_equal; lra]). nra. }
  intros a b A B. destruct (Rle_or_lt a b) as [L|L].
  - rewrite (Rabs_left1 (a - b)) by lra. assert (exp a <= exp b) by (destruct L as [L| ->]; [left; now apply exp_increasing|lra]). rewrite Rabs_left1 by lra. specialize (H a b L B). lra.
  - rewrite (Rabs_right (a - b)) by lra. assert (exp b <= exp a) by (left; now apply exp_increasing). rewrite Rabs_right by lra. apply H; lra.
Qed.
Lemma ln_crude : forall k x, 0 < k -> / k <= x <= k -> - k <= ln x <= k.
Proof.
  intros k x K [L U]. assert (P : 0 < x) by (pose proof (Rinv_0_lt_compat k K); lra). split.
  - pose proof (exp_ineq1_le (ln (/ x))) as X. rewrite exp_ln in X by (now apply Rinv_0_lt_compat). rewrite ln_Rinv in X by exact P. assert (/ x <= k) by (rewrite <- (Rinv_inv k); apply Rinv_le; [now apply Rinv_0_lt_compat|exact L]). lra.
  - pose proof (exp_ineq1_le (ln x)) as X. rewrite exp_ln in X by exact P. lra.
Qed.
(** The logarithm of a sum of exponentials moves by no more than its terms. *)
Lemma lse_lipschitz : forall d (f g : f64 * (f64 * f64) -> R) l, 0 <= d -> l <> [] -> (forall x, In x l -> Rabs (f x - g x) <= d) -> Rabs (ln (Rsum (map exp (map f l))) - ln (Rsum (map exp (map g l)))) <= d.
Proof.
  assert (P : forall (f : f64 * (f64 * f64) -> R) l, l <> [] -> 0 < Rsum (map exp (map f l))).
  { intros f l. induction l as [|x l IH]; intros N; [congruence|]. cbn [map Rsum]. pose proof (exp_pos (f x)). destruct l as [|y l]; [cbn [map Rsum]; lra|]. specialize (IH ltac:(discriminate)). lra. }
  assert (H : forall d (f g : f64 * (f64 * f64) -> R) l, l <> [] -> (forall x, In x l -> f x <= g x + d) -> ln (Rsum (map exp (map f l))) <= d + ln (Rsum (map exp (map g l)))).
  { intros d f g l N L. rewrite <- (ln_exp d) at 1. rewrite <- ln_mult by (try apply exp_pos; now apply P). assert (S : Rsum (map exp (map f l)) <= exp d * Rsum (map exp (map g l))).
    { clear N. induction l as [|x l IH]; cbn [map Rsum]; [lra|]. assert (exp (f x) <= exp d * exp (g x)). { rewrite <- exp_plus. destruct (L x (or_introl eq_refl)) as [H|H]; [left; apply exp_increasing; lra|right; f_equal; lra]. } specialize (IH (fun y Hy => L y (or_intror Hy))). lra. }
    destruct S as [S|S]; [left; apply ln_increasing; [now apply P|exact S]|right; now f_equal]. }
  intros d f g l D N L. apply Rabs_le. pose proof (H d f g l N) as H1. pose proof (H d g f l N) as H2. split.
  - assert (ln (Rsum (map exp (map g l))) <= d + ln (Rsum (map exp (map f l)))) by (apply H2; intros x Hx; specialize (L x Hx); unfold Rabs in L; destruct (Rcase_abs _) in L; lra). lra.
  - assert (ln (Rsum (map exp (map f l))) <= d + ln (Rsum (map exp (map g l)))) by (apply H1; intros x Hx; specialize (L x Hx); unfold Rabs in L; destruct (Rcase_abs _) in L; lra). lra.
Qed.

(** *** One component *)
Section Mixture.
Context (NT : NumT f64) (ACC : accurate NT).
Lemma p2_small : forall k, (k <= -20)%Z -> p2 k <= / 1000000.
Proof. intros k H. eapply Rle_trans; [apply (p2_le k (-20) H)|]. unfold p2. cbn. lra. Qed.
Lemma pi_range : 3 < PI <= 4. Proof. pose proof PI2_3_2. pose proof PI_4. unfold PI2 in *. lra. Qed.
Lemma pi_near : near npi PI (-40) 3.
Proof.
  destruct ACC as (_ & _ & F & E). split; [|exact E]. split; [exact F|]. change (bpow radix2 3) with 8. fold (p2 (-40)) in E. pose proof (p2_small (-40) ltac:(lia)). pose proof pi_range. unfold Rabs in E. destruct (Rcase_abs _) in E; apply Rabs_le; lra.
Qed.
Lemma ln_near : forall x r d e, near x r d e -> (d <= -20)%Z -> / 2 <= r <= 64 -> near (nln x) (ln r) (Z.max d (-40) + 3) 7.
Proof.
  intros x r d e [[F _] N] Hd R. pose proof (p2_small d Hd) as S. assert (V : / 4 <= value x <= 65) by (unfold Rabs in N; destruct (Rcase_abs _) in N; lra).
  destruct (proj1 (proj2 ACC) x) as [FL EL]. { split; [exact F|]. assert (bpow radix2 (-30) <= / 4) by (change (/ 4) with (bpow radix2 (-2)); apply bpow_le; lia). assert (65 <= bpow radix2 30) by (apply (Rle_trans _ (bpow radix2 7)); [cbn; lra|apply bpow_le; lia]). lra. }
  fold (p2 (-40)) in EL. pose proof (p2_small (-40) ltac:(lia)) as S40. split.
  - split; [exact FL|]. change (bpow radix2 7) with 128. assert (C : - 65 <= ln (value x) <= 65) by (apply ln_crude; lra). unfold Rabs in EL. destruct (Rcase_abs _) in EL; apply Rabs_le; lra.
  - assert (L : Rabs (ln (value x) - ln r) <= Rabs (value x - r) / (/ 4)) by (apply ln_lipschitz; lra). replace (Rabs (value x - r) / / 4) with (4 * Rabs (value x - r)) in L by field.
    pose proof (p2_le d (Z.max d (-40)) ltac:(lia)) as M1. pose proof (p2_le (-40) (Z.max d (-40)) ltac:(lia)) as M2. pose proof (p2_pos (Z.max d (-40))). rewrite Z.add_comm, (p2_plus 3). change (p2 3) with 8.
    pose proof (Rabs_triang (value (nln x) - ln (value x)) (ln (value x) - ln r)) as T. replace (value (nln x) - ln (value x) + (ln (value x) - ln r)) with (value (nln x) - ln r) in T by lra. lra.
Qed.
(** A weight's logarithm. *)
Lemma weight_near : forall w, between64 (bpow radix2 (-10)) 1 w -> near (nln w) (ln (value w)) (-40) 11.
Proof.
  intros w [F B]. destruct (proj1 (proj2 ACC) w) as [FL EL]. { split; [exact F|]. pose proof (bpow_le radix2 (-30) (-10) ltac:(lia)). pose proof (bpow_le radix2 0 30 ltac:(lia)) as H1. change (bpow radix2 0) with 1 in H1. lra. }
  split; [|exact EL]. split; [exact FL|]. assert (C : - 1024 <= ln (value w) <= 1024) by (apply ln_crude; [lra|]; replace (/ 1024) with (bpow radix2 (-10)) by (cbn; lra); lra). fold (p2 (-40)) in EL. pose proof (p2_small (-40) ltac:(lia)). change (bpow radix2 11) with 2048.
  unfold Rabs in EL. destruct (Rcase_abs _) in EL; apply Rabs_le; lra.
Qed.
Lemma sq_near : forall x r d e, near x r d e -> Rabs r <= p2 e -> (-1021 <= e + e < 1024)%Z -> (e - 52 <= d)%Z -> near (npow x 2) (r * r) (e + d + 2) (e + e).
Proof. intros x r d e N R L H. change (npow x 2) with (nmul x x). eapply near_mul; [exact N|exact N|exact R|lia|lia|lia|lia|lia]. Qed.
Lemma half_value : value (nfrac 5 10) = / 2. Proof. unfold value. vm_compute. lra. Qed.
Lemma half_bounded : bounded64 (-1) (nfrac 5 10).
Proof. split; [vm_compute; reflexivity|]. rewrite half_value, Rabs_right by lra. cbn. lra. Qed.
Lemma half_near : near (nfrac 5 10) (/ 2) (-100) (-1). Proof. rewrite <- half_value. apply near_self, half_bounded. Qed.
(** The normalising term. *)
Lemma norm_near : forall v, between64 (/ 8) 8 v -> near (nmul (nopp (nfrac 5 10)) (nln (nmul (nmul (nint 2) npi) v))) (- / 2 * ln (2 * PI * value v)) (-26) 6.
Proof.
  intros v [F V]. pose proof pi_range as P. destruct (b_int 2 1 ltac:(lia) ltac:(lia) ltac:(lia)) as [B2 V2]. pose proof (near_self _ (-100) 1 B2) as N2. rewrite V2 in N2.
  assert (N1 : near (nmul (nint 2) npi) (2 * PI) (-37) 4). { eapply near_mul; [exact N2|exact pi_near| |lia|lia|lia|lia|lia]. rewrite Rabs_right by lra. change (p2 3) with 8. lra. }
  assert (BV : bounded64 3 v) by (split; [exact F|apply Rabs_le; change (bpow radix2 3) with 8; lra]).
  assert (N3 : near (nmul (nmul (nint 2) npi) v) (2 * PI * value v) (-32) 7). { eapply near_mul; [exact N1|apply (near_self v (-100) 3 BV)|exact (proj2 BV)|lia|lia|lia|lia|lia]. }
  assert (R : / 2 <= 2 * PI * value v <= 64) by nra.
  pose proof (ln_near _ _ _ _ N3 ltac:(lia) R) as N4. eapply near_mul; [apply near_opp, half_near|exact N4| |lia|lia|lia|lia|lia].
  assert (C : - 64 <= ln (2 * PI * value v) <= 64) by (apply ln_crude; lra). change (p2 7) with 128. apply Rabs_le. lra.
Qed.
(** The squared deviation. *)
Lemma dev_near : forall x m v, bounded64 5 x -> bounded64 5 m -> between64 (/ 8) 8 v ->
  near (ndiv (nmul (nfrac 5 10) (npow (nsub x m) 2)) v) (/ 2 * ((value x - value m) * (value x - value m)) / value v) (-29) 14.
Proof.
  intros x m v X M [F V]. assert (A : near (nsub x m) (value x - value m) (-44) 6) by (eapply near_sub; [apply (near_self x (-100) 5 X)|apply (near_self m (-100) 5 M)|lia..]).
  assert (R : Rabs (value x - value m) <= p2 6). { destruct X as [_ X], M as [_ M]. unfold Rminus. eapply Rle_trans; [apply Rabs_triang|]. rewrite Rabs_Ropp. change (p2 6) with 64. change (bpow radix2 5) with 32 in *. lra. }
  pose proof (sq_near _ _ _ _ A R ltac:(lia) ltac:(lia)) as N2.
  assert (R2 : Rabs ((value x - value m) * (value x - value m)) <= p2 (6 + 6)) by (rewrite Rabs_mult, p2_plus; apply Rmult_le_compat; auto using Rabs_pos).
  assert (N3 : near (nmul (nfrac 5 10) (npow (nsub x m) 2)) (/ 2 * ((value x - value m) * (value x - value m))) (-34) 11) by (eapply near_mul; [exact half_near|exact N2|exact R2|lia|lia|lia|lia|lia]).
  eapply (near_div _ _ _ _ _ (-3)); [exact N3|exact F| |lia|lia|lia|lia]. replace (p2 (-3)) with (/ 8) by (unfold p2; cbn; lra). lra.
Qed.
Definition component (x : f64) (c : f64 * (f64 * f64)) : f64 := let '(w, (m, s)) := c in nadd (nln w) (normldf x m s).
Definition exact_component (x : R) (c : f64 * (f64 * f64)) : R := let '(w, (m, s)) := c in ln (value w) + (- / 2 * ln (2 * PI * value s) - / 2 * ((x - value m) * (x - value m)) / value s).
Lemma component_near : forall x w m s, bounded64 5 x -> between64 (bpow radix2 (-10)) 1 w -> bounded64 5 m -> between64 (/ 8) 8 s ->
  near (component x (w, (m, s))) (exact_component (value x) (w, (m, s))) (-22) 16.
Proof.
  intros x w m s X W M S. unfold component, exact_component, normldf.
  assert (N : near (nsub (nmul (nopp (nfrac 5 10)) (nln (nmul (nmul (nint 2) npi) s))) (ndiv (nmul (nfrac 5 10) (npow (nsub x m) 2)) s))
                   (- / 2 * ln (2 * PI * value s) - / 2 * ((value x - value m) * (value x - value m)) / value s) (-24) 15) by (eapply near_sub; [apply (norm_near s S)|apply (dev_near x m s X M S)|lia..]).
  eapply near_add; [apply (weight_near w W)|exact N|lia..].
Qed.

(** *** The logarithm of the sum *)
Lemma maximum_facts : forall l a, Forall finite (a :: l) -> finite (maximum a l) /\ (forall x, In x (a :: l) -> value x <= value (maximum a l)) /\ exists x, In x (a :: l) /\ value x = value (maximum a l).
Proof.
  intros l a HF. inversion HF as [|? ? Fa Fl]; subst. clear HF. induction l as [|b l IH]; cbn [maximum fold_right].
  - split; [exact Fa|]. split; [intros x [<-|[]]; lra|]. exists a. split; [now left|reflexivity].
  - inversion Fl as [|? ? Fb Fl']; subst. destruct (IH Fl') as (F & L & x & Hx & E). fold (maximum a l). destruct (rep_max b (maximum a l) _ _ (conj Fb eq_refl) (conj F eq_refl)) as [FM VM]. split; [exact FM|]. rewrite VM. split.
    + intros y [<-|[<-|Hy]]; [eapply Rle_trans; [apply L; now left|apply Rmax_r]|apply Rmax_l|eapply Rle_trans; [apply L; now right|apply Rmax_r]].
    + unfold Rmax. destruct (Rle_dec _ _) as [H|H]; [|exists b; split; [right; now left|reflexivity]]. exists x. split; [|exact E]. destruct Hx as [<-|Hx]; [now left|right; now right].
Qed.
Lemma sum_near : forall d (f g : f64 -> R) l, (forall x, In x l -> Rabs (f x - g x) <= d) -> Rabs (Rsum (map f l) - Rsum (map g l)) <= INR (length l) * d.
Proof.
  intros d f g l. induction l as [|x l IH]; intros H; [cbn; rewrite Rminus_0_r, Rabs_R0; lra|]. cbn [map Rsum length]. rewrite S_INR. pose proof (H x (or_introl eq_refl)) as H1. specialize (IH (fun y Hy => H y (or_intror Hy))).
  pose proof (Rabs_triang (f x - g x) (Rsum (map f l) - Rsum (map g l))) as T. replace (f x - g x + (Rsum (map f l) - Rsum (map g l))) with (f x + Rsum (map f l) - (g x + Rsum (map g l))) in T by lra. lra.
Qed.
Lemma sum_one : forall (f : f64 -> R) l x, (forall y, In y l -> 0 <= f y) -> In x l -> f x <= Rsum (map f l).
Proof.
  intros f l x. induction l as [|y l IH]; intros H Hx; [contradiction|]. cbn [map Rsum]. assert (P : 0 <= Rsum (map f l)). { clear IH Hx. induction l as [|z l IH]; cbn [map Rsum]; [lra|]. pose proof (H z (or_intror (or_introl eq_refl))). assert (0 <= Rsum (map f l)) by (apply IH; intros w [<-|Hw]; apply H; [now left|right; now right]). lra. }
  destruct Hx as [->|Hx]; [lra|]. specialize (IH (fun w Hw => H w (or_intror Hw)) Hx). pose proof (H y (or_introl eq_refl)). lra.
Qed.
(** The computed sum of exponentials of the differences from the maximum lies between 1/2 and 17. *)
Lemma exps_range : forall l a e, (length l <= 15)%nat -> Forall (bounded64 e) (a :: l) -> (0 <= e <= 900)%Z ->
  let m := maximum a l in let s := nsum (map (fun v => nexp (nsub v m)) (a :: l)) in
  finite s /\ / 2 <= value s <= 17 /\ Rabs (value s - Rsum (map (fun v => value (nexp (nsub v m))) (a :: l))) <= p2 (-44) /\
  forall x, In x (a :: l) -> finite (nsub x m) /\ value (nsub x m) <= 0 /\ value (nsub x m) = rnd64 (value x - value m) /\ Rabs (value x - value m) <= p2 (e + 1).
Proof.
  intros l a e HL HB He. cbv zeta. destruct (maximum_facts l a) as (FM & LM & y & Hy & EY); [eapply Forall_impl; [|exact HB]; intros x H; exact (fin _ _ H)|]. set (m := maximum a l) in *.
  assert (BY : bounded64 e y) by (rewrite Forall_forall in HB; now apply HB). assert (BM : bounded64 e m) by (split; [exact FM|]; rewrite <- EY; exact (proj2 BY)).
  assert (D : forall x, In x (a :: l) -> finite (nsub x m) /\ value (nsub x m) <= 0 /\ value (nsub x m) = rnd64 (value x - value m) /\ Rabs (value x - value m) <= p2 (e + 1)).
  { intros x Hx. rewrite Forall_forall in HB. specialize (HB x Hx). specialize (LM x Hx). assert (B : bounded64 (e + 1) (nsub x m)) by (eapply b_sub; [exact HB|exact BM|lia..]). pose proof (sub_value _ _ (fin _ _ HB) FM (fin _ _ B)) as V. split; [exact (fin _ _ B)|]. split; [rewrite V, <- rnd64_0; apply rnd64_mono; lra|]. split; [exact V|].
    destruct HB as [_ HB], BM as [_ BM]. unfold Rminus. eapply Rle_trans; [apply Rabs_triang|]. rewrite Rabs_Ropp. rewrite Z.add_comm, p2_plus. change (p2 1) with 2. unfold p2. lra. }
  set (E := map (fun v => nexp (nsub v m)) (a :: l)). assert (HE : forall x, In x (a :: l) -> between64 0 1 (nexp (nsub x m))) by (intros x Hx; destruct (D x Hx) as (F & N & _); now apply (proj1 ACC)).
  assert (W : Forall (within 1) E). { unfold E. apply Forall_map, Forall_forall. intros x Hx. destruct (HE x Hx) as [F B]. split; [exact F|]. apply Rabs_le. lra. }
  assert (LE : INR (length E) <= 16). { unfold E. rewrite map_length. replace 16 with (INR 16) by (cbn; lra). apply le_INR. cbn [length]. lia. } pose proof (pos_INR (length E)) as L0.
  destruct (added_err 1 E (nsum E) (added_nsum E)) as [FS ES]; [split; [lra|apply (p2_le 0 1000); lia]|exact W|apply (Rle_trans _ 16 _ LE); change 16 with (p2 4); apply p2_le; lia|].
  assert (ES' : Rabs (value (nsum E) - Rsum (map value E)) <= p2 (-44)). { eapply Rle_trans; [exact ES|]. rewrite Rmult_1_r. change (-44)%Z with (-52 + 8)%Z. rewrite p2_plus. change (p2 8) with 256. apply Rmult_le_compat_l; [left; apply p2_pos|]. nra. }
  assert (MV : map value E = map (fun v => value (nexp (nsub v m))) (a :: l)) by (unfold E; rewrite map_map; reflexivity). rewrite MV in ES'.
  assert (LO : 1 - p2 (-40) <= Rsum (map (fun v => value (nexp (nsub v m))) (a :: l))).
  { assert (O : value (nexp (nsub y m)) <= Rsum (map (fun v => value (nexp (nsub v m))) (a :: l))) by (apply (sum_one (fun v => value (nexp (nsub v m)))); [intros x Hx; apply (HE x Hx)|exact Hy]). eapply Rle_trans; [|exact O].
    destruct (D y Hy) as (F & N & V & _). destruct (proj1 ACC _ F N) as [_ X]. rewrite V, EY in X. replace (value m - value m) with 0 in X by lra. rewrite rnd64_0, exp_0 in X. fold (p2 (-40)) in X. unfold Rabs in X. destruct (Rcase_abs _) in X; lra. }
  assert (HI : Rsum (map (fun v => value (nexp (nsub v m))) (a :: l)) <= 16). { pose proof (within_sum 1 E W) as X. rewrite MV in X. pose proof (Rle_abs (Rsum (map (fun v => value (nexp (nsub v m))) (a :: l)))). lra. }
  pose proof (p2_small (-40) ltac:(lia)). pose proof (p2_small (-44) ltac:(lia)). split; [exact FS|]. split; [unfold Rabs in ES'; destruct (Rcase_abs _) in ES'; lra|]. split; [exact ES'|exact D].
Qed.
Lemma lse_finite : forall l a e, (length l <= 15)%nat -> Forall (bounded64 e) (a :: l) -> (10 <= e <= 900)%Z -> exists y, @logsumexp f64 _ NT (a :: l) = Ok y /\ bounded64 (e + 1) y.
Proof.
  intros l a e HL HB He. destruct (exps_range l a e HL HB ltac:(lia)) as (F & B & _ & D). cbv zeta in *. eexists. split; [reflexivity|]. destruct (maximum_facts l a) as (FM & LM & y & Hy & EY); [eapply Forall_impl; [|exact HB]; intros x H; exact (fin _ _ H)|].
  set (m := maximum a l) in *. set (s := nsum _) in *. assert (BM : bounded64 e m) by (split; [exact FM|]; rewrite <- EY; rewrite Forall_forall in HB; exact (proj2 (HB y Hy))).
  assert (N : near s (value s) (-40) 5) by (apply near_self; split; [exact F|apply Rabs_le; change (bpow radix2 5) with 32; lra]). pose proof (ln_near _ _ _ _ N ltac:(lia) ltac:(lra)) as [BL _]. eapply b_add; [exact BL|exact BM|lia..].
Qed.
Lemma lse_near : forall l a, (length l <= 15)%nat -> Forall (bounded64 16) (a :: l) -> exists y, @logsumexp f64 _ NT (a :: l) = Ok y /\ finite y /\ Rabs (value y - ln (Rsum (map exp (map value (a :: l))))) <= p2 (-24).
Proof.
  intros l a HL HB. destruct (exps_range l a 16 HL HB ltac:(lia)) as (F & B & ES & D). cbv zeta in *. eexists. split; [reflexivity|]. destruct (maximum_facts l a) as (FM & LM & y & Hy & EY); [eapply Forall_impl; [|exact HB]; intros x H; exact (fin _ _ H)|].
  set (m := maximum a l) in *. set (s := nsum _) in *. assert (BM : bounded64 16 m) by (split; [exact FM|]; rewrite <- EY; rewrite Forall_forall in HB; exact (proj2 (HB y Hy))).
  set (S := Rsum (map (fun v => exp (value v - value m)) (a :: l))).
  assert (E1 : Rabs (Rsum (map (fun v => value (nexp (nsub v m))) (a :: l)) - S) <= INR (length (a :: l)) * p2 (-34)).
  { apply sum_near. intros x Hx. destruct (D x Hx) as (Fx & Nx & Vx & Bx). destruct (proj1 ACC _ Fx Nx) as [_ X]. fold (p2 (-40)) in X. specialize (LM x Hx). pose proof (exp_lipschitz (value (nsub x m)) (value x - value m) Nx ltac:(lra)) as L. pose proof (rnd64_err 17 _ ltac:(lia) Bx) as R. rewrite <- Vx in R.
    pose proof (Rabs_triang (value (nexp (nsub x m)) - exp (value (nsub x m))) (exp (value (nsub x m)) - exp (value x - value m))) as T. replace (value (nexp (nsub x m)) - exp (value (nsub x m)) + (exp (value (nsub x m)) - exp (value x - value m))) with (value (nexp (nsub x m)) - exp (value x - value m)) in T by lra.
    change (17 - 52)%Z with (-35)%Z in R. assert (p2 (-34) = 2 * p2 (-35)) by (change (-34)%Z with (1 + -35)%Z; rewrite p2_plus; reflexivity). pose proof (p2_le (-40) (-35) ltac:(lia)). lra. }
  assert (LN : INR (length (a :: l)) <= 16) by (replace 16 with (INR 16) by (cbn; lra); apply le_INR; cbn [length]; lia).
  assert (E2 : Rabs (value s - S) <= p2 (-29)). { pose proof (p2_pos (-34)) as P. assert (INR (length (a :: l)) * p2 (-34) <= p2 (-30)) by (replace (p2 (-30)) with (16 * p2 (-34)) by (change (-30)%Z with (4 + -34)%Z; rewrite p2_plus; reflexivity); apply Rmult_le_compat_r; lra).
    pose proof (Rabs_triang (value s - Rsum (map (fun v => value (nexp (nsub v m))) (a :: l))) (Rsum (map (fun v => value (nexp (nsub v m))) (a :: l)) - S)) as T. match type of T with Rabs ?z <= _ => replace z with (value s - S) in T by lra end. assert (p2 (-29) = 2 * p2 (-30)) by (change (-29)%Z with (1 + -30)%Z; rewrite p2_plus; reflexivity). pose proof (p2_le (-44) (-30) ltac:(lia)). lra. }
  assert (HS : / 2 <= S <= 64). { split; [|pose proof (p2_small (-29) ltac:(lia)); unfold Rabs in E2; destruct (Rcase_abs _) in E2; lra]. assert (exp (value y - value m) <= S) by (apply (sum_one (fun v => exp (value v - value m))); [intros x _; left; apply exp_pos|exact Hy]). rewrite EY, Rminus_diag_eq, exp_0 in H by reflexivity. lra. }
  assert (NS : near s S (-29) 5) by (split; [split; [exact F|apply Rabs_le; change (bpow radix2 5) with 32; lra]|exact E2]). pose proof (ln_near _ _ _ _ NS ltac:(lia) HS) as NL. change (Z.max (-29) (-40) + 3)%Z with (-26)%Z in NL.
  assert (NA : near (nadd (nln s) m) (ln S + value m) (-24) 17) by (eapply near_add; [exact NL|apply (near_self m (-100) 16 BM)|lia..]). destruct NA as [[FA _] NA]. split; [exact FA|].
  replace (ln (Rsum (map exp (map value (a :: l))))) with (ln S + value m); [exact NA|]. rewrite <- (ln_exp (value m)), <- ln_mult by (try apply exp_pos; lra). f_equal. unfold S. rewrite map_map. generalize (value m). generalize (a :: l). clear. intros l v. induction l as [|x l IH]; cbn [map Rsum]; [lra|]. rewrite <- IH, Rmult_plus_distr_r, <- exp_plus. f_equal. f_equal. lra.
Qed.

(** *** The mixtures *)
Lemma combined : forall weights mu var x, modest weights mu var -> In x (combine weights (combine mu var)) -> between64 (bpow radix2 (-10)) 1 (fst x) /\ bounded64 5 (fst (snd x)) /\ between64 (/ 8) 8 (snd (snd x)).
Proof.
  intros weights mu var (w & m & s) (_ & _ & _ & HW & HM & HV) Hin. cbn [fst snd]. rewrite Forall_forall in HW, HM, HV. split; [apply HW; eapply in_combine_l, Hin|]. apply in_combine_r in Hin. split; [apply HM; eapply in_combine_l, Hin|apply HV; eapply in_combine_r, Hin].
Qed.
Lemma unfold_mixture : forall v mu var weights, length mu = length var -> length var = length weights -> @gaussian_mixture_model_log_likelihood f64 _ NT (Scalar v) mu var weights = logsumexp (map (component v) (combine weights (combine mu var))) /\
  @gaussian_mixture_model_log_likelihood f64 _ NT (Seq [v]) mu var weights = logsumexp (map (component v) (combine weights (combine mu var))).
Proof.
  intros v mu var weights L1 L2. unfold gaussian_mixture_model_log_likelihood. rewrite L1, L2, !Nat.eqb_refl. cbn [andb assert_ bind length item nth_error]. split; f_equal; apply map_ext; intros (w & m & s); reflexivity.
Qed.
Lemma exact_exp : forall x weights mu var, modest weights mu var -> Rsum (map exp (map (exact_component x) (combine weights (combine mu var)))) = mixture64 weights mu var x.
Proof.
  intros x weights mu var HM. unfold mixture64, mixture. pose proof (fun c => combined weights mu var c HM) as C. revert C. generalize (combine weights (combine mu var)). clear. intros l C. rewrite !map_map. induction l as [|(w & m & s) l IH]; [reflexivity|]. cbn [map Rsum]. rewrite IH by (intros c Hc; apply C; now right). f_equal.
  destruct (C _ (or_introl eq_refl)) as ((_ & Lw & _) & _ & (_ & Ls & _)). cbn [fst snd] in *. pose proof (bpow_gt_0 radix2 (-10)) as P. unfold exact_component, normal_density. pose proof pi_range as PP. assert (P2 : 0 < 2 * PI * value s) by (apply Rmult_lt_0_compat; lra).
  rewrite exp_plus, exp_ln by lra. unfold Rminus at 1. rewrite exp_plus. assert (E : exp (- / 2 * ln (2 * PI * value s)) = / sqrt (2 * PI * value s)). { rewrite <- (sqrt_sqrt (2 * PI * value s)) at 1 by lra. pose proof (sqrt_lt_R0 _ P2) as SP. rewrite ln_mult by exact SP. replace (- / 2 * (ln (sqrt (2 * PI * value s)) + ln (sqrt (2 * PI * value s)))) with (- ln (sqrt (2 * PI * value s))) by lra. rewrite <- ln_Rinv, exp_ln; [reflexivity|now apply Rinv_0_lt_compat|exact SP]. }
  rewrite E. unfold Rdiv. rewrite (Rmult_comm (/ sqrt _)). f_equal. f_equal. f_equal. cbn [pow]. field. lra.
Qed.
(** Between -32 and 32 the computed log-likelihood of a mixture of up to sixteen components is within 2^-21 of the logarithm of its density. *)
Theorem C111_mixture_accuracy : forall x weights mu var a, bounded64 5 x -> modest weights mu var -> a = Scalar x \/ a = Seq [x] ->
  exists y, @gaussian_mixture_model_log_likelihood f64 _ NT a mu var weights = Ok y /\ finite y /\ Rabs (value y - ln (mixture64 weights mu var (value x))) <= bpow radix2 (-21).
Proof.
  intros x weights mu var a X HM Ha. pose proof HM as (L1 & L2 & LN & _). assert (EQ : @gaussian_mixture_model_log_likelihood f64 _ NT a mu var weights = logsumexp (map (component x) (combine weights (combine mu var)))) by (destruct Ha as [-> | ->]; now apply unfold_mixture). rewrite EQ.
  assert (N : forall c, In c (combine weights (combine mu var)) -> near (component x c) (exact_component (value x) c) (-22) 16). { intros (w & m & s) Hc. destruct (combined _ _ _ _ HM Hc) as (W & M & S). now apply component_near. }
  rewrite <- (exact_exp _ _ _ _ HM). assert (LC : length (combine weights (combine mu var)) = length weights) by (rewrite !combine_length; lia). set (l := combine weights (combine mu var)) in *. clearbody l.
  destruct l as [|c l]; [cbn in LC; lia|]. destruct (lse_near (map (component x) l) (component x c)) as (y & E & F & B).
  { rewrite map_length. cbn in LC. lia. }
  { apply (Forall_map (component x) (bounded64 16) (c :: l)), Forall_forall. intros z Hz. apply (N z Hz). }
  exists y. split; [exact E|]. split; [exact F|]. change (component x c :: map (component x) l) with (map (component x) (c :: l)) in B. rewrite (map_map (component x) value) in B.
  pose proof (lse_lipschitz (p2 (-22)) (fun z => value (component x z)) (exact_component (value x)) (c :: l) ltac:(left; apply p2_pos) ltac:(discriminate) (fun z Hz => proj2 (N z Hz))) as L. set (A := ln (Rsum (map exp (map (fun z => value (component x z)) (c :: l))))) in *. set (Z := ln (Rsum (map exp (map (exact_component (value x)) (c :: l))))) in *.
  pose proof (Rabs_triang (value y - A) (A - Z)) as T. replace (value y - A + (A - Z)) with (value y - Z) in T by lra. fold (p2 (-21)). assert (p2 (-21) = 2 * p2 (-22)) by (change (-21)%Z with (1 + -22)%Z; rewrite p2_plus; reflexivity). pose proof (p2_le (-24) (-22) ltac:(lia)). lra.
Qed.
(** Far away from the means every component's density underflows, but the log-likelihood stays finite. *)
Theorem C111_mixture_finite : forall x weights mu var a, bounded64 400 x -> modest weights mu var -> a = Scalar x \/ a = Seq [x] ->
  exists y, @gaussian_mixture_model_log_likelihood f64 _ NT a mu var weights = Ok y /\ bounded64 810 y.
Proof.
  intros x weights mu var a X HM Ha. pose proof HM as (L1 & L2 & LN & _). assert (EQ : @gaussian_mixture_model_log_likelihood f64 _ NT a mu var weights = logsumexp (map (component x) (combine weights (combine mu var)))) by (destruct Ha as [-> | ->]; now apply unfold_mixture). rewrite EQ.
  assert (N : forall c, In c (combine weights (combine mu var)) -> bounded64 809 (component x c)).
  { intros (w & m & s) Hc. destruct (combined _ _ _ _ HM Hc) as (W & M & S). cbn [fst snd] in *. unfold component, normldf. eapply (b_add _ _ 11 808); [apply (weight_near w W)| |lia..]. eapply (b_sub _ _ 6 807); [apply (norm_near s S)| |lia..].
    eapply (b_div _ _ 801 (-3)); [|apply S| |lia..]; [|destruct S as [_ S]; replace (bpow radix2 (-3)) with (/ 8) by (cbn; lra); lra]. eapply (b_mul _ _ (-1) 802); [exact half_bounded| |lia..]. change (npow (nsub x m) 2) with (nmul (nsub x m) (nsub x m)).
    assert (B : bounded64 401 (nsub x m)) by (eapply (b_sub _ _ 400 5); [exact X|exact M|lia..]). eapply b_mul; [exact B|exact B|lia..]. }
  assert (LC : length (combine weights (combine mu var)) = length weights) by (rewrite !combine_length; lia). set (l := combine weights (combine mu var)) in *. clearbody l. destruct l as [|c l]; [cbn in LC; lia|].
  destruct (lse_finite (map (component x) l) (component x c) 809) as (y & E & B); [rewrite map_length; cbn in LC; lia|apply (Forall_map (component x) (bounded64 809) (c :: l)), Forall_forall; exact N|lia|]. exists y. split; [exact E|exact B].
Qed.
End Mixture.

(** *** Examples *)
(** exp, ln and pi rounded down to multiples of 2^-45. *)
Definition grid_value (r : R) : f64 := nfrac (Int_part (r * bpow radix2 45)) (2 ^ 45).
Lemma grid_near : forall r, Rabs r <= 64 -> finite (grid_value r) /\ Rabs (value (grid_value r) - r) <= bpow radix2 (-40) /\ (0 <= r <= 1 -> 0 <= value (grid_value r) <= 1).
Proof.
  intros r Hr. destruct (base_Int_part (r * bpow radix2 45)) as [B1 B2]. unfold grid_value. set (z := Int_part (r * bpow radix2 45)) in *. assert (P : bpow radix2 45 = IZR (2 ^ 45)) by (rewrite <- (IZR_Zpower radix2) by lia; reflexivity). assert (PP : 0 < bpow radix2 45) by apply bpow_gt_0.
  assert (R : - 64 <= r <= 64) by (unfold Rabs in Hr; destruct (Rcase_abs r); lra).
  assert (HZ : (- 2 ^ 52 < z < 2 ^ 52)%Z). { split; apply lt_IZR.
    - apply Rlt_le_trans with (r * bpow radix2 45 - 1); [|lra]. assert (-64 * bpow radix2 45 <= r * bpow radix2 45) by (apply Rmult_le_compat_r; lra). rewrite P in *. change (2 ^ 45)%Z with 35184372088832%Z in *. change (- 2 ^ 52)%Z with (-4503599627370496)%Z. lra.
    - apply Rle_lt_trans with (r * bpow radix2 45); [lra|]. assert (r * bpow radix2 45 <= 64 * bpow radix2 45) by (apply Rmult_le_compat_r; lra). rewrite P in *. change (2 ^ 45)%Z with 35184372088832%Z in *. change (2 ^ 52)%Z with 4503599627370496%Z. lra. }
  destruct (rep_frac z (2 ^ 45) 0 0) as [F V]; [rewrite Z.pow_0_r, Z.div_1_r; lia|lia|rewrite Z.pow_0_r, Z.div_1_r; lia|vm_compute; reflexivity|lia|reflexivity|lia|lia|]. split; [exact F|]. rewrite V. unfold Rfrac.
  replace (IZR (Z.pos (2 ^ 45))) with (bpow radix2 45) by (rewrite P; reflexivity). set (q := IZR z / bpow radix2 45). assert (Q : q * bpow radix2 45 = IZR z) by (unfold q; field; lra).
  assert (I : bpow radix2 (-45) * bpow radix2 45 = 1) by (rewrite <- bpow_plus; reflexivity). assert (Q1 : - bpow radix2 (-45) <= q - r <= 0).
  { split; apply (Rmult_le_reg_r (bpow radix2 45)); try exact PP; rewrite ?Rmult_minus_distr_r, ?Q; [rewrite Ropp_mult_distr_l_reverse, I|]; lra. }
  assert (S : bpow radix2 (-45) <= / 2) by (change (/ 2) with (bpow radix2 (-1)); apply bpow_le; lia). split.
  - assert (BQ : Rabs q <= p2 7) by (change (p2 7) with 128; apply Rabs_le; lra). pose proof (rnd64_err 7 q ltac:(lia) BQ) as E. change (7 - 52)%Z with (-45)%Z in E. unfold p2 in E. assert (T : bpow radix2 (-40) = 32 * bpow radix2 (-45)) by (change (-40)%Z with (5 + -45)%Z; rewrite bpow_plus; reflexivity). pose proof (bpow_gt_0 radix2 (-45)).
    pose proof (Rabs_triang (rnd64 q - q) (q - r)) as TR. replace (rnd64 q - q + (q - r)) with (rnd64 q - r) in TR by lra. rewrite (Rabs_left1 (q - r)) in TR by lra. lra.
  - intros R01. assert (Z0 : (0 <= z)%Z). { assert (0 <= r * bpow radix2 45) by (apply Rmult_le_pos; lra). apply Z.lt_succ_r. apply lt_IZR. rewrite succ_IZR. lra. }
    assert (Q0 : 0 <= q) by (unfold q, Rdiv; apply Rmult_le_pos; [apply IZR_le, Z0|left; now apply Rinv_0_lt_compat]). split; [rewrite <- rnd64_0; apply rnd64_mono; lra|]. change 1 with (bpow radix2 0). rewrite <- (rnd64_id _ (format64_bpow 0 ltac:(lia))). apply rnd64_mono. change (bpow radix2 0) with 1. lra.
Qed.
Lemma two_pow_exp : forall n, 2 ^ n <= exp (INR n).
Proof. induction n as [|n IH]; [cbn; rewrite exp_0; lra|]. rewrite S_INR, exp_plus. cbn [pow]. pose proof (exp_ineq1_le 1) as E. pose proof (exp_pos (INR n)). assert (0 < 2 ^ n) by (apply pow_lt; lra). nra. Qed.
Definition grid_functions : NumT f64 :=
  {| nexp := fun x => grid_value (exp (value x)); nln := fun x => grid_value (ln (value x)); nsin := fun x => x; ncos := fun x => x; npi := grid_value PI |}.
Lemma grid_accurate : accurate grid_functions.
Proof.
  split; [|split].
  - intros x F N. assert (B : 0 <= exp (value x) <= 1) by (split; [left; apply exp_pos|rewrite <- exp_0; destruct N as [N|N]; [left; now apply exp_increasing|rewrite N; lra]]). destruct (grid_near (exp (value x))) as (G1 & G2 & G3); [rewrite Rabs_right; lra|]. split; [split; [exact G1|now apply G3]|exact G2].
  - intros x [F [L U]]. assert (P30 : bpow radix2 30 = 2 ^ 30) by (cbn; lra). assert (PX : 0 < value x) by (pose proof (bpow_gt_0 radix2 (-30)); lra). pose proof (two_pow_exp 30) as E. replace (INR 30) with 30 in E by (cbn; lra). rewrite P30 in U.
    assert (C1 : ln (value x) <= 30). { rewrite <- (ln_exp 30). destruct (Rle_lt_or_eq_dec (value x) (exp 30) ltac:(lra)) as [H|H]; [left; apply ln_increasing; lra|right; now f_equal]. }
    assert (C2 : - 30 <= ln (value x)). { assert (H : - ln (value x) <= 30); [|lra]. rewrite <- ln_Rinv by exact PX. rewrite <- (ln_exp 30). assert (I : / value x <= exp 30). { apply (Rle_trans _ (/ bpow radix2 (-30))); [apply Rinv_le; [apply bpow_gt_0|exact L]|]. rewrite <- bpow_opp. change (- -30)%Z with 30%Z. rewrite P30. exact E. }
      pose proof (Rinv_0_lt_compat _ PX). destruct (Rle_lt_or_eq_dec (/ value x) (exp 30) I) as [H2|H2]; [left; apply ln_increasing; lra|right; now f_equal]. }
    destruct (grid_near (ln (value x))) as (G1 & G2 & _); [apply Rabs_le; lra|]. split; [exact G1|exact G2].
  - pose proof pi_range. destruct (grid_near PI) as (G1 & G2 & _); [rewrite Rabs_right; lra|]. split; [exact G1|exact G2].
Qed.
Lemma mid : forall lo hi x : f64, BinarySingleNaN.is_finite lo = true -> BinarySingleNaN.is_finite hi = true -> BinarySingleNaN.is_finite x = true -> nltb lo x = true -> nltb x hi = true -> between64 (value lo) (value hi) x.
Proof. intros lo hi x F1 F2 F L U. pose proof (lt_true _ _ F1 F L). pose proof (lt_true _ _ F F2 U). split; [exact F|lra]. Qed.
Lemma a_weight : forall x : f64, BinarySingleNaN.is_finite x = true -> nltb (nfrac 1 1024) x = true -> nltb x n1 = true -> between64 (bpow radix2 (-10)) 1 x.
Proof. intros x F L U. assert (V : value (nfrac 1 1024) = bpow radix2 (-10)) by (unfold value; vm_compute; lra). rewrite <- V. rewrite <- (proj2 rep_1). apply mid; try assumption; vm_compute; reflexivity. Qed.
Lemma a_variance : forall x : f64, BinarySingleNaN.is_finite x = true -> nltb (nfrac 1 8) x = true -> nltb x (nint 8) = true -> between64 (/ 8) 8 x.
Proof. intros x F L U. assert (V : value (nfrac 1 8) = / 8) by (unfold value; vm_compute; lra). rewrite <- V. rewrite <- (proj2 (rep_int 8 ltac:(lia))). apply mid; try assumption; vm_compute; reflexivity. Qed.
Lemma default_modest : forall var : list f64, length var = 3%nat -> Forall (between64 (/ 8) 8) var -> modest default_weights default_mu var.
Proof.
  intros var L H. unfold modest. cbn [length default_mu default_weights]. split; [now rewrite L|]. split; [exact L|]. split; [lia|]. split; [|split; [|exact H]].
  - repeat (apply Forall_cons; [apply a_weight; vm_compute; reflexivity|]). apply Forall_nil.
  - assert (B : forall z, (Z.abs z <= 2 ^ 5)%Z -> bounded64 5 (nint z)) by (intros z Hz; apply (b_int z 5); lia). repeat (apply Forall_cons; [apply B; lia|]). apply Forall_nil.
Qed.
(** gmm1, gmm2 and gmm3 are such mixtures. *)
Theorem C111_default_mixtures : forall NT, accurate NT -> forall x a, a = Scalar x \/ a = Seq [x] ->
  let run (f : scalar_or_seq f64 -> res f64) (density : R -> R) :=
    (bounded64 5 x -> exists y, f a = Ok y /\ finite y /\ Rabs (value y - ln (density (value x))) <= bpow radix2 (-21)) /\ (bounded64 400 x -> exists y, f a = Ok y /\ finite y) in
  run gmm1_log_likelihood (mixture64 default_weights default_mu [nint 1; nint 1; nint 1]) /\
  run gmm2_log_likelihood (mixture64 default_weights default_mu [ndiv (nint 1) (nfrac 5 10); nfrac 5 10; ndiv (nint 1) (nfrac 5 10)]) /\
  run gmm3_log_likelihood (mixture64 default_weights default_mu [ndiv (nint 1) (nfrac 3 10); nfrac 3 10; ndiv (nint 1) (nfrac 3 10)]).
Proof.
  intros NT ACC x a Ha run.
  assert (G : forall var, modest default_weights default_mu var -> run (fun a => @gaussian_mixture_model_log_likelihood f64 _ NT a default_mu var default_weights) (mixture64 default_weights default_mu var)).
  { intros var HM. split; intros X; [now apply C111_mixture_accuracy|]. destruct (C111_mixture_finite NT ACC x default_weights default_mu var a X HM Ha) as (y & E & B). exists y. split; [exact E|exact (fin _ _ B)]. }
  split; [|split]; apply G, default_modest; try reflexivity; repeat (apply Forall_cons; [apply a_variance; vm_compute; reflexivity|]); apply Forall_nil.
Qed.
Example C111_example : accurate grid_functions /\ modest default_weights default_mu [nint 1; nint 1; nint 1] /\ bounded64 5 (nfrac 7 3) /\ bounded64 400 (nint (2 ^ 52)).
Proof.
  split; [exact grid_accurate|]. split; [apply default_modest; [reflexivity|]; repeat (apply Forall_cons; [apply a_variance; vm_compute; reflexivity|]); apply Forall_nil|]. split.
  - split; [vm_compute; reflexivity|]. unfold value. vm_compute BinarySingleNaN.B2R. unfold Rabs. destruct (Rcase_abs _); cbn; lra.
  - apply (b_int (2 ^ 52) 400); vm_compute; congruence.
Qed.
