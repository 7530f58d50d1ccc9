(** C110, camelback in double precision. *)
From Coq Require Import List Arith Lia ZArith Bool Reals Lra.
From Flocq Require Import Core.Core.
From Flocq Require IEEE754.BinarySingleNaN.
From Verif.Proofs Require Import FloatCell SafeFloat FloatAdapt.
From Verif.Base Require Import Py Num Float64 Vec Lists.
From Verif.Model Require Import Objectives.
From Verif.Spec Require Import Doubles DoubleObjectives.
From Verif.Proofs Require Import DoubleCell DoubleRun DoubleStein DoubleKernel.
From Verif.Props Require Import PDoubleSvgd PDoubleObjectives PDoubleMixture.
From Verif.Props Require PObjectives.
Import ListNotations.
Local Open Scope R_scope.

(** The six-hump camelback function of the literature. *)
Definition six_hump (a b : R) : R := (4 - 21 / 10 * a ^ 2 + a ^ 4 / 3) * a ^ 2 + a * b + (-4 + 4 * b ^ 2) * b ^ 2.

Lemma six_hump_real : forall u v : R, camelback [u; v] = Ok (six_hump u v).
Proof. intros u v. unfold camelback, item, six_hump. cbn [nth_error bind]. f_equal. PObjectives.real. reflexivity. Qed.

(** *** Doubles of equal value *)
Definition alike (e : Z) (x y : f64) : Prop := bounded64 e x /\ bounded64 e y /\ value x = value y.
Lemma alike_refl : forall e x, bounded64 e x -> alike e x x. Proof. intros e x B. split; [exact B|]. split; [exact B|reflexivity]. Qed.
Lemma alike_mul : forall x y z w e1 e2, alike e1 x z -> alike e2 y w -> (-1074 <= e1 + e2 < 1024)%Z -> alike (e1 + e2) (nmul x y) (nmul z w).
Proof.
  intros x y z w e1 e2 (B1 & B2 & E1) (B3 & B4 & E2) L. assert (C1 := e_mul x y _ _ B1 B3 L). assert (C2 := e_mul z w _ _ B2 B4 L). split; [exact C1|]. split; [exact C2|]. rewrite (mul_value _ _ (fin _ _ C1)), (mul_value _ _ (fin _ _ C2)). congruence.
Qed.
Lemma alike_opp_mul : forall x y z w e1 e2, alike e1 x (nopp z) -> alike e2 y (nopp w) -> finite z -> finite w -> (-1074 <= e1 + e2 < 1024)%Z -> alike (e1 + e2) (nmul x y) (nmul z w).
Proof.
  intros x y z w e1 e2 (B1 & B2 & E1) (B3 & B4 & E2) Fz Fw L. destruct (rep_opp z _ (conj Fz eq_refl)) as [_ V1]. destruct (rep_opp w _ (conj Fw eq_refl)) as [_ V2]. rewrite V1 in E1. rewrite V2 in E2.
  assert (B5 : bounded64 e1 z) by (split; [exact Fz|destruct B2 as [_ B2]; rewrite V1, Rabs_Ropp in B2; exact B2]). assert (B6 : bounded64 e2 w) by (split; [exact Fw|destruct B4 as [_ B4]; rewrite V2, Rabs_Ropp in B4; exact B4]).
  assert (C1 := e_mul x y _ _ B1 B3 L). assert (C2 := e_mul z w _ _ B5 B6 L). split; [exact C1|]. split; [exact C2|]. rewrite (mul_value _ _ (fin _ _ C1)), (mul_value _ _ (fin _ _ C2)), E1, E2. f_equal. ring.
Qed.
Lemma alike_add : forall x y z w e1 e2, alike e1 x z -> alike e2 y w -> (-1074 <= Z.max e1 e2 + 1 < 1024)%Z -> alike (Z.max e1 e2 + 1) (nadd x y) (nadd z w).
Proof.
  intros x y z w e1 e2 (B1 & B2 & E1) (B3 & B4 & E2) L. assert (C1 := e_add x y _ _ B1 B3 L). assert (C2 := e_add z w _ _ B2 B4 L). split; [exact C1|]. split; [exact C2|].
  rewrite (add_value _ _ (fin _ _ B1) (fin _ _ B3) (fin _ _ C1)), (add_value _ _ (fin _ _ B2) (fin _ _ B4) (fin _ _ C2)). congruence.
Qed.
Lemma alike_sub : forall x y z w e1 e2, alike e1 x z -> alike e2 y w -> (-1074 <= Z.max e1 e2 + 1 < 1024)%Z -> alike (Z.max e1 e2 + 1) (nsub x y) (nsub z w).
Proof.
  intros x y z w e1 e2 (B1 & B2 & E1) (B3 & B4 & E2) L. assert (C1 := e_sub x y _ _ B1 B3 L). assert (C2 := e_sub z w _ _ B2 B4 L). split; [exact C1|]. split; [exact C2|].
  rewrite (sub_value _ _ (fin _ _ B1) (fin _ _ B3) (fin _ _ C1)), (sub_value _ _ (fin _ _ B2) (fin _ _ B4) (fin _ _ C2)). congruence.
Qed.
Lemma alike_third : forall x z e, alike e x z -> (-1074 <= e < 1024)%Z -> alike e (ndiv x (nint 3)) (ndiv z (nint 3)).
Proof.
  intros x z e (B1 & B2 & E1) L. assert (T : between64 1 (bpow radix2 900) (nint 3 : f64)) by ge1. destruct (rep_int 3 ltac:(lia)) as [F3 V3].
  assert (Q : forall u : f64, bounded64 e u -> value (ndiv u (nint 3)) = rnd64 (value u / 3)).
  { intros u [F B]. apply (rep_div u (nint 3) _ _ (conj F eq_refl) (conj F3 V3)); [lra|]. apply (below_huge e); [lia|]. unfold Rdiv. rewrite Rabs_mult, (Rabs_right (/ 3)) by lra. pose proof (Rabs_pos (value u)). lra. }
  split; [now apply e_div|]. split; [now apply e_div|]. rewrite !Q by assumption. congruence.
Qed.

Lemma low_enough : forall r q, Rabs (r - q) <= p2 (-25) -> - (10317 / 10000) <= q -> - (103171 / 100000) <= r.
Proof. intros r q D L. apply abs_inv in D. pose proof (p2_le (-25) (-20) ltac:(lia)) as P. change (p2 (-20)) with (/ 1048576) in P. lra. Qed.

(** camelback in doubles is finite and even. *)
Theorem C110_camelback_even :
  on_box 2 100 (@camelback f64 _) (fun x y => exists y', camelback (map nopp x) = Ok y' /\ value y' = value y).
Proof.
  intros x Hx. destruct x as [|a [|b [|? ?]]]; try discriminate Hx. intros B. apply both in B as [A B]. eexists. split; [reflexivity|].
  assert (Aa : alike 100 (nopp a) (nopp a)) by (apply alike_refl; now apply b_opp). assert (Ab : alike 100 (nopp b) (nopp b)) by (apply alike_refl; now apply b_opp).
  pose proof (fin _ _ A) as Fa. pose proof (fin _ _ B) as Fb.
  assert (S2 := alike_opp_mul (nopp a) (nopp a) a a 100 100 Aa Aa Fa Fa ltac:(lia)). assert (T2 := alike_opp_mul (nopp b) (nopp b) b b 100 100 Ab Ab Fb Fb ltac:(lia)). assert (P := alike_opp_mul (nopp a) (nopp b) a b 100 100 Aa Ab Fa Fb ltac:(lia)).
  assert (S4 : alike 400 (npow (nopp a) 4) (npow a 4)).
  { assert (E : forall u : f64, npow u 4 = nmul u (nmul u (nmul u u))) by reflexivity. rewrite !E.
    destruct S2 as (Q1 & Q2 & Q3).
    assert (C3 : forall u : f64, bounded64 100 u -> bounded64 (100 + (100 + 100)) (nmul u (nmul u u))) by (intros u Bu; bnd).
    assert (C4 : forall u : f64, bounded64 100 u -> bounded64 400 (nmul u (nmul u (nmul u u)))) by (intros u Bu; exact (e_mul u _ 100 300 Bu (C3 u Bu) ltac:(lia))).
    assert (Bo : bounded64 100 (nopp a)) by (now apply b_opp). split; [now apply C4|]. split; [now apply C4|].
    destruct (rep_opp a _ (conj Fa eq_refl)) as [_ V]. rewrite (mul_value _ _ (fin _ _ (C4 _ Bo))), (mul_value _ _ (fin _ _ (C4 _ A))), (mul_value _ _ (fin _ _ (C3 _ Bo))), (mul_value _ _ (fin _ _ (C3 _ A))), Q3, V.
    set (Q := value (nmul a a)). set (w := value a). replace (- w * Q) with (- (w * Q)) by ring. rewrite rnd64_opp. replace (- w * - rnd64 (w * Q)) with (w * rnd64 (w * Q)) by ring. reflexivity. }
  assert (K : forall z : f64, bounded64 7 z -> alike 7 z z) by (intros; now apply alike_refl).
  assert (K4 : alike 7 (nint 4 : f64) (nint 4)) by (apply K; const). assert (K4' : alike 7 (nint (-4) : f64) (nint (-4))) by (apply K; const). assert (K21 : alike 7 (nfrac 21 10 : f64) (nfrac 21 10)) by (apply K; const).
  pose proof (alike_mul _ _ _ _ _ _ K21 S2 ltac:(lia)) as M1. pose proof (alike_sub _ _ _ _ _ _ K4 M1 ltac:(lia)) as M2. pose proof (alike_third _ _ _ S4 ltac:(lia)) as M3. pose proof (alike_add _ _ _ _ _ _ M2 M3 ltac:(lia)) as M4.
  pose proof (alike_mul _ _ _ _ _ _ M4 S2 ltac:(lia)) as M5. pose proof (alike_add _ _ _ _ _ _ M5 P ltac:(lia)) as M6.
  pose proof (alike_mul _ _ _ _ _ _ K4 T2 ltac:(lia)) as N1. pose proof (alike_add _ _ _ _ _ _ K4' N1 ltac:(lia)) as N2. pose proof (alike_mul _ _ _ _ _ _ N2 T2 ltac:(lia)) as N3. pose proof (alike_add _ _ _ _ _ _ M6 N3 ltac:(lia)) as (F1 & F2 & F3).
  split; [exact (fin _ _ F2)|]. eexists. split; [reflexivity|exact F3].
Qed.

(** On |x|, |y| <= 4 camelback is within 2^-25 of the six-hump camelback function, so it stays above -1.03171. *)
Theorem C110_camelback_in_doubles :
  on_box 2 2 (@camelback f64 _) (fun x y => exists a b, x = [a; b] /\ Rabs (value y - six_hump (value a) (value b)) <= bpow radix2 (-25) /\ - (103171 / 100000) <= value y).
Proof.
  intros x Hx. destruct x as [|a [|b [|? ?]]]; try discriminate Hx. intros B. apply both in B as [A B]. eexists. split; [reflexivity|].
  set (u := value a). set (v := value b).
  assert (Hu : Rabs u <= 4) by exact (proj2 A). assert (Hv : Rabs v <= 4) by exact (proj2 B). apply abs_inv in Hu. apply abs_inv in Hv.
  assert (Pu : 0 <= u * u <= 16) by nra. assert (Pv : 0 <= v * v <= 16) by nra.
  assert (NA : near a u (-1000) 2) by (now apply near_self). assert (NB : near b v (-1000) 2) by (now apply near_self).
  assert (R2 : forall r, -4 <= r <= 4 -> Rabs r <= p2 2) by (intros r R; apply Rabs_le; change (p2 2) with 4; lra).
  assert (R4 : forall r, -16 <= r <= 16 -> Rabs r <= p2 4) by (intros r R; apply Rabs_le; change (p2 4) with 16; lra).
  assert (NA2 : near (nmul a a) (u * u) (-46) 4) by (eapply near_mul; [exact NA|exact NA|apply R2|..]; first [lra|lia]).
  assert (NB2 : near (nmul b b) (v * v) (-46) 4) by (eapply near_mul; [exact NB|exact NB|apply R2|..]; first [lra|lia]).
  assert (NP : near (nmul a b) (u * v) (-46) 4) by (eapply near_mul; [exact NA|exact NB|apply R2|..]; first [lra|lia]).
  assert (NA3 : near (nmul a (nmul a a)) (u * (u * u)) (-42) 6) by (eapply near_mul; [exact NA|exact NA2|apply R4|..]; first [lra|lia]).
  assert (R6 : Rabs (u * (u * u)) <= p2 6) by (apply Rabs_le; change (p2 6) with 64; nra).
  assert (NA4 : near (nmul a (nmul a (nmul a a))) (u * (u * (u * u))) (-38) 8) by (eapply near_mul; [exact NA|exact NA3|exact R6|..]; lia).
  destruct (rep_int 3 ltac:(lia)) as [F3 V3].
  assert (NT : near (ndiv (nmul a (nmul a (nmul a a))) (nint 3)) (u * (u * (u * u)) / 3) (-37) 7).
  { rewrite <- V3. eapply (near_div _ _ _ _ _ 1); [exact NA4|exact F3|rewrite V3; change (p2 1) with 2; lra|..]; lia. }
  destruct (b_int 4 2 ltac:(lia) ltac:(lia) ltac:(lia)) as [B4 V4]. destruct (b_int (-4) 2 ltac:(lia) ltac:(lia) ltac:(lia)) as [B4' V4'].
  assert (N4 : near (nint 4) 4 (-1000) 2) by (rewrite <- V4; now apply near_self). assert (N4' : near (nint (-4)) (-4) (-1000) 2) by (rewrite <- V4'; now apply near_self).
  assert (N21 : near (nfrac 21 10) (21 / 10) (-50) 2).
  { assert (F : finite (nfrac 21 10 : f64)) by (vm_compute; reflexivity). assert (Q : Rabs (value (nfrac 21 10) - 21 / 10) <= p2 (-50)) by (change (p2 (-50)) with (/ 1125899906842624); apply Rabs_le; unfold value; vm_compute; lra).
    split; [split; [exact F|]|exact Q]. pose proof (p2_le (-50) 0 ltac:(lia)) as P0. change (p2 0) with 1 in P0. apply abs_inv in Q. apply Rabs_le. change (bpow radix2 2) with 4. lra. }
  assert (M1 : near (nmul (nfrac 21 10) (nmul a a)) (21 / 10 * (u * u)) (-42) 6) by (eapply near_mul; [exact N21|exact NA2|apply R4|..]; first [lra|lia]).
  assert (M2 : near (nsub (nint 4) (nmul (nfrac 21 10) (nmul a a))) (4 - 21 / 10 * (u * u)) (-40) 7) by (eapply near_sub; [exact N4|exact M1|..]; lia).
  pose proof (near_add _ _ _ _ _ _ _ _ (-35) 8 M2 NT ltac:(lia) ltac:(lia) ltac:(lia) ltac:(lia) ltac:(lia) ltac:(lia)) as M3.
  pose proof (near_mul _ _ _ _ _ _ _ _ (-29) 12 M3 NA2 (R4 (u * u) ltac:(lra)) ltac:(lia) ltac:(lia) ltac:(lia) ltac:(lia) ltac:(lia)) as M5.
  pose proof (near_add _ _ _ _ _ _ _ _ (-27) 13 M5 NP ltac:(lia) ltac:(lia) ltac:(lia) ltac:(lia) ltac:(lia) ltac:(lia)) as M6.
  pose proof (near_mul _ _ _ _ _ _ _ _ (-42) 6 N4 NB2 (R4 (v * v) ltac:(lra)) ltac:(lia) ltac:(lia) ltac:(lia) ltac:(lia) ltac:(lia)) as Q1.
  pose proof (near_add _ _ _ _ _ _ _ _ (-40) 7 N4' Q1 ltac:(lia) ltac:(lia) ltac:(lia) ltac:(lia) ltac:(lia) ltac:(lia)) as Q2.
  pose proof (near_mul _ _ _ _ _ _ _ _ (-34) 11 Q2 NB2 (R4 (v * v) ltac:(lra)) ltac:(lia) ltac:(lia) ltac:(lia) ltac:(lia) ltac:(lia)) as Q3.
  pose proof (near_add _ _ _ _ _ _ _ _ (-25) 14 M6 Q3 ltac:(lia) ltac:(lia) ltac:(lia) ltac:(lia) ltac:(lia) ltac:(lia)) as [F D].
  split; [exact (fin _ _ F)|]. exists a, b. split; [reflexivity|].
  assert (ES : six_hump u v = (4 - 21 / 10 * (u * u) + u * (u * (u * u)) / 3) * (u * u) + u * v + (-4 + 4 * (v * v)) * (v * v)) by (unfold six_hump; field).
  fold u v. rewrite ES. split; [exact D|].
  destruct (proj1 PObjectives.C68_camelback u v) as (y & Hy & L). assert (EY : y = six_hump u v). { rewrite six_hump_real in Hy. congruence. }
  rewrite EY, ES in L. exact (low_enough _ _ D L).
Qed.

(** The documented minimisers, as doubles: both are below -1.0316, and -1.0317 is not reached. *)
Definition low_point : f64 := nfrac 898 10000.
Definition low_other : f64 := nopp (nfrac 7126 10000).
Example C110_example_camelback :
  Forall (bounded64 2) [low_point; low_other] /\
  exists y y', camelback [low_point; low_other] = Ok y /\ camelback [nopp low_point; nopp low_other] = Ok y' /\ value y = value y' /\ - (103171 / 100000) <= value y <= - (10316 / 10000).
Proof.
  assert (B1 : bounded64 2 low_point). { split; [vm_compute; reflexivity|]. apply Rabs_le. change (bpow radix2 2) with 4. unfold value. vm_compute. lra. }
  assert (B2 : bounded64 2 low_other). { split; [vm_compute; reflexivity|]. apply Rabs_le. change (bpow radix2 2) with 4. unfold value. vm_compute. lra. }
  assert (FB : forall e, (2 <= e)%Z -> Forall (bounded64 e) [low_point; low_other]).
  { intros e He. pose proof (bpow_le radix2 2 e He) as L. destruct B1 as [F1 B1], B2 as [F2 B2]. constructor; [split; [exact F1|lra]|constructor; [split; [exact F2|lra]|constructor]]. }
  split; [apply FB; lia|].
  destruct (C110_camelback_in_doubles [low_point; low_other] eq_refl (FB 2%Z ltac:(lia))) as (y & E1 & F & a & b & E2 & _ & L). destruct (C110_camelback_even [low_point; low_other] eq_refl (FB 100%Z ltac:(lia))) as (y1 & E3 & _ & y' & E4 & E5).
  exists y, y'. split; [exact E1|]. split; [exact E4|]. assert (y1 = y) by congruence. subst y1. split; [now symmetry|]. split; [exact L|].
  assert (C : match camelback [low_point; low_other] with Ok z => nltb (nfrac (-10316) 10000) z | Raise _ => true end = false) by (vm_compute; reflexivity).
  rewrite E1 in C. assert (FC : finite (nfrac (-10316) 10000 : f64)) by (vm_compute; reflexivity). rewrite (rep_ltb _ _ _ _ (conj FC eq_refl) (conj F eq_refl)) in C. unfold Rltb in C. destruct (Rlt_dec _ _) as [|N]; [discriminate C|].
  assert (V : value (nfrac (-10316) 10000) <= - (10316 / 10000)) by (unfold value; vm_compute; lra). lra.
Qed.
