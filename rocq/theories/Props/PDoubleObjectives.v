(** C110: the benchmark functions in double precision. *)
From Coq Require Import List Arith Lia ZArith Bool Reals Lra.
From Flocq Require Import Core.Core.
From Flocq Require IEEE754.BinarySingleNaN.
From Verif.Proofs Require Import FloatCell SafeFloat FloatAdapt.
From Verif.Base Require Import Py Num Float64 Vec Lists.
From Verif.Model Require Import Objectives.
From Verif.Spec Require Import Doubles DoubleParticles DoubleObjectives.
From Verif.Proofs Require Import DoubleCell DoubleRun DoubleStein DoubleKernel.
From Verif.Props Require Import PSpoilt PDoubleSvgd.
Import ListNotations.
Local Open Scope R_scope.

(** *** Bounds and monotonicity of single operations *)
Lemma b_sub : forall x y e1 e2 e, bounded64 e1 x -> bounded64 e2 y -> (e1 < e)%Z -> (e2 < e)%Z -> (-1074 <= e < 1024)%Z -> bounded64 e (nsub x y).
Proof.
  intros x y e1 e2 e [Fx Bx] [Fy By] L1 L2 L. assert (B : Rabs (value x - value y) <= bpow radix2 e).
  { unfold Rminus. eapply Rle_trans; [apply Rabs_triang|]. rewrite Rabs_Ropp. replace e with (1 + (e - 1))%Z by lia. rewrite bpow_plus. change (bpow radix2 1) with 2.
    pose proof (bpow_le radix2 e1 (e - 1) ltac:(lia)). pose proof (bpow_le radix2 e2 (e - 1) ltac:(lia)). lra. }
  destruct (rep_sub x y _ _ (conj Fx eq_refl) (conj Fy eq_refl)) as [F V]; [apply (below_huge e); [lia|exact B]|]. split; [exact F|]. rewrite V. apply rnd64_bound; [lia|exact B].
Qed.
Lemma b_sq : forall x e e', bounded64 e x -> (e + e <= e')%Z -> (-1074 <= e' < 1024)%Z -> bounded64 e' (npow x 2) /\ 0 <= value (npow x 2).
Proof.
  intros x e e' H L1 L. change (npow x 2) with (nmul x x). pose proof (b_mul x x e e e' H H L1 L) as [F B]. split; [now split|]. rewrite (mul_value _ _ F), <- rnd64_0. apply rnd64_mono, Rle_0_sqr.
Qed.
Lemma b_unit : forall x, between64 (-1) 1 x -> bounded64 0 x.
Proof. intros x [F B]. split; [exact F|]. change (bpow radix2 0) with 1. apply Rabs_le. lra. Qed.
Lemma b_int : forall z e, (Z.abs z < 2 ^ 53)%Z -> (0 <= e)%Z -> (Z.abs z <= 2 ^ e)%Z -> bounded64 e (nint z) /\ value (nint z) = IZR z.
Proof.
  intros z e Hz He Hb. destruct (rep_int z Hz) as [F V]. split; [|exact V]. split; [exact F|]. rewrite V, <- abs_IZR. rewrite <- (IZR_Zpower radix2) by exact He. apply IZR_le. exact Hb.
Qed.
Lemma add_mono : forall a b x y : f64, finite (nadd a b) -> finite (nadd x y) -> finite a -> finite b -> finite x -> finite y -> value a <= value x -> value b <= value y -> value (nadd a b) <= value (nadd x y).
Proof. intros a b x y F1 F2 Fa Fb Fx Fy H1 H2. rewrite (add_value a b), (add_value x y) by assumption. apply rnd64_mono. lra. Qed.
Lemma sub_mono : forall a b x y : f64, finite (nsub a b) -> finite (nsub x y) -> finite a -> finite b -> finite x -> finite y -> value a <= value x -> value y <= value b -> value (nsub a b) <= value (nsub x y).
Proof. intros a b x y F1 F2 Fa Fb Fx Fy H1 H2. rewrite (sub_value a b), (sub_value x y) by assumption. apply rnd64_mono. lra. Qed.
Lemma mul_mono : forall k a x : f64, finite (nmul k a) -> finite (nmul k x) -> 0 <= value k -> value a <= value x -> value (nmul k a) <= value (nmul k x).
Proof. intros k a x F1 F2 K H. rewrite !mul_value by assumption. apply rnd64_mono. now apply Rmult_le_compat_l. Qed.
Lemma both : forall P (a b : f64), Forall P [a; b] -> P a /\ P b.
Proof. intros P a b H. inversion H as [|? ? H1 H2]; subst. inversion H2; subst. auto. Qed.
Lemma const_bounded : forall x : f64, BinarySingleNaN.is_finite x = true -> nltb x (nint 128) = true -> nltb (nint (-128)) x = true -> bounded64 7 x.
Proof.
  intros x F L1 L2. destruct (rep_int 128 ltac:(lia)) as [F1 V1], (rep_int (-128) ltac:(lia)) as [F2 V2]. pose proof (lt_true _ _ F F1 L1). pose proof (lt_true _ _ F2 F L2). rewrite V1 in *. rewrite V2 in *. split; [exact F|]. change (bpow radix2 7) with 128. apply Rabs_le. lra.
Qed.
Ltac const := apply const_bounded; vm_compute; reflexivity.

(** *** Rosenbrock *)
(** No double except one differs from one by less than 2^-53. *)
Lemma near_one : forall x : f64, finite x -> value x <> 1 -> p2 (-53) <= Rabs (value x - 1).
Proof.
  intros x F N. assert (G1 : generic_format radix2 (FLT_exp (-1074) 53) 1) by (change 1 with (bpow radix2 0); apply format64_bpow; lia).
  destruct (Rle_or_lt (value x) 1) as [L|L].
  - assert (value x <= pred radix2 (FLT_exp (-1074) 53) 1) by (apply pred_ge_gt; [auto with typeclass_instances|apply value_format|exact G1|lra]).
    change 1 with (bpow radix2 0) in H. rewrite pred_bpow in H. change (FLT_exp (-1074) 53 0) with (-53)%Z in H. change (bpow radix2 0) with 1 in H. rewrite Rabs_left1 by lra. unfold p2. lra.
  - assert (succ radix2 (FLT_exp (-1074) 53) 1 <= value x) by (apply succ_le_lt; [auto with typeclass_instances|exact G1|apply value_format|lra]).
    change 1 with (bpow radix2 0) in H. rewrite succ_eq_pos in H by apply bpow_ge_0. rewrite ulp_bpow in H. change (FLT_exp (-1074) 53 (0 + 1)) with (-52)%Z in H. change (bpow radix2 0) with 1 in H. pose proof (p2_le (-53) (-52) ltac:(lia)). rewrite Rabs_right by lra. unfold p2 in *. lra.
Qed.
Lemma rounds_to_zero : forall e x, (-1074 <= e)%Z -> rnd64 x = 0 -> Rabs x < p2 e.
Proof.
  intros e x He H. destruct (Rle_or_lt (p2 e) (Rabs x)) as [L|L]; [exfalso|exact L]. pose proof (p2_pos e) as P. unfold Rabs in L. destruct (Rcase_abs x) as [N|N].
  - pose proof (rnd64_mono (p2 e) (- x) L) as M. rewrite rnd64_opp, H in M. unfold p2 in M. rewrite (rnd64_id _ (format64_bpow e He)) in M. unfold p2 in P. lra.
  - pose proof (rnd64_mono (p2 e) x L) as M. rewrite H in M. unfold p2 in M. rewrite (rnd64_id _ (format64_bpow e He)) in M. unfold p2 in P. lra.
Qed.

(** *** Sizes of expressions *)
Lemma e_mul : forall x y e1 e2, bounded64 e1 x -> bounded64 e2 y -> (-1074 <= e1 + e2 < 1024)%Z -> bounded64 (e1 + e2) (nmul x y).
Proof. intros x y e1 e2 H1 H2 L. eapply b_mul; [exact H1|exact H2|lia|exact L]. Qed.
Lemma e_add : forall x y e1 e2, bounded64 e1 x -> bounded64 e2 y -> (-1074 <= Z.max e1 e2 + 1 < 1024)%Z -> bounded64 (Z.max e1 e2 + 1) (nadd x y).
Proof. intros x y e1 e2 H1 H2 L. eapply b_add; [exact H1|exact H2|lia|lia|exact L]. Qed.
Lemma e_sub : forall x y e1 e2, bounded64 e1 x -> bounded64 e2 y -> (-1074 <= Z.max e1 e2 + 1 < 1024)%Z -> bounded64 (Z.max e1 e2 + 1) (nsub x y).
Proof. intros x y e1 e2 H1 H2 L. eapply b_sub; [exact H1|exact H2|lia|lia|exact L]. Qed.
Lemma e_sq : forall x e, bounded64 e x -> (-1074 <= e + e < 1024)%Z -> bounded64 (e + e) (npow x 2).
Proof. intros x e H L. refine (proj1 (b_sq x e (e + e) H _ L)). lia. Qed.
Lemma e_div : forall x y e, bounded64 e x -> between64 1 (bpow radix2 900) y -> (-1074 <= e < 1024)%Z -> bounded64 e (ndiv x y).
Proof. intros x y e H [F [L _]] R. eapply (b_div x y e 0); [exact H|exact F|exact L|lia|exact R]. Qed.
Lemma sq_nonneg : forall x : f64, finite (npow x 2) -> 0 <= value (npow x 2).
Proof. intros x F. change (npow x 2) with (nmul x x) in *. rewrite (mul_value _ _ F), <- rnd64_0. apply rnd64_mono, Rle_0_sqr. Qed.
Lemma fin : forall e x, bounded64 e x -> finite x. Proof. intros e x [F _]. exact F. Qed.
Lemma at_least_one : forall x : f64, BinarySingleNaN.is_finite x = true -> nltb x (nint 128) = true -> nltb (nfrac 1 2) x = true -> nltb x n1 = false -> between64 1 (bpow radix2 900) x.
Proof.
  intros x F L1 _ L2. destruct (rep_int 128 ltac:(lia)) as [F1 V1]. pose proof (lt_true _ _ F F1 L1) as B. rewrite V1 in B. split; [exact F|]. rewrite (rep_ltb _ _ _ _ (conj F eq_refl) rep_1) in L2. unfold Rltb in L2. destruct (Rlt_dec (value x) 1) as [N|N]; [discriminate L2|].
  pose proof (bpow_le radix2 7 900 ltac:(lia)) as B9. change (bpow radix2 7) with 128 in B9. lra.
Qed.
Ltac ge1 := first [eassumption | apply at_least_one; vm_compute; reflexivity].
Ltac bnd := lazymatch goal with
  | |- bounded64 _ (nmul _ _) => eapply e_mul; [bnd|bnd|lia]
  | |- bounded64 _ (nadd _ _) => eapply e_add; [bnd|bnd|lia]
  | |- bounded64 _ (nsub _ _) => eapply e_sub; [bnd|bnd|lia]
  | |- bounded64 _ (npow _ 2) => eapply e_sq; [bnd|lia]
  | |- bounded64 _ (ndiv _ _) => eapply e_div; [bnd|ge1|lia]
  | |- bounded64 _ (nopp _) => eapply b_opp; bnd
  | |- bounded64 _ (nint _) => const
  | |- bounded64 _ (nfrac _ _) => const
  | |- bounded64 _ n1 => const
  | |- bounded64 _ _ => eassumption
  end.
Ltac fbnd := eapply fin; bnd.

Lemma sum_zero : forall a b : f64, finite (nadd a b) -> finite a -> finite b -> 0 <= value a -> 0 <= value b -> value (nadd a b) = 0 -> value a = 0 /\ value b = 0.
Proof.
  intros a b F Fa Fb Ha Hb E. rewrite (add_value _ _ Fa Fb F) in E. split.
  - assert (value a <= rnd64 (value a + value b)) by (rewrite <- (rnd64_id (value a) (value_format a)) at 1; apply rnd64_mono; lra). lra.
  - assert (value b <= rnd64 (value a + value b)) by (rewrite <- (rnd64_id (value b) (value_format b)) at 1; apply rnd64_mono; lra). lra.
Qed.
(** A difference with one that is not zero is at least 2^-53 in size, also after rounding. *)
Lemma minus_one : forall x y : f64, finite (nsub x y) -> finite x -> finite y -> value y = 1 -> value x <> 1 -> p2 (-53) <= Rabs (value (nsub x y)).
Proof.
  intros x y F Fx Fy Y N. rewrite (sub_value _ _ Fx Fy F), Y. pose proof (near_one x Fx N) as G. unfold Rabs in G. destruct (Rcase_abs _) as [C|C].
  - pose proof (rnd64_mono _ _ G) as M. rewrite rnd64_opp in M. unfold p2 in M. rewrite rnd64_id in M by (apply format64_bpow; lia). rewrite <- Rabs_Ropp. eapply Rle_trans; [exact M|apply RRle_abs].
  - pose proof (rnd64_mono _ _ G) as M. unfold p2 in M. rewrite rnd64_id in M by (apply format64_bpow; lia). eapply Rle_trans; [exact M|apply RRle_abs].
Qed.
Lemma square_large : forall x : f64, finite (npow x 2) -> p2 (-53) <= Rabs (value x) -> p2 (-106) <= value (npow x 2).
Proof.
  intros x F L. change (npow x 2) with (nmul x x) in *. rewrite (mul_value _ _ F). assert (p2 (-106) <= value x * value x).
  { change (-106)%Z with (-53 + -53)%Z. unfold p2 in *. rewrite bpow_plus. rewrite <- (Rabs_right (value x * value x)) by (apply Rle_ge, Rle_0_sqr). rewrite Rabs_mult. pose proof (bpow_gt_0 radix2 (-53)). apply Rmult_le_compat; lra. }
  pose proof (rnd64_mono _ _ H) as M. unfold p2 in *. rewrite rnd64_id in M by (apply format64_bpow; lia). exact M.
Qed.

(** Rosenbrock's function has its only zero at (1, 1), also in double precision. *)
Theorem C110_rosenbrock_in_doubles :
  on_box 2 200 (@rosenbrock f64 _) (fun x y => 0 <= value y /\ (value y = 0 <-> map value x = [1; 1])).
Proof.
  intros x Hx. destruct x as [|a [|b [|? ?]]]; try discriminate Hx. intros B. apply both in B as [A B]. eexists. split; [reflexivity|].
  destruct (rep_int 0 ltac:(lia)) as [F0 V0], (rep_int 1 ltac:(lia)) as [F1 V1]. destruct (rep_int 100 ltac:(lia)) as [F100 V100].
  set (q := npow (nsub b (npow a 2)) 2). set (r := npow (nsub a (nint 1)) 2).
  assert (Fa2 : bounded64 (200 + 200) (npow a 2)) by bnd. assert (Bq : exists e, (0 <= e <= 900)%Z /\ bounded64 e q) by (unfold q; eexists; split; [|bnd]; lia). destruct Bq as (eq & Leq & Bq). assert (Br : exists e, (0 <= e <= 900)%Z /\ bounded64 e r) by (unfold r; eexists; split; [|bnd]; lia). destruct Br as (er & Ler & Br).
  assert (Fd : finite (nsub b (npow a 2))) by fbnd. assert (Fe : finite (nsub a (nint 1))) by fbnd.
  pose proof (fin _ _ Bq) as Fq. pose proof (fin _ _ Br) as Fr. pose proof (sq_nonneg _ Fq) as Pq. pose proof (sq_nonneg _ Fr) as Pr. fold q in Pq. fold r in Pr.
  assert (Fc : finite (nmul (nint 100) q)) by fbnd. assert (Pc : 0 <= value (nmul (nint 100) q)) by (rewrite (mul_value _ _ Fc), V100, <- rnd64_0; apply rnd64_mono; lra).
  assert (Fz : finite (nadd (nint 0) (nmul (nint 100) q))) by fbnd. assert (Vz : value (nadd (nint 0) (nmul (nint 100) q)) = value (nmul (nint 100) q)). { rewrite (add_value _ _ F0 Fc Fz). rewrite V0, Rplus_0_l. apply rnd64_id, value_format. }
  assert (Fy : finite (nadd (nadd (nint 0) (nmul (nint 100) q)) r)) by fbnd.
  split; [exact Fy|]. split; [rewrite (add_value _ _ Fz Fr Fy), <- rnd64_0; apply rnd64_mono; lra|]. split.
  - intros E. apply sum_zero in E as [E1 E2]; [|exact Fy|exact Fz|exact Fr|lra|exact Pr]. rewrite Vz in E1. assert (Ha : value a = 1).
    { destruct (Req_dec (value a) 1) as [H|H]; [exact H|exfalso]. pose proof (square_large _ Fr (minus_one a (nint 1) Fe (fin _ _ A) F1 V1 H)) as L. fold r in L. pose proof (p2_pos (-106)). lra. }
    assert (Va2 : value (npow a 2) = 1). { change (npow a 2) with (nmul a a) in *. rewrite (mul_value _ _ (fin _ _ Fa2)), Ha, Rmult_1_r. apply (rnd64_id 1). change 1 with (bpow radix2 0). apply format64_bpow. lia. }
    assert (Hb : value b = 1). { destruct (Req_dec (value b) 1) as [H|H]; [exact H|exfalso]. pose proof (square_large _ Fq (minus_one b _ Fd (fin _ _ B) (fin _ _ Fa2) Va2 H)) as L. fold q in L. rewrite (mul_value _ _ Fc), V100 in E1. apply (rounds_to_zero (-106)) in E1; [|lia]. pose proof (p2_pos (-106)). rewrite Rabs_right in E1; lra. }
    cbn [map]. now rewrite Ha, Hb.
  - cbn [map]. intros E. assert (Ha : value a = 1) by congruence. assert (Hb : value b = 1) by congruence.
    assert (Va2 : value (npow a 2) = 1). { change (npow a 2) with (nmul a a) in *. rewrite (mul_value _ _ (fin _ _ Fa2)), Ha, Rmult_1_r. apply (rnd64_id 1). change 1 with (bpow radix2 0). apply format64_bpow. lia. }
    assert (Q : value q = 0). { unfold q in *. change (npow (nsub b (npow a 2)) 2) with (nmul (nsub b (npow a 2)) (nsub b (npow a 2))) in *. rewrite (mul_value _ _ Fq), (sub_value _ _ (fin _ _ B) (fin _ _ Fa2) Fd), Va2, Hb. replace (1 - 1) with 0 by lra. rewrite rnd64_0, Rmult_0_r. apply rnd64_0. }
    assert (R : value r = 0). { unfold r in *. change (npow (nsub a (nint 1)) 2) with (nmul (nsub a (nint 1)) (nsub a (nint 1))) in *. rewrite (mul_value _ _ Fr), (sub_value _ _ (fin _ _ A) F1 Fe), Ha. rewrite V1. replace (1 - 1) with 0 by lra. rewrite rnd64_0, Rmult_0_r. apply rnd64_0. }
    rewrite (add_value _ _ Fz Fr Fy), Vz, (mul_value _ _ Fc), Q, R, Rmult_0_r, rnd64_0, Rplus_0_r. apply rnd64_0.
Qed.

(** *** Functions with sines and cosines *)
Section Trig.
Context (NT : NumT f64) (TRIG : usual_trig NT).
Lemma pi_bounded : bounded64 2 npi.
Proof. destruct TRIG as (_ & _ & F & B). split; [exact F|]. change (bpow radix2 2) with 4. apply Rabs_le. lra. Qed.
Lemma pi_ge1 : between64 1 (bpow radix2 900) npi.
Proof. destruct TRIG as (_ & _ & F & B). split; [exact F|]. pose proof (bpow_le radix2 2 900 ltac:(lia)) as L. change (bpow radix2 2) with 4 in L. lra. Qed.
Lemma cos_unit : forall x, finite x -> between64 (-1) 1 (ncos x). Proof. intros x F. apply TRIG, F. Qed.
Lemma sin_unit : forall x, finite x -> between64 (-1) 1 (nsin x). Proof. intros x F. apply TRIG, F. Qed.

Lemma times_unit : forall k x : f64, finite (nmul k x) -> 0 <= value k -> between64 (-1) 1 x -> - value k <= value (nmul k x) <= value k.
Proof.
  intros k x F K [_ B]. rewrite (mul_value _ _ F). assert (- value k <= value k * value x <= value k) by nra. split.
  - replace (- value k) with (rnd64 (- value k)) by (rewrite rnd64_opp; f_equal; apply rnd64_id, value_format). apply rnd64_mono. lra.
  - rewrite <- (rnd64_id (value k) (value_format k)) at 2. apply rnd64_mono. lra.
Qed.
Lemma plus_nonneg : forall x y : f64, finite x -> finite y -> finite (nadd x y) -> 0 <= value y -> value x <= value (nadd x y).
Proof. intros x y Fx Fy F P. rewrite (add_value _ _ Fx Fy F). rewrite <- (rnd64_id (value x) (value_format x)) at 1. apply rnd64_mono. lra. Qed.
Lemma plus_zero : forall x y : f64, finite x -> finite y -> finite (nadd x y) -> value y = 0 -> value (nadd x y) = value x.
Proof. intros x y Fx Fy F P. rewrite (add_value _ _ Fx Fy F), P, Rplus_0_r. apply rnd64_id, value_format. Qed.
Lemma times_zero : forall x y : f64, finite (nmul x y) -> value y = 0 -> value (nmul x y) = 0.
Proof. intros x y F P. rewrite (mul_value _ _ F), P, Rmult_0_r. apply rnd64_0. Qed.
Lemma times_one : forall x y : f64, finite (nmul x y) -> value y = 1 -> value (nmul x y) = value x.
Proof. intros x y F P. rewrite (mul_value _ _ F), P, Rmult_1_r. apply rnd64_id, value_format. Qed.
Lemma times_pos : forall x y : f64, finite (nmul x y) -> 0 <= value x -> 0 <= value y -> 0 <= value (nmul x y).
Proof. intros x y F X Y. rewrite (mul_value _ _ F), <- rnd64_0. apply rnd64_mono. now apply Rmult_le_pos. Qed.
Lemma sq_zero : forall x : f64, finite (npow x 2) -> value x = 0 -> value (npow x 2) = 0.
Proof. intros x F X. change (npow x 2) with (nmul x x) in *. now apply times_zero. Qed.

(** 0.7 - 0.3 - 0.4 is -2^-54. *)
Lemma seven_three_four : value (nsub (nsub (nfrac 7 10) (nfrac 3 10)) (nfrac 4 10)) = - p2 (-54).
Proof. unfold value, p2. vm_compute. lra. Qed.

(** Bohachevski's function has its least value at the origin, also in double precision, but that value
    is -2^-54 and not the documented 0. *)
Theorem C110_bohachevski_in_doubles :
  on_box 2 400 (@bohachevski f64 _ NT) (fun x y => - bpow radix2 (-54) <= value y /\ (map value x = [0; 0] -> value y = - bpow radix2 (-54))).
Proof.
  intros x Hx. destruct x as [|a [|b [|? ?]]]; try discriminate Hx. intros B. apply both in B as [A B]. eexists. split; [reflexivity|]. fold (p2 (-54)). rewrite <- seven_three_four.
  pose proof pi_bounded as BP. assert (FA : finite (nmul (nmul (nint 3) npi) a)) by fbnd. assert (FB : finite (nmul (nmul (nint 4) npi) b)) by fbnd.
  pose proof (cos_unit _ FA) as C1. pose proof (cos_unit _ FB) as C2. pose proof (proj1 (proj2 TRIG) _ FA) as Z1. pose proof (proj1 (proj2 TRIG) _ FB) as Z2.
  assert (ZA : value a = 0 -> value (ncos (nmul (nmul (nint 3) npi) a)) = 1) by (intros E; apply Z1; now apply times_zero). assert (ZB : value b = 0 -> value (ncos (nmul (nmul (nint 4) npi) b)) = 1) by (intros E; apply Z2; now apply times_zero).
  clear FA FB Z1 Z2. set (c1 := ncos (nmul (nmul (nint 3) npi) a)) in *. set (c2 := ncos (nmul (nmul (nint 4) npi) b)) in *. pose proof (b_unit _ C1) as B1. pose proof (b_unit _ C2) as B2.
  assert (K7 : bounded64 7 (nfrac 7 10)) by const. assert (K3 : bounded64 7 (nfrac 3 10)) by const. assert (K4 : bounded64 7 (nfrac 4 10)) by const. assert (P3 : 0 <= value (nfrac 3 10)) by (left; rewrite <- (proj2 rep_0); apply lt_true; vm_compute; reflexivity). assert (P4 : 0 <= value (nfrac 4 10)) by (left; rewrite <- (proj2 rep_0); apply lt_true; vm_compute; reflexivity).
  destruct (rep_int 2 ltac:(lia)) as [F2 V2]. assert (Kw : bounded64 7 (nint 2)) by const.
  set (k7 := nfrac 7 10 : f64) in *. set (k3 := nfrac 3 10 : f64) in *. set (k4 := nfrac 4 10 : f64) in *. set (two := nint 2 : f64) in *.
  assert (Fa2 : finite (npow a 2)) by fbnd. assert (Fb2 : finite (npow b 2)) by fbnd. assert (Fb3 : finite (nmul two (npow b 2))) by fbnd.
  assert (Fy1 : finite (nadd k7 (npow a 2))) by fbnd. assert (Fy2 : finite (nadd (nadd k7 (npow a 2)) (nmul two (npow b 2)))) by fbnd.
  assert (F3 : finite (nmul k3 c1)) by fbnd. assert (F4 : finite (nmul k4 c2)) by fbnd.
  assert (Fy3 : finite (nsub (nadd (nadd k7 (npow a 2)) (nmul two (npow b 2))) (nmul k3 c1))) by fbnd.
  assert (Fy4 : finite (nsub (nsub (nadd (nadd k7 (npow a 2)) (nmul two (npow b 2))) (nmul k3 c1)) (nmul k4 c2))) by fbnd.
  assert (G1 : finite (nsub k7 k3)) by fbnd. assert (G2 : finite (nsub (nsub k7 k3) k4)) by fbnd. destruct K7 as [F7 _], K3 as [Fk3 _], K4 as [Fk4 _].
  split; [exact Fy4|]. split.
  - apply sub_mono; try assumption; [|apply times_unit; assumption]. apply sub_mono; try assumption; [|apply times_unit; assumption].
    eapply Rle_trans; [apply (plus_nonneg k7 (npow a 2)); try assumption; now apply sq_nonneg|]. apply plus_nonneg; try assumption. apply times_pos; [exact Fb3|rewrite V2; lra|now apply sq_nonneg].
  - cbn [map]. intros E. assert (Ea : value a = 0) by congruence. assert (Eb : value b = 0) by congruence.
    rewrite (sub_value _ _ Fy3 F4 Fy4), (sub_value _ _ Fy2 F3 Fy3), (sub_value _ _ G1 Fk4 G2), (sub_value _ _ F7 Fk3 G1), (times_one _ _ F3 (ZA Ea)), (times_one _ _ F4 (ZB Eb)).
    rewrite (plus_zero _ _ Fy1 Fb3 Fy2), (plus_zero _ _ F7 Fa2 Fy1); [reflexivity|now apply sq_zero|]. apply times_zero; [exact Fb3|now apply sq_zero].
Qed.

(** Levy's function is never negative; at the documented optimum 1 it is the square of the computed
    sin(pi), so it is zero only if that sine is so small that its square underflows. *)
Theorem C110_levy_in_doubles :
  on_box 1 400 (@levy f64 _ NT) (fun x y => 0 <= value y) /\
  (forall x, finite x -> value x = 1 -> (forall t, finite t -> value t = value npi -> bpow radix2 (-500) <= Rabs (value (nsin t))) -> exists y, @levy f64 _ NT [x] = Ok y /\ finite y /\ 0 < value y).
Proof.
  assert (M : forall a, bounded64 400 a -> exists y, @levy f64 _ NT [a] = Ok y /\ finite y /\ 0 <= value y /\ value (npow (nsin (nmul npi (nadd (nint 1) (ndiv (nsub a (nint 1)) (nint 4))))) 2) <= value y).
  { intros a A. eexists. split; [reflexivity|]. pose proof pi_bounded as BP. assert (Bz : exists e, (0 <= e <= 410)%Z /\ bounded64 e (nadd (nint 1) (ndiv (nsub a (nint 1)) (nint 4)))) by (eexists; split; [|bnd]; lia).
    destruct Bz as (e & Le & Bz). set (z := nadd (nint 1) (ndiv (nsub a (nint 1)) (nint 4))) in *. clearbody z.
    assert (S1 : bounded64 0 (nsin (nmul npi z))) by (apply b_unit, sin_unit; fbnd). assert (S2 : bounded64 0 (nsin (nmul (nmul (nint 2) npi) z))) by (apply b_unit, sin_unit; fbnd).
    set (s1 := nsin (nmul npi z)) in *. set (s2 := nsin (nmul (nmul (nint 2) npi) z)) in *.
    assert (F1 : finite (npow s1 2)) by fbnd. assert (F2 : finite (npow s2 2)) by fbnd. assert (F3 : finite (npow (nsub z (nint 1)) 2)) by fbnd. assert (F4 : finite (nadd (nint 1) (npow s2 2))) by fbnd.
    assert (F5 : finite (nmul (npow (nsub z (nint 1)) 2) (nadd (nint 1) (npow s2 2)))) by fbnd. assert (F6 : finite (nadd (npow s1 2) (nmul (npow (nsub z (nint 1)) 2) (nadd (nint 1) (npow s2 2))))) by fbnd.
    destruct (rep_int 1 ltac:(lia)) as [G1 V1]. assert (P4 : 0 <= value (nadd (nint 1) (npow s2 2))). { pose proof (plus_nonneg _ _ G1 F2 F4 (sq_nonneg _ F2)). lra. }
    assert (L : value (npow s1 2) <= value (nadd (npow s1 2) (nmul (npow (nsub z (nint 1)) 2) (nadd (nint 1) (npow s2 2))))) by (apply plus_nonneg; try assumption; apply times_pos; [exact F5|now apply sq_nonneg|exact P4]).
    split; [exact F6|]. split; [|exact L]. pose proof (sq_nonneg _ F1). lra. }
  split.
  - intros x Hx. destruct x as [|a [|? ?]]; try discriminate Hx. intros B. inversion B as [|? ? A _]; subst. destruct (M a A) as (y & E & F & P & _). exists y. auto.
  - intros a Fa Va HS. assert (A : bounded64 400 a). { split; [exact Fa|]. rewrite Va, Rabs_R1. change 1 with (bpow radix2 0). apply bpow_le. lia. }
    destruct (M a A) as (y & E & F & P & L). exists y. split; [exact E|]. split; [exact F|]. eapply Rlt_le_trans; [|exact L]. pose proof pi_bounded as BP.
    destruct (rep_int 1 ltac:(lia)) as [G1 V1], (rep_int 4 ltac:(lia)) as [G4 V4]. assert (F1 : finite (nsub a (nint 1))) by fbnd. assert (F2 : finite (ndiv (nsub a (nint 1)) (nint 4))) by fbnd. assert (F3 : finite (nadd (nint 1) (ndiv (nsub a (nint 1)) (nint 4)))) by fbnd.
    assert (E1 : value (nsub a (nint 1)) = 0) by (rewrite (sub_value _ _ Fa G1 F1), Va, V1; replace (1 - 1) with 0 by lra; apply rnd64_0).
    assert (E2 : value (ndiv (nsub a (nint 1)) (nint 4)) = 0). { assert (Q : 0 / 4 = 0) by lra. destruct (rep_div (nsub a (nint 1)) (nint 4) 0 4 (conj F1 E1) (conj G4 V4) ltac:(lra)) as [_ V]; [rewrite Q, rnd64_0, Rabs_R0; unfold huge; apply bpow_gt_0|]. rewrite V, Q. apply rnd64_0. }
    assert (E3 : value (nadd (nint 1) (ndiv (nsub a (nint 1)) (nint 4))) = 1) by (rewrite (plus_zero _ _ G1 F2 F3 E2); exact V1). assert (F4 : finite (nmul npi (nadd (nint 1) (ndiv (nsub a (nint 1)) (nint 4))))) by fbnd.
    specialize (HS _ F4 (times_one _ _ F4 E3)). pose proof (b_unit _ (sin_unit _ F4)) as BS. set (s := nsin _) in *. change (npow s 2) with (nmul s s). assert (FS : finite (nmul s s)) by fbnd. rewrite (mul_value _ _ FS).
    assert (Q : p2 (-1000) <= value s * value s). { change (-1000)%Z with (-500 + -500)%Z. unfold p2. rewrite bpow_plus. rewrite <- (Rabs_right (value s * value s)) by (apply Rle_ge, Rle_0_sqr). rewrite Rabs_mult. pose proof (bpow_gt_0 radix2 (-500)). apply Rmult_le_compat; lra. }
    pose proof (rnd64_mono _ _ Q) as M2. unfold p2 in M2. rewrite rnd64_id in M2 by (apply format64_bpow; lia). pose proof (bpow_gt_0 radix2 (-1000)). lra.
Qed.

(** A factor of [sin_one]: between 0 and 1. *)
Lemma wave : forall a, bounded64 400 a -> between64 0 1 (nadd (nmul (nmul (nfrac 5 10) (nsin (nmul (nint 13) a))) (nsin (nmul (nint 27) a))) (nfrac 5 10)).
Proof.
  intros a A. assert (S1 : between64 (-1) 1 (nsin (nmul (nint 13) a))) by (apply sin_unit; fbnd). assert (S2 : between64 (-1) 1 (nsin (nmul (nint 27) a))) by (apply sin_unit; fbnd).
  pose proof (b_unit _ S1) as B1. pose proof (b_unit _ S2) as B2. set (s1 := nsin (nmul (nint 13) a)) in *. set (s2 := nsin (nmul (nint 27) a)) in *.
  assert (K : bounded64 7 (nfrac 5 10)) by const. assert (VK : value (nfrac 5 10) = / 2) by (unfold value; vm_compute; lra). set (h := nfrac 5 10 : f64) in *.
  assert (F1 : finite (nmul h s1)) by fbnd. assert (F2 : finite (nmul (nmul h s1) s2)) by fbnd. assert (F3 : finite (nadd (nmul (nmul h s1) s2) h)) by fbnd. split; [exact F3|].
  pose proof (times_unit h s1 F1 ltac:(lra) S1) as T1. assert (T2 : - / 2 <= value (nmul (nmul h s1) s2) <= / 2).
  { rewrite (mul_value _ _ F2). rewrite <- VK. destruct S2 as [_ S2]. assert (- value h <= value (nmul h s1) * value s2 <= value h) by nra. split.
    - replace (- value h) with (rnd64 (- value h)) by (rewrite rnd64_opp; f_equal; apply rnd64_id, value_format). apply rnd64_mono. lra.
    - rewrite <- (rnd64_id (value h) (value_format h)). apply rnd64_mono. lra. }
  rewrite (add_value _ _ F2 (fin _ _ K) F3), VK. split; [rewrite <- rnd64_0; apply rnd64_mono; lra|]. change 1 with (bpow radix2 0). rewrite <- (rnd64_id _ (format64_bpow 0 ltac:(lia))). apply rnd64_mono. change (bpow radix2 0) with 1. lra.
Qed.
(** sin_one and sin_two stay between 0 and 1. *)
Theorem C110_waves_in_doubles :
  on_box 1 400 (@sin_one f64 _ NT) (fun x y => 0 <= value y <= 1) /\ on_box 2 400 (@sin_two f64 _ NT) (fun x y => 0 <= value y <= 1).
Proof.
  split; intros x Hx.
  - destruct x as [|a [|? ?]]; try discriminate Hx. intros B. inversion B as [|? ? A _]; subst. eexists. split; [reflexivity|]. exact (wave a A).
  - destruct x as [|a [|b [|? ?]]]; try discriminate Hx. intros B. apply both in B as [A B]. eexists. split; [reflexivity|]. pose proof (wave a A) as [F1 W1]. pose proof (wave b B) as [F2 W2].
    set (u1 := nadd (nmul (nmul (nfrac 5 10) (nsin (nmul (nint 13) a))) (nsin (nmul (nint 27) a))) (nfrac 5 10)) in *. set (u2 := nadd (nmul (nmul (nfrac 5 10) (nsin (nmul (nint 13) b))) (nsin (nmul (nint 27) b))) (nfrac 5 10)) in *.
    assert (B1 : bounded64 0 u1) by (split; [exact F1|apply Rabs_le; change (bpow radix2 0) with 1; lra]). assert (B2 : bounded64 0 u2) by (split; [exact F2|apply Rabs_le; change (bpow radix2 0) with 1; lra]).
    assert (F : finite (nmul u1 u2)) by fbnd. split; [exact F|]. split; [apply times_pos; [exact F|lra|lra]|]. apply (Rle_trans _ (value u1)); [|lra]. apply times_unit; [exact F|lra|split; [exact F2|lra]].
Qed.

(** Branin's function never falls below the documented minimum 0.39788735773, up to 2^-41. *)
Theorem C110_branin_in_doubles : npi = nfrac 884279719003555 281474976710656 ->
  on_box 2 100 (@branin f64 _ NT) (fun x y => 39788735773 / 100000000000 - bpow radix2 (-41) <= value y).
Proof.
  intros HP x Hx. destruct x as [|a [|b [|? ?]]]; try discriminate Hx. intros B. apply both in B as [A B]. eexists. split; [reflexivity|].
  pose proof (cos_unit _ (fin _ _ A)) as C. pose proof (b_unit _ C) as BC. pose proof pi_bounded as BP. pose proof pi_ge1 as GP. set (c := ncos a) in *.
  assert (K1 : bounded64 7 (nmul (nint 10) (nsub (nint 1) (ndiv (nint 1) (nmul (nint 8) npi))))) by (rewrite HP; const).
  assert (P1 : 0 <= value (nmul (nint 10) (nsub (nint 1) (ndiv (nint 1) (nmul (nint 8) npi))))) by (rewrite HP; left; rewrite <- (proj2 rep_0); apply lt_true; vm_compute; reflexivity).
  assert (G : 39788735773 / 100000000000 - p2 (-41) <= value (nadd (nopp (nmul (nint 10) (nsub (nint 1) (ndiv (nint 1) (nmul (nint 8) npi))))) (nint 10))) by (rewrite HP; unfold value, p2; vm_compute; lra).
  assert (K2 : between64 1 (bpow radix2 900) (nmul (nint 4) (npow npi 2))) by (rewrite HP; ge1).
  set (k := nmul (nint 10) (nsub (nint 1) (ndiv (nint 1) (nmul (nint 8) npi)))) in *. set (m := nmul (nint 4) (npow npi 2)) in *. clearbody k m. fold (p2 (-41)).
  set (q := nsub (nadd (nsub b (nmul (ndiv (nfrac 51 10) m) (npow a 2))) (ndiv (nmul (nint 5) a) npi)) (nint 6)).
  assert (Bq : exists e, (0 <= e <= 400)%Z /\ bounded64 e q) by (unfold q; eexists; split; [|bnd]; lia). destruct Bq as (e & Le & Bq). clearbody q.
  assert (F1 : finite (npow q 2)) by fbnd. assert (F2 : finite (nmul k c)) by fbnd. assert (F3 : finite (nadd (nmul k c) (nint 10))) by fbnd. assert (F4 : finite (nadd (npow q 2) (nadd (nmul k c) (nint 10)))) by fbnd. split; [exact F4|].
  assert (Fk : finite (nopp k)) by fbnd. assert (F5 : finite (nadd (nopp k) (nint 10))) by fbnd. destruct (rep_int 10 ltac:(lia)) as [F10 V10].
  assert (L : value (nadd (nopp k) (nint 10)) <= value (nadd (nmul k c) (nint 10))). { apply add_mono; try assumption; [|lra]. rewrite (proj2 (rep_opp _ _ (conj (fin _ _ K1) eq_refl))). apply times_unit; assumption. }
  eapply Rle_trans; [exact G|]. eapply Rle_trans; [exact L|]. rewrite (add_value _ _ F1 F3 F4). rewrite <- (rnd64_id (value (nadd (nmul k c) (nint 10))) (value_format _)) at 1. apply rnd64_mono. pose proof (sq_nonneg _ F1). lra.
Qed.
End Trig.

(** *** Goldstein and Price *)
(** The documented minimum 3 is reached exactly at (0, -1), but a point next to it has a smaller computed value. *)
Theorem C110_goldstein_price_minimum_refuted :
  map BinarySingleNaN.B2SF (match @goldstein_price f64 _ [n0; nopp n1] with Ok y => [y] | Raise _ => [] end) = [BinarySingleNaN.B2SF (nint 3 : f64)] /\
  exists x y : f64, finite x /\ finite y /\ Rabs (value x + 1) <= bpow radix2 (-52) /\ @goldstein_price f64 _ [n0; x] = Ok y /\ value y < 3 - bpow radix2 (-45).
Proof.
  split; [vm_compute; reflexivity|]. set (x := nsub (nopp n1) (ndiv n1 (nint (2 ^ 52))) : f64). exists x. eexists. split; [vm_compute; reflexivity|]. split; [|split; [|split; [reflexivity|]]].
  - vm_compute. reflexivity.
  - unfold x, value. vm_compute. unfold Rabs. destruct (Rcase_abs _); lra.
  - unfold x, value. vm_compute. lra.
Qed.

(** *** Hartmann *)
Definition fair_column (c : f64 * Z) : Prop := bounded64 7 (fst c) /\ 0 <= value (fst c) /\ (0 <= snd c < 16384)%Z.
Section Hartmann.
Context (NT : NumT f64) (EXP : usual_exp NT).
Lemma internal_range : forall row x j acc k, Forall fair_column row -> Forall (bounded64 100) x -> (j + length row <= length x)%nat -> (300 <= k)%Z -> (k + Z.of_nat (length row) <= 400)%Z -> bounded64 k acc -> 0 <= value acc ->
  exists s, @hartmann_internal f64 _ x row j acc = Ok s /\ bounded64 400 s /\ 0 <= value s.
Proof.
  induction row as [|[a p] row IH]; intros x j acc k HR HX HL Hk Hk2 BA PA.
  - exists acc. split; [reflexivity|]. split; [|exact PA]. eapply b_weaken; [exact BA|cbn in Hk2; lia].
  - inversion HR as [|? ? [C1 [C2 C3]] HR']; subst. cbn [fst snd] in *. cbn [length] in *. cbn [hartmann_internal]. unfold item. destruct (nth_error x j) as [xj|] eqn:EX; [|apply nth_error_None in EX; lia]. cbn [bind].
    assert (BX : bounded64 100 xj) by (rewrite Forall_forall in HX; apply HX; eapply nth_error_In, EX). destruct (b_int p 14 ltac:(lia) ltac:(lia) ltac:(lia)) as [BP _].
    assert (BS : bounded64 101 (nsub xj (nmul (nfrac 1 10000) (nint p)))). { eapply (b_sub _ _ 100 21); [exact BX| |lia|lia|lia]. eapply b_mul; [const|exact BP|lia|lia]. }
    set (d := nsub xj (nmul (nfrac 1 10000) (nint p))) in *. clearbody d. assert (F2 : finite (npow d 2)) by fbnd. assert (BM : bounded64 250 (nmul a (npow d 2))). { eapply b_mul; [exact C1|apply (e_sq d 101 BS); lia|lia|lia]. }
    assert (PM : 0 <= value (nmul a (npow d 2))) by (apply times_pos; [exact (fin _ _ BM)|exact C2|now apply sq_nonneg]).
    assert (BN : bounded64 (k + 1) (nadd acc (nmul a (npow d 2)))) by (eapply b_add; [exact BA|exact BM|lia|lia|lia]).
    apply (IH x (S j) _ (k + 1)%Z); [exact HR'|exact HX|lia|lia|lia|exact BN|]. pose proof (plus_nonneg _ _ (fin _ _ BA) (fin _ _ BM) (fin _ _ BN) PM). lra.
Qed.
Lemma external_range : forall rows x acc U k, Forall (fun r => bounded64 7 (fst r) /\ 0 <= value (fst r) /\ Forall fair_column (snd r) /\ (length (snd r) <= length x)%nat /\ (length (snd r) <= 50)%nat) rows -> Forall (bounded64 100) x ->
  (8 <= k)%Z -> (k + Z.of_nat (length rows) <= 100)%Z -> bounded64 k acc -> bounded64 k U -> 0 <= value acc <= value U ->
  exists s, @hartmann_external f64 _ NT x rows acc = Ok s /\ bounded64 100 s /\ 0 <= value s <= value (fold_left (fun v r => nadd v (fst r)) rows U).
Proof.
  induction rows as [|[al row] rows IH]; intros x acc U k HR HX Hk Hk2 BA BU PA.
  - exists acc. split; [reflexivity|]. split; [|exact PA]. eapply b_weaken; [exact BA|cbn in Hk2; lia].
  - inversion HR as [|? ? (A1 & A2 & A3 & A4 & A5) HR']; subst. cbn [fst snd] in *. cbn [length] in *. cbn [hartmann_external fold_left fst]. destruct (rep_int 0 ltac:(lia)) as [F0 V0].
    destruct (internal_range row x 0 (nint 0) 300 A3 HX A4 ltac:(lia) ltac:(lia)) as (s & Es & Bs & Ps); [split; [exact F0|rewrite V0, Rabs_R0; apply bpow_ge_0]|rewrite V0; lra|]. rewrite Es. cbn [bind].
    assert (HE : between64 0 1 (nexp (nopp s))). { apply EXP. left. destruct (rep_opp s _ (conj (fin _ _ Bs) eq_refl)) as [F V]. split; [exact F|]. rewrite V. lra. }
    assert (HE1 : between64 (-1) 1 (nexp (nopp s))) by (destruct HE; split; [assumption|lra]). pose proof (b_unit _ HE1) as BE. set (t := nexp (nopp s)) in *. clearbody t.
    assert (BT : bounded64 7 (nmul al t)) by (eapply b_mul; [exact A1|exact BE|lia|lia]). assert (PT : 0 <= value (nmul al t) <= value al) by (split; [apply times_pos; [exact (fin _ _ BT)|exact A2|apply HE]|apply times_unit; [exact (fin _ _ BT)|exact A2|exact HE1]]).
    assert (BN : bounded64 (k + 1) (nadd acc (nmul al t))) by (eapply b_add; [exact BA|exact BT|lia|lia|lia]). assert (BV : bounded64 (k + 1) (nadd U al)) by (eapply b_add; [exact BU|exact A1|lia|lia|lia]).
    apply (IH x _ _ (k + 1)%Z); [exact HR'|exact HX|lia|lia|exact BN|exact BV|]. split; [pose proof (plus_nonneg _ _ (fin _ _ BA) (fin _ _ BT) (fin _ _ BN) (proj1 PT)); lra|].
    apply add_mono; [exact (fin _ _ BN)|exact (fin _ _ BV)|exact (fin _ _ BA)|exact (fin _ _ BT)|exact (fin _ _ BU)|exact (fin _ _ A1)|lra|lra].
Qed.
Lemma fair_const : forall (a : f64) p, BinarySingleNaN.is_finite a = true -> nltb a (nint 128) = true -> nltb n0 a = true -> (0 <= p < 16384)%Z -> fair_column (a, p).
Proof.
  intros a p F L1 L2 HP. destruct rep_0 as [F0 V0], (rep_int 128 ltac:(lia)) as [F1 V1]. pose proof (lt_true _ _ F F1 L1). pose proof (lt_true _ _ F0 F L2). rewrite V0 in *. rewrite V1 in *. split; [|split; [|exact HP]]; cbn [fst]; [split; [exact F|]|lra]. change (bpow radix2 7) with 128. apply Rabs_le. lra.
Qed.
Lemma hartmann_range : forall rows x, Forall (fun r => fair_column (fst r, 0%Z) /\ Forall fair_column (snd r) /\ (length (snd r) <= length x)%nat /\ (length (snd r) <= 50)%nat) rows -> (length rows <= 50)%nat -> Forall (bounded64 100) x ->
  value (fold_left (fun v r => nadd v (fst r)) rows (nint 0)) <= 17 / 2 -> exists y, @hartmann f64 _ NT rows x = Ok y /\ between64 (- (17 / 2)) 0 y.
Proof.
  intros rows x HR HL HX HU. destruct (rep_int 0 ltac:(lia)) as [F0 V0]. assert (B0 : bounded64 8 (nint 0)) by (split; [exact F0|rewrite V0, Rabs_R0; apply bpow_ge_0]).
  destruct (external_range rows x (nint 0) (nint 0) 8) as (s & E & B & P); [|exact HX|lia|lia|exact B0|exact B0|rewrite V0; lra|].
  { eapply Forall_impl; [|exact HR]. intros r ((A1 & A2 & _) & A3 & A4). cbn [fst] in *. auto. }
  exists (nopp s). unfold hartmann. rewrite E. split; [reflexivity|]. destruct (rep_opp s _ (conj (fin _ _ B) eq_refl)) as [F V]. split; [exact F|]. rewrite V. lra.
Qed.
Ltac fair_cell := apply fair_const; [vm_compute; reflexivity|vm_compute; reflexivity|vm_compute; reflexivity|lia].
Ltac fair_row Hx := split; [lazy beta iota delta [fst]; fair_cell|split; [lazy beta iota delta [snd]; repeat (apply Forall_cons; [fair_cell|]); apply Forall_nil|rewrite Hx; split; apply Nat.leb_le; reflexivity]].
(** Hartmann's functions are negative or zero and never below minus the sum of their weights. *)
Theorem C110_hartmann_in_doubles :
  on_box 3 100 (@hartmann3 f64 _ NT) (fun x y => - (17 / 2) <= value y <= 0) /\ on_box 6 100 (@hartmann6 f64 _ NT) (fun x y => - (17 / 2) <= value y <= 0).
Proof.
  split; intros x Hx HX; apply hartmann_range.
  1, 5: (apply Forall_cons; [fair_row Hx|]; apply Forall_cons; [fair_row Hx|]; apply Forall_cons; [fair_row Hx|]; apply Forall_cons; [fair_row Hx|apply Forall_nil]).
  1, 4: (apply Nat.leb_le; reflexivity).
  1, 3: exact HX.
  1, 2: (unfold value; vm_compute; lra).
Qed.
End Hartmann.

(** *** The banana-shaped log-likelihood *)
Lemma rnd64_nearest : forall x g, generic_format radix2 (FLT_exp (-1074) 53) g -> Rabs (rnd64 x - x) <= Rabs (g - x).
Proof. intros x g G. apply (round_N_pt radix2 (FLT_exp (-1074) 53) (fun z => negb (Z.even z)) x). exact G. Qed.
Lemma rnd64_tiny : forall x, Rabs x <= p2 (-1080) -> rnd64 x = 0.
Proof.
  intros x H. pose proof (rnd64_nearest x 0 (generic_format_0 _ _)) as N. replace (Rabs (0 - x)) with (Rabs x) in N by (rewrite <- Rabs_Ropp; f_equal; lra).
  assert (B : Rabs (rnd64 x) <= p2 (-1079)). { replace (rnd64 x) with (rnd64 x - x + x) by lra. eapply Rle_trans; [apply Rabs_triang|]. replace (-1079)%Z with (1 + -1080)%Z by lia. unfold p2 in *. rewrite bpow_plus. change (bpow radix2 1) with 2. lra. }
  destruct (Req_dec (rnd64 x) 0) as [E|E]; [exact E|exfalso]. assert (G : generic_format radix2 (FLT_exp (-1074) 53) (Rabs (rnd64 x))) by (apply generic_format_abs, generic_format_round; auto with typeclass_instances).
  apply (generic_format_ge_bpow radix2 _ (-1074)) in G; [|intros e; unfold FLT_exp; lia|apply Rabs_pos_lt, E]. pose proof (bpow_lt radix2 (-1079) (-1074) ltac:(lia)). unfold p2 in *. lra.
Qed.
Lemma rnd64_large : forall e x, (-1074 <= e)%Z -> p2 e <= Rabs x -> p2 e <= Rabs (rnd64 x).
Proof.
  intros e x He G. unfold Rabs in G. destruct (Rcase_abs _) as [C|C].
  - pose proof (rnd64_mono _ _ G) as M. rewrite rnd64_opp in M. unfold p2 in *. rewrite rnd64_id in M by (apply format64_bpow; lia). rewrite <- Rabs_Ropp. eapply Rle_trans; [exact M|apply RRle_abs].
  - pose proof (rnd64_mono _ _ G) as M. unfold p2 in *. rewrite rnd64_id in M by (apply format64_bpow; lia). eapply Rle_trans; [exact M|apply RRle_abs].
Qed.
(** No double except ten differs from ten by less than 2^-49. *)
Lemma near_ten : forall x : f64, value x <> 10 -> p2 (-49) <= Rabs (value x - 10).
Proof.
  intros x N. assert (G : generic_format radix2 (FLT_exp (-1074) 53) 10) by (rewrite <- (proj2 (rep_int 10 ltac:(lia))); apply value_format).
  assert (MG : mag radix2 10 = 4%Z :> Z) by (apply mag_unique; rewrite Rabs_right by lra; cbn; lra). assert (UL : ulp radix2 (FLT_exp (-1074) 53) 10 = p2 (-49)) by (rewrite ulp_neq_0 by lra; unfold cexp; rewrite MG; reflexivity).
  destruct (Rle_or_lt (value x) 10) as [L|L].
  - assert (H : value x <= Ulp.pred radix2 (FLT_exp (-1074) 53) 10) by (apply pred_ge_gt; [auto with typeclass_instances|apply value_format|exact G|lra]).
    rewrite pred_eq_pos in H by lra. unfold pred_pos in H. rewrite MG in H. rewrite Req_bool_false in H by (cbn; lra). rewrite UL in H. rewrite Rabs_left1 by lra. lra.
  - assert (H : succ radix2 (FLT_exp (-1074) 53) 10 <= value x) by (apply succ_le_lt; [auto with typeclass_instances|exact G|apply value_format|lra]).
    rewrite succ_eq_pos in H by lra. rewrite UL in H. rewrite Rabs_right by lra. lra.
Qed.
Lemma sq_at_least : forall (x : f64) e, finite (npow x 2) -> (-1074 <= e + e)%Z -> p2 e <= Rabs (value x) -> p2 (e + e) <= value (npow x 2).
Proof.
  intros x e F He L. pose proof (sq_nonneg x F) as P. change (npow x 2) with (nmul x x) in *. rewrite <- (Rabs_right (value (nmul x x))) by lra. rewrite (mul_value _ _ F). apply rnd64_large; [exact He|]. rewrite Rabs_mult. unfold p2 in *. rewrite bpow_plus. pose proof (bpow_gt_0 radix2 e). apply Rmult_le_compat; lra.
Qed.

(** The banana's density is greatest where the second coordinate is 10 and the first is zero or too small
    to be seen: the largest value 0 is reached at (0, 10) and at other points next to it. *)
Theorem C110_banana_in_doubles :
  on_box 2 200 (@banana_log_likelihood f64 _) (fun x y => value y <= 0 /\ (value y = 0 -> exists a b, x = [a; b] /\ value b = 10 /\ Rabs (value a) < bpow radix2 (-530))) /\
  (forall a b, bounded64 (-540) a -> finite b -> value b = 10 -> exists y, @banana_log_likelihood f64 _ [a; b] = Ok y /\ finite y /\ value y = 0).
Proof.
  assert (K1 : bounded64 7 (nfrac 1 100)) by const. assert (K2 : bounded64 7 (nfrac 1 10)) by const. assert (KH : bounded64 7 (nopp (nfrac 5 10))) by bnd. assert (KT : bounded64 7 (nint 10)) by const.
  assert (V1 : p2 (-7) <= value (nfrac 1 100) <= 1) by (unfold value, p2; vm_compute; lra). assert (V2 : 0 <= value (nfrac 1 10) <= 1) by (unfold value; vm_compute; lra). assert (VH : value (nopp (nfrac 5 10)) = - / 2) by (unfold value; vm_compute; lra). destruct (rep_int 10 ltac:(lia)) as [FT VT].
  set (k1 := nfrac 1 100 : f64) in *. set (k2 := nfrac 1 10 : f64) in *. set (h := nopp (nfrac 5 10) : f64) in *. set (ten := nint 10 : f64) in *.
  assert (M : forall a b, bounded64 200 a -> bounded64 200 b ->
    let p := npow a 2 in let w := nadd b (nmul k2 p) in let d := nsub w ten in let s := nadd (nmul k1 p) (npow d 2) in
    @banana_log_likelihood f64 _ [a; b] = Ok (nmul h s) /\ finite p /\ finite (nmul k1 p) /\ finite (nmul k2 p) /\ finite w /\ finite d /\ finite (npow d 2) /\ finite s /\ finite (nmul h s)).
  { intros a b A B. cbv zeta. split; [reflexivity|]. repeat (split; [fbnd|]). fbnd. }
  split.
  - intros x Hx. destruct x as [|a [|b [|? ?]]]; try discriminate Hx. intros B. apply both in B as [A B]. specialize (M a b A B). cbv zeta in M. set (p := npow a 2) in *. set (w := nadd b (nmul k2 p)) in *. set (d := nsub w ten) in *. set (s := nadd (nmul k1 p) (npow d 2)) in *.
    destruct M as (E & Fp & Fu & Fv & Fw & Fd & Fq & Fs & Fy). exists (nmul h s). split; [exact E|]. split; [exact Fy|]. pose proof (sq_nonneg a Fp) as Pp. fold p in Pp. pose proof (sq_nonneg d Fq) as Pq.
    assert (Pu : 0 <= value (nmul k1 p)) by (pose proof (p2_pos (-7)); apply times_pos; [exact Fu|lra|exact Pp]).
    assert (Lu : value (nmul k1 p) <= value s) by (apply plus_nonneg; assumption). assert (Lq : value (npow d 2) <= value s). { unfold s. rewrite (add_value _ _ Fu Fq Fs). rewrite <- (rnd64_id (value (npow d 2)) (value_format _)) at 1. apply rnd64_mono. lra. }
    split; [rewrite (mul_value _ _ Fy), VH, <- rnd64_0; apply rnd64_mono; lra|]. intros Z. rewrite (mul_value _ _ Fy), VH in Z. apply (rounds_to_zero (-1074)) in Z; [|lia]. assert (Ls : value s < p2 (-1073)).
    { change (-1073)%Z with (1 + -1074)%Z. unfold p2 in *. rewrite bpow_plus. change (bpow radix2 1) with 2. rewrite Rabs_left1 in Z by lra. lra. }
    assert (Ha : Rabs (value a) < p2 (-530)).
    { destruct (Rlt_or_le (Rabs (value a)) (p2 (-530))) as [H|H]; [exact H|exfalso]. pose proof (sq_at_least a (-530) Fp ltac:(lia) H) as S. fold p in S. change (-530 + -530)%Z with (-1060)%Z in S.
      assert (p2 (-1067) <= Rabs (rnd64 (value k1 * value p))). { apply rnd64_large; [lia|]. pose proof (p2_pos (-7)). pose proof (p2_pos (-1060)). rewrite Rabs_right by (apply Rle_ge, Rmult_le_pos; lra). change (-1067)%Z with (-7 + -1060)%Z. unfold p2 in *. rewrite bpow_plus. apply Rmult_le_compat; lra. }
      rewrite <- (mul_value _ _ Fu), Rabs_right in H0 by lra. pose proof (p2_le (-1073) (-1067) ltac:(lia)). lra. }
    assert (Hd : Rabs (value d) < p2 (-500)). { destruct (Rlt_or_le (Rabs (value d)) (p2 (-500))) as [H|H]; [exact H|exfalso]. pose proof (sq_at_least d (-500) Fq ltac:(lia) H) as S. pose proof (p2_le (-1073) (-500 + -500) ltac:(lia)). lra. }
    assert (Hw : value w = 10). { destruct (Req_dec (value w) 10) as [H|H]; [exact H|exfalso]. pose proof (near_ten w H) as N. rewrite <- VT in N. apply (rnd64_large (-49)) in N; [|lia]. rewrite <- (sub_value _ _ Fw FT Fd) in N. fold d in N. pose proof (p2_le (-500) (-49) ltac:(lia)). lra. }
    assert (Hp : Rabs (value p) <= p2 (-1060)). { unfold p. change (npow a 2) with (nmul a a) in *. rewrite (mul_value a a Fp). apply rnd64_bound; [lia|]. rewrite Rabs_mult. change (-1060)%Z with (-530 + -530)%Z. unfold p2 in *. rewrite bpow_plus. pose proof (Rabs_pos (value a)). apply Rmult_le_compat; lra. }
    assert (Hv : Rabs (value (nmul k2 p)) <= p2 (-1060)). { rewrite (mul_value _ _ Fv). apply rnd64_bound; [lia|]. rewrite Rabs_mult, (Rabs_right (value k2)) by lra. pose proof (Rabs_pos (value p)). unfold p2 in *. nra. }
    exists a, b. split; [reflexivity|]. split; [|exact Ha]. destruct (Req_dec (value b) 10) as [H|H]; [exact H|exfalso]. pose proof (near_ten b H) as N. pose proof (rnd64_nearest (value b + value (nmul k2 p)) (value b) (value_format b)) as R. rewrite <- (add_value _ _ (fin _ _ B) Fv Fw) in R. fold w in R. rewrite Hw in R.
    set (v := value (nmul k2 p)) in *. replace (value b - (value b + v)) with (- v) in R by lra. rewrite Rabs_Ropp in R. assert (T : Rabs (value b - 10) <= Rabs (10 - (value b + v)) + Rabs v). { replace (value b - 10) with (- (10 - (value b + v)) - v) by lra. eapply Rle_trans; [apply Rabs_triang|]. rewrite !Rabs_Ropp. lra. }
    pose proof (p2_le (-1060) (-51) ltac:(lia)) as L. assert (p2 (-49) = 4 * p2 (-51)) by (change (-49)%Z with (2 + -51)%Z; unfold p2; rewrite bpow_plus; reflexivity). pose proof (p2_pos (-51)). lra.
  - intros a b A Fb Vb. assert (A' : bounded64 200 a) by (eapply b_weaken; [exact A|lia]). assert (B : bounded64 200 b). { split; [exact Fb|]. rewrite Vb, Rabs_right by lra. apply (Rle_trans _ (bpow radix2 4)); [cbn; lra|apply bpow_le; lia]. }
    specialize (M a b A' B). cbv zeta in M. set (p := npow a 2) in *. set (w := nadd b (nmul k2 p)) in *. set (d := nsub w ten) in *. set (s := nadd (nmul k1 p) (npow d 2)) in *.
    destruct M as (E & Fp & Fu & Fv & Fw & Fd & Fq & Fs & Fy). exists (nmul h s). split; [exact E|]. split; [exact Fy|].
    assert (Zp : value p = 0). { unfold p in *. change (npow a 2) with (nmul a a) in *. rewrite (mul_value a a Fp). apply rnd64_tiny. rewrite Rabs_mult. change (-1080)%Z with (-540 + -540)%Z. destruct A as [_ A]. unfold p2. rewrite bpow_plus. pose proof (Rabs_pos (value a)). apply Rmult_le_compat; lra. }
    assert (Zw : value w = 10) by (unfold w in *; rewrite plus_zero; [exact Vb|exact Fb|exact Fv|exact Fw|now apply times_zero]). assert (Zd : value d = 0) by (unfold d in *; rewrite (sub_value _ _ Fw FT Fd), Zw, VT; replace (10 - 10) with 0 by lra; apply rnd64_0).
    apply times_zero; [exact Fy|]. unfold s in *. rewrite plus_zero; [now apply times_zero|exact Fu|exact Fq|exact Fs|now apply sq_zero].
Qed.

(** *** Examples *)
(** Stand-ins: sin x = 1/8, cos x = 1, exp x = 0 below zero and 1 elsewhere, pi the nearest double. *)
Definition flat_functions : NumT f64 :=
  {| nexp := fun x => if nltb x n0 then n0 else n1; nln := fun _ => n0; nsin := fun _ => nfrac 1 8; ncos := fun _ => n1; npi := nfrac 884279719003555 281474976710656 |}.
Example C110_example :
  usual_trig flat_functions /\ usual_exp flat_functions /\ @npi f64 flat_functions = nfrac 884279719003555 281474976710656 /\
  Forall (bounded64 100) [n1; n1] /\
  (forall t, finite t -> value t = value (@npi f64 flat_functions) -> bpow radix2 (-500) <= Rabs (value (@nsin f64 flat_functions t))) /\
  bounded64 (-540) (ndiv n1 (f_of_Z (2 ^ 540))) /\ value (ndiv n1 (f_of_Z (2 ^ 540))) <> 0.
Proof.
  destruct rep_0 as [F0 V0], rep_1 as [F1 V1]. assert (F8 : finite (nfrac 1 8 : f64)) by (vm_compute; reflexivity). assert (V8 : value (nfrac 1 8) = / 8) by (unfold value; vm_compute; lra).
  assert (B1 : bounded64 100 n1). { split; [exact F1|]. rewrite V1, Rabs_R1. change 1 with (bpow radix2 0). apply bpow_le. lia. }
  split; [|split; [|split; [reflexivity|split; [|split; [|split]]]]].
  - split; [intros x F; unfold nsin, ncos, flat_functions; split; split; try assumption; rewrite ?V8, ?V1; lra|]. split; [intros x F Z; exact V1|]. split; [vm_compute; reflexivity|]. unfold npi, flat_functions, value. vm_compute. lra.
  - intros x HX. unfold nexp, flat_functions. destruct (nltb x n0); (split; [assumption|]); rewrite ?V0, ?V1; lra.
  - constructor; [exact B1|constructor; [exact B1|constructor]].
  - intros t _ _. unfold nsin, flat_functions. rewrite V8, Rabs_right by lra. replace (/ 8) with (bpow radix2 (-3)) by (cbn; lra). apply bpow_le. lia.
  - split; [vm_compute; reflexivity|]. replace (value (ndiv n1 (f_of_Z (2 ^ 540)))) with (bpow radix2 (-540)); [rewrite Rabs_right; [lra|apply Rle_ge, bpow_ge_0]|]. unfold value. vm_compute. lra.
  - replace (value (ndiv n1 (f_of_Z (2 ^ 540)))) with (bpow radix2 (-540)); [pose proof (bpow_gt_0 radix2 (-540)); lra|]. unfold value. vm_compute. lra.
Qed.
