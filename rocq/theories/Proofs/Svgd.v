(** Closed form of the SVGD kernel and step over the reals. *)
From Coq Require Import String List Arith Lia ZArith Bool Reals Lra Permutation Sorting.
From Verif.Base Require Import Py Num Vec Lists.
From Verif.Model Require Import TensorUtils SVGD.
From Verif.Spec Require Import Tensor Svgd.
From Verif.Proofs Require Import Tensor Distances.
Import ListNotations.
Local Open Scope list_scope.

Lemma nsum_R : forall l : list R, nsum l = Rsum l.
Proof.
  induction l as [|a l IH]; [apply n0_R|]. change (nsum (a :: l)) with (Rplus a (nsum l)). rewrite IH. reflexivity.
Qed.

(** The distance matrix as a list. *)
Lemma matrix_closed : forall A (f : list R -> list R -> A) (X : list (list R)) n mat,
  length X = n -> length mat = n * n ->
  (forall i j a b, nth_error X i = Some a -> nth_error X j = Some b -> nth_error mat (n * i + j) = Some (f a b)) ->
  mat = flat_map (fun a => map (f a) X) X.
Proof.
  intros A f X n mat Hn Hl He. apply nth_error_ext. intros k.
  assert (Lf : length (flat_map (fun a => map (f a) X) X) = n * n).
  { assert (G : forall Y, length (flat_map (fun a => map (f a) X) Y) = length Y * n).
    { induction Y; cbn; auto. rewrite app_length, map_length, IHY. lia. }
    rewrite G. lia. }
  destruct (Nat.lt_ge_cases k (n * n)) as [Hk|Hk].
  - assert (n <> 0) by nia.
    pose proof (Nat.div_mod k n ltac:(auto)) as E. pose proof (Nat.mod_upper_bound k n ltac:(auto)) as Hr.
    assert (k / n < n) by (apply Nat.div_lt_upper_bound; lia).
    destruct (nth_error_lt _ X (k / n)) as [a Ha]; [lia|]. destruct (nth_error_lt _ X (k mod n)) as [b Hb]; [lia|].
    rewrite E, (He _ _ _ _ Ha Hb). rewrite (Nat.mul_comm n).
    rewrite nth_error_flat_map_uniform with (c := n).
    + rewrite Ha, nth_error_map, Hb. reflexivity.
    + apply Forall_forall. intros. now rewrite map_length.
    + exact Hr.
  - rewrite !(proj2 (nth_error_None _ _)); auto; lia.
Qed.

Lemma rows_of_flat : forall T (X : list (list R)) (f : list R -> list R -> T) n, length X = n ->
  rows_of n (flat_map (fun a => map (f a) X) X) = map (fun a => map (f a) X) X.
Proof.
  intros T X f n Hn. unfold rows_of. apply nth_error_ext. intros i.
  rewrite !nth_error_map. destruct (Nat.lt_ge_cases i n) as [Hi|Hi].
  - rewrite (nth_error_nth' (seq 0 n) 0) by now rewrite seq_length. rewrite seq_nth by auto. cbn.
    destruct (nth_error_lt _ X i) as [a Ha]; [lia|]. rewrite Ha. cbn. f_equal.
    rewrite flat_map_concat_map.
    apply row_concat.
    + apply Forall_forall. intros r Hr. apply in_map_iff in Hr as (x & <- & _). now rewrite map_length.
    + now rewrite nth_error_map, Ha.
  - rewrite !(proj2 (nth_error_None _ _)); auto; rewrite ?seq_length; lia.
Qed.

Lemma vmap2_map_l : forall A B C (f : A -> B -> C) (g : A -> B) l, vmap2 f l (map g l) = map (fun a => f a (g a)) l.
Proof. intros. unfold vmap2. induction l; cbn; congruence. Qed.
Lemma vmap2_map_r : forall A B C (f : B -> A -> C) (g : A -> B) l, vmap2 f (map g l) l = map (fun a => f (g a) a) l.
Proof. intros. unfold vmap2. induction l; cbn; congruence. Qed.
Lemma vmap2_map_map : forall A B C D (f : B -> C -> D) (g : A -> B) (h : A -> C) l,
  vmap2 f (map g l) (map h l) = map (fun a => f (g a) (h a)) l.
Proof. intros. unfold vmap2. induction l; cbn; congruence. Qed.
Lemma map_seq_nth : forall (x : list R) d, length x = d -> x = map (fun k => nth k x 0%R) (seq 0 d).
Proof.
  intros x d <-. apply nth_error_ext. intros k. rewrite nth_error_map.
  destruct (Nat.lt_ge_cases k (length x)).
  - rewrite (nth_error_nth' (seq 0 (length x)) 0) by now rewrite seq_length. rewrite seq_nth by auto.
    cbn. now apply nth_error_nth'.
  - rewrite !(proj2 (nth_error_None _ _)); auto; rewrite ?seq_length; lia.
Qed.

Lemma Rsum_map_ext : forall A (f g : A -> R) l, (forall a, In a l -> f a = g a) -> Rsum (map f l) = Rsum (map g l).
Proof. intros A f g l H. f_equal. now apply map_ext_in. Qed.
Lemma Rsum_scale : forall c l, Rsum (map (Rmult c) l) = (c * Rsum l)%R.
Proof. induction l; cbn; [ring|]. rewrite IHl. ring. Qed.
Lemma Rsum_perm : forall l m, Permutation l m -> Rsum l = Rsum m.
Proof. intros l m H. induction H; cbn; lra. Qed.
Lemma Rsum_plus : forall A (f g : A -> R) l, Rsum (map (fun a => f a + g a)%R l) = (Rsum (map f l) + Rsum (map g l))%R.
Proof. induction l; cbn; [ring|]. rewrite IHl. ring. Qed.
Lemma Rsum_nonneg : forall l, Forall (fun x => 0 <= x)%R l -> (0 <= Rsum l)%R.
Proof. intros l H. induction H; cbn; lra. Qed.
Lemma Rsum_pos : forall l, Forall (fun x => 0 <= x)%R l -> Exists (fun x => 0 < x)%R l -> (0 < Rsum l)%R.
Proof.
  intros l HF HE. induction HE; inversion HF; subst; cbn.
  - pose proof (Rsum_nonneg l H3). lra.
  - specialize (IHHE H2). lra.
Qed.

(** Component k of the kernel-gradient output for the particle at x. *)
Definition kernel_force (h : R) (X : list (list R)) (x : list R) (k : nat) : R :=
  Rsum (map (fun y => rbf h x y * (nth k x 0 - nth k y 0) / h ^ 2)%R X).

Lemma ln_n1_pos : forall n, 1 <= n -> (0 < ln (INR n + 1))%R.
Proof.
  intros n Hn. rewrite <- ln_1. apply ln_increasing; [lra|]. apply le_INR in Hn. cbn in Hn. lra.
Qed.

Lemma kernel_closed : forall X n d, matrix_shape n d X -> 1 <= n ->
  exists med,
    is_median (sqdists X) med /\
    let h := sqrt (med / (2 * ln (INR (length X) + 1))) in
    svgd_kernel n d X = Ok (h, map (fun a => map (fun b => exp (- sqdist a b / h ^ 2 / 2)) X) X,
      map (fun a => map (fun k => (- Rsum (map (fun b => exp (- sqdist a b / h ^ 2 / 2) * nth k b 0) X)
                                  + nth k a 0 * Rsum (map (fun b => exp (- sqdist a b / h ^ 2 / 2)) X)) / h ^ 2)%R (seq 0 d)) X).
Proof.
  intros X n d HX Hn.
  destruct (distance_matrix X n d HX Hn) as (v & mat & Hp & _ & _ & Hsq & Lm & Hm).
  destruct HX as [HL HF].
  assert (Em : mat = flat_map (fun a => map (dist2 a) X) X) by (apply (matrix_closed _ dist2 X n); auto).
  assert (Epd : map (fun x => npow x 2) mat = sqdists X).
  { rewrite Em. unfold sqdists. rewrite flat_map_map. rewrite !flat_map_concat_map. f_equal. apply map_ext. intros a.
    rewrite map_map. apply map_ext. intros b. rewrite npow_R. unfold dist2. rewrite pow2_sqrt; [reflexivity|apply sqdist_nonneg]. }
  destruct (median_is_median {| shape := [n; n]; data := sqdists X |}) as (med & Hmed & Hism).
  { cbn. destruct X as [|x X]; [cbn in HL; lia|]. unfold sqdists. cbn. discriminate. }
  exists med. split; [exact Hism|]. intros h.
  unfold svgd_kernel. rewrite Hp. cbn [bind]. rewrite Hsq. cbn [bind data shape]. rewrite Epd, Hmed. cbn [bind].
  assert (Eh : nsqrt ((nfrac 1 2 * med) / nln (n_particles n + n1))%num = h).
  { unfold h, n_particles. rewrite nint_R, n1_R. cbn. unfold Rfrac. rewrite HL, INR_IZR_INZ.
    f_equal. pose proof (ln_n1_pos n Hn) as Hp1. rewrite INR_IZR_INZ in Hp1. field. lra. }
  rewrite Eh. clearbody h.
  assert (EK : rows_of n (map (fun p => nexp (((- p) / npow h 2) / n2)%num) (sqdists X)) =
               map (fun a => map (fun b => exp (- sqdist a b / h ^ 2 / 2)) X) X).
  { unfold sqdists. rewrite flat_map_map.
    rewrite <- (rows_of_flat R X (fun a b => exp (- sqdist a b / h ^ 2 / 2)) n HL). f_equal.
    rewrite !flat_map_concat_map. f_equal. apply map_ext. intros a. rewrite map_map. apply map_ext. intros b.
    rewrite npow_R, n2_R. reflexivity. }
  rewrite EK. f_equal. f_equal.
  unfold mmap, mmap2, matmul. rewrite !map_map.
  rewrite vmap2_map_l. rewrite vmap2_map_map. rewrite map_map. apply map_ext_in. intros a Ha.
  rewrite Forall_forall in HF. rewrite nsum_R.
  assert (EA : forall s, map (fun y => nmul y s) a = map (fun k => Rmult (nth k a 0%R) s) (seq 0 d)).
  { intros s. rewrite (map_seq_nth a d (HF a Ha)) at 1. now rewrite map_map. }
  rewrite EA, !map_map, vmap2_map_map, map_map. apply map_ext. intros k.
  rewrite nsum_R, npow_R, vmap2_map_map, n0_R. reflexivity.
Qed.

Lemma kernel_rbf : forall X n d, matrix_shape n d X -> 1 <= n ->
  exists h, bandwidth X h /\
    (h <> 0%R -> svgd_kernel n d X =
       Ok (h, map (fun a => map (rbf h a) X) X, map (fun a => map (kernel_force h X a) (seq 0 d)) X)).
Proof.
  intros X n d HX Hn. destruct (kernel_closed X n d HX Hn) as (med & Hm & E).
  set (h := sqrt (med / (2 * ln (INR (length X) + 1)))) in *.
  exists h. split; [exists med; split; auto|]. intros Hh. rewrite E.
  assert (HR : forall a b, exp (- sqdist a b / h ^ 2 / 2) = rbf h a b).
  { intros. unfold rbf. f_equal. field. auto. }
  f_equal. f_equal; [f_equal|].
  - apply map_ext. intros a. apply map_ext. intros b. apply HR.
  - apply map_ext. intros a. apply map_ext. intros k. unfold kernel_force.
    rewrite (Rsum_map_ext _ (fun b => exp (- sqdist a b / h ^ 2 / 2) * nth k b 0)%R (fun b => rbf h a b * nth k b 0)%R)
      by (intros; now rewrite HR).
    rewrite (Rsum_map_ext _ (fun b => exp (- sqdist a b / h ^ 2 / 2)) (rbf h a)) by (intros; now rewrite HR).
    clear - h. clearbody h. set (q := (h ^ 2)%R). set (x := nth k a 0%R). clearbody q x.
    induction X as [|b X IH]; cbn; [unfold Rdiv; ring|]. rewrite <- IH. unfold Rdiv. ring.
Qed.

Lemma filter_length_bound : forall A (f : A -> bool) l, length (filter f l) <= length l.
Proof. induction l; cbn; auto. destruct (f a); cbn; lia. Qed.

(** Sign of the median. *)
Definition zeros (l : list R) : nat := count (fun x => x <= 0)%R (fun x => Rle_dec x 0) l.
Lemma median_pos_iff : forall l v, l <> [] -> Forall (fun x => 0 <= x)%R l -> is_median l v ->
  ((0 < v)%R <-> 2 * zeros l <= length l) /\ (v = 0%R <-> length l < 2 * zeros l).
Proof.
  intros l v Hne HF (s & HP & HS & Ho & He).
  assert (Hz : zeros l = zeros s) by (symmetry; now apply count_perm).
  assert (Hlen : length s = length l) by now apply Permutation_length.
  assert (HFs : Forall (fun x => 0 <= x)%R s) by (eapply Permutation_Forall; [symmetry; exact HP|exact HF]).
  assert (Hl0 : length l <> 0) by (destruct l; cbn; congruence).
  assert (Key : forall i x, nth_error s i = Some x -> (0 <= x)%R /\ ((x <= 0)%R <-> i < zeros s)).
  { intros i x Hi. split; [rewrite Forall_forall in HFs; apply HFs; eapply nth_error_In; eauto|]. split.
    - intros Hx. pose proof (half_below s i 0%R x HS Hi Hx). unfold zeros. lia.
    - intros Hi2. destruct (Rle_dec x 0) as [|Hx]; auto. exfalso.
      (* all zeros are before i *)
      assert (zeros s <= i); [|lia].
      unfold zeros. rewrite <- (firstn_skipn i s), count_app.
      assert (E0 : count (fun x0 => x0 <= 0)%R (fun x0 => Rle_dec x0 0) (skipn i s) = 0).
      { unfold count. assert (HN : filter (fun x0 => if Rle_dec x0 0 then true else false) (skipn i s) = []).
        { destruct (filter _ (skipn i s)) as [|y l'] eqn:Ef; auto. exfalso.
          assert (Hy : In y (filter (fun x0 => if Rle_dec x0 0 then true else false) (skipn i s))) by (rewrite Ef; now left).
          apply filter_In in Hy as [Hy1 Hy2]. destruct (Rle_dec y 0); [|discriminate].
          apply In_nth_error in Hy1 as [q Hq]. rewrite nth_error_skipn in Hq.
          pose proof (StronglySorted_nth s i (i + q) x y HS ltac:(lia) Hi Hq). lra. }
        now rewrite HN. }
      rewrite E0. unfold count.
      pose proof (filter_length_bound R (fun x0 => if Rle_dec x0 0 then true else false) (firstn i s)).
      rewrite firstn_length in H. lia. }
  rewrite Hz.
  pose proof (Nat.div_mod (length l) 2 ltac:(lia)) as DM.
  destruct (Nat.odd (length l)) eqn:Eo.
  - pose proof (Ho eq_refl) as Hm. destruct (Key _ _ Hm) as [K0 K1].
    apply Nat.odd_spec in Eo as [q Eq].
    assert (length l / 2 = q) by (rewrite Eq; symmetry; apply Nat.div_unique with 1; lia).
    split; split; intros HH.
    + destruct (Nat.le_gt_cases (2 * zeros s) (length l)); auto. assert (v <= 0)%R by (apply K1; lia). lra.
    + destruct (Rle_dec v 0) as [Hv|Hv]; [|lra]. apply K1 in Hv. lia.
    + assert (v <= 0)%R by lra. apply K1 in H0. lia.
    + assert (v <= 0)%R by (apply K1; lia). lra.
  - destruct (He eq_refl) as (a & b & Ha & Hb & ->).
    destruct (Key _ _ Ha) as [A0 A1]. destruct (Key _ _ Hb) as [B0 B1].
    assert (Ev : Nat.even (length l) = true) by (rewrite <- Nat.negb_odd, Eo; reflexivity).
    apply Nat.even_spec in Ev as [q Eq].
    assert (length l / 2 = q) by (rewrite Eq, Nat.mul_comm; apply Nat.div_mul; lia).
    pose proof (StronglySorted_nth s (length l / 2 - 1) (length l / 2) a b HS ltac:(lia) Ha Hb) as Hab.
    split; split; intros HH.
    + destruct (Nat.le_gt_cases (2 * zeros s) (length l)); auto. assert (b <= 0)%R by (apply B1; lia). lra.
    + destruct (Rle_dec b 0) as [Hv|Hv]; [|lra]. apply B1 in Hv. lia.
    + assert (b <= 0)%R by lra. apply B1 in H0. lia.
    + assert (b <= 0)%R by (apply B1; lia). lra.
Qed.

Lemma median_nonneg : forall l v, l <> [] -> Forall (fun x => 0 <= x)%R l -> is_median l v -> (0 <= v)%R.
Proof.
  intros l v Hn HF Hm. destruct (median_pos_iff l v Hn HF Hm) as [I1 I2].
  destruct (Nat.le_gt_cases (2 * zeros l) (length l)) as [C|C]; [apply I1 in C|apply I2 in C]; lra.
Qed.

Lemma sqdists_nonneg : forall X, Forall (fun x => 0 <= x)%R (sqdists X).
Proof.
  intros. apply Forall_forall. intros x Hx. unfold sqdists in Hx. apply in_flat_map in Hx as (a & _ & Hx).
  apply in_map_iff in Hx as (b & <- & _). apply sqdist_nonneg.
Qed.
Lemma sqdists_length : forall X, length (sqdists X) = length X * length X.
Proof.
  intros. unfold sqdists. assert (G : forall Y, length (flat_map (fun a => map (sqdist a) X) Y) = length Y * length X).
  { induction Y; cbn; auto. rewrite app_length, map_length, IHY. lia. }
  apply G.
Qed.

(** Distinct particles: the zero distances are those on the diagonal. *)
Lemma zeros_distinct : forall X d, Forall (fun r => length r = d) X -> NoDup X -> zeros (sqdists X) = length X.
Proof.
  intros X d HF HN. unfold zeros, sqdists.
  assert (Row : forall Y a, incl Y X -> NoDup Y -> In a X ->
     count (fun x => x <= 0)%R (fun x => Rle_dec x 0) (map (sqdist a) Y) = if in_dec (list_eq_dec Req_EM_T) a Y then 1 else 0).
  { induction Y as [|y Y IH]; intros a Hi Hn Ha; [reflexivity|].
    inversion Hn; subst. unfold count in *. cbn [map filter].
    rewrite Forall_forall in HF.
    assert (La : length a = length y) by (rewrite (HF a Ha), (HF y (Hi y (or_introl eq_refl))); auto).
    specialize (IH a (fun z Hz => Hi z (or_intror Hz)) H2 Ha).
    destruct (Rle_dec (sqdist a y) 0) as [Hz|Hz].
    - assert (a = y) as -> by (apply sqdist_zero; [auto|pose proof (sqdist_nonneg a y); lra]).
      cbn [length]. rewrite IH. destruct (in_dec (list_eq_dec Req_EM_T) y Y); [tauto|].
      destruct (in_dec (list_eq_dec Req_EM_T) y (y :: Y)) as [|N]; [reflexivity|]. elim N. now left.
    - rewrite IH. destruct (in_dec (list_eq_dec Req_EM_T) a Y) as [I|I], (in_dec (list_eq_dec Req_EM_T) a (y :: Y)) as [J|J]; auto.
      + elim J. now right.
      + destruct J as [->|J]; [|tauto]. rewrite sqdist_refl in Hz. lra. }
  assert (G : forall Y, incl Y X -> count (fun x => x <= 0)%R (fun x => Rle_dec x 0) (flat_map (fun a => map (sqdist a) X) Y) = length Y).
  { induction Y as [|y Y IH]; intros Hi; [reflexivity|]. cbn [flat_map]. rewrite count_app, IH by (intros z Hz; apply Hi; now right).
    rewrite Row; auto using incl_refl; [|apply Hi; now left].
    destruct (in_dec (list_eq_dec Req_EM_T) y X) as [|N]; [reflexivity|]. elim N. apply Hi. now left. }
  apply G. apply incl_refl.
Qed.

Lemma bandwidth_pos : forall X n d h, matrix_shape n d X -> 2 <= n -> NoDup X -> bandwidth X h -> (0 < h)%R.
Proof.
  intros X n d h [HL HF] Hn HN (med & Hm & ->).
  assert (Hz := zeros_distinct X d HF HN). pose proof (sqdists_length X) as Ls.
  assert (Hpos : (0 < med)%R).
  { apply (median_pos_iff (sqdists X) med); auto using sqdists_nonneg.
    - intros E. rewrite E in Ls. cbn in Ls. nia.
    - rewrite Hz, Ls. nia. }
  apply sqrt_lt_R0. apply Rdiv_lt_0_compat; [exact Hpos|].
  apply Rmult_lt_0_compat; [lra|]. apply ln_n1_pos. lia.
Qed.
