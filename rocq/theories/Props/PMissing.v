(** C100: what NaN and infinities in the data do to the normalizations and to the incumbent. *)
From Coq Require Import List Arith Lia ZArith Bool Reals Lra.
From Verif.Base Require Import Py Num Vec Lists.
From Verif.Model Require Import BaseModel.
From Verif.Props Require Import PBaseModel.
From Verif.Spec Require Import Stats.
Import ListNotations.
Local Open Scope R_scope.

(** *** Specification *)
(** Column [j], whatever the numbers are. *)
Definition col {T} (d0 : T) (X : list (list T)) (j : nat) : list T := map (fun r => nth j r d0) X.
(** Finite numbers that are not all the same. *)
Definition usable (l : list XR) : Prop := exists rs, l = map Fin rs /\ varied rs.
Definition rectangular {T} (d : nat) (X : list (list T)) : Prop := X <> [] /\ Forall (fun r => length r = d) X.

(** *** Columns *)
Section Generic.
Context {T : Type} `{Num T}.
Lemma columns_nth : forall (X : list (list T)) d j d0 (f : list T -> T), rectangular d X -> (j < d)%nat ->
  nth_error (map f (columns X)) j = Some (f (col d0 X j)).
Proof.
  intros X d j d0 f [Hn HF] Hj. assert (HW : width X = d) by (destruct X; [congruence|]; unfold width; cbn; now apply Forall_inv in HF).
  rewrite nth_error_map. unfold columns. rewrite nth_error_map, HW.
  rewrite (nth_error_nth' (seq 0 d) 0%nat) by (now rewrite seq_length). rewrite seq_nth by auto. cbn [option_map Nat.add]. do 2 f_equal.
  unfold col. apply map_ext_in. intros r Hr. rewrite Forall_forall in HF. apply nth_indep. rewrite HF; auto.
Qed.
Lemma nth_of_error : forall A (l : list A) j d0 x, nth_error l j = Some x -> nth j l d0 = x.
Proof. intros A l j d0 x. apply nth_error_nth. Qed.
Lemma zmuv_column : forall (X : list (list T)) d j d0, rectangular d X -> (j < d)%nat ->
  col d0 (fst (fst (zmuv_normalization X None None))) j = fst (fst (zmuv_normalization1 (col d0 X j) None None)).
Proof.
  intros X d j d0 HR Hj. unfold zmuv_normalization, zmuv_normalization1. cbn [default fst].
  pose proof (columns_nth X d j d0 np_mean HR Hj) as H1. pose proof (columns_nth X d j d0 np_std HR Hj) as H2.
  unfold col at 1. rewrite map_map. unfold col at 3. rewrite map_map. apply map_ext_in. intros r Hr. apply nth_of_error.
  rewrite !nth_error_vmap2, H1, H2. destruct HR as [_ HF]. rewrite Forall_forall in HF.
  rewrite (nth_error_nth' r d0) by (rewrite HF; auto). reflexivity.
Qed.
Lemma zero_one_column : forall (X : list (list T)) d j d0, rectangular d X -> (j < d)%nat ->
  col d0 (fst (fst (zero_one_normalization X None None))) j =
  map (fun v => ndiv (nsub v (np_min (col d0 X j))) (nsub (np_max (col d0 X j)) (np_min (col d0 X j)))) (col d0 X j).
Proof.
  intros X d j d0 HR Hj. unfold zero_one_normalization. cbn [default fst].
  pose proof (columns_nth X d j d0 np_min HR Hj) as H1. pose proof (columns_nth X d j d0 np_max HR Hj) as H2.
  unfold col at 1. rewrite map_map. unfold col at 4. rewrite map_map. apply map_ext_in. intros r Hr. apply nth_of_error.
  rewrite !nth_error_vmap2, H1, H2. destruct HR as [_ HF]. rewrite Forall_forall in HF.
  rewrite (nth_error_nth' r d0) by (rewrite HF; auto). reflexivity.
Qed.
End Generic.

(** Each column is normalized on its own: a bad column does not touch the others. *)
Theorem C100_columns_are_independent : forall (T : Type) (HT : Num T) (d0 : T) d j X X',
  rectangular d X -> rectangular d X' -> (j < d)%nat -> col d0 X j = col d0 X' j ->
  col d0 (fst (fst (zmuv_normalization X None None))) j = col d0 (fst (fst (zmuv_normalization X' None None))) j /\
  col d0 (fst (fst (zero_one_normalization X None None))) j = col d0 (fst (fst (zero_one_normalization X' None None))) j.
Proof.
  intros T HT d0 d j X X' H1 H2 Hj HC. split.
  - rewrite (zmuv_column X d j d0 H1 Hj), (zmuv_column X' d j d0 H2 Hj), HC. reflexivity.
  - rewrite (zero_one_column X d j d0 H1 Hj), (zero_one_column X' d j d0 H2 Hj), HC. reflexivity.
Qed.

(** *** Zero mean, unit variance *)
Lemma nsum_fin : forall rs, (nsum (map Fin rs) : XR) = Fin (nsum rs).
Proof. induction rs as [|r rs IH]; [reflexivity|]. cbn [map]. change (nsum (?x :: ?l)) with (nadd x (nsum l)). rewrite IH. reflexivity. Qed.
Lemma count_pos : forall A (l : list A), l <> [] -> 0 < INR (length l).
Proof. intros A l Hl. apply lt_0_INR. destruct l; [congruence|cbn; lia]. Qed.
Lemma mean_fin : forall rs, rs <> [] -> np_mean (map Fin rs) = Fin (np_mean rs).
Proof.
  intros rs Hr. unfold np_mean. rewrite nsum_fin, map_length, nint_nat_X. pose proof (count_pos _ _ Hr). cbn [ndiv Num_XR Num_R].
  rewrite xdiv_fin by lra. f_equal. f_equal. unfold nint. cbn. unfold Rfrac. rewrite INR_IZR_INZ. field.
Qed.
Lemma std_fin : forall rs, rs <> [] -> np_std (map Fin rs) = Fin (np_std rs).
Proof.
  intros rs Hr. unfold np_std. rewrite mean_fin by exact Hr.
  replace (map (fun x => nmul (nsub x (Fin (np_mean rs))) (nsub x (Fin (np_mean rs)))) (map Fin rs))
    with (map Fin (map (fun x => (x - np_mean rs) * (x - np_mean rs)) rs)).
  2:{ rewrite !map_map. apply map_ext. intros x. reflexivity. }
  rewrite mean_fin by (destruct rs; [congruence|discriminate]). cbn [nsqrt Num_XR]. rewrite xsqrt_fin; [reflexivity|].
  rewrite !np_mean_R.
  replace (map (fun x => (x - mean rs) * (x - mean rs)) rs) with (map (fun x => (x - mean rs) ^ 2) rs) by (apply map_ext; intros; ring).
  now apply variance_nonneg.
Qed.
Lemma nan_in_sum : forall l, In NaN l -> nsum l = NaN.
Proof.
  induction l as [|x l IH]; intros []; change (nsum (x :: l)) with (xadd x (nsum l)).
  - subst x. reflexivity.
  - rewrite IH by assumption. apply xadd_nan_r.
Qed.
Lemma sum_shape : forall l, match nsum l with Fin _ => Forall (fun x => is_fin x = true) l | PInf => In PInf l | NInf => In NInf l | NaN => True end.
Proof.
  induction l as [|x l IH]; [constructor|]. change (nsum (x :: l)) with (xadd x (nsum l)).
  destruct x, (nsum l); cbn [xadd] in *; auto; first [now left | now right | now constructor].
Qed.
Lemma mean_shape : forall l, l <> [] -> match np_mean l with Fin _ => Forall (fun x => is_fin x = true) l | PInf => In PInf l | NInf => In NInf l | NaN => True end.
Proof.
  intros l Hl. pose proof (sum_shape l) as S0. pose proof (count_pos _ _ Hl) as P. unfold np_mean. rewrite nint_nat_X.
  destruct (nsum l); cbn [ndiv Num_XR xdiv]; destruct (Req_EM_T (INR (length l)) 0); try lra; auto;
    unfold xsgn; repeat destruct Rlt_dec; try lra; auto.
Qed.
Lemma nan_mean : forall l, In NaN l -> np_mean l = NaN.
Proof. intros l Hl. unfold np_mean. rewrite nan_in_sum by exact Hl. reflexivity. Qed.
Lemma std_nan : forall l, Exists (fun x => is_fin x = false) l -> np_std l = NaN.
Proof.
  intros l Hl. assert (Hn : l <> []) by (intros ->; inversion Hl). unfold np_std.
  assert (Q : In NaN (map (fun x => nmul (nsub x (np_mean l)) (nsub x (np_mean l))) l)).
  { pose proof (mean_shape l Hn) as M. destruct (np_mean l); apply in_map_iff.
    - exfalso. rewrite Forall_forall in M. apply Exists_exists in Hl as (x & Hx & Hf). rewrite M in Hf; [discriminate|auto].
    - exists PInf. auto.
    - exists NInf. auto.
    - destruct l as [|x l]; [congruence|]. exists x. split; [|now left]. destruct x; reflexivity. }
  rewrite nan_mean by exact Q. reflexivity.
Qed.
Lemma fin_or_not : forall l : list XR, (exists rs, l = map Fin rs) \/ Exists (fun x => is_fin x = false) l.
Proof.
  induction l as [|x l [[rs ->]|IH]]; [left; now exists []| |right; now right].
  destruct x; [left; now exists (r :: rs)| | |]; right; now left.
Qed.
Lemma varied_or_constant : forall rs : list R, rs <> [] -> varied rs \/ exists c, rs = repeat c (length rs).
Proof.
  intros [|c rs] Hr; [congruence|]. clear Hr.
  assert (Q : (exists x, In x rs /\ x <> c) \/ rs = repeat c (length rs)).
  { induction rs as [|x rs IH]; [now right|]. destruct (Req_EM_T x c) as [->|N]; [|left; exists x; split; [now left|exact N]].
    destruct IH as [(y & Hy & Ny)|IH]; [left; exists y; split; [now right|exact Ny]|]. right. cbn. now f_equal. }
  destruct Q as [(x & Hx & N)|Q]; [left; exists x, c; repeat split; [now right|now left|exact N]|right; exists c; cbn; now f_equal].
Qed.
Lemma usable_or_not : forall l : list XR, l <> [] -> usable l \/
  (~ usable l /\ (Exists (fun x => is_fin x = false) l \/ exists c, l = repeat (Fin c) (length l))).
Proof.
  intros l Hl. destruct (fin_or_not l) as [[rs ->]|HE].
  - destruct (varied_or_constant rs) as [V|[c Hc]]; [intros ->; now apply Hl| |].
    + left. exists rs. auto.
    + right. split.
      * intros (ss & E & a & b & Ha & Hb & N). assert (rs = ss).
        { clear -E. revert ss E. induction rs as [|x rs IH]; intros [|y ss] E; try discriminate; auto. injection E as -> E. f_equal. auto. }
        subst ss. rewrite Hc in Ha, Hb. apply repeat_spec in Ha. apply repeat_spec in Hb. congruence.
      * right. exists c. rewrite map_length. rewrite Hc at 1. apply map_repeat.
  - right. split; [|now left]. intros (rs & -> & _). apply Exists_exists in HE as (x & Hx & Hf). apply in_map_iff in Hx as (r & <- & _). discriminate Hf.
Qed.
Lemma standardize_targets : forall y : list XR, y <> [] ->
  let yn := fst (fst (zmuv_normalization1 y None None)) in
  (usable y /\ exists rn, yn = map Fin rn /\ mean rn = 0 /\ variance rn = 1) \/ (~ usable y /\ yn = repeat NaN (length y)).
Proof.
  intros y Hy yn. destruct (usable_or_not y Hy) as [U|[U HE]].
  - left. split; [exact U|]. destruct U as (rs & -> & V).
    destruct (zmuv_normalization1 rs None None) as [[rn m] s] eqn:E.
    destruct (C45_standardizes_targets rs rn m s V E) as (_ & _ & Hs & _ & Hm & Hv & _).
    exists rn. split; [|split; assumption]. unfold yn. unfold zmuv_normalization1 in *. cbn [default fst] in *.
    assert (Hr : rs <> []) by (intros ->; now apply Hy).
    rewrite mean_fin, std_fin by exact Hr. injection E as <- <- <-. rewrite !map_map. apply map_ext. intros v. cbn [ndiv nsub Num_XR Num_R xopp xadd].
    rewrite xdiv_fin by (apply Rgt_not_eq; exact Hs). reflexivity.
  - right. split; [exact U|]. destruct HE as [HE|[c Hc]].
    + unfold yn, zmuv_normalization1. cbn [default fst]. rewrite std_nan by exact HE. generalize (np_mean y). clear. intros m. induction y as [|x y IH]; [reflexivity|].
      cbn [map length repeat]. rewrite IH. f_equal. cbn [ndiv Num_XR]. apply xdiv_nan_r.
    + unfold yn. rewrite Hc at 1. rewrite C46_constant_targets_nan; [reflexivity|]. destruct y; [congruence|cbn; lia].
Qed.

(** A column (the labels) is standardized exactly if it consists of finite numbers that are not all equal.  Otherwise -
    one NaN or one infinity is enough - every entry of it becomes NaN. *)
Theorem C100_standardize_all_or_nothing : forall X d j, rectangular d X -> (j < d)%nat ->
  let before := col NaN X j in let after := col NaN (fst (fst (zmuv_normalization X None None))) j in
  (usable before /\ exists rn, after = map Fin rn /\ mean rn = 0 /\ variance rn = 1) \/
  (~ usable before /\ after = repeat NaN (length X)).
Proof.
  intros X d j HR Hj before after. unfold after. rewrite (zmuv_column X d j NaN HR Hj). fold before.
  assert (HL : length before = length X) by (unfold before, col; apply map_length). rewrite <- HL.
  apply standardize_targets. destruct HR as [HX _]. destruct X; [congruence|]. discriminate.
Qed.
Theorem C100_standardize_labels_all_or_nothing : forall y : list XR, y <> [] ->
  let yn := fst (fst (zmuv_normalization1 y None None)) in
  (usable y /\ exists rn, yn = map Fin rn /\ mean rn = 0 /\ variance rn = 1) \/ (~ usable y /\ yn = repeat NaN (length y)).
Proof. exact standardize_targets. Qed.

(** *** Scaling to [0, 1] *)
Lemma isnan_X : forall x : XR, np_isnan x = match x with NaN => true | _ => false end.
Proof.
  intros x. unfold np_isnan. rewrite n0_XR, n1_XR. destruct x; cbn; auto.
  destruct (Rltb r 1) eqn:E; auto. destruct (Rltb 0 r) eqn:F; auto. apply Rltb_false in E. apply Rltb_false in F. lra.
Qed.
Lemma min2_fin : forall a b, np_min2 (Fin a) (Fin b) = Fin (np_min2 a b).
Proof. intros. unfold np_min2. rewrite !isnan_X, !np_isnan_R. unfold nmin. cbn. now destruct (Rltb b a). Qed.
Lemma max2_fin : forall a b, np_max2 (Fin a) (Fin b) = Fin (np_max2 a b).
Proof. intros. unfold np_max2. rewrite !isnan_X, !np_isnan_R. unfold nmax. cbn. now destruct (Rltb a b). Qed.
Lemma min_fin : forall rs, rs <> [] -> np_min (map Fin rs) = Fin (np_min rs).
Proof.
  intros [|r rs] H; [congruence|]. clear H. cbn [map np_min]. revert r. induction rs as [|x rs IH]; intros r; [reflexivity|].
  cbn [map fold_left]. rewrite min2_fin. apply IH.
Qed.
Lemma max_fin : forall rs, rs <> [] -> np_max (map Fin rs) = Fin (np_max rs).
Proof.
  intros [|r rs] H; [congruence|]. clear H. cbn [map np_max]. revert r. induction rs as [|x rs IH]; intros r; [reflexivity|].
  cbn [map fold_left]. rewrite max2_fin. apply IH.
Qed.
Lemma absorbs : forall (f : XR -> XR -> XR) (P : XR -> Prop) z, P z -> (forall x y, P x -> P y -> P (f x y)) ->
  (forall x, P x -> f x z = z /\ f z x = z) -> forall l x, Forall P (x :: l) -> In z (x :: l) -> fold_left f l x = z.
Proof.
  intros f P z Pz Pf Hz. assert (Z : forall l, Forall P l -> fold_left f l z = z).
  { induction l as [|y l IH]; intros HF; [reflexivity|]. inversion HF as [|? ? H1 H2]; subst. cbn [fold_left]. rewrite (proj2 (Hz y H1)). auto. }
  induction l as [|y l IH]; intros x HF HI.
  - destruct HI as [->|[]]. reflexivity.
  - inversion HF as [|? ? H1 H2]; subst. inversion H2 as [|? ? H3 H4]; subst. cbn [fold_left].
    destruct HI as [->|[->|HI]].
    + rewrite (proj2 (Hz y H3)). auto.
    + rewrite (proj1 (Hz x H1)). auto.
    + apply IH; [constructor; auto|right; exact HI].
Qed.
Lemma min_nan : forall l, In NaN l -> np_min l = NaN.
Proof.
  intros [|x l] H; [destruct H|]. apply (absorbs np_min2 (fun _ => True)); auto; [|apply Forall_forall; auto].
  intros y _. unfold np_min2. rewrite !isnan_X. destruct y; auto.
Qed.
Lemma min_ninf : forall l, ~ In NaN l -> In NInf l -> np_min l = NInf.
Proof.
  intros [|x l] HN H; [destruct H|]. apply (absorbs np_min2 (fun v => v <> NaN)); auto; [discriminate| | |apply Forall_forall; intros v Hv ->; now apply HN].
  - intros a b Ha Hb. unfold np_min2. rewrite !isnan_X. unfold nmin. destruct a, b; try congruence; destruct (nltb _ _); congruence.
  - intros y Hy. unfold np_min2. rewrite !isnan_X. unfold nmin. destruct y; cbn; auto. congruence.
Qed.
Lemma max_pinf : forall l, ~ In NaN l -> In PInf l -> np_max l = PInf.
Proof.
  intros [|x l] HN H; [destruct H|]. apply (absorbs np_max2 (fun v => v <> NaN)); auto; [discriminate| | |apply Forall_forall; intros v Hv ->; now apply HN].
  - intros a b Ha Hb. unfold np_max2. rewrite !isnan_X. unfold nmax. destruct a, b; try congruence; destruct (nltb _ _); congruence.
  - intros y Hy. unfold np_max2. rewrite !isnan_X. unfold nmax. destruct y; cbn; auto. congruence.
Qed.
Lemma min_mixed : forall l, ~ In NaN l -> ~ In NInf l -> Exists (fun v => is_fin v = true) l -> exists a, np_min l = Fin a.
Proof.
  intros [|x l] H1 H2 HE; [inversion HE|]. cbn [np_min]. revert x H1 H2 HE. induction l as [|y l IH]; intros x H1 H2 HE.
  - inversion HE as [? ? Q|? ? Q]; subst; [|inversion Q]. destruct x; try discriminate Q. now exists r.
  - cbn [fold_left]. cbn [In] in H1, H2. apply IH.
    + intros [Q|Q]; [|tauto]. revert Q. unfold np_min2. rewrite !isnan_X. unfold nmin. destruct x, y; try tauto; destruct (nltb _ _); intros Q; discriminate Q.
    + intros [Q|Q]; [|tauto]. revert Q. unfold np_min2. rewrite !isnan_X. unfold nmin. destruct x, y; try tauto; destruct (nltb _ _); intros Q; discriminate Q.
    + assert (K : is_fin x = true \/ is_fin y = true -> is_fin (np_min2 x y) = true).
      { unfold np_min2. rewrite !isnan_X. unfold nmin. destruct x, y; cbn; try tauto; try (intros [|]; discriminate). destruct (Rltb _ _); reflexivity. }
      inversion HE as [? ? Q|? ? Q]; subst; [left; auto|]. inversion Q as [? ? Q'|? ? Q']; subst; [left; auto|right; exact Q'].
Qed.

(** Scaling to [0, 1]: a NaN or a -inf makes every entry of the column NaN; with +inf the finite entries become 0 and the
    infinite ones NaN; a constant column becomes NaN; otherwise the smallest entry becomes 0, the largest 1. *)
Theorem C100_zero_one_cases : forall X d j, rectangular d X -> (j < d)%nat ->
  let before := col NaN X j in let after := col NaN (fst (fst (zero_one_normalization X None None))) j in
  (In NaN before \/ In NInf before -> after = repeat NaN (length X)) /\
  (~ In NaN before -> ~ In NInf before -> In PInf before ->
     after = map (fun v => match v with Fin _ => Fin 0 | _ => NaN end) before) /\
  (forall rs, before = map Fin rs -> ~ varied rs -> after = repeat NaN (length X)) /\
  (forall rs, before = map Fin rs -> varied rs -> exists lo up, is_min rs lo /\ is_max rs up /\ lo < up /\
     after = map Fin (map (fun r => (r - lo) / (up - lo)) rs)).
Proof.
  intros X d j HR Hj before after. unfold after. rewrite (zero_one_column X d j NaN HR Hj). fold before.
  assert (HL : length before = length X) by (unfold before, col; apply map_length). rewrite <- HL.
  assert (HB : before <> []) by (destruct HR as [HX _]; unfold before; destruct X; [congruence|]; discriminate).
  assert (ALL : forall f : XR -> XR, (forall v, In v before -> f v = NaN) -> map f before = repeat NaN (length before)).
  { intros f. clear. induction before as [|v l IH]; intros Hf; [reflexivity|]. cbn [map length repeat]. rewrite Hf by (now left). f_equal. apply IH. intros; apply Hf; now right. }
  repeat split.
  - intros HN. apply ALL. intros v _. assert (D : In NaN before \/ ~ In NaN before) by (clear; induction before as [|x l [|]]; [right; auto|left; now right|destruct x; (left; now left) || (right; intros [|]; [discriminate|contradiction])]). destruct D as [Hn|Hn].
    + rewrite (min_nan _ Hn). destruct v, (np_max before); reflexivity.
    + destruct HN as [HN|HN]; [contradiction|]. rewrite (min_ninf _ Hn HN). destruct v, (np_max before); reflexivity.
  - intros H1 H2 H3. apply map_ext_in. intros v Hv. rewrite (max_pinf _ H1 H3).
    destruct v; try contradiction.
    + destruct (min_mixed before H1 H2) as [a ->]; [apply Exists_exists; exists (Fin r); auto|]. reflexivity.
    + destruct (np_min before); reflexivity.
  - intros rs HE HV. destruct (varied_or_constant rs) as [V|[c Hc]]; [intros ->; contradiction|contradiction|].
    apply ALL. intros v Hv. assert (Hr : rs <> []) by (intros ->; contradiction).
    rewrite HE, min_fin, max_fin by exact Hr. destruct (np_min_spec rs Hr) as [M1 _]. destruct (np_max_spec rs Hr) as [M2 _].
    assert (K : forall x, In x rs -> x = c) by (intros x Hx; rewrite Hc in Hx; now apply repeat_spec in Hx).
    rewrite HE in Hv. apply in_map_iff in Hv as (x & <- & Hx). apply K in Hx. apply K in M1. apply K in M2.
    rewrite M1, M2, Hx. change (nsub (Fin c) (Fin c)) with (Fin (c + - c)). replace (c + - c) with 0 by ring. cbn. destruct (Req_EM_T 0 0); [|lra].
    unfold xsgn. destruct (Rlt_dec 0 0); [lra|reflexivity].
  - intros rs HE (a & b & Ha & Hb & N). assert (Hr : rs <> []) by (intros ->; contradiction).
    pose proof (np_min_spec rs Hr) as M1. pose proof (np_max_spec rs Hr) as M2.
    exists (np_min rs), (np_max rs). split; [exact M1|]. split; [exact M2|].
    assert (LT : np_min rs < np_max rs).
    { destruct M1 as [_ M1]. destruct M2 as [_ M2]. pose proof (M1 a Ha). pose proof (M1 b Hb). pose proof (M2 a Ha). pose proof (M2 b Hb). lra. }
    split; [exact LT|]. rewrite HE, min_fin, max_fin by exact Hr. rewrite !map_map. apply map_ext. intros r. cbn [nsub ndiv Num_XR xopp xadd].
    rewrite xdiv_fin by lra. reflexivity.
Qed.

(** *** The incumbent *)
Lemma argmin_stays : forall l i best, argmin_from i best NaN l = best.
Proof. induction l as [|x l IH]; intros i best; [reflexivity|]. cbn [argmin_from]. rewrite isnan_X. cbn [negb andb]. apply IH. Qed.
Lemma argmin_nan : forall l i best bv, bv <> NaN -> In NaN l -> exists k, argmin_from i best bv l = (i + k)%nat /\
  nth_error l k = Some NaN /\ forall k', (k' < k)%nat -> nth_error l k' <> Some NaN.
Proof.
  induction l as [|x l IH]; intros i best bv Hb HI; [destruct HI|]. cbn [argmin_from]. rewrite !isnan_X.
  assert (Hbv : match bv with NaN => true | _ => false end = false) by (destruct bv; congruence). rewrite Hbv. cbn [negb andb].
  assert (D : x = NaN \/ x <> NaN) by (destruct x; (now left) || (right; discriminate)). destruct D as [->|Hx].
  - exists 0%nat. cbn [orb]. rewrite argmin_stays. split; [lia|]. split; [reflexivity|]. intros; lia.
  - destruct HI as [HI|HI]; [congruence|].
    assert (STEP : forall b v, v <> NaN -> exists k, argmin_from (S i) b v l = (i + k)%nat /\ nth_error (x :: l) k = Some NaN /\ forall k', (k' < k)%nat -> nth_error (x :: l) k' <> Some NaN).
    { intros b v Hv. destruct (IH (S i) b v Hv HI) as (k & -> & K1 & K2). exists (S k). split; [lia|]. split; [exact K1|].
      intros [|k'] Hk; cbn; [congruence|]. apply K2. lia. }
    destruct (_ || _); apply STEP; assumption.
Qed.
(** If an observation is NaN, the incumbent is the first of those - not the best of the others. *)
Theorem C100_incumbent_is_the_missing_value : forall (X : list (list XR)) y, In NaN y -> (length y <= length X)%nat ->
  exists i x, get_incumbent (Some X) (Some y) = Ok (x, NaN) /\ nth_error X i = Some x /\ nth_error y i = Some NaN /\
    forall k, (k < i)%nat -> nth_error y k <> Some NaN.
Proof.
  intros X [|v y] HI HL; [destruct HI|]. unfold get_incumbent. cbn [np_argmin bind].
  assert (Q : exists i, argmin_from 1 0 v y = i /\ nth_error (v :: y) i = Some NaN /\ forall k, (k < i)%nat -> nth_error (v :: y) k <> Some NaN).
  { assert (D : v = NaN \/ v <> NaN) by (destruct v; (now left) || (right; discriminate)). destruct D as [->|Hv].
    - exists 0%nat. rewrite argmin_stays. split; [reflexivity|]. split; [reflexivity|]. intros; lia.
    - destruct HI as [HI|HI]; [congruence|]. destruct (argmin_nan y 1 0 v Hv HI) as (k & -> & K1 & K2).
      exists (1 + k)%nat. split; [reflexivity|]. split; [exact K1|]. intros [|k'] Hk; cbn; [congruence|]. apply K2. lia. }
  destruct Q as (i & -> & Q1 & Q2). destruct (nth_error X i) as [x|] eqn:EX.
  - exists i, x. rewrite Q1. auto.
  - exfalso. apply nth_error_None in EX. assert (i < length (v :: y))%nat by (apply nth_error_Some; congruence). lia.
Qed.

(** One column with a NaN, one with +inf, one without either. *)
Definition holes : list (list XR) := [[Fin 1; Fin 5; Fin 1]; [NaN; PInf; Fin 2]; [Fin 2; Fin 7; Fin 3]].
Example C100_example :
  rectangular 3 holes /\ ~ usable (col NaN holes 0) /\ ~ usable (col NaN holes 1) /\ usable (col NaN holes 2) /\
  col NaN (fst (fst (zmuv_normalization holes None None))) 0 = [NaN; NaN; NaN] /\
  col NaN (fst (fst (zmuv_normalization holes None None))) 1 = [NaN; NaN; NaN] /\
  col NaN (fst (fst (zero_one_normalization holes None None))) 1 = [Fin 0; NaN; Fin 0] /\
  get_incumbent (Some holes) (Some [Fin 3; NaN; Fin 1]) = Ok ([NaN; PInf; Fin 2], NaN).
Proof.
  assert (HR : rectangular 3 holes) by (split; [discriminate|repeat constructor]).
  assert (N : forall l, Exists (fun x => is_fin x = false) l -> ~ usable l).
  { intros l HE (rs & -> & _). apply Exists_exists in HE as (x & Hx & Hf). apply in_map_iff in Hx as (r & <- & _). discriminate Hf. }
  assert (N0 : ~ usable (col NaN holes 0)) by (apply N; right; left; reflexivity).
  assert (N1 : ~ usable (col NaN holes 1)) by (apply N; right; left; reflexivity).
  split; [exact HR|]. split; [exact N0|]. split; [exact N1|]. split.
  { exists [1; 2; 3]. split; [reflexivity|]. exists 1, 2. cbn. repeat split; auto. lra. }
  split; [destruct (C100_standardize_all_or_nothing holes 3 0 HR ltac:(lia)) as [[U _]|[_ Q]]; [contradiction|exact Q]|].
  split; [destruct (C100_standardize_all_or_nothing holes 3 1 HR ltac:(lia)) as [[U _]|[_ Q]]; [contradiction|exact Q]|].
  split.
  - destruct (C100_zero_one_cases holes 3 1 HR ltac:(lia)) as (_ & Q & _). apply Q; cbn; intuition discriminate.
  - destruct (C100_incumbent_is_the_missing_value holes [Fin 3; NaN; Fin 1]) as (i & x & -> & E1 & E2 & _); [cbn; auto|cbn; lia|].
    destruct i as [|[|[|i]]]; try discriminate E2; [|destruct i; discriminate E2]. injection E1 as <-. reflexivity.
Qed.
Print Assumptions C100_columns_are_independent.
Print Assumptions C100_standardize_all_or_nothing.
Print Assumptions C100_standardize_labels_all_or_nothing.
Print Assumptions C100_zero_one_cases.
Print Assumptions C100_incumbent_is_the_missing_value.
