(** C62-C67, C72: traces. *)
From Coq Require Import DecimalString DecimalNat FinFun String List Arith Lia ZArith Bool.
From Verif.Base Require Import Py Vec Slice.
From Verif.Model Require Import Stepsize BaseClasses SampleChains.
From Verif.Spec Require Import Sampler Traces.
Import ListNotations.
Local Open Scope list_scope.

Section S.
Context {T : Type}.
Notation pv := (pv T). Notation trace := (trace T).

Lemma map_res_spec : forall A B (f : A -> res B) l,
  (forall a, In a l -> exists b, f a = Ok b) ->
  exists bs, map_res f l = Ok bs /\
    forall k, nth_error bs k = match nth_error l k with
                               | Some a => match f a with Ok b => Some b | Raise _ => None end
                               | None => None end.
Proof.
  induction l as [|a l IH]; intros H.
  - exists []. split; auto. now intros [|k].
  - destruct (H a (or_introl eq_refl)) as [b Hb]. destruct IH as (bs & E & HN); [intros; apply H; now right|].
    exists (b :: bs). cbn [map_res]. rewrite Hb, E. split; auto. intros [|k]; cbn; [now rewrite Hb|auto].
Qed.

Definition uniform (n : nat) (ss : list pv) : Prop := Forall (fun s => exists l, s = VSeq l /\ length l = n) ss.

Lemma new_trace_ok : forall c n (smp : list pv) names, well_formed n smp -> length names = n ->
  exists ss, new_trace c smp (Some names) = Ok (Trace c ss n names) /\
    uniform n ss /\ length ss = length smp /\ (forall i j, value_at ss i j = value_at smp i j).
Proof.
  intros c n smp names (Hne & Hn & HW) HL. destruct smp as [|first smp0] eqn:ES; [congruence|]. cbn [new_trace].
  destruct HW as [HF|[-> HF]].
  - destruct (Forall_inv HF) as (l & -> & Hl). cbn [bind]. rewrite Hl.
    destruct (Nat.leb_spec 1 n); [|lia]. cbn [assert_ bind]. rewrite (proj2 (Nat.eqb_eq _ _) HL). cbn [assert_ bind].
    exists (VSeq l :: smp0). auto.
  - destruct (Forall_inv HF) as (b & x & ->). cbn [bind Nat.leb assert_].
    rewrite (proj2 (Nat.eqb_eq _ _) HL). cbn [assert_ bind]. rewrite <- ES in *. clear ES.
    exists (map (fun s => VSeq [s]) smp). split; auto. split; [|split].
    + unfold uniform. apply Forall_map. apply Forall_forall. intros s _. now exists [s].
    + apply map_length.
    + intros i j. unfold value_at. rewrite nth_error_map. destruct (nth_error smp j) as [s|] eqn:E; [|reflexivity].
      cbn. rewrite Forall_forall in HF. destruct (HF s (nth_error_In _ _ E)) as (b' & x' & ->). destruct i as [|[|i]]; auto.
Qed.

Lemma name_index_first : forall name ns i, first_position ns name i <-> name_index name ns = Some i.
Proof.
  intros name ns. induction ns as [|n ns IH]; intros i; cbn [name_index].
  - split; [intros [H _]; now destruct i|discriminate].
  - destruct (String.eqb name n) eqn:E.
    + apply String.eqb_eq in E. subst n. split.
      * intros [H1 H2]. destruct i; auto. exfalso. apply (H2 0); [lia|reflexivity].
      * intros H. injection H as <-. split; [reflexivity|]. intros j Hj. lia.
    + apply String.eqb_neq in E. split.
      * intros [H1 H2]. destruct i; [cbn in H1; congruence|]. assert (name_index name ns = Some i) as ->; auto.
        apply IH. split; auto. intros j Hj. apply (H2 (S j)). lia.
      * intros H. destruct (name_index name ns) as [k|]; [|discriminate]. injection H as <-.
        destruct (proj2 (IH k) eq_refl) as [H1 H2]. split; auto. intros j Hj. destruct j; [cbn; congruence|].
        apply H2. lia.
Qed.
Lemma name_index_none : forall name ns, name_index name ns = None <-> ~ In name ns.
Proof.
  induction ns as [|n ns IH]; cbn; [tauto|]. destruct (String.eqb name n) eqn:E.
  - apply String.eqb_eq in E. subst. split; [discriminate|tauto].
  - apply String.eqb_neq in E. destruct (name_index name ns); cbn; split; try discriminate; intuition congruence.
Qed.
Lemma nodup_first : forall ns i name, NoDup ns -> nth_error ns i = Some name -> first_position ns name i.
Proof.
  intros ns i name HN Hi. split; auto. intros j Hj Ej.
  assert (j = i); [|lia]. eapply NoDup_nth_error; eauto.
  - apply nth_error_Some. congruence.
  - congruence.
Qed.

Lemma get_values_spec : forall c ss n names name i burn thin, uniform n ss -> i < n -> 0 < thin ->
  name_index name names = Some i ->
  exists vs, get_values (Trace c ss n names) name (Z.of_nat burn) (Z.of_nat thin) = Ok vs /\ values_of ss i burn thin vs.
Proof.
  intros c ss n names name i burn thin HU Hi Ht HI. unfold get_values. cbn [varnames samples]. rewrite HI.
  destruct (py_slice_from _ burn thin ss Ht) as (ss' & E & HN). rewrite E. cbn [bind].
  assert (HA : forall s, In s ss' -> exists l, s = VSeq l /\ length l = n).
  { intros s Hs. apply (py_slice_incl _ _ _ _ E) in Hs. unfold uniform in HU. rewrite Forall_forall in HU. auto. }
  destruct (map_res_spec _ _ (fun s => index s i) ss') as (vs & Ev & Hv).
  - intros s Hs. destruct (HA s Hs) as (l & -> & Hl). cbn [index]. destruct (nth_error l i) eqn:En; eauto.
    apply nth_error_None in En. lia.
  - exists vs. split; auto. intros k. rewrite Hv. unfold value_at. rewrite <- HN.
    destruct (nth_error ss' k) as [s|] eqn:Es; [|reflexivity]. destruct (HA s (nth_error_In _ _ Es)) as (l & -> & _).
    cbn. now destruct (nth_error l i).
Qed.

Lemma dict_get_last : forall (d : list (string * pv)) name, 
  match dict_get d name with
  | Some v => exists i, last_position (map fst d) name i /\ nth_error d i = Some (name, v)
  | None => ~ In name (map fst d)
  end.
Proof.
  induction d as [|[n w] d IH]; intros name; cbn [dict_get]; [auto|]. specialize (IH name).
  destruct (dict_get d name) as [v|].
  - destruct IH as (i & [H1 H2] & H3). exists (S i). split; [|auto]. split; auto. intros j Hj. destruct j; [lia|]. apply H2. lia.
  - destruct (String.eqb name n) eqn:E.
    + apply String.eqb_eq in E. subst n. exists 0. split; [|reflexivity]. split; [reflexivity|]. intros j Hj Ej.
      destruct j; [lia|]. cbn in Ej. apply IH. eapply nth_error_In; eauto.
    + apply String.eqb_neq in E. cbn. intros [?|?]; [congruence|auto].
Qed.
Lemma last_unique : forall ns name i j, last_position ns name i -> last_position ns name j -> i = j.
Proof.
  intros ns name i j [H1 H2] [H3 H4]. destruct (Nat.lt_trichotomy i j) as [H|[H|H]]; auto; exfalso; [apply (H2 j)|apply (H4 i)]; auto.
Qed.

Lemma point_spec : forall c ss n names j, uniform n ss -> length names = n -> j < length ss ->
  exists d, point (Trace c ss n names) (Z.of_nat j) = Ok d /\ map fst d = names /\
    forall i name, nth_error names i = Some name -> nth_error d i = option_map (pair name) (value_at ss i j) /\ value_at ss i j <> None.
Proof.
  intros c ss n names j HU HL Hj. unfold point. cbn [samples varnames].
  destruct (Z.ltb_spec (Z.of_nat j) 0); [lia|]. destruct (Z.ltb_spec (Z.of_nat j) 0); [lia|]. rewrite Nat2Z.id.
  destruct (nth_error ss j) as [s|] eqn:Es; [|apply nth_error_None in Es; lia].
  unfold uniform in HU. rewrite Forall_forall in HU. destruct (HU s (nth_error_In _ _ Es)) as (l & -> & Hl).
  set (f := fun '(k, name) => do v <- index (VSeq l) k; Ok (name, v)).
  assert (HC : forall k p, nth_error (combine (seq 0 (length names)) names) k = Some p ->
                 exists name, p = (k, name) /\ nth_error names k = Some name).
  { intros k p Hk. assert (k < length names).
    { assert (k < length (combine (seq 0 (length names)) names)) by (apply nth_error_Some; congruence).
      rewrite combine_length, seq_length in H1. lia. }
    destruct (nth_error names k) as [nm|] eqn:En; [|apply nth_error_None in En; lia].
    exists nm. split; auto.
    assert (X : nth_error (combine (seq 0 (length names)) names) k = Some (k, nm)).
    { clear - En H1. rewrite <- (map_id (combine _ _)).
      rewrite (map_ext _ (fun '(x, y) => (x, y))) by (now intros [? ?]).
      change (nth_error (vmap2 pair (seq 0 (length names)) names) k = Some (k, nm)). rewrite nth_error_vmap2, En, nth_error_seq0.
      destruct (Nat.ltb_spec k (length names)); [reflexivity|lia]. }
    congruence. }
  destruct (map_res_spec _ _ f (combine (seq 0 (length names)) names)) as (d & Ed & Hd).
  - intros [k nm] Hin. apply In_nth_error in Hin as [k' Hk']. destruct (HC k' _ Hk') as (nm' & E & En). injection E as -> <-.
    unfold f. cbn [index]. destruct (nth_error l k') eqn:Ek; [cbn; eauto|].
    apply nth_error_None in Ek. assert (k' < length names) by (apply nth_error_Some; congruence). lia.
  - exists d. split; [exact Ed|].
    assert (HV : forall i name, nth_error names i = Some name -> nth_error d i = option_map (pair name) (value_at ss i j) /\ value_at ss i j <> None).
    { intros i nm Hi. rewrite Hd.
      destruct (nth_error (combine (seq 0 (length names)) names) i) as [p|] eqn:Ep.
      2: { apply nth_error_None in Ep. rewrite combine_length, seq_length in Ep.
           assert (i < length names) by (apply nth_error_Some; congruence). lia. }
      destruct (HC i p Ep) as (nm' & -> & Hn'). assert (nm' = nm) by congruence. subst nm'.
      unfold f, value_at. rewrite Es. cbn [index].
      destruct (nth_error l i) as [v|] eqn:Ev; cbn; [split; [auto|discriminate]|].
      apply nth_error_None in Ev. assert (i < length names) by (apply nth_error_Some; congruence). lia. }
    split; [|exact HV].
    apply nth_error_ext. intros i. rewrite nth_error_map. destruct (nth_error names i) as [nm|] eqn:En.
    + destruct (HV i nm En) as [-> Hv]. destruct (value_at ss i j); [reflexivity|congruence].
    + rewrite Hd. replace (nth_error (combine _ _) i) with (@None (nat * string)); [reflexivity|].
      symmetry. apply nth_error_None. rewrite combine_length, seq_length. apply nth_error_None in En. lia.
Qed.

(** ** C62 *)
Theorem C62_trace_faithful : forall c n (smp : list pv) names, well_formed n smp -> length names = n -> NoDup names ->
  exists t, new_trace c smp (Some names) = Ok t /\ chain t = c /\ n_vars t = n /\ varnames t = names /\
    trace_len t = length smp /\
    (forall i name burn thin, nth_error names i = Some name -> 0 < thin ->
       exists vs, get_values t name (Z.of_nat burn) (Z.of_nat thin) = Ok vs /\ values_of smp i burn thin vs) /\
    (forall i name, nth_error names i = Some name -> getitem t (PInt (Z.of_nat i)) = get_values t name 0 1) /\
    (forall j, j < length smp -> exists d, point t (Z.of_nat j) = Ok d /\ map fst d = names /\
       forall i name, nth_error names i = Some name -> dict_get d name = value_at smp i j /\ value_at smp i j <> None) /\
    (forall name burn thin, ~ In name names -> get_values t name burn thin = Raise ValueError).
Proof.
  intros c n smp names HW HL HN. destruct (new_trace_ok c n smp names HW HL) as (ss & E & HU & Hlen & HV).
  exists (Trace c ss n names). split; [exact E|]. do 3 (split; [reflexivity|]). split; [exact Hlen|].
  split; [|split; [|split]].
  - intros i name burn thin Hi Ht. assert (i < n) by (rewrite <- HL; apply nth_error_Some; congruence).
    destruct (get_values_spec c ss n names name i burn thin HU H Ht) as (vs & E1 & E2).
    { apply name_index_first. now apply nodup_first. }
    exists vs. split; auto. intros k. rewrite E2. apply HV.
  - intros i name Hi. unfold getitem. cbn [as_int varnames].
    assert (i < length names) by (apply nth_error_Some; congruence).
    destruct (Z.leb_spec 0 (Z.of_nat i)); [|lia]. destruct (Z.ltb_spec (Z.of_nat i) (Z.of_nat (length names))); [|lia].
    cbn [andb assert_ bind]. rewrite Nat2Z.id, Hi. reflexivity.
  - intros j Hj. destruct (point_spec c ss n names j HU HL) as (d & E1 & E2 & E3); [lia|]. exists d. split; auto. split; auto.
    intros i name Hi. destruct (E3 i name Hi) as [H1 H2]. rewrite HV in H1, H2. split; auto.
    pose proof (dict_get_last d name) as HD. destruct (dict_get d name) as [v|].
    + destruct HD as (i' & [K1 _] & K2). rewrite E2 in K1. assert (i' = i).
      { eapply NoDup_nth_error; eauto; [apply nth_error_Some; congruence|congruence]. }
      subst i'. rewrite K2 in H1. destruct (value_at smp i j); cbn in H1; congruence.
    + exfalso. apply HD. rewrite E2. eapply nth_error_In; eauto.
  - intros name burn thin Hn. unfold get_values. cbn [varnames]. now rewrite (proj2 (name_index_none _ _) Hn).
Qed.

(** Without names: the names are the distinct strings "0", "1", ... *)
Lemma to_uint_nonnil : forall n, Nat.to_uint n <> Decimal.Nil.
Proof.
  intros n E. pose proof (DecimalNat.Unsigned.to_of (Nat.to_uint n)) as H. rewrite DecimalNat.Unsigned.of_to, E in H. discriminate.
Qed.
Lemma str_inj : forall a b, str a = str b -> a = b.
Proof.
  intros a b H. unfold str in H. apply (f_equal NilZero.uint_of_string) in H.
  rewrite !NilZero.usu in H by apply to_uint_nonnil.
  injection H as H. now apply DecimalNat.Unsigned.to_uint_inj.
Qed.
Theorem C62_anonymous_names : forall c n (smp : list pv), well_formed n smp ->
  exists names, NoDup names /\ length names = n /\ (forall i, i < n -> nth_error names i = Some (str i)) /\
    new_trace c smp None = new_trace c smp (Some names).
Proof.
  intros c n smp (Hne & Hn & HW). exists (map str (seq 0 n)). split; [|split; [|split]].
  - apply FinFun.Injective_map_NoDup; [intros a b; apply str_inj|apply seq_NoDup].
  - now rewrite map_length, seq_length.
  - intros i Hi. rewrite nth_error_map, nth_error_seq0. destruct (Nat.ltb_spec i n); [reflexivity|lia].
  - destruct smp as [|f smp]; [congruence|]. unfold new_trace. destruct HW as [HF|[-> HF]].
    + destruct (Forall_inv HF) as (l & -> & Hl). cbn [bind]. now rewrite Hl.
    + destruct (Forall_inv HF) as (b & x & ->). reflexivity.
Qed.

(** Indices outside the range, and indices that are not ints, are rejected. *)
Theorem C62_getitem_range : forall (t : trace) v,
  (as_int v = None \/ exists z, as_int v = Some z /\ ~ (0 <= z < Z.of_nat (length (varnames t)))%Z) ->
  getitem t v = Raise AssertionError.
Proof.
  intros t v [H|(z & H & Hz)]; unfold getitem; rewrite H; auto.
  destruct (Z.leb_spec 0 z), (Z.ltb_spec z (Z.of_nat (length (varnames t)))); cbn; auto; lia.
Qed.

(** point counts steps from the end for negative indices, and has no others. *)
Theorem C62_point_indices : forall (t : trace),
  (forall k, 1 <= k <= trace_len t -> point t (- Z.of_nat k) = point t (Z.of_nat (trace_len t - k))) /\
  (forall z, (z < - Z.of_nat (trace_len t) \/ Z.of_nat (trace_len t) <= z)%Z -> point t z = Raise IndexError).
Proof.
  intros t. unfold point, trace_len. split.
  - intros k Hk. destruct (Z.ltb_spec (- Z.of_nat k) 0); [|lia]. destruct (Z.ltb_spec (Z.of_nat (length (samples t) - k)) 0); [lia|].
    replace (- Z.of_nat k + Z.of_nat (length (samples t)))%Z with (Z.of_nat (length (samples t) - k)) by lia. reflexivity.
  - intros z Hz. destruct (Z.ltb_spec z 0).
    + destruct (Z.ltb_spec (z + Z.of_nat (length (samples t))) 0); [reflexivity|lia].
    + destruct (Z.ltb_spec z 0); [lia|].
      rewrite (proj2 (nth_error_None (samples t) (Z.to_nat z))) by lia. reflexivity.
Qed.

(** ** C63 *)
Theorem C63_duplicate_names : forall c n (smp : list pv) names, well_formed n smp -> length names = n ->
  exists t, new_trace c smp (Some names) = Ok t /\
    (forall i name f, nth_error names i = Some name -> first_position names name f ->
       exists vs, getitem t (PInt (Z.of_nat i)) = Ok vs /\ values_of smp f 0 1 vs) /\
    (forall j name l, j < length smp -> last_position names name l ->
       exists d, point t (Z.of_nat j) = Ok d /\ dict_get d name = value_at smp l j).
Proof.
  intros c n smp names HW HL. destruct (new_trace_ok c n smp names HW HL) as (ss & E & HU & Hlen & HV).
  exists (Trace c ss n names). split; [exact E|]. split.
  - intros i name f Hi Hf. unfold getitem. cbn [as_int varnames].
    assert (i < length names) by (apply nth_error_Some; congruence).
    destruct (Z.leb_spec 0 (Z.of_nat i)); [|lia]. destruct (Z.ltb_spec (Z.of_nat i) (Z.of_nat (length names))); [|lia].
    cbn [andb assert_ bind]. rewrite Nat2Z.id, Hi. assert (f < n).
    { rewrite <- HL. apply nth_error_Some. destruct Hf. congruence. }
    apply name_index_first in Hf. destruct (get_values_spec c ss n names name f 0 1 HU) as (vs & E1 & E2); auto.
    exists vs. split; auto. intros k. rewrite E2. apply HV.
  - intros j name l Hj Hl. destruct (point_spec c ss n names j HU HL) as (d & E1 & E2 & E3); [lia|]. exists d. split; auto.
    pose proof (dict_get_last d name) as HD. destruct (dict_get d name) as [v|].
    + destruct HD as (i' & K1 & K2). rewrite E2 in K1. rewrite (last_unique _ _ _ _ K1 Hl) in K2.
      destruct Hl as [Hl _]. destruct (E3 l name Hl) as [H1 H2]. rewrite HV in H1, H2. rewrite K2 in H1.
      destruct (value_at smp l j); cbn in H1; congruence.
    + exfalso. apply HD. rewrite E2. destruct Hl as [Hl _]. eapply nth_error_In; eauto.
Qed.

(** ** C65 *)
(** A slice either fails or keeps every variable; names at most get reversed. *)
Theorem C65_slice_never_projects : forall (t t' : trace) s, length (varnames t) = n_vars t -> uniform (n_vars t) (samples t) ->
  slice_trace t s = Ok t' ->
  n_vars t' = n_vars t /\ chain t' = chain t /\
  (varnames t' = varnames t \/ varnames t' = rev (varnames t)) /\
  samples t' <> [] /\ incl (samples t') (samples t).
Proof.
  intros t t' s HL HU H. unfold slice_trace in H.
  destruct (py_slice s (samples t)) as [ss|] eqn:E1; [|discriminate].
  destruct (py_slice s (varnames t)) as [ns|] eqn:E2; [|discriminate]. cbn [bind] in H.
  pose proof (py_slice_incl _ _ _ _ E1) as HI.
  destruct ss as [|f ss]; [discriminate|]. cbn [new_trace] in H.
  unfold uniform in HU. rewrite Forall_forall in HU. destruct (HU f (HI f (or_introl eq_refl))) as (l & -> & Hl).
  cbn [bind] in H. destruct (1 <=? length l); [|discriminate]. cbn [assert_ bind] in H.
  destruct (Nat.eqb_spec (length ns) (length l)) as [Hn|]; [|discriminate]. cbn [assert_ bind] in H. injection H as <-. cbn [n_vars chain varnames samples].
  split; [congruence|]. split; [reflexivity|]. split; [|split; [discriminate|exact HI]].
  apply (py_slice_full _ _ _ _ E2). congruence.
Qed.

(** Every slice keeping fewer variables (or no sample) fails. *)
Theorem C65_projection_fails : forall (t : trace) s, length (varnames t) = n_vars t -> uniform (n_vars t) (samples t) ->
  step_of s <> 0%Z -> kept s (n_vars t) <> n_vars t \/ kept s (length (samples t)) = 0 ->
  slice_trace t s = Raise AssertionError.
Proof.
  intros t s HL HU Hst HK. unfold slice_trace.
  destruct (py_slice s (samples t)) as [ss|] eqn:E1.
  2: { unfold py_slice in E1. destruct (Z.eqb_spec (step_of s) 0); [contradiction|discriminate]. }
  destruct (py_slice s (varnames t)) as [ns|] eqn:E2.
  2: { unfold py_slice in E2. destruct (Z.eqb_spec (step_of s) 0); [contradiction|discriminate]. }
  cbn [bind]. pose proof (py_slice_incl _ _ _ _ E1) as HI.
  destruct (py_slice_nth _ _ _ _ E1) as [L1 _]. destruct (py_slice_nth _ _ _ _ E2) as [L2 _]. rewrite HL in L2.
  destruct ss as [|f ss]; [reflexivity|]. cbn [new_trace].
  unfold uniform in HU. rewrite Forall_forall in HU. destruct (HU f (HI f (or_introl eq_refl))) as (l & -> & Hl).
  cbn [bind]. destruct (1 <=? length l); [|reflexivity]. cbn [assert_ bind].
  destruct (Nat.eqb_spec (length ns) (length l)) as [Hn|]; [|reflexivity]. exfalso. destruct HK as [HK|HK]; [congruence|].
  rewrite HK in L1. discriminate.
Qed.

(** Reversing a trace relabels: each name then shows another variable's samples. *)
Theorem C65_reverse_relabels : forall (t : trace), length (varnames t) = n_vars t -> uniform (n_vars t) (samples t) ->
  samples t <> [] -> 1 <= n_vars t -> NoDup (varnames t) ->
  exists t', slice_trace t (Slice None None (Some (-1)%Z)) = Ok t' /\
  forall i name, nth_error (varnames t) i = Some name ->
    exists vs, get_values t' name 0 1 = Ok vs /\ values_of (rev (samples t)) (n_vars t - 1 - i) 0 1 vs.
Proof.
  intros t HL HU Hne Hn HN. unfold slice_trace. rewrite !py_slice_reverse. cbn [bind].
  assert (HU' : uniform (n_vars t) (rev (samples t))).
  { unfold uniform in *. rewrite Forall_forall in *. intros s Hs. apply HU. now apply in_rev. }
  assert (HW : well_formed (n_vars t) (rev (samples t))).
  { split; [|split; [exact Hn|left; exact HU']]. intros E. apply Hne. rewrite <- (rev_involutive (samples t)), E. reflexivity. }
  destruct (new_trace_ok (chain t) (n_vars t) _ (rev (varnames t)) HW) as (ss & E & HUs & Hlen & HV); [now rewrite rev_length|].
  eexists. split; [exact E|]. intros i name Hi. assert (i < n_vars t) by (rewrite <- HL; apply nth_error_Some; congruence).
  destruct (get_values_spec (chain t) ss (n_vars t) (rev (varnames t)) name (n_vars t - 1 - i) 0 1 HUs) as (vs & E1 & E2); try lia.
  - apply name_index_first. apply nodup_first; [now apply NoDup_rev|].
    rewrite (nth_error_nth' _ name) by (rewrite rev_length; lia). rewrite rev_nth by lia. f_equal.
    rewrite HL. replace (n_vars t - S (n_vars t - 1 - i)) with i by lia. now apply nth_error_nth.
  - exists vs. split; auto. intros k. rewrite E2. apply HV.
Qed.

(** ** C64 *)
Variable W : Type.

Theorem C64_keep_every_ignored : forall c (s : sampler T W) n k1 k2 names w,
  from_sampler c s n k1 names w = from_sampler c s n k2 names w.
Proof. reflexivity. Qed.
Theorem C64_multitrace_keep_every_ignored : forall (g : W -> res (sampler T W) * W) init nc n k1 k2 names w,
  pymc3_multitrace g init nc n k1 names w = pymc3_multitrace g init nc n k2 names w.
Proof.
  intros. unfold pymc3_multitrace.
  assert (E : forall ids w, chains_from g init ids n k1 names w = chains_from g init ids n k2 names w); [|now rewrite E].
  clear w. induction ids as [|i ids IH]; intros w; [reflexivity|]. cbn [chains_from].
  destruct (g w) as [[s|] w1]; auto. destruct (init w1) as [[u|] w2]; auto.
  rewrite (C64_keep_every_ignored i s n k1 k2). destruct (from_sampler i s n k2 names w2) as [[t|] w3]; auto. now rewrite IH.
Qed.

(** n consecutive steps of the sampler. *)
Inductive steps (nx : W -> res (pv * T) * W) : W -> list pv -> W -> Prop :=
| steps_nil : forall w, steps nx w [] w
| steps_cons : forall w s c w1 l w2, nx w = (Ok (s, c), w1) -> steps nx w1 l w2 -> steps nx w (s :: l) w2.

Lemma take_samples_spec : forall nx n w smp w', take_samples nx n w = (Ok smp, w') ->
  (exists w'', steps nx w smp w'' /\
     ((length smp = n /\ w' = w'') \/ (length smp < n /\ nx w'' = (Raise StopIteration, w')))).
Proof.
  induction n as [|n IH]; intros w smp w' H; cbn [take_samples] in H.
  - injection H as <- <-. exists w. split; [constructor|]. auto.
  - destruct (nx w) as [[[s c]|e] w1] eqn:E.
    + destruct (take_samples nx n w1) as [[l|e] w2] eqn:E1; [|discriminate]. injection H as <- <-.
      destruct (IH _ _ _ E1) as (w'' & H1 & H2). exists w''. split; [econstructor; eauto|]. cbn. destruct H2 as [[]|[]]; [left|right]; split; auto; lia.
    + destruct e; try discriminate. injection H as <- <-. exists w. split; [constructor|]. right. cbn. split; auto. lia.
Qed.

(** The trace holds the first n_samples consecutive samples and exactly n_samples steps were
    made (fewer only if the sampler itself stops). *)
Theorem C64_consecutive_samples : forall c (s : sampler T W) n k names w t w',
  from_sampler c s n k names w = (Ok t, w') ->
  exists smp w'', steps (s_next s) w smp w'' /\
    ((length smp = n /\ w' = w'') \/ (length smp < n /\ s_next s w'' = (Raise StopIteration, w'))) /\
    trace_len t = length smp /\ chain t = c /\
    (forall j, nth_error (samples t) j = nth_error smp j \/
               nth_error (samples t) j = option_map (fun v => VSeq [v]) (nth_error smp j)).
Proof.
  intros c s n k names w t w' H. unfold from_sampler in H.
  destruct (take_samples (s_next s) n w) as [[smp|e] w1] eqn:E; [|discriminate].
  destruct (take_samples_spec _ _ _ _ _ E) as (w'' & H1 & H2). exists smp, w''.
  destruct (forallb has_name (s_params s)); [|discriminate]. cbn [assert_ bind] in H.
  apply pair_equal_spec in H as [H <-]. split; auto. split; auto.
  destruct smp as [|f smp]; [discriminate|]. unfold new_trace in H.
  destruct f as [b x|l|]; cbn [bind] in H; [| |discriminate].
  - cbn [Nat.leb assert_ bind] in H. destruct (_ =? _) in H; [|discriminate]. cbn [assert_ bind] in H. injection H as <-.
    unfold trace_len. cbn [samples chain]. split; [cbn [length]; now rewrite map_length|]. split; auto. intros j. right.
    change (nth_error (map (fun v => VSeq [v]) (VFloat b x :: smp)) j = option_map (fun v => VSeq [v]) (nth_error (VFloat b x :: smp) j)). apply nth_error_map.
  - destruct (1 <=? length l); [|discriminate]. cbn [assert_ bind] in H. destruct (_ =? _) in H; [|discriminate]. cbn [assert_ bind] in H. injection H as <-.
    unfold trace_len. cbn [samples chain]. split; auto.
Qed.

(** ** C67 *)
(** chain i was built from the i-th sampler, and only from it. *)
Inductive built (g : W -> res (sampler T W) * W) (init : W -> res unit * W) (n : nat) (names : option (list string))
  : nat -> W -> list trace -> W -> Prop :=
| built_nil : forall i w, built g init n names i w [] w
| built_cons : forall i w s w1 w2 smp w3 w3' t ts w4,
    g w = (Ok s, w1) -> init w1 = (Ok tt, w2) ->
    steps (s_next s) w2 smp w3 ->
    (length smp = n /\ w3' = w3) \/ (length smp < n /\ s_next s w3 = (Raise StopIteration, w3')) ->
    new_trace i smp (Some (match names with Some ns => ns | None => map name_of (s_params s) end)) = Ok t ->
    built g init n names (S i) w3' ts w4 ->
    built g init n names i w (t :: ts) w4.

Lemma chains_built : forall g init n k names len i w ts w',
  chains_from g init (seq i len) n k names w = (Ok ts, w') -> built g init n names i w ts w' /\ length ts = len.
Proof.
  induction len as [|len IH]; intros i w ts w' H; cbn [seq chains_from] in H.
  - injection H as <- <-. split; [constructor|auto].
  - destruct (g w) as [[s|] w1] eqn:Eg; [|discriminate]. destruct (init w1) as [[[]|] w2] eqn:Ei; [|discriminate].
    destruct (from_sampler i s n k names w2) as [[t|] w3] eqn:Ef; [|discriminate].
    destruct (chains_from g init (seq (S i) len) n k names w3) as [[ts'|] w4] eqn:Ec; [|discriminate]. injection H as <- <-.
    destruct (IH _ _ _ _ Ec) as [HB HL]. split; [|cbn; lia].
    unfold from_sampler in Ef. destruct (take_samples (s_next s) n w2) as [[smp|] wx] eqn:E; [|discriminate].
    destruct (take_samples_spec _ _ _ _ _ E) as (w'' & H1 & H2).
    destruct (forallb has_name (s_params s)); [|discriminate]. cbn [assert_ bind] in Ef. apply pair_equal_spec in Ef as [Ef ->].
    econstructor; eauto.
Qed.

Lemma new_trace_shape : forall c (smp : list pv) names t, new_trace c smp names = Ok t -> chain t = c /\ trace_len t = length smp.
Proof.
  intros c smp names t H. destruct smp as [|f smp]; [discriminate|]. unfold new_trace in H.
  destruct f as [b x|l|]; cbn [bind] in H; [| |discriminate].
  - cbn [Nat.leb assert_ bind] in H. destruct (_ =? _) in H; [|discriminate]. cbn [assert_ bind] in H. injection H as <-.
    unfold trace_len. cbn. now rewrite map_length.
  - destruct (1 <=? length l); [|discriminate]. cbn [assert_ bind] in H. destruct (_ =? _) in H; [|discriminate]. cbn [assert_ bind] in H. injection H as <-.
    auto.
Qed.

(** get_sampler's samplers never end. *)
Definition endless (g : W -> res (sampler T W) * W) : Prop :=
  forall w s w', g w = (Ok s, w') -> forall w0 w1, s_next s w0 <> (Raise StopIteration, w1).
Lemma built_shape : forall g init n names i w ts w', built g init n names i w ts w' ->
  map chain ts = seq i (length ts) /\
  (endless g -> Forall (fun t => trace_len t = n) ts).
Proof.
  intros g init n names i w ts w' H. induction H as [|i w s w1 w2 smp w3 w3' t ts w4 Hg Hi Hs Hl Ht HB IH].
  - split; constructor.
  - destruct IH as [IH1 IH2]. destruct (new_trace_shape _ _ _ _ Ht) as [Hc Hlen]. split.
    + cbn. now rewrite Hc, IH1.
    + intros HS. constructor; auto. destruct Hl as [[Hl _]|[_ Hl]]; [congruence|]. now apply (HS _ _ _ Hg) in Hl.
Qed.
Lemma nodup_ids_seq : forall n i, nodup_ids (seq i n) = true.
Proof.
  induction n as [|n IH]; intros i; [reflexivity|]. cbn [seq nodup_ids]. rewrite IH, andb_true_r. apply negb_true_iff.
  destruct (existsb (Nat.eqb i) (seq (S i) n)) eqn:E; auto. apply existsb_exists in E as (j & Hj & Ej).
  apply Nat.eqb_eq in Ej. apply in_seq in Hj. lia.
Qed.

Theorem C67_one_trace_per_chain : forall g init nc n k names w m w',
  pymc3_multitrace g init nc n k names w = (Ok m, w') ->
  map fst m = seq 0 nc /\ (forall i t, In (i, t) m -> chain t = i) /\
  built g init n names 0 w (map snd m) w' /\
  (endless g -> Forall (fun p => trace_len (snd p) = n) m).
Proof.
  intros g init nc n k names w m w' H. unfold pymc3_multitrace in H.
  destruct (chains_from g init (seq 0 nc) n k names w) as [[ts|] w1] eqn:E; [|discriminate].
  destruct (chains_built _ _ _ _ _ _ _ _ _ _ E) as [HB HL]. destruct (built_shape _ _ _ _ _ _ _ _ HB) as [HC HF].
  apply pair_equal_spec in H as [H <-]. unfold multi_trace in H. rewrite HC, nodup_ids_seq in H. injection H as <-.
  rewrite !map_map. cbn [fst snd]. change (map (fun x => chain x) ts) with (map chain ts). rewrite HC, HL, map_id. split; auto. split; [|split; auto].
  - intros i t Hin. apply in_map_iff in Hin as (t' & E' & _). injection E' as <- <-. reflexivity.
  - intros HS. apply Forall_map. exact (HF HS).
Qed.

(** Chain ids never clash: MultiTrace accepts the traces whenever all chains were built. *)
Theorem C67_ids_never_clash : forall (g : W -> res (sampler T W) * W) init nc n k names w w' e,
  pymc3_multitrace g init nc n k names w = (Raise e, w') ->
  chains_from g init (seq 0 nc) n k names w = (Raise e, w').
Proof.
  intros g init nc n k names w w' e H. unfold pymc3_multitrace in H.
  destruct (chains_from g init (seq 0 nc) n k names w) as [[ts|] w1] eqn:E; [|congruence].
  destruct (chains_built _ _ _ _ _ _ _ _ _ _ E) as [HB HL]. destruct (built_shape _ _ _ _ _ _ _ _ HB) as [HC HF].
  unfold multi_trace in H. rewrite HC, nodup_ids_seq in H. discriminate.
Qed.
(** A diagnostic is pymc3's function applied to such chains, of the requested number and length. *)
Theorem C67_diagnostic_input : forall A (f : list (nat * trace) -> res A) g init nc n w r w',
  pymc3_diagnostic f g init nc n w = (r, w') ->
  (exists m, r = f m /\ map fst m = seq 0 nc /\ (forall i t, In (i, t) m -> chain t = i) /\
     built g init n None 0 w (map snd m) w' /\ (endless g -> Forall (fun p => trace_len (snd p) = n) m)) \/
  (exists e, r = Raise e /\ pymc3_multitrace g init nc n (PInt 10) None w = (Raise e, w')).
Proof.
  intros A f g init nc n w r w' H. unfold pymc3_diagnostic in H.
  destruct (pymc3_multitrace g init nc n (PInt 10) None w) as [[m|e] w1] eqn:E; injection H as <- <-; [left|right; eauto].
  exists m. split; auto. exact (C67_one_trace_per_chain _ _ _ _ _ _ _ _ _ E).
Qed.
End S.

(** ** C66, C72: traces of the samplers of base_classes.py *)
Section Samplers.
Context {T : Type}.
Notation V := (pv T).
Variable E : env V.
Variable to_float : V -> T.                      (* the cost, not used by traces *)

Definition as_value (s : sample V) : V := match s with SList l => VSeq l | SBare v => v end.
(** [next(sampler)] of a plain or burn-in sampler, as the trace code sees it. *)
Definition next_value (nx : dict_ref -> M E (sample V * V)) (s : state E) : res (V * T) * state E :=
  let '(r, s', _) := call E nx None s in (do (p, c) <- r; Ok (as_value p, to_float c), s').

Lemma mcmc_result : forall d s p c s' ev, mcmc_next E d s = (Ok (p, c), s', ev) ->
  n_iterations E s' = S (n_iterations E s) /\
  exists f z o z', run E f z = (Ok o, z') /\ p = match o_theta o with [v] => SBare v | l => SList l end.
Proof.
  intros d s p c s' ev H.
  unfold mcmc_next, feed_and_run, mbind, next_batch, next_stepsize, dict_update, dict_get, session_run, schedule_update, count_iteration, ret in H.
  destruct (bg_next E) as [nb|]; [destruct (nb (s_bg E s)) as [[b|] bg']; cbn in H; [|discriminate]|];
  destruct d; cbn in H;
  destruct (sch_next (sched E) (s_sched E s)) as [[e|] sc']; cbn in H; try discriminate;
  match type of H with context [run E ?f ?z] => destruct (run E f z) as [[o|] z'] eqn:ER; cbn in H; [|discriminate] end;
  match type of H with context [sch_update ?a ?b ?c] => destruct (sch_update a b c) as [[u|] sc'']; cbn in H; [|discriminate] end;
  injection H as <- _ <- _; cbn; (split; [reflexivity|]); eauto 10.
Qed.
Lemma burnin_result : forall b n d s p c s' ev, burnin_next E b n d s = (Ok (p, c), s', ev) ->
  n_iterations E s' = S (n_iterations E s) /\
  exists f z o z', run E f z = (Ok o, z') /\
    p = if (Z.of_nat (n_iterations E s) <? b)%Z then SList (o_theta o)
        else match o_theta o with [v] => SBare v | l => SList l end.
Proof.
  intros b n d s p c s' ev H. unfold burnin_next in H. fold (is_burning_in E b s). destruct (is_burning_in E b s).
  - unfold feed_and_run, mbind, next_batch, next_stepsize, dict_update, dict_get, session_run, schedule_update, count_iteration, set_minv, ret in H.
    destruct (bg_next E) as [nb|]; [destruct (nb (s_bg E s)) as [[bb|] bg']; cbn in H; [|discriminate]|];
    destruct d; cbn in H;
    destruct (sch_next (sched E) (s_sched E s)) as [[e|] sc']; cbn in H; try discriminate;
    match type of H with context [run E ?f ?z] => destruct (run E f z) as [[o|] z'] eqn:ER; cbn in H; [|discriminate] end;
    match type of H with context [sch_update ?a ?b ?c] => destruct (sch_update a b c) as [[u|] sc'']; cbn in H; [|discriminate] end;
    injection H as <- _ <- _; cbn; (split; [reflexivity|]); eauto 10.
  - destruct (0 <? b)%Z.
    + destruct (minv E s); [|discriminate]. apply mcmc_result in H. exact H.
    + apply mcmc_result in H. exact H.
Qed.

(** Outputs of the session for one target parameter whose values all have the form P. *)
Definition one_param (P : V -> Prop) : Prop := forall f z o z', run E f z = (Ok o, z') -> exists v, o_theta o = [v] /\ P v.

Lemma steps_first : forall nx w l w', steps (T:=T) (state E) nx w l w' ->
  match l with [] => w' = w | s :: _ => exists c w1, nx w = (Ok (s, c), w1) end.
Proof. intros nx w l w' H. destruct H; eauto. Qed.

Lemma next_value_ok : forall nx s v c s', next_value nx s = (Ok (v, c), s') ->
  exists p c0 ev, call E nx None s = (Ok (p, c0), s', ev) /\ v = as_value p.
Proof.
  intros nx s v c s' H. unfold next_value in H. destruct (call E nx None s) as [[[[p c0]|] s1] ev]; [|discriminate].
  cbn in H. injection H as <- _ <-. eauto.
Qed.

(** A burnt-in sampler (and any plain sampler) of one parameter with d >= 2 entries: no trace. *)
Theorem C66_vector_parameter_fails : forall nx,
  (nx = mcmc_next E \/ exists b n, nx = burnin_next E b n) ->
  one_param (fun v => exists l, v = VSeq l /\ 2 <= length l) ->
  forall c name n k s,
  (forall b m, nx = burnin_next E b m -> (b <= Z.of_nat (n_iterations E s))%Z) ->
  forall r s', from_sampler c (Sampler (next_value nx) [Some name]) n k None s = (r, s') ->
  (forall t, r <> Ok t) /\
  (forall smp s1, take_samples (next_value nx) n s = (Ok smp, s1) -> r = Raise AssertionError).
Proof.
  intros nx Hnx HP c name n k s Hb r s' H. unfold from_sampler in H. cbn [s_next s_params] in H.
  destruct (take_samples (next_value nx) n s) as [[smp|e] s1] eqn:E1.
  2: { injection H as <- _. split; [discriminate|]. intros ? ? X. discriminate. }
  cbn [forallb has_name andb assert_ bind map name_of] in H. apply pair_equal_spec in H as [<- _].
  assert (HR : new_trace c smp (Some [name]) = Raise AssertionError).
  { destruct smp as [|v smp]; [reflexivity|].
    destruct (take_samples_spec _ _ _ _ _ _ E1) as (w'' & HS & _). apply steps_first in HS as (c0 & w1 & HS).
    apply next_value_ok in HS as (p & c1 & ev & HS & ->). cbn [call] in HS.
    assert (exists l, p = SBare (VSeq l) /\ 2 <= length l) as (l & -> & Hl).
    { destruct Hnx as [->|(b & m & ->)].
      - apply mcmc_result in HS as (_ & f & z & o & z' & HR & ->). destruct (HP _ _ _ _ HR) as (v & -> & l & -> & Hl). eauto.
      - specialize (Hb b m eq_refl). apply burnin_result in HS as (_ & f & z & o & z' & HR & ->).
        destruct (Z.ltb_spec (Z.of_nat (n_iterations E s)) b); [lia|].
        destruct (HP _ _ _ _ HR) as (v & -> & l & -> & Hl). eauto. }
    cbn [as_value new_trace bind]. destruct (Nat.leb_spec 1 (length l)); [|reflexivity]. cbn [assert_ bind].
    destruct (Nat.eqb_spec (length [name]) (length l)) as [Hx|]; [cbn in Hx; lia|reflexivity]. }
  rewrite HR. split; [discriminate|auto].
Qed.

(** A trace of one scalar parameter that crosses the end of burn-in is built, but its
    values cannot be read. *)
Lemma crossing_samples : forall b m n s smp s', one_param (fun v => exists x, v = VFloat true x) ->
  steps (T:=T) (state E) (next_value (burnin_next E b m)) s smp s' -> length smp = n ->
  forall j v, nth_error smp j = Some v ->
  exists x, v = if (Z.of_nat (n_iterations E s + j) <? b)%Z then VSeq [VFloat true x] else VFloat true x.
Proof.
  intros b m n s smp s' HP HS _. induction HS as [|s v c s1 l s2 Hv HS IH]; intros j u Hj; [now destruct j|].
  apply next_value_ok in Hv as (p & c0 & ev & HC & ->). cbn [call] in HC.
  apply burnin_result in HC as (Hn & f & z & o & z' & HR & ->). destruct (HP _ _ _ _ HR) as (v & Ho & x & ->). rewrite Ho in *.
  destruct j as [|j]; cbn in Hj.
  - injection Hj as <-. exists x. rewrite Nat.add_0_r. now destruct (_ <? _)%Z.
  - destruct (IH j u Hj) as (y & ->). exists y. rewrite Hn. replace (S (n_iterations E s) + j) with (n_iterations E s + S j) by lia. reflexivity.
Qed.

Theorem C66_crossing_trace_unreadable : forall b m c name n k s t s',
  one_param (fun v => exists x, v = VFloat true x) ->
  (Z.of_nat (n_iterations E s) < b < Z.of_nat (n_iterations E s + n))%Z ->
  from_sampler c (Sampler (next_value (burnin_next E b m)) [Some name]) n k None s = (Ok t, s') ->
  trace_len t = n -> get_values t name 0 1 = Raise IndexError.
Proof.
  intros b m c name n k s t s' HP Hb H Hlen. unfold from_sampler in H. cbn [s_next s_params] in H.
  destruct (take_samples (next_value (burnin_next E b m)) n s) as [[smp|e] s1] eqn:E1; [|discriminate].
  cbn [forallb has_name andb assert_ bind map name_of] in H. apply pair_equal_spec in H as [H _].
  pose proof (new_trace_shape _ _ _ _ H) as [_ HL]. rewrite Hlen in HL.
  destruct (take_samples_spec _ _ _ _ _ _ E1) as (w'' & HS & _).
  pose proof (crossing_samples b m n s smp w'' HP HS (eq_sym HL)) as HV.
  destruct smp as [|f smp]; [discriminate|]. destruct (HV 0 f eq_refl) as (x & Hf). rewrite Nat.add_0_r in Hf.
  destruct (Z.ltb_spec (Z.of_nat (n_iterations E s)) b) as [_|]; [|lia]. subst f. cbn in H. injection H as <-.
  unfold get_values. cbn [varnames name_index]. rewrite String.eqb_refl. cbn [samples].
  set (smp' := VSeq [VFloat true x] :: smp) in *.
  destruct (py_slice_from _ 0 1 smp' (Nat.lt_0_succ 0)) as (ss & Es & Hss). change (Z.of_nat 0) with 0%Z in Es. change (Z.of_nat 1) with 1%Z in Es.
  rewrite Es. cbn [bind].
  assert (ss = smp').
  { apply nth_error_ext. intros j. rewrite Hss. f_equal. lia. }
  subst ss.
  assert (HB : forall l : list V, (forall j v, nth_error l j = Some v -> exists y, v = VSeq [VFloat true y] \/ v = VFloat true y) ->
     (exists j y, nth_error l j = Some (VFloat true y)) -> map_res (fun s => index s 0) l = Raise IndexError).
  { induction l as [|v l IH]; intros H1 (j & y & Hj); [now destruct j|]. cbn [map_res].
    destruct (H1 0 v eq_refl) as (y' & [->| ->]); [|reflexivity]. cbn [index nth_error bind].
    destruct j; [cbn in Hj; discriminate|]. rewrite IH; auto; [|eauto]. intros j' v' Hj'. apply (H1 (S j')). exact Hj'. }
  apply HB.
  - intros j v Hj. destruct (HV j v Hj) as (y & ->). exists y. destruct (_ <? _)%Z; auto.
  - set (j := Z.to_nat (b - Z.of_nat (n_iterations E s))).
    destruct (nth_error smp' j) as [v|] eqn:Ej.
    + destruct (HV j v Ej) as (y & ->). exists j, y. destruct (Z.ltb_spec (Z.of_nat (n_iterations E s + j)) b); [lia|auto].
    + apply nth_error_None in Ej. cbn [length] in Ej, HL. lia.
Qed.

(** C72.  pymc3_multitrace runs the variable initializer after get_sampler returned: the
    session state z0 replaces whatever burn-in achieved. *)
Definition reinitialize (z0 : sess_state E) (s : state E) : res unit * state E :=
  (Ok tt, {| n_iterations := n_iterations E s; minv := minv E s; s_bg := s_bg E s; s_sched := s_sched E s;
             s_sess := z0; s_user := s_user E s |}).
Definition with_session (z : sess_state E) (s : state E) : state E :=
  {| n_iterations := n_iterations E s; minv := minv E s; s_bg := s_bg E s; s_sched := s_sched E s; s_sess := z; s_user := s_user E s |}.
Theorem C72_burn_in_discarded : forall z0 (smp : sampler T (state E)) s1 s2 nc n k names g1 g2,
  (* two get_sampler functions that burn the same sampler in differently *)
  (forall s, g1 s = (Ok smp, s1)) -> (forall s, g2 s = (Ok smp, s2)) ->
  (* so that only the session's variables (parameters, momentum, statistics) differ *)
  with_session z0 s1 = with_session z0 s2 ->
  forall s, pymc3_multitrace g1 (reinitialize z0) nc n k names s = pymc3_multitrace g2 (reinitialize z0) nc n k names s.
Proof.
  intros z0 smp s1 s2 nc n k names g1 g2 H1 H2 HE s. unfold pymc3_multitrace.
  assert (X : forall ids w, chains_from g1 (reinitialize z0) ids n k names w = chains_from g2 (reinitialize z0) ids n k names w).
  { induction ids as [|i ids IH]; intros w; [reflexivity|]. cbn [chains_from]. rewrite H1, H2.
    unfold reinitialize at 1 3. fold (with_session z0 s1). fold (with_session z0 s2). rewrite HE.
    destruct (from_sampler i smp n k names (with_session z0 s2)) as [[t|] w3]; auto. now rewrite IH. }
  now rewrite X.
Qed.
End Samplers.

(** *** Concrete traces *)
Definition fl (n : nat) : pv nat := VFloat true n.
Definition two_by_three : list (pv nat) := [VSeq [fl 1; fl 10]; VSeq [fl 2; fl 20]; VSeq [fl 3; fl 30]].
Local Open Scope string_scope.
Example C62_example : well_formed 2 two_by_three /\
  exists t, new_trace 7 two_by_three (Some ["x"; "y"]) = Ok t /\
    get_values t "y" 1 2 = Ok [fl 20] /\ getitem t (PInt 0) = Ok [fl 1; fl 2; fl 3] /\
    point t 1 = Ok [("x", fl 2); ("y", fl 20)] /\ get_values t "z" 0 1 = Raise ValueError.
Proof.
  split.
  - split; [discriminate|]. split; [lia|]. left. repeat constructor; eexists; split; reflexivity.
  - eexists. repeat split; reflexivity.
Qed.

(** Contract: trace[i] gives variable i. *)
Definition index_gives_variable : Prop := forall c n (smp : list (pv nat)) names t i vs,
  well_formed n smp -> new_trace c smp (Some names) = Ok t -> i < n ->
  getitem t (PInt (Z.of_nat i)) = Ok vs -> values_of smp i 0 1 vs.
Theorem C63_index_gives_variable_refuted : ~ index_gives_variable.
Proof.
  intros H. destruct C62_example as [HW _].
  specialize (H 0 2 two_by_three ["x"; "x"] _ 1 _ HW eq_refl (Nat.lt_1_2) eq_refl 0). discriminate H.
Qed.
(** and point disagrees with getitem. *)
Example C63_example : exists t, new_trace 0 two_by_three (Some ["x"; "x"]) = Ok t /\
  getitem t (PInt 1) = Ok [fl 1; fl 2; fl 3] /\ exists d, point t 0 = Ok d /\ dict_get d "x" = Some (fl 10).
Proof. eexists. split; [reflexivity|]. split; [reflexivity|]. eexists. split; reflexivity. Qed.

(** Contract: a slice keeps the selected variables. *)
Definition slice_projects : Prop := forall (t : trace nat) s ns, length (varnames t) = n_vars t -> uniform (n_vars t) (samples t) ->
  py_slice s (varnames t) = Ok ns -> ns <> [] -> exists t', slice_trace t s = Ok t' /\ varnames t' = ns /\ trace_len t' = trace_len t.
Theorem C65_slice_projects_refuted : ~ slice_projects.
Proof.
  intros H. specialize (H (Trace 0 two_by_three 2 ["x"; "y"]) (Slice (Some 0%Z) (Some 1%Z) None) ["x"] eq_refl).
  destruct H as (t' & E & _); try discriminate; try reflexivity.
  repeat constructor; eexists; split; reflexivity.
Qed.
Example C65_example : exists t', slice_trace (Trace 0 two_by_three 2 ["x"; "y"]) (Slice None None (Some (-1)%Z)) = Ok t' /\
  get_values t' "x" 0 1 = Ok [fl 30; fl 20; fl 10].
Proof. eexists. split; reflexivity. Qed.

(** Contract: only every keep_every-th sample is kept. *)
Definition counter : sampler nat nat := Sampler (fun w => (Ok (fl w, w), S w)) [Some "x"].
Definition keeps_every (keep : nat) : Prop := forall c (s : sampler nat nat) n names w t w' smp w'',
  from_sampler c s n (PInt (Z.of_nat keep)) names w = (Ok t, w') ->
  take_samples (s_next s) (n * keep) w = (Ok smp, w'') ->
  forall name vs, get_values t name 0 1 = Ok vs -> forall j, j < n -> nth_error vs j = value_at smp 0 (j * keep).
Theorem C64_keeps_every_refuted : ~ keeps_every 2.
Proof.
  intros H. specialize (H 0 counter 3 None 5 _ _ _ _ eq_refl eq_refl "x" _ eq_refl 1 (le_S _ _ (le_n 2))). discriminate H.
Qed.
Example C64_example : exists t, from_sampler 0 counter 3 (PInt 2) None 5 = (Ok t, 8) /\ get_values t "x" 0 1 = Ok [fl 5; fl 6; fl 7].
Proof. eexists. split; reflexivity. Qed.

Example C67_example : exists m, pymc3_multitrace (fun w => (Ok counter, w)) (fun w => (Ok tt, w)) 2 3 (PInt 10) None 5 = (Ok m, 11) /\
  map fst m = [0; 1] /\ endless nat (fun w => (Ok counter, w)).
Proof.
  eexists. split; [reflexivity|]. split; [reflexivity|]. intros w s w' H. injection H as <- _. discriminate.
Qed.

Example C67_diagnostic_example :
  pymc3_diagnostic (fun m => Ok (map (fun p => trace_len (snd p)) m)) (fun w => (Ok counter, w)) (fun w => (Ok tt, w)) 2 3 5 = (Ok [3; 3], 11).
Proof. reflexivity. Qed.
Example C62_point_example : let t := Trace 0 two_by_three 2 ["x"; "y"] in
  point t (-1) = Ok [("x", fl 3); ("y", fl 30)] /\ point t (-4) = Raise IndexError.
Proof. split; reflexivity. Qed.

(** A sampler whose single scalar parameter counts the session runs. *)
Definition count_env : env (pv nat) :=
  {| bg_state := unit; bg_next := None; sched := constant_schedule (pv nat) (sample (pv nat) * pv nat);
     sess_state := nat; run := fun _ z => (Ok {| o_theta := [fl z]; o_cost := fl 0; o_minv := [fl 0] |}, S z) |}.
Definition count_init : state count_env := initial_state count_env tt (fl 1) 0.
Definition count_next (nx : dict_ref -> M count_env (sample (pv nat) * pv nat)) := next_value count_env (fun _ => 0) nx.

Example C66_crossing_example :
  match fst (from_sampler 0 (Sampler (count_next (burnin_next count_env 2 1)) [Some "x"]) 4 (PInt 1) None count_init) with
  | Ok t => trace_len t = 4 /\ get_values t "x" 0 1 = Raise IndexError
  | Raise _ => False
  end.
Proof. vm_compute. auto. Qed.
Definition vector_env : env (pv nat) :=
  {| bg_state := unit; bg_next := None; sched := constant_schedule (pv nat) (sample (pv nat) * pv nat);
     sess_state := nat; run := fun _ z => (Ok {| o_theta := [VSeq [fl z; fl z]]; o_cost := fl 0; o_minv := [fl 0] |}, S z) |}.
Example C66_vector_example :
  one_param vector_env (fun v => exists l, v = VSeq l /\ 2 <= length l) /\
  fst (from_sampler 0 (Sampler (next_value vector_env (fun _ => 0) (mcmc_next vector_env)) [Some "x"]) 4 (PInt 1) None
        (initial_state vector_env tt (fl 1) 0)) = Raise AssertionError.
Proof.
  split; [|vm_compute; reflexivity]. intros f z o z' H. injection H as <- _. cbn. exists (VSeq [fl z; fl z]). split; [reflexivity|]. exists [fl z; fl z]. split; [reflexivity|]. cbn. lia.
Qed.

(** Contract: traces of a burnt-in sampler start where burn-in ended. *)
Definition burn_in_kept : Prop := forall (E : env (pv nat)) z0 (smp : sampler nat (state E)) s n k t s' m s'',
  from_sampler 0 smp n k None s = (Ok t, s') ->
  pymc3_multitrace (fun _ => (Ok smp, s)) (reinitialize E z0) 1 n k None s = (Ok m, s'') ->
  forall t', In (0, t') m -> samples t' = samples t.
Theorem C72_burn_in_kept_refuted : ~ burn_in_kept.
Proof.
  intros H. set (burnt := snd (drive count_env (mcmc_next count_env) [None; None; None] count_init)).
  set (smp := Sampler (count_next (mcmc_next count_env)) [Some "x"]).
  destruct (from_sampler 0 smp 2 (PInt 1) None burnt) as [r1 s1] eqn:E1.
  destruct (pymc3_multitrace (fun _ => (Ok smp, burnt)) (reinitialize count_env 0) 1 2 (PInt 1) None burnt) as [r2 s2] eqn:E2.
  pose proof (f_equal fst E1) as F1. pose proof (f_equal fst E2) as F2. vm_compute in F1, F2. subst r1 r2.
  specialize (H count_env 0 smp burnt 2 (PInt 1) _ _ _ _ E1 E2 _ (or_introl eq_refl)). discriminate H.
Qed.
