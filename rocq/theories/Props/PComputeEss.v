(** C90: the experiment script for effective sample sizes. *)
From Coq Require Import String List Arith ZArith Reals Lra Lia Bool.
From Verif.Base Require Import Py.
From Verif.Model Require Import SampleChains ComputeEss.
From Verif.Props Require Import PTraces.
Import ListNotations.
Local Open Scope list_scope.

(** *** Arguments *)
Definition known_benchmark (a : ess_args) : Prop := In (e_benchmark a) ["banana"; "gmm1"; "gmm2"; "gmm3"]%string.
Definition valid_args (a : ess_args) : Prop :=
  known_benchmark a /\ (1 <= e_n_iterations a)%Z /\ (2 <= e_n_chains a)%Z /\ (1 <= e_samples_per_chain a)%Z /\
  (1 <= e_keep_every a)%Z /\ (0 <= e_min a <= e_max a)%R /\ (0 < e_step a)%R /\
  In (e_sampler a) ["RelativisticSGHMC"; "SGHMC"; "SGLD"]%string.

Lemma mem_spec : forall x l, mem x l = true <-> In x l.
Proof.
  intros. unfold mem. rewrite existsb_exists. split.
  - intros (y & H & E). apply String.eqb_eq in E. now subst.
  - intros. exists x. split; auto. apply String.eqb_refl.
Qed.

Lemma check_spec : forall a,
  (valid_args a /\ check_args a = Ok tt) \/
  (~ valid_args a /\ ~ known_benchmark a /\ check_args a = Raise ValueError) \/
  (~ valid_args a /\ known_benchmark a /\ check_args a = Raise AssertionError).
Proof.
  intros a. unfold check_args, valid_args, known_benchmark.
  destruct (mem (e_benchmark a) _) eqn:E0; cbn [negb].
  2:{ right. left. assert (~ In (e_benchmark a) ["banana"; "gmm1"; "gmm2"; "gmm3"]%string); [|tauto].
      rewrite <- mem_spec, E0. discriminate. }
  apply mem_spec in E0. set (K := In (e_benchmark a) _) in *. set (K' := In (e_sampler a) _) in *.
  unfold rleb, rltb.
  destruct (Z.leb_spec 1 (e_n_iterations a)); cbn [assert_ bind]; [|right; right; repeat split; auto; intros []; lia].
  destruct (Z.leb_spec 2 (e_n_chains a)); cbn [assert_ bind]; [|right; right; repeat split; auto; intros []; lia].
  destruct (Z.leb_spec 1 (e_samples_per_chain a)); cbn [assert_ bind]; [|right; right; repeat split; auto; intros []; lia].
  destruct (Z.leb_spec 1 (e_keep_every a)); cbn [assert_ bind]; [|right; right; repeat split; auto; intros []; lia].
  destruct (Rle_dec (e_min a) (e_max a)); cbn [assert_ bind]; [|right; right; repeat split; auto; intros []; lra].
  destruct (Rle_dec 0 (e_min a)); cbn [assert_ bind]; [|right; right; repeat split; auto; intros []; lra].
  destruct (Rlt_dec 0 (e_step a)); cbn [assert_ bind]; [|right; right; repeat split; auto; intros []; lra].
  destruct (mem (e_sampler a) _) eqn:E1; cbn [assert_].
  - left. apply mem_spec in E1. repeat split; auto.
  - right. right. repeat split; auto. assert (~ K'); [|tauto]. unfold K'. rewrite <- mem_spec, E1. discriminate.
Qed.

(** *** The stepsizes tried *)
Lemma ceil_spec : forall x n, (Z.of_nat n < ceil x)%Z <-> (INR n < x)%R.
Proof.
  intros x n. unfold ceil. destruct (base_Int_part (- x)) as [H1 H2]. rewrite INR_IZR_INZ. split; intros H.
  - assert (H3 : (Z.of_nat n + 1 <= - Int_part (- x))%Z) by lia. apply IZR_le in H3. rewrite plus_IZR, opp_IZR in H3. lra.
  - apply lt_IZR. rewrite opp_IZR. lra.
Qed.

Lemma arange_length : forall lo hi st n, (0 < st)%R -> (n < length (np_arange lo hi st) <-> (lo + INR n * st < hi)%R).
Proof.
  intros. unfold np_arange. rewrite map_length, seq_length.
  transitivity (Z.of_nat n < ceil ((hi - lo) / st))%Z; [lia|]. rewrite ceil_spec. split; intros H1.
  - apply (Rmult_lt_compat_r st) in H1; auto. unfold Rdiv in H1. rewrite Rmult_assoc, Rinv_l in H1; lra.
  - apply (Rmult_lt_reg_r st); auto. unfold Rdiv. rewrite Rmult_assoc, Rinv_l; lra.
Qed.

Lemma arange_nth : forall lo hi st n, (0 < st)%R ->
  nth_error (np_arange lo hi st) n = (if Rlt_dec (lo + INR n * st) hi then Some (lo + INR n * st)%R else None).
Proof.
  intros lo hi st n H. pose proof (arange_length lo hi st n H) as L. destruct (Rlt_dec _ _) as [R1|R1].
  - apply L in R1. unfold np_arange in *. rewrite map_length, seq_length in R1. rewrite nth_error_map.
    rewrite (nth_error_nth' _ 0) by (rewrite seq_length; lia). rewrite seq_nth by lia. reflexivity.
  - apply nth_error_None. apply Nat.nlt_ge; tauto.
Qed.

(** Without --stepsize the stepsizes are the arithmetic progression from the minimum, as far as it stays below
    the maximum, which itself is never tried; with --stepsize it is that one and the range is not looked at. *)
Theorem C90_stepsizes : forall a, valid_args a ->
  (e_stepsize a = None ->
     (forall n, nth_error (stepsizes a) n =
        (if Rlt_dec (e_min a + INR n * e_step a) (e_max a) then Some (e_min a + INR n * e_step a)%R else None)) /\
     (forall x, In x (stepsizes a) -> (e_min a <= x < e_max a)%R) /\ NoDup (stepsizes a)) /\
  (forall x, e_stepsize a = Some x -> stepsizes a = [x]).
Proof.
  intros a (_ & _ & _ & _ & _ & Hm & Hs & _). unfold stepsizes. split; [|intros x ->; reflexivity].
  intros ->. pose proof (fun n => arange_nth (e_min a) (e_max a) (e_step a) n Hs) as N. split; [exact N|]. split.
  - intros x Hx. apply In_nth_error in Hx as (n & Hn). rewrite N in Hn. destruct (Rlt_dec _ _); [|discriminate Hn].
    injection Hn as <-. pose proof (pos_INR n). split; [|auto]. assert (0 <= INR n * e_step a)%R by (apply Rmult_le_pos; lra). lra.
  - apply NoDup_nth_error. intros i j Hi E. rewrite arange_length in Hi by auto. rewrite !N in E.
    destruct (Rlt_dec _ _); [|tauto]. destruct (Rlt_dec _ _); [|discriminate E]. injection E as E.
    apply INR_eq. apply (Rmult_eq_reg_r (e_step a)); lra.
Qed.

Section S.
Context {T W E : Type}.
Notation pv := (@pv T).
Notation trace := (@trace T).

(** *** Chains *)
Definition never_stops (s : sampler T W) : Prop := forall w w', s_next s w <> (Raise StopIteration, w').

(** chain i of a run: every tenth sample of the i-th of the consecutive pieces of length 10 * spc *)
Definition piece (run : list pv) (spc i : nat) (smp : list pv) : Prop :=
  length smp = spc /\ forall j, j < spc -> nth_error smp j = nth_error run ((i * spc + j) * 10).

(** The traces of one stepsize: all from one run of one sampler. *)
Definition split_run (run : list pv) (names : list string) (n spc : nat) (ts : list trace) : Prop :=
  length run = n * spc * 10 /\ length ts = n /\
  forall i t, nth_error ts i = Some t -> exists smp, piece run spc i smp /\ new_trace i smp (Some names) = Ok t.

Lemma steps_app : forall nx w l w1 l' w2, steps (T:=T) W nx w l w1 -> steps (T:=T) W nx w1 l' w2 -> steps (T:=T) W nx w (l ++ l') w2.
Proof. induction 1; auto. intros. cbn. econstructor; eauto. Qed.

Lemma islice_spec : forall (s : sampler T W) step, 1 <= step -> never_stops s -> forall fuel cnt next stop w r w',
  cnt <= next <= stop -> cnt + fuel = stop ->
  islice (s_next s) fuel cnt next stop step w = (Ok r, w') ->
  exists l, steps (T:=T) W (s_next s) w l w' /\ length l = fuel /\
    forall j, nth_error r j = nth_error l (next - cnt + j * step).
Proof.
  intros s step Hst Hn. induction fuel as [|fuel IH]; intros cnt next stop w r w' H1 H2 H; cbn [islice] in H.
  - injection H as <- <-. exists []. split; [constructor|]. split; auto. intros. now rewrite !(proj2 (nth_error_None _ _)) by (cbn; lia).
  - destruct (s_next s w) as [[[v c]|e] w1] eqn:En.
    2:{ exfalso. destruct e; try discriminate H. exact (Hn _ _ En). }
    destruct (Nat.ltb_spec cnt next).
    + destruct (IH (S cnt) next stop w1 r w' ltac:(lia) ltac:(lia) H) as (l & L1 & L2 & L3). exists (v :: l).
      split; [econstructor; eauto|]. split; [cbn; lia|]. intros j. rewrite L3.
      replace (next - cnt + j * step) with (S (next - S cnt + j * step)) by lia. reflexivity.
    + destruct (islice (s_next s) fuel (S cnt) (Nat.min (next + step) stop) stop step w1) as [[l0|e] w2] eqn:Ei; [|discriminate H].
      injection H as <- <-. assert (next = cnt) by lia. subst next.
      destruct (IH (S cnt) (Nat.min (cnt + step) stop) stop w1 l0 w2 ltac:(lia) ltac:(lia) Ei) as (l & L1 & L2 & L3). exists (v :: l).
      split; [econstructor; eauto|]. split; [cbn; lia|]. intros [|j].
      * now rewrite Nat.sub_diag.
      * cbn [nth_error]. rewrite L3. replace (cnt - cnt + S j * step) with (S (step - 1 + j * step)) by (cbn; lia). cbn [nth_error].
        destruct (le_lt_dec (cnt + step) stop) as [Hl|Hl].
        -- rewrite Nat.min_l by lia. f_equal. lia.
        -- rewrite Nat.min_r by lia. rewrite !(proj2 (nth_error_None _ _)) by lia. reflexivity.
Qed.

Lemma extract_spec : forall (s : sampler T W) n k w r w', 1 <= k -> never_stops s -> extract_samples s n k w = (Ok r, w') ->
  exists l, steps (T:=T) W (s_next s) w l w' /\ length l = n * k /\ length r = n /\ forall j, nth_error r j = nth_error l (j * k).
Proof.
  intros s n k w r w' Hk Hn H. unfold extract_samples in H.
  destruct (islice_spec s k Hk Hn (n * k) 0 0 (n * k) w r w' ltac:(lia) ltac:(lia) H) as (l & L1 & L2 & L3).
  exists l. cbn in L3. repeat split; auto.
  destruct (lt_eq_lt_dec (length r) n) as [[C|C]|C]; auto; exfalso.
  - assert (N : nth_error r (length r) = None) by (apply nth_error_None; lia). rewrite L3 in N. apply nth_error_None in N. nia.
  - apply nth_error_Some in C. rewrite L3 in C. apply nth_error_Some in C. lia.
Qed.

Lemma chains_spec : forall (s : sampler T W) names spc, never_stops s -> forall n i w ts w',
  chains s names (seq i n) spc w = (Ok ts, w') ->
  exists l, steps (T:=T) W (s_next s) w l w' /\ length l = n * spc * 10 /\ length ts = n /\
    forall k t, nth_error ts k = Some t -> exists smp, piece l spc k smp /\ new_trace (i + k) smp (Some names) = Ok t.
Proof.
  intros s names spc Hn. induction n as [|n IH]; intros i w ts w' H; cbn [seq chains] in H.
  - injection H as <- <-. exists []. split; [constructor|]. split; auto. split; auto. intros [|]; discriminate.
  - destruct (extract_samples s spc 10 w) as [[smp|e] w1] eqn:Ee; [|discriminate H].
    destruct (new_trace i smp (Some names)) as [t|e] eqn:Et; [|discriminate H].
    destruct (chains s names (seq (S i) n) spc w1) as [[ts'|e] w2] eqn:Ec; [|discriminate H]. injection H as <- <-.
    destruct (extract_spec s spc 10 w smp w1 ltac:(lia) Hn Ee) as (l & L1 & L2 & L3 & L4).
    destruct (IH _ _ _ _ Ec) as (l' & M1 & M2 & M3 & M4). exists (l ++ l').
    split; [eapply steps_app; eauto|]. split; [rewrite app_length; lia|]. split; [cbn; lia|].
    intros [|k] t0 Ht; cbn [nth_error] in Ht.
    + injection Ht as <-. exists smp. rewrite Nat.add_0_r. split; auto. split; auto. intros j Hj.
      rewrite L4. rewrite nth_error_app1 by lia. f_equal.
    + destruct (M4 _ _ Ht) as (smp' & [P1 P2] & P3). exists smp'. replace (i + S k) with (S i + k) by lia. split; auto. split; auto.
      intros j Hj. rewrite P2 by auto. rewrite nth_error_app2 by lia. f_equal. lia.
Qed.

Section Env.
Variable make : string -> string -> R -> W -> res (sampler T W) * W.
Variable mean_ess : list (nat * trace) -> res E.
Variable write : string -> list (R * list E) -> W -> res unit * W.

(** The values computed for a sequence of stepsizes: for each, one sampler is made and run for exactly
    10 * n_chains * samples_per_chain steps, and the value is that of the traces the run is cut into. *)
Inductive evaluated (a : ess_args) : list R -> W -> list E -> W -> Prop :=
| ev_nil : forall w, evaluated a [] w [] w
| ev_cons : forall eps l w s w1 run w2 ts v vs w3,
    make (e_benchmark a) (e_sampler a) eps w = (Ok s, w1) ->
    steps (T:=T) W (s_next s) w1 run w2 ->
    split_run run (if string_dec (e_benchmark a) "banana" then ["x"; "y"] else ["x"])%string
              (Z.to_nat (e_n_chains a)) (Z.to_nat (e_samples_per_chain a)) ts ->
    mean_ess (combine (seq 0 (Z.to_nat (e_n_chains a))) ts) = Ok v ->
    evaluated a l w2 vs w3 ->
    evaluated a (eps :: l) w (v :: vs) w3.

(** What is written: the stepsizes in the order tried, each with one value per iteration. *)
Definition grouped (l : list R) (n : nat) (vs : list E) (d : list (R * list E)) : Prop :=
  length vs = n * length l /\ map fst d = l /\
  forall k eps es, nth_error d k = Some (eps, es) ->
    length es = n /\ forall i, i < n -> nth_error es i = nth_error vs (i * length l + k).

Lemma new_trace_chain : forall c smp ns t, new_trace (T:=T) c smp ns = Ok t -> chain t = c.
Proof.
  intros c smp ns t H. unfold new_trace in H. destruct smp as [|f smp]; [discriminate H|].
  destruct f; cbn [bind] in H; try discriminate H;
  (destruct (1 <=? _) in H; [|discriminate H]); cbn [assert_ bind] in H;
  (destruct (_ =? _) in H; [|discriminate H]); cbn [assert_ bind] in H; now injection H as <-.
Qed.

Lemma ids_seq : forall (ts : list trace) i, (forall k t, nth_error ts k = Some t -> chain t = i + k) ->
  map chain ts = seq i (length ts) /\ map (fun t => (chain t, t)) ts = combine (seq i (length ts)) ts.
Proof.
  induction ts as [|t ts IH]; intros i H; [now split|]. cbn [map length seq combine].
  pose proof (H 0 t eq_refl) as H0. rewrite Nat.add_0_r in H0. rewrite H0.
  destruct (IH (S i)) as [A B]. { intros k t' Hk. specialize (H (S k) t' Hk). lia. }
  now rewrite A, B.
Qed.

Lemma one_spec : forall a eps w v w', (forall b n e w s w1, make b n e w = (Ok s, w1) -> never_stops s) ->
  one_stepsize make mean_ess a eps w = (Ok v, w') ->
  exists s w1 run ts,
    make (e_benchmark a) (e_sampler a) eps w = (Ok s, w1) /\ steps (T:=T) W (s_next s) w1 run w' /\
    split_run run (if string_dec (e_benchmark a) "banana" then ["x"; "y"] else ["x"])%string
              (Z.to_nat (e_n_chains a)) (Z.to_nat (e_samples_per_chain a)) ts /\
    mean_ess (combine (seq 0 (Z.to_nat (e_n_chains a))) ts) = Ok v.
Proof.
  intros a eps w v w' Hm H. unfold one_stepsize in H.
  destruct (make (e_benchmark a) (e_sampler a) eps w) as [[s|e] w1] eqn:Em; [|discriminate H].
  destruct (chains s _ _ _ w1) as [[ts|e] w2] eqn:Ec in H; [|discriminate H].
  apply pair_equal_spec in H as [H <-].
  destruct (chains_spec _ _ _ (Hm _ _ _ _ _ _ Em) _ _ _ _ _ Ec) as (run & L1 & L2 & L3 & L4).
  exists s, w1, run, ts. split; auto. split; auto.
  assert (N : varnames_of (e_benchmark a) = (if string_dec (e_benchmark a) "banana" then ["x"; "y"] else ["x"])%string).
  { unfold varnames_of. destruct (String.eqb_spec (e_benchmark a) "banana"); destruct (string_dec _ _); congruence. }
  rewrite N in L4. split; [now split|].
  destruct (ids_seq ts 0) as [I1 I2].
  { intros k t Ht. destruct (L4 _ _ Ht) as (smp & _ & Hs). now apply new_trace_chain in Hs. }
  unfold multi_trace in H. destruct (nodup_ids (map chain ts)); [|discriminate H]. cbn [bind] in H. now rewrite I2, L3 in H.
Qed.

(** the dictionary after appending values one by one *)
Fixpoint add_all (l : list R) (vs : list E) (d : list (R * list E)) : list (R * list E) :=
  match l, vs with eps :: l', v :: vs' => add_all l' vs' (add_value eps v d) | _, _ => d end.

Lemma all_spec : forall a, (forall b n e w s w1, make b n e w = (Ok s, w1) -> never_stops s) -> forall l d w d' w',
  all_stepsizes make mean_ess a l d w = (Ok d', w') ->
  exists vs, evaluated a l w vs w' /\ length vs = length l /\ d' = add_all l vs d.
Proof.
  intros a Hm. induction l as [|eps l IH]; intros d w d' w' H; cbn [all_stepsizes] in H.
  - injection H as <- <-. exists []. repeat split. constructor.
  - destruct (one_stepsize make mean_ess a eps w) as [[v|e] w1] eqn:E1; [|discriminate H].
    destruct (one_spec _ _ _ _ _ Hm E1) as (s & wa & run & ts & A1 & A2 & A3 & A4).
    destruct (IH _ _ _ _ H) as (vs & V1 & V2 & V3). exists (v :: vs). split; [econstructor; eauto|]. split; [cbn; lia|]. exact V3.
Qed.

Lemma add_all_app : forall l1 vs1 l2 vs2 d, length vs1 = length l1 ->
  add_all (l1 ++ l2) (vs1 ++ vs2) d = add_all l2 vs2 (add_all l1 vs1 d).
Proof. induction l1 as [|x l1 IH]; intros [|v vs1] l2 vs2 d H; cbn in H; try discriminate H; auto. cbn. apply IH. lia. Qed.

Lemma add_value_new : forall eps (v : E) d, ~ In eps (map fst d) -> add_value eps v d = d ++ [(eps, [v])].
Proof.
  induction d as [|[k vs] d IH]; cbn; auto. intros H. unfold reqb. destruct (Req_EM_T eps k); [subst; tauto|]. rewrite IH; tauto.
Qed.
Lemma add_value_mid : forall eps (v : E) d1 vs d2, ~ In eps (map fst d1) ->
  add_value eps v (d1 ++ (eps, vs) :: d2) = d1 ++ (eps, vs ++ [v]) :: d2.
Proof.
  induction d1 as [|[k ws] d1 IH]; intros vs d2 H; cbn in *; unfold reqb.
  - destruct (Req_EM_T eps eps); tauto.
  - destruct (Req_EM_T eps k); [subst; tauto|]. rewrite IH; tauto.
Qed.

Lemma NoDup_mid : forall (A : Type) (l1 : list A) x l2, NoDup (l1 ++ x :: l2) -> ~ In x l1.
Proof. intros A l1 x l2 H Hi. apply NoDup_remove_2 in H. apply H. apply in_app_iff. now left. Qed.

(** one more pass over stepsizes all of which are present *)
Lemma pass_again : forall l vs d1 ess, length vs = length l -> length ess = length l -> NoDup (map fst d1 ++ l) ->
  add_all l vs (d1 ++ combine l ess) = d1 ++ combine l (map (fun '(es, v) => es ++ [v]) (combine ess vs)).
Proof.
  induction l as [|x l IH]; intros [|v vs] d1 [|es ess] H1 H2 H3; cbn in H1, H2; try discriminate; auto.
  cbn [combine add_all map]. rewrite add_value_mid by (now apply NoDup_mid in H3).
  change (d1 ++ (x, es ++ [v]) :: combine l ess) with (d1 ++ [(x, es ++ [v])] ++ combine l ess).
  rewrite app_assoc, IH; try lia.
  - now rewrite <- app_assoc.
  - rewrite map_app, <- app_assoc. exact H3.
Qed.
Lemma pass_first : forall l vs d1, length vs = length l -> NoDup (map fst d1 ++ l) ->
  add_all l vs d1 = d1 ++ combine l (map (fun v => [v]) vs).
Proof.
  induction l as [|x l IH]; intros [|v vs] d1 H1 H3; cbn in H1; try discriminate; cbn [combine add_all map]; [now rewrite app_nil_r|].
  rewrite add_value_new by (now apply NoDup_mid in H3). rewrite IH; try lia.
  - now rewrite <- app_assoc.
  - rewrite map_app, <- app_assoc. exact H3.
Qed.

(** the values of position k *)
Definition column (l : list R) (n : nat) (vs : list E) (k : nat) (es : list E) : Prop :=
  length es = n /\ forall i, i < n -> nth_error es i = nth_error vs (i * length l + k).

Lemma passes : forall l, NoDup l -> forall n vs, length vs = S n * length l ->
  exists ess, add_all (concat (repeat l (S n))) vs [] = combine l ess /\ length ess = length l /\
    forall k es, nth_error ess k = Some es -> column l (S n) vs k es.
Proof.
  intros l Hl. induction n as [|n IH]; intros vs H.
  - cbn [repeat concat]. rewrite app_nil_r. rewrite pass_first; [|cbn in H; lia|auto]. exists (map (fun v => [v]) vs).
    split; auto. split; [rewrite map_length; cbn in H; lia|]. intros k es Hk. rewrite nth_error_map in Hk.
    destruct (nth_error vs k) as [v|] eqn:Ev; [|discriminate Hk]. injection Hk as <-. split; auto. intros i Hi. assert (i = 0) by lia. subst. cbn. now rewrite Ev.
  - set (m := S n * length l). assert (Hm : length (firstn m vs) = m) by (apply firstn_length_le; unfold m; lia).
    destruct (IH (firstn m vs) Hm) as (ess & A1 & A2 & A3).
    assert (Er : concat (repeat l (S (S n))) = concat (repeat l (S n)) ++ l).
    { clear. replace (S (S n)) with (S n + 1) by lia. rewrite repeat_app, concat_app. cbn [repeat concat]. now rewrite app_nil_r. }
    assert (Hc : length (concat (repeat l (S n))) = m).
    { unfold m. clear. induction n as [|n IH]; [cbn; rewrite app_length; cbn; lia|]. change (repeat l (S (S n))) with (l :: repeat l (S n)). cbn [concat]. rewrite app_length, IH. lia. }
    assert (Hs : length (skipn m vs) = length l) by (rewrite skipn_length; unfold m; lia).
    assert (Ea : add_all (concat (repeat l (S (S n)))) vs [] = combine l (map (fun '(es, v) => es ++ [v]) (combine ess (skipn m vs)))).
    { rewrite Er. transitivity (add_all (concat (repeat l (S n)) ++ l) (firstn m vs ++ skipn m vs) []); [now rewrite firstn_skipn|].
      rewrite add_all_app by lia. rewrite A1. rewrite <- (app_nil_l (combine l ess)). rewrite pass_again; auto. }
    exists (map (fun '(es, v) => es ++ [v]) (combine ess (skipn m vs))). split; [exact Ea|].
    split; [rewrite map_length, combine_length; lia|].
    intros k es Hk. rewrite nth_error_map in Hk.
    destruct (nth_error (combine ess (skipn m vs)) k) as [[es0 v]|] eqn:Ek; [|discriminate Hk]. injection Hk as <-.
    assert (Kl : k < length l). { assert (nth_error (combine ess (skipn m vs)) k <> None) by congruence. apply nth_error_Some in H0. rewrite combine_length in H0. lia. }
    assert (E0 : nth_error ess k = Some es0 /\ nth_error (skipn m vs) k = Some v).
    { clear - Ek. revert k Ek. generalize (skipn m vs). induction ess as [|e ess IH]; intros [|x xs] [|k] Ek; cbn in *; try discriminate; [now injection Ek as -> ->|auto]. }
    destruct E0 as [E1 E2]. destruct (A3 _ _ E1) as [C1 C2]. split; [rewrite app_length; cbn; lia|].
    intros i Hi. destruct (Nat.eq_dec i (S n)) as [->|].
    + rewrite nth_error_app2 by lia. rewrite C1, Nat.sub_diag. cbn [nth_error]. rewrite <- E2. symmetry.
      transitivity (nth_error (firstn m vs ++ skipn m vs) (S n * length l + k)); [now rewrite firstn_skipn|]. rewrite nth_error_app2 by (rewrite Hm; unfold m; lia). rewrite Hm. f_equal. unfold m. lia.
    + rewrite nth_error_app1 by lia. rewrite C2 by lia. symmetry.
      transitivity (nth_error (firstn m vs ++ skipn m vs) (i * length l + k)); [now rewrite firstn_skipn|].
      apply nth_error_app1. rewrite Hm. unfold m. nia.
Qed.

(** Arguments that are not valid are rejected before anything is done; for the others, if the script ends
    normally, the values written are exactly the ones of the stepsizes, grouped. *)
Theorem C90_invalid_arguments : forall a w, ~ valid_args a ->
  main make mean_ess write a w = (Raise (if in_dec string_dec (e_benchmark a) ["banana"; "gmm1"; "gmm2"; "gmm3"]%string
                                         then AssertionError else ValueError), w).
Proof.
  intros a w Hv. unfold main, known_benchmark in *. destruct (check_spec a) as [[H _]|[(_ & H & ->)|(_ & H & ->)]]; [tauto| |];
  unfold known_benchmark in H; destruct (in_dec _ _ _); tauto.
Qed.

Theorem C90_results : forall a w w', (forall b n e w s w1, make b n e w = (Ok s, w1) -> never_stops s) ->
  main make mean_ess write a w = (Ok tt, w') ->
  valid_args a /\
  exists vs w1 d,
    evaluated a (concat (repeat (stepsizes a) (Z.to_nat (e_n_iterations a)))) w vs w1 /\
    grouped (stepsizes a) (Z.to_nat (e_n_iterations a)) vs d /\
    write ("/home/freidanm/cluster_utils/results/" ++ e_output a) d w1 = (Ok tt, w').
Proof.
  intros a w w' Hm H. unfold main in H. destruct (check_spec a) as [[Hv Hc]|[(_ & _ & Hc)|(_ & _ & Hc)]]; rewrite Hc in H; try discriminate H.
  split; auto. destruct (all_stepsizes make mean_ess a _ [] w) as [[d|e] w1] eqn:Ea in H; [|discriminate H].
  destruct (all_spec a Hm _ _ _ _ _ Ea) as (vs & V1 & V2 & V3). exists vs, w1, d. split; auto. split; auto.
  assert (ND : NoDup (stepsizes a)).
  { destruct (C90_stepsizes a Hv) as [S1 S2]. destruct (e_stepsize a) as [x|]; [rewrite (S2 x eq_refl); repeat constructor; auto|now apply S1]. }
  destruct Hv as (_ & Hn & _). destruct (Z.to_nat (e_n_iterations a)) as [|n] eqn:En; [lia|].
  assert (L : length vs = S n * length (stepsizes a)).
  { rewrite V2. generalize (S n). clear. induction n as [|n IH]; auto. cbn [repeat concat]. rewrite app_length, IH. reflexivity. }
  destruct (passes _ ND n vs L) as (ess & A1 & A2 & A3). rewrite A1 in V3. subst d. split; auto. split.
  - clear - A2. revert ess A2. induction (stepsizes a) as [|x l IH]; intros [|e ess] H; cbn in *; try discriminate; auto. f_equal. apply IH. lia.
  - intros k eps es Hk. apply A3. clear - Hk. revert k ess Hk. induction (stepsizes a) as [|x l IH]; intros [|k] [|e ess] Hk; cbn in *; try discriminate; [now injection Hk as <- <-|eauto].
Qed.

(** --keep-every is checked and then ignored. *)
Theorem C90_keep_every_ignored : forall a k w, (1 <= k)%Z -> (1 <= e_keep_every a)%Z ->
  main make mean_ess write a w =
  main make mean_ess write (EssArgs (e_benchmark a) (e_sampler a) (e_n_iterations a) (e_n_chains a) (e_samples_per_chain a) k
                                    (e_min a) (e_max a) (e_step a) (e_stepsize a) (e_output a)) w.
Proof.
  intros [b sn ni nc spc k0 mi ma st es o] k w Hk Hk0. cbn [e_keep_every e_benchmark e_sampler e_n_iterations e_n_chains e_samples_per_chain e_min e_max e_step e_stepsize e_output] in *.
  unfold main. replace (check_args _) with (check_args (EssArgs b sn ni nc spc k mi ma st es o)).
  2:{ unfold check_args. cbn [e_keep_every e_benchmark e_sampler e_n_iterations e_n_chains e_samples_per_chain e_min e_max e_step e_stepsize e_output].
      now rewrite (proj2 (Z.leb_le 1 k) Hk), (proj2 (Z.leb_le 1 k0) Hk0). }
  destruct (check_args _); auto.
  cbn [e_keep_every e_benchmark e_sampler e_n_iterations e_n_chains e_samples_per_chain e_min e_max e_step e_stepsize e_output].
  replace (stepsizes (EssArgs b sn ni nc spc k0 mi ma st es o)) with (stepsizes (EssArgs b sn ni nc spc k mi ma st es o)) by reflexivity.
  assert (A : forall l d w, all_stepsizes make mean_ess (EssArgs b sn ni nc spc k0 mi ma st es o) l d w = all_stepsizes make mean_ess (EssArgs b sn ni nc spc k mi ma st es o) l d w).
  { induction l as [|x l IH]; intros d w0; auto. cbn [all_stepsizes].
    replace (one_stepsize make mean_ess (EssArgs b sn ni nc spc k0 mi ma st es o) x w0) with (one_stepsize make mean_ess (EssArgs b sn ni nc spc k mi ma st es o) x w0) by reflexivity.
    destruct (one_stepsize _ _ _ _ _) as [[v|] w2]; auto. }
  now rewrite A.
Qed.
End Env.
End S.

(** *** Concrete runs *)
(** A sampler that counts its steps; making it puts the counter to 0. *)
Definition count_next (w : nat * list (string * list (R * list nat))) : res (@pv nat * nat) * (nat * list (string * list (R * list nat))) :=
  (Ok (VFloat true (fst w), 0), (S (fst w), snd w)).
Definition count_sampler : sampler nat (nat * list (string * list (R * list nat))) := Sampler count_next [Some "x"%string].
Definition count_make (b n : string) (eps : R) (w : nat * list (string * list (R * list nat))) := (Ok count_sampler, (0, snd w)).
(** all first samples, added *)
Definition firsts (m : list (nat * @trace nat)) : res nat :=
  Ok (fold_right (fun '(_, t) a => match samples t with VSeq [VFloat _ x] :: _ => x + a | _ => a end) 0 m).
Definition file_write (f : string) (d : list (R * list nat)) (w : nat * list (string * list (R * list nat))) := (Ok tt, (fst w, (f, d) :: snd w)).

(** What the option --n-chains promises: each chain is one of its own, that is, it begins where a sampler just made begins. *)
Definition chains_own : Prop :=
  forall (T W : Type) (make : string -> string -> R -> W -> res (sampler T W) * W) b n eps w s w1 names k spc ts w',
  make b n eps w = (Ok s, w1) -> chains s names (seq 0 k) spc w1 = (Ok ts, w') ->
  forall t, In t ts -> exists w0 s0 wa v c wb, make b n eps w0 = (Ok s0, wa) /\ s_next s0 wa = (Ok (v, c), wb) /\
    (nth_error (samples t) 0 = Some v \/ nth_error (samples t) 0 = Some (VSeq [v])).
Theorem C90_chains_own_refuted : ~ chains_own.
Proof.
  intros H. specialize (H nat _ count_make "gmm1"%string "SGLD"%string 0%R (0, []) count_sampler (0, []) ["x"%string] 2 1
    [Trace 0 [VSeq [VFloat true 0]] 1 ["x"%string]; Trace 1 [VSeq [VFloat true 10]] 1 ["x"%string]] (20, []) eq_refl eq_refl
    (Trace 1 [VSeq [VFloat true 10]] 1 ["x"%string]) (or_intror (or_introl eq_refl))).
  destruct H as (w0 & s0 & wa & v & c & wb & H1 & H2 & H3). unfold count_make in H1. injection H1 as <- <-.
  cbn in H2. unfold count_next in H2. cbn in H2. injection H2 as <- <- <-. cbn in H3. destruct H3 as [H3|H3]; discriminate H3.
Qed.

(** --stepsize is not checked: what the assertions on the range are for does not hold of it. *)
Definition stepsizes_nonnegative : Prop := forall a, valid_args a -> forall x, In x (stepsizes a) -> (0 <= x)%R.
Definition demo_args (st : option R) : ess_args := EssArgs "gmm1" "SGLD" 2 3 5 1 0 2 1 st "o.json".
Lemma demo_valid : forall st, valid_args (demo_args st).
Proof. intros. unfold valid_args, known_benchmark, demo_args. cbn. repeat split; try lia; try lra; auto 10. Qed.
Theorem C90_stepsizes_nonnegative_refuted : ~ stepsizes_nonnegative.
Proof. intros H. specialize (H (demo_args (Some (-1)%R)) (demo_valid _) (-1)%R (or_introl eq_refl)). lra. Qed.

(** Two stepsizes, twice each, three chains of five samples: the chains begin at steps 0, 50 and 100. *)
Theorem C90_example :
  stepsizes (demo_args None) = [0; 1]%R /\
  main count_make firsts file_write (demo_args None) (7, []) =
    (Ok tt, (150, [("/home/freidanm/cluster_utils/results/o.json"%string, [(0, [150; 150]%nat); (1, [150; 150]%nat)]%R)])) /\
  main count_make firsts file_write (EssArgs "gmm4" "SGLD" 2 3 5 1 0 2 1 None "o.json") (7, []) = (Raise ValueError, (7, [])) /\
  main count_make firsts file_write (EssArgs "gmm1" "SVGD" 2 3 5 1 0 2 1 None "o.json") (7, []) = (Raise AssertionError, (7, [])).
Proof.
  assert (S : stepsizes (demo_args None) = [0; 1]%R).
  { unfold stepsizes. cbn [demo_args e_stepsize e_min e_max e_step].
    assert (K : length (np_arange 0 2 1) = 2).
    { pose proof (proj2 (arange_length 0 2 1 1 ltac:(lra)) ltac:(cbn; lra)).
      destruct (le_lt_dec (length (np_arange 0 2 1)) 2) as [|l]; [lia|]. apply arange_length in l; cbn in l; lra. }
    unfold np_arange in *. rewrite map_length, seq_length in K.
    rewrite K. cbn. f_equal; [lra|]. f_equal. lra. }
  split; [exact S|]. split.
  - unfold main. destruct (check_spec (demo_args None)) as [[_ ->]|[[N _]|[N _]]]; try (exfalso; apply N, demo_valid).
    rewrite S. change (Z.to_nat (e_n_iterations (demo_args None))) with 2. cbn [repeat concat app all_stepsizes].
    assert (O : forall eps w, one_stepsize count_make firsts (demo_args None) eps w = (Ok 150, (150, snd w))) by (intros; reflexivity).
    repeat (rewrite O; cbn [snd all_stepsizes]).
    unfold file_write. cbn [fst snd]. rewrite (add_value_new 0 150 []) by auto. cbn [app].
    rewrite (add_value_new 1 150 [(0%R, [150])]) by (cbn; lra). cbn [app].
    pose proof (add_value_mid 0 150 [] [150] [(1%R, [150])] (fun H => H)) as M1. cbn [app] in M1. rewrite M1.
    pose proof (add_value_mid 1 150 [(0%R, [150; 150])] [150] [] ltac:(cbn; lra)) as M2. cbn [app] in M2. rewrite M2. reflexivity.
  - split; rewrite C90_invalid_arguments; try reflexivity; intros (H & _ & _ & _ & _ & _ & _ & H'); unfold known_benchmark in *; cbn in *; intuition discriminate.
Qed.
