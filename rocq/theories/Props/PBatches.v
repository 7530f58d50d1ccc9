(** Properties C01-C07: minibatch generators. *)
From Coq Require Import List Arith Lia ZArith Bool Permutation.
From Verif.Base Require Import Py Lists.
From Verif.Model Require Import DataBatches.
From Verif.Spec Require Import Batches.
From Verif.Proofs Require Import Batches.
Import ListNotations.
Local Open Scope nat_scope.

(** *** C01 *)

(** Every batch ever yielded is an aligned window of min(batch_size, N)
    datapoints.  (That [generate_batches] does not write to the arrays is visible
    from the type of [gb_next]: it returns no new arrays.) *)
Theorem C01_batches_are_aligned_windows :
  forall (X L : Type) (R : rng_ops) (G : global_ops) (D : list (X * L)) a bsize g k rs gs' g',
  valid_args a (arrays_of D) ->
  valid_batch_size (ga_batch_size a) bsize ->
  gb_run R G k (GNew a) g (arrays_of D) = (rs, gs', g') ->
  length rs = k /\
  Forall (fun r => exists b, r = Ok b /\
            aligned_window D (Nat.min bsize (length D)) (arrays_of D) b) rs.
Proof.
  intros X L R G D a bsize g k rs gs' g' Hv Hb H.
  destruct (gb_run_valid R G k a g (arrays_of D) bsize rs gs' g' Hv Hb H) as [Hl HF].
  split; [exact Hl|].
  eapply Forall_impl; [|exact HF]. intros r Hr. cbn in Hr. rewrite map_length in Hr.
  apply good_batch_aligned; auto. cbn. rewrite map_length. exact Hr.
Qed.

(** Every window position can actually occur (no off-by-one at the end): for
    each start [s] there is a random number generator that yields it first. *)
Definition fixed_rng (s : nat) : rng_ops.
Proof.
  refine {| rng_state := unit; rng_seed := fun _ => tt;
            rng_randint := fun _ n => (Nat.min s (n - 1), tt);
            rng_interval := fun _ i => (0, tt) |}.
  - intros. cbn. lia.
  - intros. cbn. lia.
Defined.

Theorem C01_every_window_reachable :
  forall (X L : Type) (G : global_ops) (pre w post : list (X * L)) a bsize g,
  let D := pre ++ w ++ post in
  valid_args a (arrays_of D) ->
  valid_batch_size (ga_batch_size a) bsize ->
  length w = Nat.min bsize (length D) ->
  exists R b gs' g', gb_next R G (GNew a) g (arrays_of D) = (Ok b, gs', g') /\
    batch_x (arrays_of D) b = map fst w /\ batch_y (arrays_of D) b = map snd w.
Proof.
  intros X L G pre w post a bsize g D Hv Hb Hw.
  exists (fixed_rng (length pre)).
  destruct (gb_start_valid (fixed_rng (length pre)) G a g (arrays_of D) bsize Hv Hb)
    as (z & g' & E & _).
  cbn [gb_next]. rewrite E.
  cbn [arrays_of hx] in *. rewrite map_length in *. rewrite <- Hw.
  eexists _, _, g'. split; [reflexivity|].
  unfold batch_x, batch_y. cbn [arrays_of hx hy hywidth bx_off bx_len by_off by_len].
  rewrite !Nat.mul_1_r.
  assert (HD : length D = length pre + length w + length post)
    by (unfold D; rewrite !app_length; lia).
  replace (Nat.min (length pre) (length D - length w + 1 - 1)) with (length pre) by lia.
  rewrite <- !map_window.
  assert (EW : window (length pre) (length w) D = w).
  { unfold window, D. rewrite skipn_app, skipn_all, Nat.sub_diag. cbn [app skipn].
    rewrite firstn_app, firstn_all, Nat.sub_diag. cbn [firstn]. apply app_nil_r. }
  now rewrite EW.
Qed.

(** *** C02 *)
Theorem C02_large_batch_is_whole_dataset :
  forall (X L : Type) (R : rng_ops) (G : global_ops) (D : list (X * L)) a bsize g k rs gs' g',
  valid_args a (arrays_of D) ->
  valid_batch_size (ga_batch_size a) bsize ->
  length D <= bsize ->
  gb_run R G k (GNew a) g (arrays_of D) = (rs, gs', g') ->
  Forall (fun r => exists b, r = Ok b /\
            batch_x (arrays_of D) b = map fst D /\ batch_y (arrays_of D) b = map snd D) rs.
Proof.
  intros X L R G D a bsize g k rs gs' g' Hv Hb Hle H.
  destruct (C01_batches_are_aligned_windows X L R G D a bsize g k rs gs' g' Hv Hb H) as [_ HF].
  eapply Forall_impl; [|exact HF]. intros r (b & -> & pre & w & post & HD & Hw & Hx & Hy).
  exists b. split; [reflexivity|].
  rewrite Nat.min_r in Hw by exact Hle.
  assert (pre = [] /\ post = []) as [-> ->].
  { rewrite HD, !app_length in Hw. split; apply length_zero_iff_nil; lia. }
  rewrite app_nil_r in HD. cbn in HD. now subst w.
Qed.

(** *** C03 *)

(** However two generators over the same arrays are interleaved with each other
    and with other users of numpy's global RNG, each yields exactly what it
    would yield alone; in particular equal arguments give equal batches at
    every position. *)
Theorem C03_seeded_batches_reproducible :
  forall (X L : Type) (R : rng_ops) (G : global_ops) (h : heap X L)
         aA aB (acts : list (@action G)) g g0 ra rb,
  ga_seed aA <> PNone -> ga_seed aB <> PNone ->
  interleave acts (GNew (R := R) aA) (GNew aB) g h = (ra, rb) ->
  ra = fst (fst (gb_run R G (length ra) (GNew aA) g0 h)) /\
  rb = fst (fst (gb_run R G (length rb) (GNew aB) g0 h)) /\
  (aA = aB -> forall i, i < length ra -> i < length rb -> nth_error ra i = nth_error rb i).
Proof.
  intros X L R G h aA aB acts g g0 ra rb HA HB H.
  destruct (interleave_solo R G acts (GNew aA) (GNew aB) g h g0 ra rb HA HB H) as [Ea Eb].
  unfold solo in Ea, Eb. split; [exact Ea|]. split; [exact Eb|].
  intros -> i Hi Hj. rewrite Ea, Eb.
  apply (solo_nth R G i (length ra) (length rb) (GNew aB) h g0 g0); auto.
Qed.

Theorem C03_unseeded_uses_some_seed :
  forall (X L : Type) (R : rng_ops) (G : global_ops) (h : heap X L) bs k g g2,
  exists z, (1 <= z <= 99999)%Z /\
    fst (fst (gb_run R G k (GNew {| ga_batch_size := bs; ga_seed := PNone |}) g h)) =
    fst (fst (gb_run R G k (GNew {| ga_batch_size := bs; ga_seed := PInt z |}) g2 h)).
Proof.
  intros. exact (solo_unseeded R G k {| ga_batch_size := bs; ga_seed := PNone |} h g g2 eq_refl).
Qed.

(** The same for shuffled batches: batches and the resulting arrays are
    determined by the arguments. *)
Theorem C03_seeded_shuffled_batches_reproducible :
  forall (X L : Type) (R : rng_ops) (G : global_ops) (h : heap X L) a k g1 g2 rs1 rs2 s1 s2 g1' g2' h1 h2,
  ga_seed a <> PNone ->
  sb_run R G k (SNew a) g1 h = (rs1, s1, g1', h1) ->
  sb_run R G k (SNew a) g2 h = (rs2, s2, g2', h2) ->
  rs1 = rs2 /\ h1 = h2.
Proof.
  intros X L R G h a k g1 g2 rs1 rs2 s1 s2 g1' g2' h1 h2 Hs E1 E2.
  destruct (sb_run_seeded R G k (SNew a) h g1 g2 Hs) as [A B].
  rewrite E1, E2 in A, B. cbn in A, B. auto.
Qed.

(** What generators do to numpy's global generator, which the rest of the program uses: nothing
    before the first batch is asked for, nothing if they were given a seed, otherwise exactly one
    draw - in the shuffled case even if the arguments are then rejected. *)
Lemma gb_run_global : forall (X L : Type) (R : rng_ops) (G : global_ops) (h : heap X L) k gs g,
  seeded R gs -> snd (gb_run R G k gs g h) = g.
Proof.
  intros X L R G h k. induction k as [|k IH]; intros gs g Hs; [reflexivity|]. cbn [gb_run].
  destruct (gb_next_seeded R G gs h Hs) as (r & gs1 & Hs1 & E). rewrite E.
  specialize (IH gs1 g Hs1). destruct (gb_run R G k gs1 g h) as [[rs gs2] g2]. exact IH.
Qed.
Lemma sb_run_global : forall (X L : Type) (R : rng_ops) (G : global_ops) k gs g (h : heap X L),
  sseeded R gs -> snd (fst (sb_run R G k gs g h)) = g.
Proof.
  intros X L R G k. induction k as [|k IH]; intros gs g h Hs; [reflexivity|]. cbn [sb_run].
  destruct (sb_next_seeded R G gs h Hs) as (r & gs1 & h1 & Hs1 & E). rewrite E.
  specialize (IH gs1 g h1 Hs1). destruct (sb_run R G k gs1 g h1) as [[[rs gs2] g2] h2]. exact IH.
Qed.
Theorem C03_effect_on_global_generator :
  forall (X L : Type) (R : rng_ops) (G : global_ops) (h : heap X L) a g,
  let plain k := snd (gb_run R G k (GNew a) g h) in
  let shuffled k := snd (fst (sb_run R G k (SNew a) g h)) in
  plain 0 = g /\ shuffled 0 = g /\
  (ga_seed a <> PNone -> forall k, plain k = g /\ shuffled k = g) /\
  (ga_seed a = PNone -> forall k,
     (valid_args a h -> plain (S k) = snd (glob_draw G g)) /\ (~ valid_args a h -> plain (S k) = g) /\
     shuffled (S k) = snd (glob_draw G g)).
Proof.
  intros X L R G h a g plain shuffled. split; [reflexivity|]. split; [reflexivity|]. split.
  - intros Hs k. split; [now apply gb_run_global|now apply sb_run_global].
  - intros Hn k. split; [|split].
    + intros Hv. destruct Hv as [[n Hb] Hr] eqn:Ev. clear Ev.
      destruct (gb_start_valid R G a g h n Hv Hb) as (z & g' & E & _ & Hd). specialize (Hd Hn).
      unfold plain. cbn [gb_run gb_next]. rewrite E.
      destruct (gb_iter R h (rng_seed R z) _ _) as [b st'].
      pose proof (gb_run_global X L R G h k (GRunning R st' (Nat.min n (length (hx h))) (length (hx h))) g' I) as Hg.
      destruct (gb_run R G k _ g' h) as [[rs gs2] g2]. cbn [snd] in *. rewrite Hg. now rewrite <- Hd.
    + intros Hv. unfold plain. cbn [gb_run gb_next]. rewrite (gb_start_invalid R G a g h Hv).
      pose proof (gb_run_global X L R G h k (@GDone R) g I) as Hg.
      destruct (gb_run R G k _ g h) as [[rs gs2] g2]. exact Hg.
    + unfold shuffled. cbn [sb_run sb_next]. rewrite Hn. cbn [is_none].
      destruct (glob_draw G g) as [z g1] eqn:Ed. cbn [snd]. pose proof (glob_draw_range G g) as Hz. rewrite Ed in Hz. cbn [fst] in Hz.
      cbn [np_seed]. replace ((0 <=? z)%Z && (z <=? max_seed)%Z) with true.
      2:{ symmetry. apply andb_true_intro. split; apply Z.leb_le; unfold max_seed; lia. }
      destruct (sb_iter_g R G (rng_seed R z) (rng_seed R z) (GNew {| ga_batch_size := ga_batch_size a; ga_seed := PInt z |}) h)
        as (r & gs' & h' & Hs & E); [discriminate|]. rewrite E.
      pose proof (sb_run_global X L R G k gs' g1 h' Hs) as Hg.
      destruct (sb_run R G k gs' g1 h') as [[[rs gs2] g2] h2]. exact Hg.
Qed.

(** *** C04 *)
Theorem C04_generator_validation :
  forall (X L : Type) (R : rng_ops) (G : global_ops) (h : heap X L) a g k rs gs' g',
  gb_run R G (S k) (GNew a) g h = (rs, gs', g') ->
  (valid_args a h -> length rs = S k /\ Forall (fun r => exists b, r = Ok b) rs) /\
  (~ valid_args a h -> rs = Raise AssertionError :: repeat (Raise StopIteration) k).
Proof.
  intros X L R G h a g k rs gs' g' H. split.
  - intros Hv. destruct Hv as [[n Hn] Hr] eqn:E.
    destruct (gb_run_valid R G (S k) a g h n rs gs' g' Hv Hn H) as [Hl HF].
    split; [exact Hl|]. eapply Forall_impl; [|exact HF].
    intros r (s & _ & ->). eexists. reflexivity.
  - intros Hv. rewrite gb_run_invalid in H by exact Hv. now injection H as <- _ _.
Qed.

(** The shuffled generator: with valid arguments it never raises; with a bad
    seed it raises from numpy's [seed], with other bad arguments AssertionError;
    afterwards StopIteration. It does not touch the arrays when it raises. *)
Theorem C04_shuffled_generator_validation :
  forall (X L : Type) (R : rng_ops) (G : global_ops) (D : list (X * L)) a g k rs gs' g' h',
  sb_run R G (S k) (SNew a) g (arrays_of D) = (rs, gs', g', h') ->
  (valid_args a (arrays_of D) -> length rs = S k /\ Forall (fun r => exists b, r = Ok b) rs) /\
  (~ valid_args a (arrays_of D) ->
     h' = arrays_of D /\
     exists e, (e = AssertionError \/ e = ValueError \/ e = TypeError) /\
       (valid_seed (ga_seed a) -> e = AssertionError) /\
       rs = Raise e :: repeat (Raise StopIteration) k).
Proof.
  intros X L R G D a g k rs gs' g' h' H. split.
  - intros Hv. pose proof Hv as [[n Hn] _].
    destruct (sb_run_valid R G (S k) a D g n rs gs' g' h' Hv Hn H) as (D' & _ & _ & Hl & HF).
    split; [exact Hl|]. eapply Forall_impl; [|exact HF].
    intros r (s & _ & ->). eexists. reflexivity.
  - intros Hv. cbn [sb_run] in H.
    destruct (sb_next R G (SNew a) g (arrays_of D)) as [[[r1 gs1] g1] h1] eqn:E1.
    assert (K : exists e, r1 = Raise e /\ gs1 = SDone /\ h1 = arrays_of D /\
       (e = AssertionError \/ e = ValueError \/ e = TypeError) /\
       (valid_seed (ga_seed a) -> e = AssertionError)).
    { cbn [sb_next] in E1.
      destruct (if is_none (ga_seed a) then let '(z, g1) := glob_draw G g in (PInt z, g1)
                else (ga_seed a, g)) as [sv g0] eqn:Esv.
      destruct (np_seed sv) as [z|e] eqn:En.
      - unfold sb_iter in E1.
        assert (Hinv : ~ valid_args {| ga_batch_size := ga_batch_size a; ga_seed := sv |} (arrays_of D)).
        { intros (A & B & C). apply Hv. split; [exact A|]. split; [|exact C].
          destruct (is_none (ga_seed a)) eqn:Ei.
          - left. destruct (ga_seed a); simpl in Ei; congruence.
          - injection Esv as <- <-. exact B. }
        cbn [gb_next] in E1. rewrite gb_start_invalid in E1 by exact Hinv.
        injection E1 as <- <- <- <-. exists AssertionError. repeat split; auto.
      - injection E1 as <- <- <- <-. exists e. repeat split; auto.
        + unfold np_seed in En.
          destruct sv as [|[|]|z|z|n d|s|t]; try discriminate; try (injection En as <-; auto);
            destruct ((0 <=? z)%Z && (z <=? max_seed)%Z); try discriminate; injection En as <-; auto.
        + intros [Hn|(z & Hi & Hr)].
          * rewrite Hn in Esv. cbn in Esv.
            pose proof (glob_draw_range G g) as Hg. destruct (glob_draw G g) as [z g2].
            injection Esv as <- <-. cbn [fst] in Hg.
            rewrite (np_seed_int (PInt z) z) in En; [discriminate|now left|lia].
          * replace (is_none (ga_seed a)) with false in Esv
              by (destruct Hi as [->|[[-> _]|[-> _]]]; reflexivity).
            injection Esv as <- <-. rewrite (np_seed_int _ z) in En by auto. discriminate. }
    destruct K as (e & -> & -> & -> & He & Hs).
    rewrite sb_run_done in H. injection H as <- _ _ <-.
    split; [reflexivity|]. exists e. auto.
Qed.

(** *** C05 *)
Theorem C05_shuffled_batches_keep_pairs :
  forall (X L : Type) (R : rng_ops) (G : global_ops) (D : list (X * L)) a bsize g k rs gs' g' h',
  valid_args a (arrays_of D) ->
  valid_batch_size (ga_batch_size a) bsize ->
  sb_run R G k (SNew a) g (arrays_of D) = (rs, gs', g', h') ->
  exists D', Permutation D D' /\ h' = arrays_of D' /\ length rs = k /\
    Forall (fun r => exists b, r = Ok b /\
              aligned_window D' (Nat.min bsize (length D)) h' b) rs.
Proof.
  intros X L R G D a bsize g k rs gs' g' h' Hv Hb H.
  destruct (sb_run_valid R G k a D g bsize rs gs' g' h' Hv Hb H) as (D' & HP & -> & Hl & HF).
  exists D'. split; [exact HP|]. split; [reflexivity|]. split; [exact Hl|].
  eapply Forall_impl; [|exact HF]. intros r Hr.
  rewrite (Permutation_length HP).
  apply good_batch_aligned; auto. cbn. rewrite map_length. exact Hr.
Qed.

(** *** C06 *)

(** The expected contract: drawing batches leaves the arrays as they were. *)
Definition leaves_arrays_alone (X L : Type) : Prop :=
  forall (R : rng_ops) (G : global_ops) (D : list (X * L)) a g k rs gs' g' h',
  valid_args a (arrays_of D) ->
  sb_run R G k (SNew a) g (arrays_of D) = (rs, gs', g', h') -> h' = arrays_of D.

Definition ex_data : list (nat * nat) := [(10,0);(11,1);(12,2);(13,3);(14,4)].
Definition ex_args : gen_args := {| ga_batch_size := PInt 3; ga_seed := PInt 7 |}.

Lemma ex_args_valid : valid_args ex_args (arrays_of ex_data).
Proof.
  split; [exists 3, 3%Z; repeat split; now left|].
  split; [right; exists 7%Z; split; [now left|lia]|reflexivity].
Qed.

Theorem C06_caller_arrays_unchanged_refuted : ~ leaves_arrays_alone nat nat.
Proof.
  intros H.
  specialize (H lcg counter_global ex_data ex_args 0%Z 1).
  assert (E : snd (sb_run lcg counter_global 1 (SNew ex_args) 0%Z (arrays_of ex_data))
              = arrays_of [(10,0);(13,3);(11,1);(12,2);(14,4)]) by (vm_compute; reflexivity).
  destruct (sb_run lcg counter_global 1 (SNew ex_args) 0%Z (arrays_of ex_data))
    as [[[rs gs'] g'] h'].
  specialize (H rs gs' g' h' ex_args_valid eq_refl).
  cbn [snd] in E. rewrite H in E. discriminate E.
Qed.

(** A batch the user already holds changes when the next one is drawn. *)
Theorem C06_earlier_batch_stable_refuted :
  exists (R : rng_ops) (G : global_ops) (D : list (nat * nat)) a g b1 s1 g1 h1 b2 s2 g2 h2,
    valid_args a (arrays_of D) /\
    sb_next R G (SNew a) g (arrays_of D) = (Ok b1, s1, g1, h1) /\
    sb_next R G s1 g1 h1 = (Ok b2, s2, g2, h2) /\
    batch_x h1 b1 <> batch_x h2 b1.
Proof.
  exists lcg, counter_global, ex_data, ex_args, 0%Z.
  assert (E : map (fun r => match r with
                     | Ok b => (batch_x (snd (sb_run lcg counter_global 1 (SNew ex_args) 0%Z (arrays_of ex_data))) b,
                                batch_x (snd (sb_run lcg counter_global 2 (SNew ex_args) 0%Z (arrays_of ex_data))) b)
                     | Raise _ => ([], []) end)
                (fst (fst (fst (sb_run lcg counter_global 2 (SNew ex_args) 0%Z (arrays_of ex_data)))))
              = [([13;11;12], [13;12;11]); ([11;12;14], [12;11;14])]) by (vm_compute; reflexivity).
  cbn [sb_run] in E.
  destruct (sb_next lcg counter_global (SNew ex_args) 0%Z (arrays_of ex_data))
    as [[[r1 s1] g1] h1] eqn:E1.
  destruct (sb_next lcg counter_global s1 g1 h1) as [[[r2 s2] g2] h2] eqn:E2.
  cbn [fst snd map] in E.
  destruct r1 as [b1|]; [|discriminate E]. destruct r2 as [b2|]; [|discriminate E].
  injection E as A B _ _.
  exists b1, s1, g1, h1, b2, s2, g2, h2.
  split; [exact ex_args_valid|]. split; [reflexivity|]. split; [exact E2|].
  rewrite A, B. discriminate.
Qed.

(** What does hold: one step permutes only inside the batch it yields. *)
Theorem C06_step_touches_only_its_batch :
  forall (X L : Type) (R : rng_ops) (G : global_ops) (D : list (X * L)) a bsize g k rs gs g' h
         r gs1 g1 h1 i,
  valid_args a (arrays_of D) ->
  valid_batch_size (ga_batch_size a) bsize ->
  sb_run R G k (SNew a) g (arrays_of D) = (rs, gs, g', h) ->
  sb_next R G gs g' h = (r, gs1, g1, h1) ->
  exists b, r = Ok b /\
    (i < bx_off b \/ bx_off b + bx_len b <= i ->
     nth_error (hx h1) i = nth_error (hx h) i /\ nth_error (hy h1) i = nth_error (hy h) i).
Proof.
  intros X L R G D a bsize g k rs gs g' h r gs1 g1 h1 i Hv Hb H Hn.
  assert (K : exists D', h = arrays_of D' /\ exists b, r = Ok b /\
    ((exists bs, sinv R bs (length D') gs /\ bs <= length D') \/
     (exists a bs, gs = SNew a /\ valid_args a (arrays_of D') /\ valid_batch_size (ga_batch_size a) bs))).
  { destruct k.
    - cbn in H. injection H as _ <- <- <-. exists D. split; [reflexivity|].
      destruct (sb_run_valid R G 1 a D g bsize [r] gs1 g1 h1 Hv Hb) as (D0 & _ & _ & _ & HF).
      { cbn [sb_run]. now rewrite Hn. }
      apply Forall_inv in HF. destruct HF as (s & _ & ->).
      eexists; split; [reflexivity|]. right. exists a, bsize. auto.
    - destruct (sb_run_valid R G (S k) a D g bsize rs gs g' h Hv Hb H) as (D' & HP & -> & Hl & HF).
      exists D'. split; [reflexivity|].
      cbn [sb_run] in H.
      destruct (sb_next R G (SNew a) g (arrays_of D)) as [[[r0 gs0] g0] h0] eqn:E0.
      destruct (sb_run R G k gs0 g0 h0) as [[[rs2 gs2] g2] h2] eqn:E2.
      injection H as <- <- <- ->.
      destruct (sb_start R G a D g bsize Hv Hb) as (z & sv & g0' & b & st' & gg & Es & En & Hg).
      rewrite E0 in Es. symmetry in Es.
      destruct (sb_iter_inv R G D _ _ st' _ g0' r0 gs0 g0 h0
                (ex_intro _ b (ex_intro _ gg (conj En Hg))) Es) as (D1 & HP1 & -> & Hr & Hs).
      rewrite (Permutation_length HP1) in *.
      destruct (sb_run_inv R G k D1 _ gs0 g0 rs2 gs2 g2 _ (Nat.le_min_r _ _) Hs E2)
        as (D2 & HP2 & EH & _ & _ & Hs2).
      assert (length D2 = length D') by (apply (f_equal hyrows) in EH; cbn in EH; congruence).
      rewrite H in Hs2.
      assert (Hle : Nat.min bsize (length D1) <= length D').
      { rewrite <- H, <- (Permutation_length HP2). apply Nat.le_min_r. }
      pose proof Hs2 as (rr & st & ->).
      destruct (gb_next_running_ok R G D' _ st g2 Hle) as (b' & gg' & st'' & En' & Hg').
      cbn [sb_next] in Hn.
      destruct (sb_iter_inv R G D' _ rr st'' _ g2 r gs1 g1 h1
                (ex_intro _ b' (ex_intro _ gg' (conj En' Hg'))) Hn) as (D3 & _ & _ & (s & _ & ->) & _).
      eexists; split; [reflexivity|]. left. eexists. split; [exact Hs2|exact Hle]. }
  destruct K as (D' & -> & b & -> & Hst). exists b. split; [reflexivity|].
  intros Hi. exact (sb_next_outside R G gs g' D' b gs1 g1 h1 i Hst Hn Hi).
Qed.

(** *** C07 *)

Theorem C07_label_count :
  forall (X L : Type) (R : rng_ops) (G : global_ops) (h : heap X L) a bsize g k rs gs' g',
  valid_args a h -> valid_batch_size (ga_batch_size a) bsize ->
  length (hy h) = hyrows h * hywidth h ->
  gb_run R G k (GNew a) g h = (rs, gs', g') ->
  Forall (fun r => exists b, r = Ok b /\
     length (batch_x h b) = Nat.min bsize (length (hx h)) /\
     length (batch_y h b) = hywidth h * length (batch_x h b)) rs.
Proof.
  intros X L R G h a bsize g k rs gs' g' Hv Hb Hl H.
  destruct (gb_run_valid R G k a g h bsize rs gs' g' Hv Hb H) as [_ HF].
  eapply Forall_impl; [|exact HF]. intros r Hr.
  pose proof Hv as (_ & _ & Hrows). rewrite Hrows in Hl.
  destruct (good_batch_sizes h _ r Hr Hl) as (b & -> & E1 & E2).
  exists b. rewrite E1. auto.
Qed.

(** Hence labels of width >= 2 pass the length check but every batch of a
    non-empty dataset has a different number of labels than rows. *)
Theorem C07_one_label_per_row_refuted :
  forall (X L : Type) (R : rng_ops) (G : global_ops) (h : heap X L) a bsize g k rs gs' g',
  valid_args a h -> valid_batch_size (ga_batch_size a) bsize ->
  length (hy h) = hyrows h * hywidth h ->
  2 <= hywidth h -> hx h <> [] ->
  gb_run R G k (GNew a) g h = (rs, gs', g') ->
  Forall (fun r => exists b, r = Ok b /\ length (batch_x h b) < length (batch_y h b)) rs.
Proof.
  intros X L R G h a bsize g k rs gs' g' Hv Hb Hl Hw Hne H.
  pose proof (C07_label_count X L R G h a bsize g k rs gs' g' Hv Hb Hl H) as HF.
  eapply Forall_impl; [|exact HF]. intros r (b & -> & E1 & E2). exists b. split; [reflexivity|].
  destruct Hb as (z & _ & Hz & ->).
  assert (0 < length (hx h)) by (destruct (hx h); [congruence|cbn; lia]).
  assert (1 <= length (batch_x h b)) by (rewrite E1; lia). nia.
Qed.

(** Shuffling such a dataset also mixes up labels of different datapoints: after
    one batch of this dataset, the feature row 11 sits in row 0 but its two labels do not. *)
Definition ex_wide : heap nat nat :=
  {| hx := [10; 11]; hy := [100; 101; 110; 111]; hyrows := 2; hywidth := 2 |}.
Theorem C07_shuffled_wide_labels_lose_pairing :
  exists (R : rng_ops) (G : global_ops) a g b s g' h',
    valid_args a ex_wide /\
    sb_next R G (SNew a) g ex_wide = (Ok b, s, g', h') /\
    window 0 2 (hy h') <> window (2 * 0) 2 (hy ex_wide) /\
    window 0 2 (hy h') <> window (2 * 1) 2 (hy ex_wide).
Proof.
  exists lcg, counter_global, ex_args, 0%Z.
  assert (E : (let '(r, _, _, h) := sb_next lcg counter_global (SNew ex_args) 0%Z ex_wide in
               (is_ok r, hx h, hy h)) = (true, [11; 10], [101; 111; 110; 100]))
    by (vm_compute; reflexivity).
  destruct (sb_next lcg counter_global (SNew ex_args) 0%Z ex_wide) as [[[r s] g'] h'] eqn:E1.
  injection E as Er Ex Ey.
  destruct r as [b|]; [|discriminate Er].
  exists b, s, g', h'. split.
  { split; [exists 3, 3%Z; repeat split; now left|].
    split; [right; exists 7%Z; split; [now left|lia]|reflexivity]. }
  split; [reflexivity|]. rewrite Ey. split; vm_compute; discriminate.
Qed.

(** *** The hypotheses are satisfiable, with several distinct batches. *)
Example ex_batches_run :
  valid_batch_size (ga_batch_size ex_args) 3 /\
  map (fun r => match r with Ok b => (batch_x (arrays_of ex_data) b, batch_y (arrays_of ex_data) b)
                           | Raise _ => ([], []) end)
      (fst (fst (gb_run lcg counter_global 4 (GNew ex_args) 0%Z (arrays_of ex_data)))) =
  [([11;12;13],[1;2;3]); ([12;13;14],[2;3;4]); ([12;13;14],[2;3;4]); ([10;11;12],[0;1;2])].
Proof. split; [exists 3%Z; repeat split; now left|vm_compute; reflexivity]. Qed.

Example ex_shuffled_run :
  snd (sb_run lcg counter_global 3 (SNew ex_args) 0%Z (arrays_of ex_data)) =
  arrays_of [(10,0);(13,3);(12,2);(11,1);(14,4)].
Proof. vm_compute. reflexivity. Qed.

Example ex_invalid :
  ~ valid_args {| ga_batch_size := PNpInt 3; ga_seed := PNone |} (arrays_of ex_data) /\
  ~ valid_args {| ga_batch_size := PInt 3; ga_seed := PInt (-1) |} (arrays_of ex_data) /\
  valid_args {| ga_batch_size := PBool true; ga_seed := PNone |} (arrays_of ex_data).
Proof.
  split; [|split].
  - intros ((n & z & Hi & _) & _). destruct Hi as [?|[[? ?]|[? ?]]]; discriminate.
  - intros (_ & [?|(z & Hi & Hr)] & _); [discriminate|].
    destruct Hi as [[= ?]|[[? ?]|[? ?]]]; try discriminate. lia.
  - split; [exists 1, 1%Z; repeat split; right; left; auto|].
    split; [now left|reflexivity].
Qed.

Print Assumptions C01_batches_are_aligned_windows.
Print Assumptions C01_every_window_reachable.
Print Assumptions C02_large_batch_is_whole_dataset.
Print Assumptions C03_seeded_batches_reproducible.
Print Assumptions C03_unseeded_uses_some_seed.
Print Assumptions C03_seeded_shuffled_batches_reproducible.
Print Assumptions C04_generator_validation.
Print Assumptions C04_shuffled_generator_validation.
Print Assumptions C05_shuffled_batches_keep_pairs.
Print Assumptions C06_caller_arrays_unchanged_refuted.
Print Assumptions C06_earlier_batch_stable_refuted.
Print Assumptions C06_step_touches_only_its_batch.
Print Assumptions C07_label_count.
Print Assumptions C07_one_label_per_row_refuted.
Print Assumptions C07_shuffled_wide_labels_lose_pairing.
