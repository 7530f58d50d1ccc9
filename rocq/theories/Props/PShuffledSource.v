(** C05 for the arrays that reach the session: the shuffled generator as the batch source of a model. *)
From Coq Require Import List Arith Lia ZArith Permutation.
From Verif.Base Require Import Py Num.
From Verif.Model Require Import DataBatches TensorUtils BNN.
From Verif.Spec Require Import Batches.
From Verif.Props Require Import PBatches.
Import ListNotations.

(** State of a source and arrays after [k] calls. *)
Fixpoint after {T} (B : batch_source T) (k : nat) (s : bs_state B) (h : heap (list T) T) : bs_state B * heap (list T) T :=
  match k with 0 => (s, h) | S k' => let '(_, s', h') := bs_next B s h in after B k' s' h' end.

Lemma sb_run_snoc : forall X L (R : rng_ops) (G : global_ops) k gs g (h : heap X L),
  sb_run R G (S k) gs g h =
  let '(rs, gs1, g1, h1) := sb_run R G k gs g h in let '(r, gs2, g2, h2) := sb_next R G gs1 g1 h1 in (rs ++ [r], gs2, g2, h2).
Proof.
  intros X L R G k. induction k as [|k IH]; intros gs g h.
  - cbn [sb_run]. destruct (sb_next R G gs g h) as [[[r gs1] g1] h1]. reflexivity.
  - change (sb_run R G (S (S k)) gs g h) with (let '(r, gs1, g1, h1) := sb_next R G gs g h in let '(rs, gs2, g2, h2) := sb_run R G (S k) gs1 g1 h1 in (r :: rs, gs2, g2, h2)).
    change (sb_run R G (S k) gs g h) with (let '(r, gs1, g1, h1) := sb_next R G gs g h in let '(rs, gs2, g2, h2) := sb_run R G k gs1 g1 h1 in (r :: rs, gs2, g2, h2)).
    destruct (sb_next R G gs g h) as [[[r gs1] g1] h1]. rewrite IH. destruct (sb_run R G k gs1 g1 h1) as [[[rs gs2] g2] h2]. destruct (sb_next R G gs2 g2 h2) as [[[r' gs3] g3] h3]. reflexivity.
Qed.
Lemma after_run : forall T (R : rng_ops) (G : global_ops) g0 k gs g (h : heap (list T) T),
  after (sb_source R G g0) k (gs, g) h = let '(_, gs1, g1, h1) := sb_run R G k gs g h in ((gs1, g1), h1).
Proof.
  intros T R G g0 k. induction k as [|k IH]; intros gs g h; [reflexivity|]. cbn [after sb_run sb_source bs_next].
  destruct (sb_next R G gs g h) as [[[r gs1] g1] h1]. rewrite IH. destruct (sb_run R G k gs1 g1 h1) as [[[rs gs2] g2] h2]. reflexivity.
Qed.

(** Every call: the arrays are then some reordering of the data, and what is fed are the features and the labels of a window
    of that order. *)
Theorem C05_shuffled_source : forall T (R : rng_ops) (G : global_ops) (D : list (list T * T)) bs seed bsize g k,
  valid_args {| ga_batch_size := bs; ga_seed := seed |} (arrays_of D) -> valid_batch_size bs bsize ->
  let B := sb_source R G g in let '(s, h) := after B k (bs_start B bs seed) (arrays_of D) in
  exists s' D' pre w post, Permutation D D' /\ D' = pre ++ w ++ post /\ length w = Nat.min bsize (length D) /\
    bs_next B s h = (Ok ({| shape := [length w; length (hd [] (map fst w))]; data := concat (map fst w) |},
                         {| shape := [length w; 1]; data := map snd w |}), s', arrays_of D').
Proof.
  intros T R G D bs seed bsize g k HV HB B. unfold B. cbn [bs_start sb_source]. rewrite after_run.
  pose proof (sb_run_snoc _ _ R G k (SNew {| ga_batch_size := bs; ga_seed := seed |}) g (arrays_of D)) as E.
  destruct (sb_run R G k (SNew {| ga_batch_size := bs; ga_seed := seed |}) g (arrays_of D)) as [[[rs gs1] g1] h1] eqn:EK.
  destruct (sb_next R G gs1 g1 h1) as [[[r gs2] g2] h2] eqn:EN.
  destruct (C05_shuffled_batches_keep_pairs _ _ R G D _ bsize g (S k) _ _ _ _ HV HB E) as (D' & HP & -> & _ & HF).
  apply Forall_app in HF as [_ HF]. apply Forall_inv in HF. destruct HF as (b & -> & pre & w & post & W1 & W2 & W3 & W4).
  exists (gs2, g2), D', pre, w, post. split; [exact HP|]. split; [exact W1|]. split; [exact W2|].
  cbn [bs_next sb_source]. rewrite EN. cbn [bind]. unfold batch_arrays. rewrite W3, W4, !map_length. reflexivity.
Qed.
(** The hypotheses: three datapoints, batches of two. *)
Example C05_shuffled_source_example :
  valid_args {| ga_batch_size := PInt 2; ga_seed := PInt 1 |} (arrays_of [([1], 10); ([2], 20); ([3], 30)]) /\ valid_batch_size (PInt 2) 2.
Proof.
  assert (HB : valid_batch_size (PInt 2) 2) by (exists 2%Z; split; [now left|split; [lia|reflexivity]]).
  split; [|exact HB]. split; [now exists 2|]. split; [|reflexivity]. right. exists 1%Z. split; [now left|lia].
Qed.
