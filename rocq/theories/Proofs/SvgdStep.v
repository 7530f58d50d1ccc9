(** Closed form of a whole SVGD step over the reals; bounds; permutations. *)
From Coq Require Import String List Arith Lia ZArith Bool Reals Lra Permutation.
From Verif.Base Require Import Py Num Vec Lists.
From Verif.Model Require Import TensorUtils SVGD.
From Verif.Spec Require Import Tensor Svgd.
From Verif.Proofs Require Import Tensor Distances Svgd.
Import ListNotations.
Local Open Scope list_scope.

Section F.
Variables (h : R) (X L : list (list R)).
Definition kexp (a b : list R) : R := exp (- sqdist a b / h ^ 2 / 2).
(** grad_theta for the particle at a, component k *)
Definition gfun (a : list R) (k : nat) : R :=
  ((Rsum (map (fun '(b, l) => kexp a b * nth k l 0) (combine X L)) +
    (- Rsum (map (fun b => kexp a b * nth k b 0) X) + nth k a 0 * Rsum (map (kexp a) X)) / h ^ 2) / INR (length X))%R.
End F.

Lemma vmap2_maps : forall A B A' B' C (f : A' -> B' -> C) (u : A -> A') (w : B -> B') X Y,
  vmap2 f (map u X) (map w Y) = map (fun '(a, b) => f (u a) (w b)) (combine X Y).
Proof. unfold vmap2. induction X; destruct Y; cbn; auto. f_equal. apply IHX. Qed.

Lemma grad_closed : forall X L n d, matrix_shape n d X -> matrix_shape n d L -> 1 <= n ->
  exists h, bandwidth X h /\ svgd_grad n d X L = Ok (map (fun a => map (gfun h X L a) (seq 0 d)) X).
Proof.
  intros X L n d HX HL Hn. destruct (kernel_closed X n d HX Hn) as (med & Hm & E).
  set (h := sqrt (med / (2 * ln (INR (length X) + 1)))) in *.
  exists h. split; [exists med; split; auto|]. unfold svgd_grad. rewrite E. cbn [bind]. f_equal.
  clear E. destruct HX as [HX1 _]. clearbody h.
  unfold mmap, mmap2, matmul. rewrite map_map, vmap2_map_map, map_map. apply map_ext. intros a.
  rewrite vmap2_map_map, map_map. apply map_ext. intros k.
  rewrite nsum_R, vmap2_maps. unfold gfun, n_particles. rewrite nint_R, n0_R, HX1, INR_IZR_INZ. reflexivity.
Qed.

Lemma gfun_rbf : forall h X L a k, h <> 0%R ->
  gfun h X L a k = ((Rsum (map (fun '(b, l) => rbf h a b * nth k l 0) (combine X L)) + kernel_force h X a k) / INR (length X))%R.
Proof.
  intros h X L a k Hh.
  assert (HR : forall b, kexp h a b = rbf h a b) by (intros; unfold kexp, rbf; f_equal; field; auto).
  unfold gfun. f_equal. f_equal.
  - apply Rsum_map_ext. intros [b l] _. now rewrite HR.
  - unfold kernel_force.
    rewrite (Rsum_map_ext _ (fun b => kexp h a b * nth k b 0)%R (fun b => rbf h a b * nth k b 0)%R) by (intros; now rewrite HR).
    rewrite (Rsum_map_ext _ (kexp h a) (rbf h a)) by (intros; now rewrite HR).
    clear. set (q := (h ^ 2)%R). set (x := nth k a 0%R). clearbody q x.
    induction X as [|b X' IH]; cbn; [unfold Rdiv; ring|]. rewrite <- IH. unfold Rdiv. ring.
Qed.

(** New history entry and new coordinate. *)
Definition new_hist (alpha g0 hist : R) : R := (alpha * hist + (1 - alpha) * g0 ^ 2)%R.
Definition new_coord (alpha fudge eps x g0 hist : R) : R := (x - eps * (g0 / (fudge + sqrt (new_hist alpha g0 hist))))%R.

Lemma mmap2_rows : forall (f : R -> R -> R) (g : list R -> nat -> R) d X H,
  Forall (fun r => length r = d) H ->
  mmap2 f H (map (fun a => map (g a) (seq 0 d)) X) =
  map (fun '(a, hr) => map (fun k => f (nth k hr 0%R) (g a k)) (seq 0 d)) (combine X H).
Proof.
  intros f g d X. unfold mmap2, vmap2 at 1. induction X as [|a X IH]; intros H HF.
  - destruct H; reflexivity.
  - destruct H as [|hr H]; [reflexivity|]. cbn. inversion HF; subst. rewrite IH by auto. f_equal.
    rewrite (map_seq_nth hr (length hr) eq_refl) at 1. apply vmap2_map_map.
Qed.
Lemma mmap2_rows' : forall A (f : R -> R -> R) (g w : A -> nat -> R) d (Z : list A),
  mmap2 f (map (fun z => map (g z) (seq 0 d)) Z) (map (fun z => map (w z) (seq 0 d)) Z) =
  map (fun z => map (fun k => f (g z k) (w z k)) (seq 0 d)) Z.
Proof. intros. unfold mmap2. rewrite vmap2_map_map. apply map_ext. intros z. apply vmap2_map_map. Qed.

Lemma combine_map_fst_map : forall A B C (f : A -> C) (X : list A) (H : list B), length X = length H ->
  map f X = map (fun '(a, _) => f a) (combine X H).
Proof. induction X; destruct H; cbn; intros; try discriminate; auto. f_equal. apply IHX. lia. Qed.

Lemma step_closed : forall c eps X L H n d,
  matrix_shape n d X -> matrix_shape n d L -> matrix_shape n d H -> 1 <= n ->
  exists h, bandwidth X h /\
  svgd_step c eps n d X L H =
  Ok (map (fun '(a, hr) => map (fun k => new_coord (s_alpha c) (s_fudge c) eps (nth k a 0) (gfun h X L a k) (nth k hr 0)) (seq 0 d)) (combine X H),
      map (fun '(a, hr) => map (fun k => new_hist (s_alpha c) (gfun h X L a k) (nth k hr 0)) (seq 0 d)) (combine X H))%R.
Proof.
  intros c eps X L H n d HX HL HH Hn. destruct (grad_closed X L n d HX HL Hn) as (h & Hb & E).
  exists h. split; auto. unfold svgd_step. rewrite E. cbn [bind].
  destruct HX as [HX1 HX2], HH as [HH1 HH2]. set (g := gfun h X L). clearbody g.
  rewrite (mmap2_rows _ g d X H HH2).
  assert (LE : length X = length H) by lia.
  rewrite (combine_map_fst_map _ _ _ (fun a => map (g a) (seq 0 d)) X H LE).
  assert (EX : X = map (fun z => map (fun k => nth k (fst z) 0%R) (seq 0 d)) (combine X H)).
  { transitivity (map (fun a => map (fun k => nth k a 0%R) (seq 0 d)) X).
    - rewrite <- (map_id X) at 1. apply map_ext_in. intros a Ha. rewrite Forall_forall in HX2. apply map_seq_nth; auto.
    - rewrite (combine_map_fst_map _ _ _ _ X H LE). apply map_ext. now intros [? ?]. }
  set (Z := combine X H) in *.
  assert (E1 : map (fun '(a, _) => map (g a) (seq 0 d)) Z = map (fun z => map (g (fst z)) (seq 0 d)) Z).
  { apply map_ext. now intros [? ?]. }
  assert (EN : forall hh y : R, (s_alpha c * hh + (n1 - s_alpha c) * npow y 2)%num = new_hist (s_alpha c) y hh).
  { intros. rewrite npow_R, n1_R. reflexivity. }
  assert (E3 : map (fun '(a, hr) => map (fun k => (s_alpha c * nth k hr 0%R + (n1 - s_alpha c) * npow (g a k) 2)%num) (seq 0 d)) Z =
               map (fun z => map (fun k => new_hist (s_alpha c) (g (fst z) k) (nth k (snd z) 0%R)) (seq 0 d)) Z).
  { apply map_ext. intros [a hr]. apply map_ext. intros k. apply EN. }
  rewrite E1, E3. rewrite (mmap2_rows' _ _ (fun z => g (fst z)) _ d Z). rewrite EX at 1. rewrite mmap2_rows'.
  f_equal. f_equal.
  - apply map_ext. intros [a hr]. reflexivity.
  - apply map_ext. intros [a hr]. reflexivity.
Qed.
