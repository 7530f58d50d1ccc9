(** SVGD on floating point numbers with infinities and NaN (C31). *)
From Coq Require Import String List Arith Lia ZArith Bool Reals Lra Permutation.
From Verif.Base Require Import Py Num Vec Lists.
From Verif.Model Require Import TensorUtils SVGD.
From Verif.Spec Require Import Tensor Svgd.
From Verif.Proofs Require Import Tensor Distances Finite Svgd SvgdStep.
Import ListNotations.
Local Open Scope list_scope.

Lemma map_repeat : forall A B (f : A -> B) x n, map f (repeat x n) = repeat (f x) n.
Proof. induction n; cbn; congruence. Qed.

Lemma map_const_repeat : forall A B (c : B) (l : list A), map (fun _ => c) l = repeat c (length l).
Proof. induction l; cbn; congruence. Qed.

Definition fins (l : list R) : list XR := map Fin l.
Definition finm (A : list (list R)) : list (list XR) := map fins A.

Lemma Fin_sum : forall l, nsum (fins l) = Fin (nsum l).
Proof.
  induction l as [|a l IH]; [reflexivity|].
  change (nsum (fins (a :: l))) with (nadd (Fin a) (nsum (fins l))). now rewrite IH.
Qed.
Lemma nth_fins : forall k l, nth k (fins l) n0 = Fin (nth k l n0).
Proof. intros. unfold fins. rewrite Fin_n0. apply map_nth. Qed.
Lemma vmap2_fins : forall (f : XR -> XR -> XR) (g : R -> R -> R) (P : R -> Prop) a b,
  (forall x y, P y -> f (Fin x) (Fin y) = Fin (g x y)) -> Forall P b ->
  vmap2 f (fins a) (fins b) = fins (vmap2 g a b).
Proof.
  intros f g P a b Hf. revert b. unfold vmap2. induction a as [|x a IH]; intros b HF; [reflexivity|].
  destruct HF as [|y b Hy HF]; [reflexivity|]. cbn. rewrite Hf by auto. f_equal. now apply IH.
Qed.
Lemma mmap2_finm : forall (f : XR -> XR -> XR) (g : R -> R -> R) (P : R -> Prop) A B,
  (forall x y, P y -> f (Fin x) (Fin y) = Fin (g x y)) -> Forall (Forall P) B ->
  mmap2 f (finm A) (finm B) = finm (mmap2 g A B).
Proof.
  intros f g P A B Hf. revert B. unfold mmap2. unfold vmap2 at 1 3. induction A as [|a A IH]; intros B HF; [reflexivity|].
  destruct HF as [|b B Hb HF]; [reflexivity|]. cbn. f_equal; [now apply vmap2_fins with P|]. now apply IH.
Qed.
Lemma Forall_True : forall A (l : list A), Forall (fun _ => True) l.
Proof. intros. apply Forall_forall. auto. Qed.
Lemma mmap_finm : forall (f : XR -> XR) (g : R -> R) A, (forall x, f (Fin x) = Fin (g x)) -> mmap f (finm A) = finm (mmap g A).
Proof.
  intros f g A Hf. unfold mmap, finm. rewrite !map_map. apply map_ext. intros a. unfold fins. rewrite !map_map.
  apply map_ext. exact Hf.
Qed.
Lemma matmul_finm : forall d A B, matmul d (finm A) (finm B) = finm (matmul d A B).
Proof.
  intros. unfold matmul, finm. rewrite !map_map. apply map_ext. intros a. unfold fins at 3. rewrite map_map. apply map_ext. intros j.
  rewrite map_map. rewrite <- Fin_sum. f_equal.
  rewrite <- (vmap2_fins nmul nmul (fun _ => True)); auto using Forall_True.
  f_equal. unfold fins at 2. rewrite map_map. apply map_ext. intros b. apply nth_fins.
Qed.

(** *** Distances *)
Lemma row_fins : forall d l i, row d (fins l) i = fins (row d l i).
Proof. intros. unfold row, window, fins. now rewrite <- firstn_map, <- skipn_map. Qed.
Lemma euclid_fins : forall a b, euclidean_distance (fins a) (fins b) = Fin (euclidean_distance a b).
Proof.
  intros. unfold euclidean_distance.
  replace (map (fun '(x, y) => ((x - y) * (x - y))%num) (combine (fins a) (fins b)))
    with (fins (map (fun '(x, y) => ((x - y) * (x - y))%num) (combine a b))).
  - rewrite Fin_sum. apply Fin_sqrt. rewrite nsum_R. apply Rsum_nonneg. apply Forall_forall.
    intros v Hv. apply in_map_iff in Hv as ([x y] & <- & _). apply Rle_0_sqr.
  - revert b. unfold fins. induction a; destruct b; cbn; auto. f_equal. apply IHa.
Qed.
Lemma flat_map_fins : forall A (f : A -> list R) l, flat_map (fun a => fins (f a)) l = fins (flat_map f l).
Proof. induction l; cbn; auto. unfold fins. rewrite map_app. f_equal. apply IHl. Qed.
Lemma pairwise_fins : forall m d l, pairwise_euclidean_distance m d (fins l) = fins (pairwise_euclidean_distance m d l).
Proof.
  intros. unfold pairwise_euclidean_distance. rewrite <- flat_map_fins. apply flat_map_ext. intros i.
  unfold fins at 3. rewrite map_map. apply map_ext. intros j. rewrite !row_fins. apply euclid_fins.
Qed.

Definition fint (t : tensor R) : tensor XR := {| shape := shape t; data := fins (data t) |}.
Definition fin_res (r : res (tensor R)) : res (tensor XR) := match r with Ok t => Ok (fint t) | Raise e => Raise e end.

Lemma stitch_fins : forall n l, dynamic_stitch n (map (fun '(i, x) => (i, Fin x)) l) = fins (dynamic_stitch n l).
Proof.
  intros. unfold dynamic_stitch, fins. rewrite map_map. apply map_ext. intros k. rewrite Fin_n0.
  generalize (n0 : R). induction l as [|[i x] l IH]; intros z; [reflexivity|]. cbn [map fold_left].
  destruct (i =? k); apply IH.
Qed.
Lemma combine_fins : forall A (l : list A) v, combine l (fins v) = map (fun '(i, x) => (i, Fin x)) (combine l v).
Proof. unfold fins. induction l; destruct v; cbn; auto. f_equal. apply IHl. Qed.
Lemma repeat_fins : forall n, repeat n0 n = fins (repeat n0 n).
Proof. intros. unfold fins. rewrite map_repeat. reflexivity. Qed.
Lemma transpose_fins : forall d l, transpose d (fins l) = fins (transpose d l).
Proof.
  intros. unfold transpose. rewrite <- flat_map_fins. apply flat_map_ext. intros i. unfold fins at 2. rewrite map_map.
  apply map_ext. intros j. apply nth_fins.
Qed.
Lemma squareform_fins : forall t, squareform (OTensor (fint t)) = fin_res (squareform (OTensor t)).
Proof.
  intros [s v]. unfold squareform, fint, is_vector. cbn [shape data].
  destruct (length s =? 1); [|reflexivity].
  destruct (hd 0 s =? 0); [reflexivity|].
  set (n := hd 0 s). set (dim := Nat.sqrt_up (n * 2)).
  destruct (negb (dim * (dim - 1) =? n * 2)); [reflexivity|].
  cbn [fin_res]. unfold fint. cbn [shape data]. f_equal. f_equal.
  rewrite !repeat_fins, !combine_fins, <- !map_app, stitch_fins, transpose_fins.
  set (a := dynamic_stitch _ _). unfold fins. clear.
  generalize (transpose dim a). induction a; intros l; [reflexivity|]. destruct l; cbn; auto. f_equal. apply IHa.
Qed.

(** *** Median *)
Lemma insert_fins : forall x l, insert_desc (Fin x) (fins l) = fins (insert_desc x l).
Proof.
  intros x l. unfold fins. induction l as [|y l IH]; [reflexivity|].
  cbn [insert_desc map]. change (nltb (Fin x) (Fin y)) with (nltb x y). change (nltb (Fin y) (Fin x)) with (nltb y x).
  destruct (nltb y x) eqn:E1, (nltb x y) eqn:E2; cbn; rewrite ?IH; reflexivity.
Qed.
Lemma top_k_fins : forall l, top_k_all (fins l) = fins (top_k_all l).
Proof.
  unfold top_k_all. induction l as [|a l IH]; [reflexivity|]. cbn [fins map fold_right].
  fold (fins l). rewrite IH. apply insert_fins.
Qed.
Lemma median_fins : forall t, median (fint t) = match median t with Ok m => Ok (Fin m) | Raise e => Raise e end.
Proof.
  intros [s v]. unfold median, fint. cbn [data shape].
  assert (LF : length (fins v) = length v) by apply map_length. rewrite !LF, ?top_k_fins.
  repeat match goal with |- context [if ?b then _ else _] => destruct b; try reflexivity end.
  - now rewrite nth_fins.
  - rewrite !nth_fins. f_equal. rewrite Fin_add, Fin_n2. apply Fin_div. rewrite n2_R. lra.
Qed.

(** *** The kernel *)
Definition kx (h : XR) (a b : list R) : XR := nexp (((- Fin (sqdist a b)) / npow h 2) / n2)%num.

Lemma concat_finm : forall X, concat (finm X) = fins (concat X).
Proof. intros. unfold finm, fins. now rewrite concat_map. Qed.

Lemma kernel_xr : forall X n d, matrix_shape n d X -> 1 <= n ->
  exists h, bandwidth X h /\
    let hx := Fin h in
    let K := map (fun a => map (kx hx a) X) X in
    svgd_kernel n d (finm X) = Ok (hx, K,
       mmap (fun g => ndiv g (npow hx 2))
         (mmap2 nadd (mmap nopp (matmul d K (finm X)))
            (vmap2 (fun x s => map (fun y => nmul y s) x) (finm X) (map nsum K)))).
Proof.
  intros X n d HX Hn. destruct (distance_matrix X n d HX Hn) as (v & mat & Hp & _ & _ & Hsq & Lm & Hm).
  destruct HX as [HL HF].
  assert (Em : mat = flat_map (fun a => map (dist2 a) X) X) by (apply (matrix_closed _ dist2 X n); auto).
  assert (Hp' : pdist (OTensor {| shape := [n; d]; data := concat (finm X) |}) "euclidean"%string = Ok (fint v)).
  { cbn in Hp. cbn. injection Hp as <-. rewrite concat_finm, pairwise_fins. unfold fint. cbn. unfold fins at 1. now rewrite map_length. }
  assert (Epd : map (fun x => npow x 2) (fins mat) = fins (sqdists X)).
  { rewrite Em. unfold sqdists, fins. rewrite !flat_map_map. rewrite !flat_map_concat_map, ?map_map. f_equal. apply map_ext. intros a.
    rewrite !map_map. apply map_ext. intros b. rewrite Fin_pow, npow_R. now rewrite dist2_sqr. }
  destruct (median_is_median {| shape := [n; n]; data := sqdists X |}) as (med & Hmed & Hism).
  { cbn. destruct X as [|x X]; [cbn in HL; lia|]. unfold sqdists. cbn. discriminate. }
  set (h := sqrt (med / (2 * ln (INR (length X) + 1)))).
  exists h. split; [exists med; split; auto|]. intros hx K.
  assert (Hmed0 : (0 <= med)%R).
  { apply (median_nonneg (sqdists X)); auto using sqdists_nonneg.
    intros E. pose proof (sqdists_length X) as Ls. rewrite E in Ls. cbn in Ls. nia. }
  unfold svgd_kernel. rewrite Hp'. cbn [bind]. rewrite squareform_fins, Hsq. cbn [bind fin_res fint data shape].
  rewrite Epd. pose proof (median_fins {| shape := [n; n]; data := sqdists X |}) as HM.
  unfold fint in HM. cbn [shape data] in HM. rewrite HM, Hmed. cbn [bind].
  pose proof (ln_n1_pos n Hn) as Hp1.
  assert (Eh : nsqrt ((nfrac 1 2 * Fin med) / nln (n_particles n + n1))%num = hx).
  { unfold n_particles. rewrite nint_XR, n1_XR. cbn [nadd Num_XR xadd nln NumT_XR xln].
    rewrite <- INR_IZR_INZ. pose proof (pos_INR n). destruct (Rlt_dec 0 (INR n + 1)); [|lra].
    rewrite Fin_frac, Fin_mul. rewrite Fin_div by lra. rewrite Fin_sqrt.
    - unfold hx, h. f_equal. cbn. unfold Rfrac. rewrite HL. f_equal. field. lra.
    - cbn. unfold Rfrac. apply Rmult_le_pos; [|left; now apply Rinv_0_lt_compat]. lra. }
  rewrite Eh.
  assert (EK : rows_of n (map (fun p => nexp (((- p) / npow hx 2) / n2)%num) (fins (sqdists X))) = K).
  { unfold K. rewrite <- (rows_of_flat XR X (kx hx) n HL). f_equal. unfold sqdists, fins. rewrite !flat_map_map.
    rewrite !flat_map_concat_map. f_equal. apply map_ext. intros a. rewrite !map_map. reflexivity. }
  rewrite EK. reflexivity.
Qed.

(** Zero bandwidth *)
Lemma kx_zero : forall a, kx (Fin 0) a a = NaN.
Proof.
  intros. unfold kx. rewrite sqdist_refl, Fin_pow, npow_R, n2_XR. cbn.
  replace (0 * (0 * 1))%R with 0%R by ring. destruct (Req_EM_T 0 0); [|congruence].
  unfold xsgn. destruct (Rlt_dec 0 (-0)); [lra|]. destruct (Rlt_dec (-0) 0); [lra|]. reflexivity.
Qed.
Lemma nsum_nan : forall l : list XR, In NaN l -> nsum l = NaN.
Proof.
  induction l as [|a l IH]; intros HI; [destruct HI|]. change (nsum (a :: l)) with (xadd a (nsum l)).
  destruct HI as [->|HI]; [reflexivity|]. rewrite IH by auto. apply xadd_nan_r.
Qed.

Definition nanm (n d : nat) : list (list XR) := repeat (repeat NaN d) n.
Definition xshape (n d : nat) (A : list (list XR)) : Prop := length A = n /\ Forall (fun r => length r = d) A.

Lemma vmap2_nan_r : forall (f : XR -> XR -> XR) a, (forall x, f x NaN = NaN) -> vmap2 f a (repeat NaN (length a)) = repeat NaN (length a).
Proof. intros f a Hf. unfold vmap2. induction a; cbn; auto. rewrite Hf. f_equal. apply IHa. Qed.
Lemma mmap2_nan_r : forall (f : XR -> XR -> XR) A n d, (forall x, f x NaN = NaN) -> xshape n d A -> mmap2 f A (nanm n d) = nanm n d.
Proof.
  intros f A n d Hf [HL HF]. subst n. unfold mmap2. unfold vmap2 at 1. unfold nanm. induction HF as [|a A Ha HF IH]; [reflexivity|].
  cbn. rewrite IH. f_equal. subst d. now apply vmap2_nan_r.
Qed.
Lemma mmap_nan : forall (f : XR -> XR) n d, f NaN = NaN -> mmap f (nanm n d) = nanm n d.
Proof. intros f n d Hf. unfold mmap, nanm. rewrite !map_repeat, Hf. reflexivity. Qed.
Lemma matmul_shape : forall n d (A B : list (list XR)), length A = n -> xshape n d (matmul d A B).
Proof.
  intros n d A B HA. split; [unfold matmul; now rewrite map_length|]. apply Forall_forall. intros r Hr.
  apply in_map_iff in Hr as (a & <- & _). now rewrite map_length, seq_length.
Qed.
Lemma mmap_shape : forall f n d A, xshape n d A -> xshape n d (mmap f A).
Proof.
  intros f n d A [HL HF]. split; [unfold mmap; now rewrite map_length|]. apply Forall_forall. intros r Hr.
  apply in_map_iff in Hr as (a & <- & Ha). rewrite map_length. rewrite Forall_forall in HF. auto.
Qed.

Lemma kernel_nan : forall X n d, matrix_shape n d X -> 1 <= n -> bandwidth X 0 ->
  exists K, length K = n /\ svgd_kernel n d (finm X) = Ok (Fin 0, K, nanm n d).
Proof.
  intros X n d HX Hn Hb. destruct (kernel_xr X n d HX Hn) as (h & Hb' & E).
  assert (h = 0%R) as ->.
  { destruct Hb as (m & Hm & ->), Hb' as (m' & Hm' & ->). now rewrite (is_median_unique _ _ _ Hm Hm'). }
  cbv zeta in E. rewrite E. destruct HX as [HL HF].
  set (K := map (fun a => map (kx (Fin 0) a) X) X). exists K. split; [unfold K; now rewrite map_length|]. f_equal. f_equal.
  assert (EB : vmap2 (fun x s => map (fun y => nmul y s) x) (finm X) (map nsum K) = nanm n d).
  { unfold K. rewrite map_map. unfold finm. rewrite vmap2_map_map. unfold nanm. subst n. clear - HF.
    assert (ES : forall a, In a X -> nsum (map (kx (Fin 0) a) X) = NaN).
    { intros a Ha. apply nsum_nan. apply in_map_iff. exists a. split; [apply kx_zero|auto]. }
    rewrite <- (map_const_repeat _ _ (repeat NaN d) X). apply map_ext_in. intros a Ha. rewrite ES by auto.
    rewrite Forall_forall in HF. rewrite <- (HF a Ha). clear. unfold fins.
    induction a; cbn; auto. f_equal. apply IHa. }
  rewrite EB. rewrite mmap2_nan_r.
  - apply mmap_nan. reflexivity.
  - intros x. apply xadd_nan_r.
  - apply mmap_shape, matmul_shape. unfold K. now rewrite map_length.
Qed.

Lemma grad_nan : forall X L n d, matrix_shape n d X -> 1 <= n -> bandwidth X 0 ->
  svgd_grad n d (finm X) L = Ok (nanm n d).
Proof.
  intros X L n d HX Hn Hb. destruct (kernel_nan X n d HX Hn Hb) as (K & HK & E).
  unfold svgd_grad. rewrite E. cbn [bind]. rewrite mmap2_nan_r; [|apply xadd_nan_r|now apply matmul_shape].
  f_equal. apply mmap_nan. reflexivity.
Qed.

Lemma step_nan : forall (c : sconfig XR) eps X L H n d, matrix_shape n d X -> xshape n d H -> 1 <= n -> bandwidth X 0 ->
  svgd_step c eps n d (finm X) L H = Ok (nanm n d, nanm n d).
Proof.
  intros c eps X L H n d HX HH Hn Hb. unfold svgd_step. rewrite grad_nan by auto. cbn [bind].
  assert (SN : xshape n d (nanm n d)).
  { split; [apply repeat_length|]. apply Forall_forall. intros r Hr. apply repeat_spec in Hr as ->. apply repeat_length. }
  rewrite (mmap2_nan_r _ H) by (auto; intros; cbn; rewrite xmul_nan_r, xadd_nan_r; reflexivity).
  rewrite (mmap2_nan_r _ (nanm n d)) by (auto; intros; cbn; rewrite xadd_nan_r, xdiv_nan_r; reflexivity).
  rewrite (mmap2_nan_r _ (finm X)); auto.
  - intros x. cbn. rewrite xmul_nan_r. cbn. apply xadd_nan_r.
  - destruct HX as [HL HF]. split; [unfold finm; now rewrite map_length|]. apply Forall_forall. intros r Hr.
    apply in_map_iff in Hr as (a & <- & Ha). unfold fins. rewrite map_length. rewrite Forall_forall in HF. auto.
Qed.

(** Positive bandwidth: finite *)
Lemma kx_fin : forall h a b, h <> 0%R -> kx (Fin h) a b = Fin (exp (- sqdist a b / h ^ 2 / 2)).
Proof.
  intros h a b Hh. unfold kx. rewrite Fin_opp, Fin_pow, Fin_n2. rewrite npow_R, n2_R.
  rewrite Fin_div by now apply pow_nonzero. rewrite Fin_div by lra. reflexivity.
Qed.

Lemma kernel_fin : forall X n d, matrix_shape n d X -> 1 <= n -> ~ bandwidth X 0 ->
  exists h K G, svgd_kernel n d X = Ok (h, K, G) /\ svgd_kernel n d (finm X) = Ok (Fin h, finm K, finm G).
Proof.
  intros X n d HX Hn Hb. destruct (kernel_xr X n d HX Hn) as (h & Hb' & E).
  destruct (kernel_closed X n d HX Hn) as (med & Hm & E').
  assert (Hh : h = sqrt (med / (2 * ln (INR (length X) + 1)))).
  { destruct Hb' as (m' & Hm' & ->). now rewrite (is_median_unique _ _ _ Hm Hm'). }
  rewrite <- Hh in E'. assert (Hh0 : h <> 0%R) by (intros ->; contradiction).
  cbv zeta in E, E'. eexists h, _, _. split; [exact E'|]. rewrite E.
  set (K := map (fun a => map (fun b => exp (- sqdist a b / h ^ 2 / 2)) X) X).
  assert (EK : map (fun a => map (kx (Fin h) a) X) X = finm K).
  { unfold K, finm, fins. rewrite map_map. apply map_ext. intros a. rewrite map_map. apply map_ext. intros b. now apply kx_fin. }
  rewrite EK. f_equal. f_equal.
  assert (EP : npow (Fin h) 2 = Fin (h ^ 2)) by now rewrite Fin_pow, npow_R.
  rewrite EP. rewrite matmul_finm, (mmap_finm nopp nopp) by reflexivity.
  assert (EB : vmap2 (fun x s => map (fun y => nmul y s) x) (finm X) (map nsum (finm K)) =
               finm (vmap2 (fun x s => map (fun y => nmul y s) x) X (map nsum K))).
  { unfold finm at 1 2. rewrite map_map. unfold K. rewrite !map_map, vmap2_map_map, vmap2_map_l. unfold finm. rewrite map_map.
    apply map_ext. intros a. rewrite Fin_sum. unfold fins. rewrite !map_map. reflexivity. }
  rewrite EB, (mmap2_finm nadd nadd (fun _ => True)) by (auto; apply Forall_forall; intros; apply Forall_True).
  rewrite (mmap_finm _ (fun g => ndiv g (h ^ 2)%R)) by (intros; apply Fin_div; now apply pow_nonzero).
  f_equal. destruct HX as [_ HF]. rewrite Forall_forall in HF.
  unfold mmap, mmap2, matmul, K. rewrite !map_map.
  rewrite vmap2_map_l. rewrite vmap2_map_map. rewrite map_map. apply map_ext_in. intros a Ha. rewrite nsum_R.
  assert (EA : forall s, map (fun y => nmul y s) a = map (fun k => Rmult (nth k a 0%R) s) (seq 0 d)).
  { intros s. rewrite (map_seq_nth a d (HF a Ha)) at 1. now rewrite map_map. }
  rewrite EA, !map_map, vmap2_map_map, map_map. apply map_ext. intros k.
  rewrite nsum_R, vmap2_map_map, n0_R. reflexivity.
Qed.

Definition fin_config (c : sconfig R) : sconfig XR := SConfig (Fin (s_alpha c)) (Fin (s_fudge c)).

Lemma step_fin : forall c eps X L H n d,
  matrix_shape n d X -> matrix_shape n d L -> matrix_shape n d H -> 1 <= n -> ~ bandwidth X 0 ->
  (0 <= s_alpha c <= 1)%R -> (0 < s_fudge c)%R -> Forall (Forall (fun x => 0 <= x)%R) H ->
  exists X' H', svgd_step c eps n d X L H = Ok (X', H') /\
    svgd_step (fin_config c) (Fin eps) n d (finm X) (finm L) (finm H) = Ok (finm X', finm H').
Proof.
  intros c eps X L H n d HX HL HH Hn Hb Ha Hf Hnn.
  destruct (kernel_fin X n d HX Hn Hb) as (h & K & G & E & E').
  unfold svgd_step, svgd_grad. rewrite E, E'. cbn [bind]. eexists _, _. split; [reflexivity|].
  assert (TT : forall B : list (list R), Forall (Forall (fun _ => True)) B) by (intros; apply Forall_forall; intros; apply Forall_True).
  rewrite matmul_finm, (mmap2_finm nadd nadd (fun _ => True)) by auto.
  assert (HnR : n_particles (T := R) n <> 0%R).
  { unfold n_particles. rewrite nint_R, <- INR_IZR_INZ. apply not_0_INR. lia. }
  rewrite (mmap_finm _ (fun y => ndiv y (n_particles n))).
  2: { intros x. unfold n_particles in *. rewrite nint_R in *. rewrite nint_XR. now apply Fin_div. }
  set (g := mmap (fun y => ndiv y (n_particles n)) (mmap2 nadd (matmul d K L) G)).
  rewrite (mmap2_finm _ (fun h0 y => (s_alpha c * h0 + (n1 - s_alpha c) * npow y 2)%num) (fun _ => True) H g) by auto.
  set (H' := mmap2 (fun h0 y => (s_alpha c * h0 + (n1 - s_alpha c) * npow y 2)%num) H g).
  assert (HnnH : Forall (Forall (fun x => 0 <= x)%R) H').
  { unfold H', mmap2, vmap2. apply Forall_forall. intros r Hr. apply in_map_iff in Hr as ([a b] & <- & Hin).
    apply in_combine_l in Hin. rewrite Forall_forall in Hnn. specialize (Hnn a Hin). rewrite Forall_forall in Hnn.
    apply Forall_forall. intros x Hx. apply in_map_iff in Hx as ([p q] & <- & Hin2). apply in_combine_l in Hin2.
    specialize (Hnn p Hin2). rewrite npow_R, n1_R. cbn [nadd nmul nsub Num_R].
    pose proof (pow2_ge_0 q). apply Rplus_le_le_0_compat; apply Rmult_le_pos; lra. }
  rewrite (mmap2_finm _ (fun y h0 => (y / (s_fudge c + nsqrt h0))%num) (fun x => 0 <= x)%R g H'); auto.
  2: { intros x y Hy. cbn [s_fudge fin_config]. rewrite Fin_sqrt by auto. rewrite Fin_add. apply Fin_div.
       cbn. pose proof (sqrt_pos y). lra. }
  rewrite (mmap2_finm _ (fun x a => (x - eps * a)%num) (fun _ => True)); auto.
Qed.
