(** Runs on finite inputs never leave the finite numbers: the floating point
    computation with infinities and NaN agrees with the real one (C18, C19, C22). *)
From Coq Require Import List Arith Lia ZArith Reals Lra Bool.
From Verif.Base Require Import Py Num Vec Lists.
From Verif.Model Require Import TensorUtils BurnIn SGHMC SGLD.
From Verif.Spec Require Import Dynamics Trajectory.
From Verif.Proofs Require Import Dynamics Trajectory.
Import ListNotations.
Local Open Scope R_scope.

Lemma Fin_add : forall a b, nadd (Fin a) (Fin b) = Fin (nadd a b). Proof. reflexivity. Qed.
Lemma Fin_sub : forall a b, nsub (Fin a) (Fin b) = Fin (nsub a b). Proof. reflexivity. Qed.
Lemma Fin_mul : forall a b, nmul (Fin a) (Fin b) = Fin (nmul a b). Proof. reflexivity. Qed.
Lemma Fin_opp : forall a, nopp (Fin a) = Fin (nopp a). Proof. reflexivity. Qed.
Lemma Fin_frac : forall z p, (nfrac z p : XR) = Fin (nfrac z p). Proof. reflexivity. Qed.
Lemma Fin_n0 : (n0 : XR) = Fin n0. Proof. reflexivity. Qed.
Lemma Fin_n1 : (n1 : XR) = Fin n1. Proof. reflexivity. Qed.
Lemma Fin_n2 : (n2 : XR) = Fin n2. Proof. reflexivity. Qed.
Lemma Fin_pow : forall a k, npow (Fin a) k = Fin (npow a k).
Proof.
  intros a. induction k as [|k IH]; [reflexivity|]. destruct k as [|k]; [reflexivity|].
  change (npow (Fin a) (S (S k))) with (nmul (Fin a) (npow (Fin a) (S k))). rewrite IH. reflexivity.
Qed.
Lemma Fin_max : forall a b, nmax (Fin a) (Fin b) = Fin (nmax a b).
Proof. intros. unfold nmax; cbn. now destruct (Rltb a b). Qed.
Lemma Fin_div : forall a b : R, b <> 0 -> ndiv (Fin a) (Fin b) = Fin (ndiv a b).
Proof. intros. now apply xdiv_fin. Qed.
Lemma Fin_sqrt : forall a : R, 0 <= a -> nsqrt (Fin a) = Fin (nsqrt a).
Proof. intros. now apply xsqrt_fin. Qed.
Lemma Fin_sign : forall a : R, nsign (Fin a) = Fin (nsign a).
Proof.
  intros. unfold nsign. cbn. destruct (Rltb a (Rfrac 0 1)); auto. destruct (Rltb (Rfrac 0 1) a); auto.
Qed.

Lemma safe_divisor_nonzero : forall y : R, safe_divisor y small_constant <> 0.
Proof.
  intros y. unfold safe_divisor, nsign. rewrite n0_R, n1_R, n2_R, nint_R, small_constant_R.
  cbn [nadd nmul nltb Num_R]. pose proof guard_pos as G.
  destruct (Rltb y 0) eqn:E1; [apply Rltb_true in E1; lra|].
  apply Rltb_false in E1. destruct (Rltb 0 y) eqn:E2; [apply Rltb_true in E2; lra|].
  apply Rltb_false in E2. lra.
Qed.
Lemma Fin_safe_divide : forall x y : R, safe_divide (Fin x) (Fin y) = Fin (safe_divide x y).
Proof.
  intros. unfold safe_divide, safe_divide_with.
  replace (safe_divisor (Fin y) small_constant) with (Fin (safe_divisor y small_constant)).
  - apply Fin_div, safe_divisor_nonzero.
  - unfold safe_divisor. rewrite Fin_sign. reflexivity.
Qed.
Lemma Fin_safe_sqrt : forall x : R, safe_sqrt (Fin x) = Fin (safe_sqrt x).
Proof.
  intros. unfold safe_sqrt, safe_sqrt_with, clip_by_value. rewrite Fin_n0, Fin_max. apply Fin_sqrt.
  rewrite nmax_R, n0_R. apply Rmax_r.
Qed.

Definition fin_cell (c : cell R) : cell XR :=
  Cell (Fin (c_tau c)) (Fin (c_r c)) (Fin (c_g c)) (Fin (c_vhat c)) (Fin (c_minv c)).

Lemma Fin_cell_step : forall g c, c_tau c <> -1 -> cell_step (Fin g) (fin_cell c) = fin_cell (cell_step g c).
Proof.
  intros g c Ht. unfold cell_step, fin_cell; cbn [c_tau c_r c_g c_vhat c_minv].
  assert (D : (nadd (c_tau c) n1 : R) <> 0) by (rewrite n1_R; cbn; lra).
  rewrite Fin_n1, !Fin_opp, !Fin_mul, Fin_safe_divide, Fin_safe_sqrt, Fin_safe_divide, !Fin_add, Fin_pow.
  rewrite (Fin_div _ _ D). reflexivity.
Qed.

(** Lifting back to vectors. *)
Lemma nth_error_Fin : forall l k x, nth_error l k = Some x -> nth_error (map Fin l) k = Some (Fin x).
Proof. intros. rewrite nth_error_map, H. reflexivity. Qed.

Lemma at_index_fin : forall a k c, at_index a k c -> at_index (fin_adapt a) k (fin_cell c).
Proof. intros a k c (H1 & H2 & H3 & H4 & H5). repeat split; apply nth_error_Fin; auto. Qed.

Lemma list_eq_entries : forall A (l m : list A) n, length l = n -> length m = n ->
  (forall k x, (k < n)%nat -> nth_error l k = Some x -> nth_error m k = Some x) -> l = m.
Proof.
  intros A l m n Hl Hm H. apply nth_error_ext. intros k. destruct (nth_error l k) as [x|] eqn:E.
  - symmetry. apply H; auto. rewrite <- Hl. apply nth_error_Some. congruence.
  - apply nth_error_None in E. symmetry. apply nth_error_None. lia.
Qed.

Lemma adapt_eq_entries : forall (a b : adapt XR) n, adapt_len n a -> adapt_len n b ->
  (forall k, (k < n)%nat -> exists c, at_index a k c /\ at_index b k c) -> a = b.
Proof.
  intros a b n (A1 & A2 & A3 & A4 & A5) (B1 & B2 & B3 & B4 & B5) H.
  assert (G : forall (f : adapt XR -> list XR) (p : cell XR -> XR),
     length (f a) = n -> length (f b) = n ->
     (forall x k c, at_index x k c -> nth_error (f x) k = Some (p c)) -> f a = f b).
  { intros f p La Lb Hp. apply (list_eq_entries _ _ _ n); auto. intros k x Hk Hx.
    destruct (H k Hk) as (c & Ca & Cb). rewrite (Hp _ _ _ Ca) in Hx. rewrite (Hp _ _ _ Cb). exact Hx. }
  assert (Q1 : a_tau a = a_tau b) by (apply (G a_tau c_tau); auto; now intros x k c (? & _)).
  assert (Q2 : a_r a = a_r b) by (apply (G a_r c_r); auto; now intros x k c (_ & ? & _)).
  assert (Q3 : a_g a = a_g b) by (apply (G a_g c_g); auto; now intros x k c (_ & _ & ? & _)).
  assert (Q4 : a_vhat a = a_vhat b) by (apply (G a_vhat c_vhat); auto; now intros x k c (_ & _ & _ & ? & _)).
  assert (Q5 : a_minv a = a_minv b) by (apply (G a_minv c_minv); auto; now intros x k c (_ & _ & _ & _ & ?)).
  clear - Q1 Q2 Q3 Q4 Q5. destruct a, b. cbn in *. congruence.
Qed.

Lemma fin_adapt_len : forall n a, adapt_len n a -> adapt_len n (fin_adapt a).
Proof. intros n a (H1 & H2 & H3 & H4 & H5). repeat split; cbn; rewrite map_length; auto. Qed.

Lemma adapt_init_fin : forall n, adapt_init n = fin_adapt (adapt_init n).
Proof.
  intros n. unfold adapt_init, fin_adapt; cbn [a_tau a_r a_g a_vhat a_minv].
  assert (R1 : repeat (n1 : XR) n = map Fin (repeat n1 n)).
  { induction n; cbn; [reflexivity|]. f_equal. exact IHn. }
  rewrite R1, !map_map. f_equal; apply map_ext_in; intros x Hx; apply repeat_spec in Hx; subst.
  - rewrite Fin_n1, Fin_add. apply Fin_div. rewrite n1_R. cbn. lra.
  - rewrite Fin_n1, Fin_sqrt; [apply Fin_div|]; rewrite n1_R; cbn; [rewrite sqrt_1|]; lra.
Qed.

Lemma adapt_step_fin : forall n gs g, Forall (fun g => length g = n) gs -> length g = n ->
  adapt_step (map Fin g) (fin_adapt (adapt_run n gs)) = fin_adapt (adapt_step g (adapt_run n gs)).
Proof.
  intros n gs g HF Hg. pose proof (adapt_run_len n gs HF) as HL.
  apply (adapt_eq_entries _ _ n).
  - apply adapt_len_step; [now apply fin_adapt_len|now rewrite map_length].
  - apply fin_adapt_len, adapt_len_step; auto.
  - intros k Hk. destruct (adapt_run_cell n gs k HF Hk) as (c & Hc & Hs).
    destruct (nth_error_lt _ g k ltac:(lia)) as [x Hx].
    exists (fin_cell (cell_step x c)). split.
    + rewrite <- Fin_cell_step.
      * apply at_index_step; [now apply at_index_fin|now apply nth_error_Fin].
      * pose proof (well_posed_run (column k gs)) as (Ht & _). rewrite <- Hs in Ht. cbn in Ht. lra.
    + apply at_index_fin, at_index_step; auto.
Qed.

Lemma adapt_run_fin : forall n gs, Forall (fun g => length g = n) gs ->
  adapt_fold (map (map Fin) gs) (adapt_init n) = fin_adapt (adapt_run n gs).
Proof.
  intros n gs. induction gs as [|g gs IH] using rev_ind; intros HF.
  - apply adapt_init_fin.
  - apply Forall_app in HF as [HF Hg]. inversion Hg as [|? ? Hgl _]; subst.
    rewrite map_app. unfold adapt_fold. rewrite fold_left_app. cbn [map fold_left].
    fold (adapt_fold (map (map Fin) gs) (adapt_init (length g))). rewrite IH by auto.
    rewrite adapt_step_fin by auto. unfold adapt_run at 2. now rewrite fold_left_app.
Qed.

(** *** SGHMC *)
Definition fin_config (c : config R) : config XR := Config (Fin (mdecay c)) (Fin (scale_grad c)).
Definition fin_pstate (p : pstate R) : pstate XR :=
  PState (fin_adapt (p_adapt p)) (map Fin (p_mom p)) (map Fin (p_vec p)) (fin_tensor (p_val p)).

Lemma Fin_sigma : forall c eps m, 0 < scale_grad c -> sigma (fin_config c) (Fin eps) (Fin m) = Fin (sigma c eps m).
Proof.
  intros c eps m Hs. unfold sigma, noise_scale, noise, epsilon_scaled, fin_config; cbn [mdecay scale_grad].
  pose proof (sqrt_lt_R0 _ Hs).
  rewrite Fin_sqrt by lra. rewrite Fin_div by (cbn; lra).
  rewrite Fin_n0, Fin_n2, !Fin_pow, !Fin_mul, !Fin_sub, Fin_frac, Fin_max. apply Fin_sqrt.
  rewrite nmax_R. cbn [nfrac Num_R]. rewrite sigma_literal. pose proof guard_pos.
  eapply Rle_trans; [|apply Rmax_r]. lra.
Qed.

Lemma map_Fin_vmap2 : forall (f : XR -> XR -> XR) (g : R -> R -> R) a b,
  (forall x y, f (Fin x) (Fin y) = Fin (g x y)) -> vmap2 f (map Fin a) (map Fin b) = map Fin (vmap2 g a b).
Proof.
  intros f g a b Hfg. unfold vmap2. revert b. induction a as [|x a IH]; intros [|y b]; cbn; auto.
  rewrite Hfg, IH. reflexivity.
Qed.
Lemma map_Fin_map : forall (f : XR -> XR) (g : R -> R) a,
  (forall x, f (Fin x) = Fin (g x)) -> map f (map Fin a) = map Fin (map g a).
Proof. intros. rewrite !map_map. apply map_ext. auto. Qed.

Lemma sghmc_step_fin : forall c i p,
  0 < scale_grad c ->
  adapt_step (map Fin (i_grad i)) (fin_adapt (p_adapt p)) = fin_adapt (adapt_step (i_grad i) (p_adapt p)) ->
  let i' := fin_input i in
  sghmc_step (fin_config c) (i_eps i') (i_grad i') (i_xi i') (i_fed i') (fin_pstate p) =
  fin_pstate (sghmc_step c (i_eps i) (i_grad i) (i_xi i) (i_fed i) p).
Proof.
  intros c i p Hs Ha i'. unfold i', fin_input, sghmc_step; cbn [i_eps i_grad i_xi i_fed].
  cbn [fin_pstate p_adapt p_mom p_vec p_val]. rewrite Ha.
  assert (Hm : minv_used (option_map (map Fin) (i_fed i)) (fin_adapt (adapt_step (i_grad i) (p_adapt p))) =
               map Fin (minv_used (i_fed i) (adapt_step (i_grad i) (p_adapt p)))).
  { destruct (i_fed i); reflexivity. }
  rewrite Hm. set (m := minv_used (i_fed i) _).
  rewrite (map_Fin_map (sigma (fin_config c) (Fin (i_eps i))) (sigma c (i_eps i))) by (intros; now apply Fin_sigma).
  rewrite (map_Fin_map (fun x => nmul (nopp (npow (Fin (i_eps i)) 2)) x) (fun x => nmul (nopp (npow (i_eps i) 2)) x)) by (intros; rewrite Fin_pow; reflexivity).
  rewrite (map_Fin_map (fun v => nmul (mdecay (fin_config c)) v) (fun v => nmul (mdecay c) v)) by reflexivity.
  rewrite !(map_Fin_vmap2 nmul nmul) by reflexivity.
  rewrite (map_Fin_vmap2 nsub nsub) by reflexivity.
  rewrite !(map_Fin_vmap2 nadd nadd) by reflexivity.
  reflexivity.
Qed.

Lemma sghmc_run_fin : forall c v ins, 0 < scale_grad c -> Forall (sized (length (data v))) ins ->
  sghmc_run (fin_config c) (map fin_input ins) (pinit (fin_tensor v)) =
  fin_pstate (sghmc_run c ins (pinit v)).
Proof.
  intros c v ins Hs. induction ins as [|i ins IH] using rev_ind; intros HF.
  - cbn [map sghmc_run fold_left]. unfold pinit, fin_pstate; cbn [p_adapt p_mom p_vec p_val fin_tensor data].
    rewrite map_length, adapt_init_fin. unfold sghmc_run; cbn [fold_left map p_adapt p_mom p_vec p_val]. f_equal.
    generalize (length (data v)). intros n. induction n; cbn; [reflexivity|]. f_equal. exact IHn.
  - apply Forall_app in HF as [HF Hi]. inversion Hi as [|? ? Hsz _]; subst.
    rewrite map_app. cbn [map]. rewrite !sghmc_run_snoc, (IH HF). apply sghmc_step_fin; auto.
    rewrite sghmc_run_adapt. apply (adapt_step_fin (length (data v))); [now apply sized_grads|apply Hsz].
Qed.

(** *** SGLD *)
Definition fin_lconfig (c : lconfig R) : lconfig XR := LConfig (Fin (l_A c)) (Fin (l_scale_grad c)).
Definition fin_lstate (p : lstate R) : lstate XR :=
  LState (fin_adapt (l_adapt p)) (map Fin (l_vec p)) (fin_tensor (l_val p)).

Lemma Fin_lsigma : forall c eps m, lsigma (fin_lconfig c) (Fin eps) (Fin m) = Fin (lsigma c eps m).
Proof.
  intros c eps m. unfold lsigma, lnoise, fin_lconfig; cbn [l_A l_scale_grad].
  rewrite Fin_n0, Fin_n2, Fin_sub, !Fin_mul, Fin_safe_divide, Fin_mul. apply Fin_safe_sqrt.
Qed.

Lemma sgld_step_fin : forall c i p,
  adapt_step (map Fin (i_grad i)) (fin_adapt (l_adapt p)) = fin_adapt (adapt_step (i_grad i) (l_adapt p)) ->
  let i' := fin_input i in
  sgld_step (fin_lconfig c) (i_eps i') (i_grad i') (i_xi i') (i_fed i') (fin_lstate p) =
  fin_lstate (sgld_step c (i_eps i) (i_grad i) (i_xi i) (i_fed i) p).
Proof.
  intros c i p Ha i'. unfold i', fin_input, sgld_step; cbn [i_eps i_grad i_xi i_fed].
  cbn [fin_lstate l_adapt l_vec l_val]. rewrite Ha.
  assert (Hm : minv_used (option_map (map Fin) (i_fed i)) (fin_adapt (adapt_step (i_grad i) (l_adapt p))) =
               map Fin (minv_used (i_fed i) (adapt_step (i_grad i) (l_adapt p)))).
  { destruct (i_fed i); reflexivity. }
  rewrite Hm. set (m := minv_used (i_fed i) _).
  rewrite (map_Fin_map (lsigma (fin_lconfig c) (Fin (i_eps i))) (lsigma c (i_eps i))) by (intros; now apply Fin_lsigma).
  rewrite (map_Fin_map (fun x => nmul (nmul (nopp (Fin (i_eps i))) x) (l_A (fin_lconfig c))) (fun x => nmul (nmul (nopp (i_eps i)) x) (l_A c))) by reflexivity.
  rewrite !(map_Fin_vmap2 nmul nmul) by reflexivity.
  rewrite !(map_Fin_vmap2 nadd nadd) by reflexivity.
  reflexivity.
Qed.

Lemma sgld_run_fin : forall c v ins, Forall (sized (length (data v))) ins ->
  sgld_run (fin_lconfig c) (map fin_input ins) (linit (fin_tensor v)) =
  fin_lstate (sgld_run c ins (linit v)).
Proof.
  intros c v ins. induction ins as [|i ins IH] using rev_ind; intros HF.
  - cbn [map sgld_run fold_left]. unfold linit, fin_lstate; cbn [l_adapt l_vec l_val fin_tensor data].
    rewrite map_length, adapt_init_fin. reflexivity.
  - apply Forall_app in HF as [HF Hi]. inversion Hi as [|? ? Hsz _]; subst.
    rewrite map_app. cbn [map]. rewrite !sgld_run_snoc, (IH HF). apply sgld_step_fin; auto.
    rewrite sgld_run_adapt. apply (adapt_step_fin (length (data v))); [now apply sized_grads|apply Hsz].
Qed.
