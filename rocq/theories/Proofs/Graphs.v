(** The samplers' graphs are determinate: every schedule computes the sequential step. *)
From Coq Require Import List Arith ZArith Bool Lia.
From Verif.Base Require Import Py Num Vec.
From Verif.Model Require Import TensorUtils BurnIn SGHMC SGLD Relativistic SVGD Graph.
From Verif.Proofs Require Import Determinacy.
Import ListNotations.

Section N.
Context {T : Type} `{Num T}.
Variable snapshots : bool.
Variable grad_reads : nat -> list nat.
Variable cost_reads : list nat.
Notation nodes_of := (nodes_of snapshots grad_reads cost_reads).

Lemma in_nodes_node : forall kinds reads n o i,
  In (Node o i) (nodes_of kinds reads n) <-> In o kinds /\ i < n.
Proof.
  intros. unfold Graph.nodes_of. rewrite !in_app_iff, in_flat_map. split.
  - intros [(j & Hj & Hi)|[[E|[]]|Hr]]; try discriminate.
    + apply in_map_iff in Hi as (k & E & Hk). injection E as -> ->. apply in_seq in Hj. split; auto. lia.
    + exfalso. destruct snapshots; [|destruct Hr]. apply in_app_or in Hr as [Hr|Hr].
      * apply in_flat_map in Hr as (j & _ & Hr). apply in_map_iff in Hr as (x & E & _). discriminate.
      * apply in_map_iff in Hr as (x & E & _). discriminate.
  - intros [Ho Hi]. left. exists i. split; [apply in_seq; lia|]. apply in_map_iff. eauto.
Qed.

Lemma in_nodes_cost : forall kinds reads n, In Cost (nodes_of kinds reads n).
Proof. intros. unfold Graph.nodes_of. rewrite !in_app_iff. right. left. now left. Qed.

Lemma in_nodes_read : forall kinds reads n x, In (Read x) (nodes_of kinds reads n) <->
  snapshots = true /\ (In (fst x) reads /\ snd x < n \/
                       fst x = XParam /\ In (snd x) (read_params grad_reads cost_reads n)).
Proof.
  intros kinds reads n [k i]. unfold Graph.nodes_of. rewrite !in_app_iff. cbn [fst snd]. split.
  - intros [Hn|[[E|[]]|Hr]]; try discriminate.
    + apply in_flat_map in Hn as (j & _ & Hr). apply in_map_iff in Hr as (y & E & _). discriminate.
    + destruct snapshots; [|destruct Hr]. split; auto. apply in_app_or in Hr as [Hr|Hr].
      * apply in_flat_map in Hr as (j & Hj & Hr). apply in_map_iff in Hr as (y & E & Hy).
        injection E as -> ->. apply in_seq in Hj. left. split; auto. lia.
      * apply in_map_iff in Hr as (y & E & Hy). injection E as <- <-. right. auto.
  - intros [-> Hr]. right. right. apply in_or_app. destruct Hr as [[Hk Hi]|[-> Hi]].
    + left. apply in_flat_map. exists i. split; [apply in_seq; lia|]. apply in_map_iff. eauto.
    + right. apply in_map_iff. eauto.
Qed.

Lemma in_read_params : forall n j,
  In j (read_params grad_reads cost_reads n) <->
  In j cost_reads \/ exists i, i < n /\ In j (grad_reads i).
Proof.
  intros. unfold read_params. rewrite in_app_iff, in_flat_map. split.
  - intros [Hj|(i & Hi & Hj)]; auto. apply in_seq in Hi. right. exists i. split; auto. lia.
  - intros [Hj|(i & Hi & Hj)]; auto. right. exists i. split; auto. apply in_seq. lia.
Qed.

(** The two ways in which reads are ordered with the updates: by separability, or by
    snapshots of parameters that their own gradients read too. *)
Definition ordered_reads (n : nat) : Prop :=
  if snapshots then
    forall j, In j (read_params grad_reads cost_reads n) -> j < n /\ In j (grad_reads j)
  else forall i j, i < n -> In j (grad_reads i) -> j = i.

Lemma in_params : forall (T' : Type) js x, In x (params (T := T') snapshots js) <->
  exists j, In j js /\ x = val snapshots (XParam, j).
Proof.
  intros. unfold params. rewrite in_map_iff. split; intros (j & A & B); exists j; auto.
Qed.
End N.

Lemma in_out_deps : forall node var value (l : list (input node var value)) k,
  In (Out k) l -> In k (out_deps l).
Proof. intros. unfold out_deps. apply in_flat_map. exists (Out k). split; auto. now left. Qed.

Ltac member := cbn; solve [repeat (first [left; reflexivity | right])].
Ltac one := apply before_one; member.
Ltac two m := apply before_trans with (k' := m); [one|member].

(** *** SGHMC *)
Section SGHMC.
Context {T : Type} `{Num T}.
Variable snapshots : bool.
Variable eps : T.
Variable xi : nat -> list T.
Variable fed : nat -> option (list T).
Variable grad_reads : nat -> list nat.
Variable grad_fun : nat -> list (list T) -> list T.
Variable cost_reads : list nat.
Variable cost_fun : list (list T) -> list T.
Variable c : config T.
Variable n : nat.
Variable ps : nat -> pstate T.
Let G := sghmc_graph snapshots eps xi fed grad_reads grad_fun cost_reads cost_fun c.
Let nodes := sghmc_nodes snapshots grad_reads cost_reads n.
Let old (j : nat) : list T := data (p_val (ps j)).
Let grad (i : nat) : list T := grad_fun i (map old (grad_reads i)).
Let p' (i : nat) : pstate T := sghmc_step c eps (grad i) (xi i) (fed i) (ps i).
Let m0 := sghmc_mem ps.

Hypothesis OR_ : ordered_reads snapshots grad_reads cost_reads n.

Let sol (k : gnode) : list T :=
  match k with
  | Node OGrad i => grad i
  | Node OR i => a_r (p_adapt (p' i))
  | Node OTau i => a_tau (p_adapt (p' i))
  | Node OMinv i => a_minv (p_adapt (p' i))
  | Node OG i => a_g (p_adapt (p' i))
  | Node OVhat i => a_vhat (p_adapt (p' i))
  | Node ONoise i =>
      vmap2 nmul (map (sigma c eps) (minv_used (fed i) (p_adapt (p' i)))) (xi i)
  | Node OMom i => p_mom (p' i)
  | Node OVec i => p_vec (p' i)
  | Node OTheta i => data (p_val (p' i))
  | Read x => m0 x
  | Cost => cost_fun (map old cost_reads)
  | _ => []
  end.

Let seen (k : gnode) (x : gvar) : list T :=
  match k, fst x with
  | Node OG _, XR | Node OVhat _, XR | Node ONoise _, XMinv | Node OMom _, XMinv
  | Node OVec _, XMom | Node OTheta _, XVec => sghmc_mem p' x
  | _, _ => m0 x
  end.
Let good (k : gnode) : Prop := k <> Cost \/ snapshots = true.

Lemma sghmc_writer : forall w x, writes G nodes w x ->
  snd x < n /\
  match fst x with
  | XTau => w = Node OTau (snd x) | XR => w = Node OR (snd x) | XG => w = Node OG (snd x)
  | XVhat => w = Node OVhat (snd x) | XMinv => w = Node OMinv (snd x)
  | XMom => w = Node OMom (snd x) | XVec => w = Node OVec (snd x)
  | XParam => w = Node OTheta (snd x) | XHist => False
  end.
Proof.
  intros w x [Hin E]. destruct w as [o i|y|]; try discriminate.
  apply in_nodes_node in Hin as [_ Hi].
  destruct o; cbn in E; try discriminate; injection E as <-; cbn; auto.
Qed.

Lemma sghmc_writes : forall o i x, In o sghmc_kinds -> i < n -> target (G (Node o i)) = Some x ->
  writes G nodes (Node o i) x.
Proof. intros. split; auto. apply in_nodes_node. auto. Qed.

Lemma grad_before_theta : forall i, before G (Node OGrad i) (Node OTheta i).
Proof.
  intros i. apply before_trans with (k' := Node OG i).
  - apply before_one. unfold deps. apply in_or_app. right. apply in_out_deps. cbn. auto 6.
  - cbn. auto 10.
Qed.

Lemma read_before_grad : forall i j, snapshots = true -> In j (grad_reads i) ->
  before G (Read (XParam, j)) (Node OGrad i).
Proof.
  intros i j S Hj. apply before_one. unfold deps. apply in_or_app. right. apply in_out_deps.
  cbn. apply in_params. exists j. split; auto. unfold val. now rewrite S.
Qed.

Ltac dep := apply before_one; unfold deps, out_deps; cbn; unfold val;
  try match goal with S : snapshots = true |- _ => rewrite S end; cbn; rewrite ?in_app_iff; cbn; auto 30.

Lemma sghmc_views : forall k x, In k nodes -> good k -> In (Var x) (inputs (G k)) ->
  view G nodes m0 sol seen k x.
Proof.
  intros k x Hk Gk Hx. unfold view. destruct k as [o i|y|].
  - apply in_nodes_node in Hk as [Ho Hi].
    assert (V : forall z y, Var (node := gnode) (value := list T) z = val snapshots y ->
                snapshots = false /\ z = y).
    { unfold val. intros z y E. destruct snapshots; [discriminate|]. injection E as ->. auto. }
    cbn in Ho.
    destruct o; try (exfalso; intuition discriminate); cbn in Hx; clear Ho.
    + (* OGrad *) apply in_params in Hx as (j & Hj & E). apply V in E as [S ->].
      right. split; auto. intros w Ww. apply sghmc_writer in Ww as [_ Ww]. cbn in Ww. subst w.
      right. unfold ordered_reads in OR_. rewrite S in OR_. rewrite (OR_ i j Hi Hj).
      apply grad_before_theta.
    + (* OR *) destruct Hx as [E|[]]. symmetry in E. apply V in E as [S ->].
      right. split; auto. intros w Ww. apply sghmc_writer in Ww as [_ Ww]. cbn in Ww. subst w.
      right. dep.
    + (* OTau *)
      right. destruct Hx as [E|[E|[E|[E|[]]]]].
      * injection E as <-. split; auto. intros w Ww. apply sghmc_writer in Ww as [_ Ww]. now left.
      * symmetry in E. apply V in E as [S ->]. split; auto. intros w Ww.
        apply sghmc_writer in Ww as [_ Ww]. cbn in Ww. subst w. right. dep.
      * symmetry in E. apply V in E as [S ->]. split; auto. intros w Ww.
        apply sghmc_writer in Ww as [_ Ww]. now left.
      * symmetry in E. apply V in E as [S ->]. split; auto. intros w Ww.
        apply sghmc_writer in Ww as [_ Ww]. cbn in Ww. subst w. right. dep.
    + (* OMinv *) destruct Hx as [E|[]]. symmetry in E. apply V in E as [S ->].
      right. split; auto. intros w Ww. apply sghmc_writer in Ww as [_ Ww]. cbn in Ww. subst w.
      right. dep.
    + (* OG *)
      destruct Hx as [E|[E|[E|[E|[]]]]]; try discriminate.
      * injection E as <-. right. split; auto. intros w Ww. apply sghmc_writer in Ww as [_ Ww]. now left.
      * injection E as <-. left. exists (Node OR i). split; [apply sghmc_writes; cbn; auto|].
        split; [dep|reflexivity].
      * symmetry in E. apply V in E as [S ->]. right. split; auto. intros w Ww.
        apply sghmc_writer in Ww as [_ Ww]. now left.
    + (* OVhat *)
      destruct Hx as [E|[E|[E|[E|[]]]]]; try discriminate.
      * injection E as <-. right. split; auto. intros w Ww. apply sghmc_writer in Ww as [_ Ww]. now left.
      * injection E as <-. left. exists (Node OR i). split; [apply sghmc_writes; cbn; auto|].
        split; [dep|reflexivity].
      * symmetry in E. apply V in E as [S ->]. right. split; auto. intros w Ww.
        apply sghmc_writer in Ww as [_ Ww]. now left.
    + (* ONoise *) destruct Hx as [E|[]]. unfold minv_in in E. destruct (fed i) as [m|]; [discriminate|].
      injection E as <-. left. exists (Node OMinv i). split; [apply sghmc_writes; cbn; auto 10|].
      split; [dep|reflexivity].
    + (* OMom *)
      destruct Hx as [E|[E|[E|[E|[E|[]]]]]]; try discriminate.
      * injection E as <-. right. split; auto. intros w Ww. apply sghmc_writer in Ww as [_ Ww]. now left.
      * unfold minv_in in E. destruct (fed i) as [m|]; [discriminate|]. injection E as <-.
        left. exists (Node OMinv i). split; [apply sghmc_writes; cbn; auto 10|].
        split; [dep|reflexivity].
      * symmetry in E. apply V in E as [S ->]. right. split; auto. intros w Ww.
        apply sghmc_writer in Ww as [_ Ww]. now left.
    + (* OVec *)
      destruct Hx as [E|[E|[]]]; injection E as <-.
      * right. split; auto. intros w Ww. apply sghmc_writer in Ww as [_ Ww]. now left.
      * left. exists (Node OMom i). split; [apply sghmc_writes; cbn; auto 15|].
        split; [dep|reflexivity].
    + (* OTheta *) destruct Hx as [E|[]]. injection E as <-.
      left. exists (Node OVec i). split; [apply sghmc_writes; cbn; auto 15|].
      split; [dep|reflexivity].
  - (* reads *)
    cbn in Hx. destruct Hx as [E|[]]. injection E as <-.
    apply in_nodes_read in Hk as [S Hk]. right. split; [reflexivity|]. intros w Ww.
    apply sghmc_writer in Ww as [Hi Ww]. right. destruct y as [v i]. cbn [fst snd] in *.
    destruct Hk as [[Hv _]|[-> Hj]].
    + cbn in Hv. destruct Hv as [<-|[<-|[<-|[<-|[]]]]]; subst w.
      * apply before_trans with (k' := Node OR i); [dep|cbn; auto].
      * apply before_trans with (k' := Node OTau i); [dep|cbn; auto].
      * apply before_trans with (k' := Node OTau i); [dep|cbn; auto].
      * dep.
    + subst w. unfold ordered_reads in OR_. rewrite S in OR_. destruct (OR_ i Hj) as [_ Hs].
      eapply before_compose; [apply read_before_grad; eauto|apply grad_before_theta].
  - (* cost *)
    destruct Gk as [E|S]; [now destruct E|]. cbn in Hx. apply in_params in Hx as (j & _ & E).
    unfold val in E. rewrite S in E. discriminate.
Qed.

Lemma expected_val : forall k x, seen k x = m0 x -> expected sol seen k (val snapshots x) = m0 x.
Proof. intros k x E. unfold val. destruct snapshots; cbn; auto. Qed.
Lemma expected_minv : forall o i, o = ONoise \/ o = OMom ->
  expected sol seen (Node o i) (minv_in fed i) = minv_used (fed i) (p_adapt (p' i)).
Proof.
  intros o i Ho. unfold minv_in, minv_used. destruct (fed i) as [m|] eqn:E; cbn; auto.
  destruct Ho as [-> | ->]; reflexivity.
Qed.

Lemma map_expected_params : forall k js, (forall j, In j js -> seen k (XParam, j) = m0 (XParam, j)) ->
  map (expected sol seen k) (params snapshots js) = map old js.
Proof.
  intros k js E. unfold params. rewrite map_map. apply map_ext_in. intros j Hj.
  now rewrite expected_val by auto.
Qed.

Lemma sghmc_equation : forall k, In k nodes ->
  sol k = compute (G k) (map (expected sol seen k) (inputs (G k))).
Proof.
  intros [o i|y|] Hk.
  - apply in_nodes_node in Hk as [Ho Hi]. cbn in Ho.
    destruct o; try (exfalso; intuition discriminate); clear Ho;
      cbn [G sghmc_graph graph_of sghmc_op burnin_op grad_op theta_op inputs compute map nth].
    + (* OGrad *) rewrite map_expected_params by (intros; reflexivity). reflexivity.
    + rewrite expected_val by reflexivity. reflexivity.
    + rewrite !expected_val by reflexivity. reflexivity.
    + rewrite !expected_val by reflexivity. reflexivity.
    + rewrite !expected_val by reflexivity. reflexivity.
    + rewrite !expected_val by reflexivity. reflexivity.
    + rewrite expected_minv by auto. reflexivity.
    + rewrite expected_minv by auto. rewrite !expected_val by reflexivity. reflexivity.
    + reflexivity.
    + reflexivity.
  - reflexivity.
  - cbn [G sghmc_graph graph_of cost_op inputs compute].
    rewrite map_expected_params by (intros; reflexivity). reflexivity.
Qed.

Theorem sghmc_determinate : forall l, schedule G nodes l ->
  let s := run_order gnode_eq gvar_eq G l (start m0) in
  (forall i, i < n -> sghmc_in (mem s) (shape (p_val (ps i))) i = p' i) /\
  (snapshots = true -> out s Cost = cost_fun (map old cost_reads)).
Proof.
  intros l S s.
  destruct (determinate gnode_eq gvar_eq G nodes m0 sol seen good) with (l := l) (s0 := start m0)
    as (DO & DM & _); auto.
  - intros k k' x Wk Wk'. apply sghmc_writer in Wk as [_ Wk]. apply sghmc_writer in Wk' as [_ Wk'].
    destruct (fst x); try contradiction; congruence.
  - intros k Hk Gk. split; [|split].
    + intros x Hx. now apply sghmc_views.
    + intros d Hd. left. intros ->. destruct k as [o i|y|].
      * destruct o; cbn in Hd; try (apply in_params in Hd as (j & _ & E)); unfold val, minv_in in *;
          destruct snapshots; try destruct (fed i); intuition discriminate.
      * cbn in Hd. intuition discriminate.
      * cbn in Hd. apply in_params in Hd as (j & _ & E). unfold val in E.
        destruct snapshots; discriminate.
    + now apply sghmc_equation.
  - intros k Hk. destruct k as [o i|y|]; [left; left; discriminate|left; left; discriminate|now right].
  - fold s in DO, DM. split.
    + intros i Hi. unfold sghmc_in, adapt_in.
      rewrite (DM (Node OTau i) (XTau, i)), (DM (Node OR i) (XR, i)), (DM (Node OG i) (XG, i)),
        (DM (Node OVhat i) (XVhat, i)), (DM (Node OMinv i) (XMinv, i)), (DM (Node OMom i) (XMom, i)),
        (DM (Node OVec i) (XVec, i)), (DM (Node OTheta i) (XParam, i))
        by (apply sghmc_writes; cbn; auto 15).
      reflexivity.
    + intros Sn. apply (DO Cost); [apply in_nodes_cost|now right].
Qed.
End SGHMC.

(** *** SGLD *)
Section SGLD.
Context {T : Type} `{Num T}.
Variable snapshots : bool.
Variable eps : T.
Variable xi : nat -> list T.
Variable fed : nat -> option (list T).
Variable grad_reads : nat -> list nat.
Variable grad_fun : nat -> list (list T) -> list T.
Variable cost_reads : list nat.
Variable cost_fun : list (list T) -> list T.
Variable c : lconfig T.
Variable n : nat.
Variable ps : nat -> lstate T.
Let G := sgld_graph snapshots eps xi fed grad_reads grad_fun cost_reads cost_fun c.
Let nodes := sgld_nodes snapshots grad_reads cost_reads n.
Let old (j : nat) : list T := data (l_val (ps j)).
Let grad (i : nat) : list T := grad_fun i (map old (grad_reads i)).
Let p' (i : nat) : lstate T := sgld_step c eps (grad i) (xi i) (fed i) (ps i).
Let m0 := sgld_mem ps.

Hypothesis OR_ : ordered_reads snapshots grad_reads cost_reads n.

Let sol (k : gnode) : list T :=
  match k with
  | Node OGrad i => grad i
  | Node OR i => a_r (l_adapt (p' i))
  | Node OTau i => a_tau (l_adapt (p' i))
  | Node OMinv i => a_minv (l_adapt (p' i))
  | Node OG i => a_g (l_adapt (p' i))
  | Node OVhat i => a_vhat (l_adapt (p' i))
  | Node ONoise i =>
      vmap2 nmul (map (lsigma c eps) (minv_used (fed i) (l_adapt (p' i)))) (xi i)
  | Node OVec i => l_vec (p' i)
  | Node OTheta i => data (l_val (p' i))
  | Read x => m0 x
  | Cost => cost_fun (map old cost_reads)
  | _ => []
  end.

Let seen (k : gnode) (x : gvar) : list T :=
  match k, fst x with
  | Node OG _, XR | Node OVhat _, XR | Node ONoise _, XMinv | Node OVec _, XMinv
  | Node OTheta _, XVec => sgld_mem p' x
  | _, _ => m0 x
  end.
Let good (k : gnode) : Prop := k <> Cost \/ snapshots = true.

Lemma sgld_writer : forall w x, writes G nodes w x ->
  snd x < n /\
  match fst x with
  | XTau => w = Node OTau (snd x) | XR => w = Node OR (snd x) | XG => w = Node OG (snd x)
  | XVhat => w = Node OVhat (snd x) | XMinv => w = Node OMinv (snd x)
  | XVec => w = Node OVec (snd x)
  | XParam => w = Node OTheta (snd x) | XMom | XHist => False
  end.
Proof.
  intros w x [Hin E]. destruct w as [o i|y|]; try discriminate.
  apply in_nodes_node in Hin as [_ Hi].
  destruct o; cbn in E; try discriminate; injection E as <-; cbn; auto.
Qed.

Lemma sgld_writes : forall o i x, In o sgld_kinds -> i < n -> target (G (Node o i)) = Some x ->
  writes G nodes (Node o i) x.
Proof. intros. split; auto. apply in_nodes_node. auto. Qed.

Lemma grad_before_theta_ld : forall i, before G (Node OGrad i) (Node OTheta i).
Proof.
  intros i. apply before_trans with (k' := Node OG i).
  - apply before_one. unfold deps. apply in_or_app. right. apply in_out_deps. cbn. auto 6.
  - cbn. auto 10.
Qed.

Lemma read_before_grad_ld : forall i j, snapshots = true -> In j (grad_reads i) ->
  before G (Read (XParam, j)) (Node OGrad i).
Proof.
  intros i j S Hj. apply before_one. unfold deps. apply in_or_app. right. apply in_out_deps.
  cbn. apply in_params. exists j. split; auto. unfold val. now rewrite S.
Qed.

Ltac dep := apply before_one; unfold deps, out_deps; cbn; unfold val;
  try match goal with S : snapshots = true |- _ => rewrite S end; cbn; rewrite ?in_app_iff; cbn; auto 30.

Lemma sgld_views : forall k x, In k nodes -> good k -> In (Var x) (inputs (G k)) ->
  view G nodes m0 sol seen k x.
Proof.
  intros k x Hk Gk Hx. unfold view. destruct k as [o i|y|].
  - apply in_nodes_node in Hk as [Ho Hi].
    assert (V : forall z y, Var (node := gnode) (value := list T) z = val snapshots y ->
                snapshots = false /\ z = y).
    { unfold val. intros z y E. destruct snapshots; [discriminate|]. injection E as ->. auto. }
    cbn in Ho.
    destruct o; try (exfalso; intuition discriminate); cbn in Hx; clear Ho.
    + (* OGrad *) apply in_params in Hx as (j & Hj & E). apply V in E as [S ->].
      right. split; auto. intros w Ww. apply sgld_writer in Ww as [_ Ww]. cbn in Ww. subst w.
      right. unfold ordered_reads in OR_. rewrite S in OR_. rewrite (OR_ i j Hi Hj).
      apply grad_before_theta_ld.
    + (* OR *) destruct Hx as [E|[]]. symmetry in E. apply V in E as [S ->].
      right. split; auto. intros w Ww. apply sgld_writer in Ww as [_ Ww]. cbn in Ww. subst w.
      right. dep.
    + (* OTau *)
      right. destruct Hx as [E|[E|[E|[E|[]]]]].
      * injection E as <-. split; auto. intros w Ww. apply sgld_writer in Ww as [_ Ww]. now left.
      * symmetry in E. apply V in E as [S ->]. split; auto. intros w Ww.
        apply sgld_writer in Ww as [_ Ww]. cbn in Ww. subst w. right. dep.
      * symmetry in E. apply V in E as [S ->]. split; auto. intros w Ww.
        apply sgld_writer in Ww as [_ Ww]. now left.
      * symmetry in E. apply V in E as [S ->]. split; auto. intros w Ww.
        apply sgld_writer in Ww as [_ Ww]. cbn in Ww. subst w. right. dep.
    + (* OMinv *) destruct Hx as [E|[]]. symmetry in E. apply V in E as [S ->].
      right. split; auto. intros w Ww. apply sgld_writer in Ww as [_ Ww]. cbn in Ww. subst w.
      right. dep.
    + (* OG *)
      destruct Hx as [E|[E|[E|[E|[]]]]]; try discriminate.
      * injection E as <-. right. split; auto. intros w Ww. apply sgld_writer in Ww as [_ Ww]. now left.
      * injection E as <-. left. exists (Node OR i). split; [apply sgld_writes; cbn; auto|].
        split; [dep|reflexivity].
      * symmetry in E. apply V in E as [S ->]. right. split; auto. intros w Ww.
        apply sgld_writer in Ww as [_ Ww]. now left.
    + (* OVhat *)
      destruct Hx as [E|[E|[E|[E|[]]]]]; try discriminate.
      * injection E as <-. right. split; auto. intros w Ww. apply sgld_writer in Ww as [_ Ww]. now left.
      * injection E as <-. left. exists (Node OR i). split; [apply sgld_writes; cbn; auto|].
        split; [dep|reflexivity].
      * symmetry in E. apply V in E as [S ->]. right. split; auto. intros w Ww.
        apply sgld_writer in Ww as [_ Ww]. now left.
    + (* ONoise *) destruct Hx as [E|[]]. unfold minv_in in E. destruct (fed i) as [m|]; [discriminate|].
      injection E as <-. left. exists (Node OMinv i). split; [apply sgld_writes; cbn; auto 10|].
      split; [dep|reflexivity].
    + (* OVec *)
      destruct Hx as [E|[E|[E|[E|[]]]]]; try discriminate.
      * injection E as <-. right. split; auto. intros w Ww. apply sgld_writer in Ww as [_ Ww]. now left.
      * unfold minv_in in E. destruct (fed i) as [m|]; [discriminate|]. injection E as <-.
        left. exists (Node OMinv i). split; [apply sgld_writes; cbn; auto 10|].
        split; [dep|reflexivity].
    + (* OTheta *) destruct Hx as [E|[]]. injection E as <-.
      left. exists (Node OVec i). split; [apply sgld_writes; cbn; auto 15|].
      split; [dep|reflexivity].
  - (* reads *)
    cbn in Hx. destruct Hx as [E|[]]. injection E as <-.
    apply in_nodes_read in Hk as [S Hk]. right. split; [reflexivity|]. intros w Ww.
    apply sgld_writer in Ww as [Hi Ww]. right. destruct y as [v i]. cbn [fst snd] in *.
    destruct Hk as [[Hv _]|[-> Hj]].
    + cbn in Hv. destruct Hv as [<-|[<-|[<-|[]]]]; subst w.
      * apply before_trans with (k' := Node OR i); [dep|cbn; auto].
      * apply before_trans with (k' := Node OTau i); [dep|cbn; auto].
      * apply before_trans with (k' := Node OTau i); [dep|cbn; auto].
    + subst w. unfold ordered_reads in OR_. rewrite S in OR_. destruct (OR_ i Hj) as [_ Hs].
      eapply before_compose; [apply read_before_grad_ld; eauto|apply grad_before_theta_ld].
  - (* cost *)
    destruct Gk as [E|S]; [now destruct E|]. cbn in Hx. apply in_params in Hx as (j & _ & E).
    unfold val in E. rewrite S in E. discriminate.
Qed.

Lemma expected_val_ld : forall k x, seen k x = m0 x -> expected sol seen k (val snapshots x) = m0 x.
Proof. intros k x E. unfold val. destruct snapshots; cbn; auto. Qed.
Lemma expected_minv_ld : forall o i, o = ONoise \/ o = OVec ->
  expected sol seen (Node o i) (minv_in fed i) = minv_used (fed i) (l_adapt (p' i)).
Proof.
  intros o i Ho. unfold minv_in, minv_used. destruct (fed i) as [m|] eqn:E; cbn; auto.
  destruct Ho as [-> | ->]; reflexivity.
Qed.

Lemma map_expected_params_ld : forall k js, (forall j, In j js -> seen k (XParam, j) = m0 (XParam, j)) ->
  map (expected sol seen k) (params snapshots js) = map old js.
Proof.
  intros k js E. unfold params. rewrite map_map. apply map_ext_in. intros j Hj.
  now rewrite expected_val_ld by auto.
Qed.

Lemma sgld_equation : forall k, In k nodes ->
  sol k = compute (G k) (map (expected sol seen k) (inputs (G k))).
Proof.
  intros [o i|y|] Hk.
  - apply in_nodes_node in Hk as [Ho Hi]. cbn in Ho.
    destruct o; try (exfalso; intuition discriminate); clear Ho;
      cbn [G sgld_graph graph_of sgld_op burnin_op grad_op theta_op inputs compute map nth].
    + (* OGrad *) rewrite map_expected_params_ld by (intros; reflexivity). reflexivity.
    + rewrite expected_val_ld by reflexivity. reflexivity.
    + rewrite !expected_val_ld by reflexivity. reflexivity.
    + rewrite !expected_val_ld by reflexivity. reflexivity.
    + rewrite !expected_val_ld by reflexivity. reflexivity.
    + rewrite !expected_val_ld by reflexivity. reflexivity.
    + rewrite expected_minv_ld by auto. reflexivity.
    + rewrite expected_minv_ld by auto. reflexivity.
    + reflexivity.
  - reflexivity.
  - cbn [G sgld_graph graph_of cost_op inputs compute].
    rewrite map_expected_params_ld by (intros; reflexivity). reflexivity.
Qed.

Theorem sgld_determinate : forall l, schedule G nodes l ->
  let s := run_order gnode_eq gvar_eq G l (start m0) in
  (forall i, i < n -> sgld_in (mem s) (shape (l_val (ps i))) i = p' i) /\
  (snapshots = true -> out s Cost = cost_fun (map old cost_reads)).
Proof.
  intros l S s.
  destruct (determinate gnode_eq gvar_eq G nodes m0 sol seen good) with (l := l) (s0 := start m0)
    as (DO & DM & _); auto.
  - intros k k' x Wk Wk'. apply sgld_writer in Wk as [_ Wk]. apply sgld_writer in Wk' as [_ Wk'].
    destruct (fst x); try contradiction; congruence.
  - intros k Hk Gk. split; [|split].
    + intros x Hx. now apply sgld_views.
    + intros d Hd. left. intros ->. destruct k as [o i|y|].
      * destruct o; cbn in Hd; try (apply in_params in Hd as (j & _ & E)); unfold val, minv_in in *;
          destruct snapshots; try destruct (fed i); intuition discriminate.
      * cbn in Hd. intuition discriminate.
      * cbn in Hd. apply in_params in Hd as (j & _ & E). unfold val in E.
        destruct snapshots; discriminate.
    + now apply sgld_equation.
  - intros k Hk. destruct k as [o i|y|]; [left; left; discriminate|left; left; discriminate|now right].
  - fold s in DO, DM. split.
    + intros i Hi. unfold sgld_in, adapt_in.
      rewrite (DM (Node OTau i) (XTau, i)), (DM (Node OR i) (XR, i)), (DM (Node OG i) (XG, i)),
        (DM (Node OVhat i) (XVhat, i)), (DM (Node OMinv i) (XMinv, i)),
        (DM (Node OVec i) (XVec, i)), (DM (Node OTheta i) (XParam, i))
        by (apply sgld_writes; cbn; auto 15).
      reflexivity.
    + intros Sn. apply (DO Cost); [apply in_nodes_cost|now right].
Qed.
End SGLD.

(** *** Relativistic SGHMC *)
Section REL.
Context {T : Type} `{Num T}.
Variable snapshots : bool.
Variable eps : T.
Variable xi : nat -> list T.
Variable grad_reads : nat -> list nat.
Variable grad_fun : nat -> list (list T) -> list T.
Variable cost_reads : list nat.
Variable cost_fun : list (list T) -> list T.
Variable c : rconfig T.
Variable n : nat.
Variable ps : nat -> rstate T.
Let G := rel_graph snapshots eps xi grad_reads grad_fun cost_reads cost_fun c.
Let nodes := rel_nodes snapshots grad_reads cost_reads n.
Let old (j : nat) : list T := data (r_val (ps j)).
Let grad (i : nat) : list T := grad_fun i (map old (grad_reads i)).
Let p' (i : nat) : rstate T := rel_step c eps (map nopp (grad i)) (xi i) (ps i).
Let m0 := rel_mem ps.

Hypothesis OR_ : ordered_reads snapshots grad_reads cost_reads n.

Let sol (k : gnode) : list T :=
  match k with
  | Node OGrad i => grad i
  | Node ONoise i => map (fun x => nmul (rel_noise_scale c eps) x) (xi i)
  | Node OMom i => [r_mom (p' i)]
  | Node OVec i => r_vec (p' i)
  | Node OTheta i => data (r_val (p' i))
  | Read x => m0 x
  | Cost => cost_fun (map old cost_reads)
  | _ => []
  end.

Let seen (k : gnode) (x : gvar) : list T :=
  match k, fst x with
  | Node OVec _, XMom | Node OTheta _, XVec => rel_mem p' x
  | _, _ => m0 x
  end.
Let good (k : gnode) : Prop := k <> Cost \/ snapshots = true.

Lemma rel_writer : forall w x, writes G nodes w x ->
  snd x < n /\
  match fst x with
  | XMom => w = Node OMom (snd x) | XVec => w = Node OVec (snd x)
  | XParam => w = Node OTheta (snd x) | _ => False
  end.
Proof.
  intros w x [Hin E]. destruct w as [o i|y|]; try discriminate.
  apply in_nodes_node in Hin as [_ Hi].
  destruct o; cbn in E; try discriminate; injection E as <-; cbn; auto.
Qed.

Lemma rel_writes : forall o i x, In o rel_kinds -> i < n -> target (G (Node o i)) = Some x ->
  writes G nodes (Node o i) x.
Proof. intros. split; auto. apply in_nodes_node. auto. Qed.

Lemma grad_before_theta_rel : forall i, before G (Node OGrad i) (Node OTheta i).
Proof.
  intros i. apply before_trans with (k' := Node OVec i); [|cbn; auto].
  apply before_trans with (k' := Node OMom i); [|cbn; auto].
  apply before_one. unfold deps. apply in_or_app. right. apply in_out_deps. cbn. auto 6.
Qed.

Lemma read_before_grad_rel : forall i j, snapshots = true -> In j (grad_reads i) ->
  before G (Read (XParam, j)) (Node OGrad i).
Proof.
  intros i j S Hj. apply before_one. unfold deps. apply in_or_app. right. apply in_out_deps.
  cbn. apply in_params. exists j. split; auto. unfold val. now rewrite S.
Qed.

Ltac dep := apply before_one; unfold deps, out_deps; cbn; unfold val;
  try match goal with S : snapshots = true |- _ => rewrite S end; cbn; rewrite ?in_app_iff; cbn; auto 30.

Lemma rel_views : forall k x, In k nodes -> good k -> In (Var x) (inputs (G k)) ->
  view G nodes m0 sol seen k x.
Proof.
  intros k x Hk Gk Hx. unfold view. destruct k as [o i|y|].
  - apply in_nodes_node in Hk as [Ho Hi].
    assert (V : forall z y, Var (node := gnode) (value := list T) z = val snapshots y ->
                snapshots = false /\ z = y).
    { unfold val. intros z y E. destruct snapshots; [discriminate|]. injection E as ->. auto. }
    cbn in Ho.
    destruct o; try (exfalso; intuition discriminate); cbn in Hx; clear Ho.
    + (* OGrad *) apply in_params in Hx as (j & Hj & E). apply V in E as [S ->].
      right. split; auto. intros w Ww. apply rel_writer in Ww as [_ Ww]. cbn in Ww. subst w.
      right. unfold ordered_reads in OR_. rewrite S in OR_. rewrite (OR_ i j Hi Hj).
      apply grad_before_theta_rel.
    + (* OMom *)
      right. destruct Hx as [E|[E|[E|[E|[]]]]]; try discriminate.
      * injection E as <-. split; auto. intros w Ww. apply rel_writer in Ww as [_ Ww]. now left.
      * symmetry in E. apply V in E as [S ->]. split; auto. intros w Ww.
        apply rel_writer in Ww as [_ Ww]. now left.
    + (* OVec *)
      destruct Hx as [E|[E|[]]]; injection E as <-.
      * right. split; auto. intros w Ww. apply rel_writer in Ww as [_ Ww]. now left.
      * left. exists (Node OMom i). split; [apply rel_writes; cbn; auto 15|].
        split; [dep|reflexivity].
    + (* OTheta *) destruct Hx as [E|[]]. injection E as <-.
      left. exists (Node OVec i). split; [apply rel_writes; cbn; auto 15|].
      split; [dep|reflexivity].
  - (* reads *)
    cbn in Hx. destruct Hx as [E|[]]. injection E as <-.
    apply in_nodes_read in Hk as [S Hk]. right. split; [reflexivity|]. intros w Ww.
    apply rel_writer in Ww as [Hi Ww]. right. destruct y as [v i]. cbn [fst snd] in *.
    destruct Hk as [[Hv _]|[-> Hj]].
    + cbn in Hv. destruct Hv as [<-|[]]; subst w. dep.
    + subst w. unfold ordered_reads in OR_. rewrite S in OR_. destruct (OR_ i Hj) as [_ Hs].
      eapply before_compose; [apply read_before_grad_rel; eauto|apply grad_before_theta_rel].
  - (* cost *)
    destruct Gk as [E|S]; [now destruct E|]. cbn in Hx. apply in_params in Hx as (j & _ & E).
    unfold val in E. rewrite S in E. discriminate.
Qed.

Lemma expected_val_rel : forall k x, seen k x = m0 x -> expected sol seen k (val snapshots x) = m0 x.
Proof. intros k x E. unfold val. destruct snapshots; cbn; auto. Qed.
Lemma map_expected_params_rel : forall k js, (forall j, In j js -> seen k (XParam, j) = m0 (XParam, j)) ->
  map (expected sol seen k) (params snapshots js) = map old js.
Proof.
  intros k js E. unfold params. rewrite map_map. apply map_ext_in. intros j Hj.
  now rewrite expected_val_rel by auto.
Qed.

Lemma rel_equation : forall k, In k nodes ->
  sol k = compute (G k) (map (expected sol seen k) (inputs (G k))).
Proof.
  intros [o i|y|] Hk.
  - apply in_nodes_node in Hk as [Ho Hi]. cbn in Ho.
    destruct o; try (exfalso; intuition discriminate); clear Ho;
      cbn [G rel_graph graph_of rel_op grad_op theta_op inputs compute map nth].
    + rewrite map_expected_params_rel by (intros; reflexivity). reflexivity.
    + reflexivity.
    + rewrite expected_val_rel by reflexivity. reflexivity.
    + reflexivity.
    + reflexivity.
  - reflexivity.
  - cbn [G rel_graph graph_of cost_op inputs compute].
    rewrite map_expected_params_rel by (intros; reflexivity). reflexivity.
Qed.

Theorem rel_determinate : forall l, schedule G nodes l ->
  let s := run_order gnode_eq gvar_eq G l (start m0) in
  (forall i, i < n -> rel_in (mem s) (shape (r_val (ps i))) i = p' i) /\
  (snapshots = true -> out s Cost = cost_fun (map old cost_reads)).
Proof.
  intros l S s.
  destruct (determinate gnode_eq gvar_eq G nodes m0 sol seen good) with (l := l) (s0 := start m0)
    as (DO & DM & _); auto.
  - intros k k' x Wk Wk'. apply rel_writer in Wk as [_ Wk]. apply rel_writer in Wk' as [_ Wk'].
    destruct (fst x); try contradiction; congruence.
  - intros k Hk Gk. split; [|split].
    + intros x Hx. now apply rel_views.
    + intros d Hd. left. intros ->. destruct k as [o i|y|].
      * destruct o; cbn in Hd; try (apply in_params in Hd as (j & _ & E)); unfold val in *;
          destruct snapshots; intuition discriminate.
      * cbn in Hd. intuition discriminate.
      * cbn in Hd. apply in_params in Hd as (j & _ & E). unfold val in E.
        destruct snapshots; discriminate.
    + now apply rel_equation.
  - intros k Hk. destruct k as [o i|y|]; [left; left; discriminate|left; left; discriminate|now right].
  - fold s in DO, DM. split.
    + intros i Hi. unfold rel_in.
      rewrite (DM (Node OMom i) (XMom, i)), (DM (Node OVec i) (XVec, i)), (DM (Node OTheta i) (XParam, i))
        by (apply rel_writes; cbn; auto 15).
      reflexivity.
    + intros Sn. apply (DO Cost); [apply in_nodes_cost|now right].
Qed.
End REL.

(** *** SVGD *)
Section SV.
Context {T : Type} `{Num T} `{NumT T}.
Variable snapshots : bool.
Variable c : sconfig T.
Variable eps : T.
Variables n d : nat.
Variable cost_fun lnpgrad : list (list T) -> list (list T).
Variable X Hs X' Hs' : list (list T).
Hypothesis LX : length X = n.
Hypothesis step : svgd_step c eps n d X (lnpgrad X) Hs = Ok (X', Hs').
Hypothesis LX' : length X' = n.
Let G := svgd_op snapshots c eps n d cost_fun lnpgrad.
Let nodes := svgd_nodes snapshots n.
Let m0 := svgd_mem X Hs.
Let phi : list (list T) := match svgd_grad n d X (lnpgrad X) with Ok g => g | Raise _ => [] end.
Let adj : list (list T) := mmap2 (fun y h => (y / (s_fudge c + nsqrt h))%num) phi Hs'.

Let sol (k : gnode) : list (list T) :=
  match k with
  | Node OStack _ => X
  | Node OPhi _ => phi
  | Node OHist _ => Hs'
  | Node OAdj _ => adj
  | Node OTheta i => [nth i X' []]
  | Read x => m0 x
  | Cost => cost_fun X
  | _ => []
  end.
Let seen (k : gnode) (x : gvar) : list (list T) :=
  match k, fst x with Node OAdj _, XHist => Hs' | _, _ => m0 x end.

Lemma svgd_step_parts : exists g, svgd_grad n d X (lnpgrad X) = Ok g /\ phi = g /\
  Hs' = mmap2 (fun h y => (s_alpha c * h + (n1 - s_alpha c) * npow y 2)%num) Hs phi /\
  X' = mmap2 (fun x a => (x - eps * a)%num) X adj.
Proof.
  unfold adj, phi. unfold svgd_step in step. destruct (svgd_grad n d X (lnpgrad X)) as [g|e]; [|discriminate].
  cbn [bind] in step. exists g. apply (f_equal (fun r => match r with Ok p => p | Raise _ => ([], []) end)) in step.
  apply pair_equal_spec in step as [<- <-]. auto.
Qed.

Lemma in_svgd_nodes : forall k, In k nodes <->
  match k with
  | Node OStack 0 | Node OPhi 0 | Node OHist 0 | Node OAdj 0 | Cost => True
  | Node OTheta i => i < n
  | Read (XHist, 0) => snapshots = true
  | Read (XParam, j) => snapshots = true /\ j < n
  | _ => False
  end.
Proof.
  intros k. unfold nodes, svgd_nodes. rewrite !in_app_iff, in_map_iff.
  assert (R : In k (if snapshots then Read (XHist, 0) :: map (fun j => Read (XParam, j)) (seq 0 n) else [])
            <-> snapshots = true /\ (k = Read (XHist, 0) \/ exists j, j < n /\ k = Read (XParam, j))).
  { destruct snapshots; cbn; [rewrite in_map_iff|intuition discriminate]. split.
    - intros [E|(j & E & Hj)]; [auto|]. apply in_seq in Hj. split; auto. right. exists j. split; auto. lia.
    - intros [_ [E|(j & Hj & E)]]; [auto|]. right. exists j. split; auto. apply in_seq. lia. }
  rewrite R. clear R. split.
  - intros [Hk|[(i & <- & Hi)|[S [->|(j & Hj & ->)]]]]; auto.
    + cbn in Hk. intuition (subst; auto).
    + apply in_seq in Hi. lia.
  - intros Hk. destruct k as [o i|[v i]|].
    + destruct o; try contradiction; try (destruct i; [|contradiction]); try (left; cbn; auto 10; fail).
      right. left. exists i. split; auto. apply in_seq. lia.
    + destruct v; try contradiction; right; right; split; [apply Hk|right; exists i; split; auto; apply Hk| |].
      * destruct i; [auto|contradiction].
      * destruct i; [auto|contradiction].
    + left. cbn. auto 10.
Qed.

Lemma svgd_writer : forall w x, writes G nodes w x ->
  (x = (XHist, 0) /\ w = Node OHist 0) \/ (fst x = XParam /\ snd x < n /\ w = Node OTheta (snd x)).
Proof.
  intros w x [Hin E]. apply in_svgd_nodes in Hin. destruct w as [o i|[v i]|]; try discriminate.
  destruct o; try contradiction; cbn in E; try discriminate; injection E as <-; auto.
  left. destruct i; [auto|contradiction].
Qed.

Lemma svgd_before_theta : forall i, before G (Node OStack 0) (Node OTheta i).
Proof.
  intros i. apply before_trans with (k' := Node OAdj 0); [|cbn; auto].
  apply before_trans with (k' := Node OPhi 0); [|cbn; auto].
  apply before_one. cbn; auto.
Qed.

Lemma read_before_stack : forall j, snapshots = true -> j < n ->
  before G (Read (XParam, j)) (Node OStack 0).
Proof.
  intros j S Hj. apply before_one. unfold deps. apply in_or_app. right. apply in_out_deps. cbn.
  apply in_map_iff. exists j. split; [unfold mval; now rewrite S|]. apply in_seq. lia.
Qed.

Lemma svgd_views : forall k x, In k nodes -> In (Var x) (inputs (G k)) ->
  view G nodes m0 sol seen k x.
Proof.
  intros k x Hk Hx. unfold view. apply in_svgd_nodes in Hk.
  assert (V : forall z y, mval snapshots y = Var (node := gnode) (value := list (list T)) z -> y = z).
  { unfold mval. intros z y E. destruct snapshots; [discriminate|]. now injection E as ->. }
  destruct k as [o i|[v i]|].
  - destruct o; try contradiction.
    + (* OTheta *) cbn in Hx. destruct Hx as [E|[E|[]]]; [|discriminate]. injection E as <-.
      right. split; auto. intros w Ww. apply svgd_writer in Ww as [[E _]|(_ & _ & ->)]; [discriminate|auto].
    + (* OStack *) destruct i; [|contradiction]. cbn in Hx. apply in_map_iff in Hx as (j & E & Hj).
      apply V in E. subst x.
      right. split; auto. intros w Ww. apply svgd_writer in Ww as [[E _]|(_ & _ & ->)]; [discriminate|].
      right. apply svgd_before_theta.
    + (* OPhi *) cbn in Hx. intuition discriminate.
    + (* OHist *) destruct i; [|contradiction]. cbn in Hx. destruct Hx as [E|[E|[]]]; [|discriminate].
      apply V in E. subst x.
      right. split; auto. intros w Ww. apply svgd_writer in Ww as [[_ ->]|(E & _)]; [auto|discriminate].
    + (* OAdj *) destruct i; [|contradiction]. cbn in Hx. destruct Hx as [E|[E|[]]]; [discriminate|].
      injection E as <-. left. exists (Node OHist 0). split; [split; [now apply in_svgd_nodes|reflexivity]|].
      split; [|reflexivity]. apply before_one. cbn. auto.
  - cbn in Hx. destruct Hx as [E|[]]. injection E as <-. right. split; auto.
    intros w Ww. right. apply svgd_writer in Ww as [[E ->]|(E & Hi & ->)].
    + injection E as -> ->. apply before_one. unfold deps. apply in_or_app. right. apply in_out_deps.
      cbn. left. unfold mval. now rewrite Hk.
    + cbn in E, Hi. subst v. destruct Hk as [S _].
      eapply before_compose; [now apply read_before_stack|apply svgd_before_theta].
  - cbn in Hx. intuition discriminate.
Qed.

Lemma concat_rows : forall (l : list (list T)), concat (map (fun j => [nth j l []]) (seq 0 (length l))) = l.
Proof.
  intros l. rewrite <- (map_map (fun j => nth j l []) (fun r => [r])).
  assert (E : map (fun j => nth j l []) (seq 0 (length l)) = l).
  { apply nth_ext with (d := []) (d' := []); [now rewrite map_length, seq_length|].
    intros i Hi. rewrite map_length, seq_length in Hi.
    rewrite nth_indep with (d' := nth 0 l []) by now rewrite map_length, seq_length.
    change (nth 0 l []) with ((fun j => nth j l []) 0). rewrite map_nth, seq_nth; auto. }
  rewrite E. induction l as [|r l IH] in |- *; cbn; [reflexivity|now rewrite IH].
Qed.

Lemma expected_mval : forall k x, seen k x = m0 x -> expected sol seen k (mval snapshots x) = m0 x.
Proof. intros k x E. unfold mval. destruct snapshots; cbn; auto. Qed.

Lemma svgd_equation : forall k, In k nodes ->
  sol k = compute (G k) (map (expected sol seen k) (inputs (G k))).
Proof.
  intros k Hk. apply in_svgd_nodes in Hk. destruct svgd_step_parts as (g & Eg & Ep & EH & EX).
  destruct k as [o i|[v i]|].
  - destruct o; try contradiction.
    + (* OTheta *) cbn [G svgd_op sol inputs compute map nth expected].
      change (seen (Node OTheta i) (XParam, i)) with [nth i X []].
      change (mmap2 (fun x a => (x - eps * a)%num) [nth i X []] [nth i adj []])
        with [vmap2 (fun x a => (x - eps * a)%num) (nth i X []) (nth i adj [])].
      f_equal. rewrite EX. unfold mmap2. apply nth_error_nth. rewrite nth_error_vmap2.
      assert (L : i < length adj).
      { enough (length adj >= n) by lia. rewrite <- LX'. rewrite EX. unfold mmap2, vmap2.
        rewrite map_length, combine_length. lia. }
      rewrite (nth_error_nth' X [] (n := i)) by lia. now rewrite (nth_error_nth' adj [] L).
    + (* OStack *) destruct i; [|contradiction]. cbn [G svgd_op inputs compute].
      rewrite map_map. change (sol (Node OStack 0)) with X.
      transitivity (concat (map (fun j => [nth j X []]) (seq 0 n))); [rewrite <- LX; symmetry; apply concat_rows|].
      f_equal.
      apply map_ext. intros j. now rewrite expected_mval by reflexivity.
    + reflexivity.
    + destruct i; [|contradiction]. cbn [G svgd_op inputs compute map nth].
      rewrite expected_mval by reflexivity. exact EH.
    + destruct i; [|contradiction]. reflexivity.
  - destruct v; try contradiction; try reflexivity.
  - reflexivity.
Qed.

Theorem svgd_determinate : forall l, schedule G nodes l ->
  let s := run_order gnode_eq gvar_eq G l (svgd_start X Hs) in
  (forall i, i < n -> mem s (XParam, i) = [nth i X' []]) /\
  mem s (XHist, 0) = Hs' /\ out s Cost = cost_fun X.
Proof.
  intros l S s.
  destruct (determinate gnode_eq gvar_eq G nodes m0 sol seen (fun _ => True)) with (l := l) (s0 := svgd_start X Hs)
    as (DO & DM & _); auto.
  - intros k k' x Wk Wk'. apply svgd_writer in Wk as [[E ->]|(E & _ & ->)];
      apply svgd_writer in Wk' as [[E' ->]|(E' & _ & ->)]; auto; subst x; discriminate.
  - intros k Hk _. split; [|split]; auto.
    + intros x Hx. now apply svgd_views.
    + now apply svgd_equation.
  - fold s in DO, DM. split; [|split].
    + intros i Hi. apply (DM (Node OTheta i)). split; [now apply in_svgd_nodes|reflexivity].
    + apply (DM (Node OHist 0)). split; [now apply in_svgd_nodes|reflexivity].
    + apply (DO Cost); auto. now apply in_svgd_nodes.
Qed.
End SV.
