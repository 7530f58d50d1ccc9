(** C34: the order in which the executor runs the ops of a sampler step. *)
From Coq Require Import List Arith ZArith Bool Lia Reals Lra.
From Verif.Base Require Import Py Num Vec.
From Verif.Model Require Import TensorUtils BurnIn SGHMC SGLD Relativistic SVGD Stepsize BaseClasses
  Session Graph.
From Verif.Proofs Require Import Determinacy Graphs.
From Verif.Spec Require Import Svgd.
From Verif.Props Require Import PSVGD.
Import ListNotations.

Section C34.
Context {T : Type} `{Num T}.

(** Parameters whose gradients each read that parameter only: any order gives the
    sequential step, whatever way variables are read. *)
Theorem C34_sghmc_separable :
  forall (c : config T) (eps : T) (xi : nat -> list T) (fed : nat -> option (list T))
         (grad_reads : nat -> list nat) (grad_fun : nat -> list (list T) -> list T)
         (cost_reads : list nat) (cost_fun : list (list T) -> list T)
         (n : nat) (ps : nat -> pstate T) (l : list gnode),
  (forall i j, i < n -> In j (grad_reads i) -> j = i) ->
  let G := sghmc_graph false eps xi fed grad_reads grad_fun cost_reads cost_fun c in
  schedule G (sghmc_nodes false grad_reads cost_reads n) l ->
  let s := run_order gnode_eq gvar_eq G l (start (sghmc_mem ps)) in
  forall i, i < n ->
  sghmc_in (mem s) (shape (p_val (ps i))) i =
  sghmc_step c eps (grad_fun i (map (fun j => data (p_val (ps j))) (grad_reads i))) (xi i) (fed i) (ps i).
Proof.
  intros c eps xi fed gr gf cr cf n ps l Hsep G S s.
  exact (proj1 (sghmc_determinate false eps xi fed gr gf cr cf c n ps Hsep l S)).
Qed.

(** Reads that are snapshots: any order gives the sequential step and the cost before the
    step, for coupled parameters too, provided every parameter that is read is also
    read by its own gradient. *)
Theorem C34_sghmc_snapshot :
  forall (c : config T) (eps : T) (xi : nat -> list T) (fed : nat -> option (list T))
         (grad_reads : nat -> list nat) (grad_fun : nat -> list (list T) -> list T)
         (cost_reads : list nat) (cost_fun : list (list T) -> list T)
         (n : nat) (ps : nat -> pstate T) (l : list gnode),
  (forall j, (In j cost_reads \/ exists i, i < n /\ In j (grad_reads i)) -> j < n /\ In j (grad_reads j)) ->
  let G := sghmc_graph true eps xi fed grad_reads grad_fun cost_reads cost_fun c in
  schedule G (sghmc_nodes true grad_reads cost_reads n) l ->
  let s := run_order gnode_eq gvar_eq G l (start (sghmc_mem ps)) in
  (forall i, i < n ->
     sghmc_in (mem s) (shape (p_val (ps i))) i =
     sghmc_step c eps (grad_fun i (map (fun j => data (p_val (ps j))) (grad_reads i))) (xi i) (fed i) (ps i)) /\
  out s Cost = cost_fun (map (fun j => data (p_val (ps j))) cost_reads).
Proof.
  intros c eps xi fed gr gf cr cf n ps l Hs G S s.
  destruct (sghmc_determinate true eps xi fed gr gf cr cf c n ps
              (fun j Hj => Hs j (proj1 (in_read_params gr cr n j) Hj)) l S) as [A B].
  split; [exact A|now apply B].
Qed.

Theorem C34_sgld_separable :
  forall (c : lconfig T) (eps : T) (xi : nat -> list T) (fed : nat -> option (list T))
         (grad_reads : nat -> list nat) (grad_fun : nat -> list (list T) -> list T)
         (cost_reads : list nat) (cost_fun : list (list T) -> list T)
         (n : nat) (ps : nat -> lstate T) (l : list gnode),
  (forall i j, i < n -> In j (grad_reads i) -> j = i) ->
  let G := sgld_graph false eps xi fed grad_reads grad_fun cost_reads cost_fun c in
  schedule G (sgld_nodes false grad_reads cost_reads n) l ->
  let s := run_order gnode_eq gvar_eq G l (start (sgld_mem ps)) in
  forall i, i < n ->
  sgld_in (mem s) (shape (l_val (ps i))) i =
  sgld_step c eps (grad_fun i (map (fun j => data (l_val (ps j))) (grad_reads i))) (xi i) (fed i) (ps i).
Proof.
  intros c eps xi fed gr gf cr cf n ps l Hsep G S s.
  exact (proj1 (sgld_determinate false eps xi fed gr gf cr cf c n ps Hsep l S)).
Qed.

Theorem C34_sgld_snapshot :
  forall (c : lconfig T) (eps : T) (xi : nat -> list T) (fed : nat -> option (list T))
         (grad_reads : nat -> list nat) (grad_fun : nat -> list (list T) -> list T)
         (cost_reads : list nat) (cost_fun : list (list T) -> list T)
         (n : nat) (ps : nat -> lstate T) (l : list gnode),
  (forall j, (In j cost_reads \/ exists i, i < n /\ In j (grad_reads i)) -> j < n /\ In j (grad_reads j)) ->
  let G := sgld_graph true eps xi fed grad_reads grad_fun cost_reads cost_fun c in
  schedule G (sgld_nodes true grad_reads cost_reads n) l ->
  let s := run_order gnode_eq gvar_eq G l (start (sgld_mem ps)) in
  (forall i, i < n ->
     sgld_in (mem s) (shape (l_val (ps i))) i =
     sgld_step c eps (grad_fun i (map (fun j => data (l_val (ps j))) (grad_reads i))) (xi i) (fed i) (ps i)) /\
  out s Cost = cost_fun (map (fun j => data (l_val (ps j))) cost_reads).
Proof.
  intros c eps xi fed gr gf cr cf n ps l Hs G S s.
  destruct (sgld_determinate true eps xi fed gr gf cr cf c n ps
              (fun j Hj => Hs j (proj1 (in_read_params gr cr n j) Hj)) l S) as [A B].
  split; [exact A|now apply B].
Qed.

(** The relativistic sampler uses no control dependencies; its data dependencies
    suffice under the same conditions. *)
Theorem C34_relativistic_separable :
  forall (c : rconfig T) (eps : T) (xi : nat -> list T)
         (grad_reads : nat -> list nat) (grad_fun : nat -> list (list T) -> list T)
         (cost_reads : list nat) (cost_fun : list (list T) -> list T)
         (n : nat) (ps : nat -> rstate T) (l : list gnode),
  (forall i j, i < n -> In j (grad_reads i) -> j = i) ->
  let G := rel_graph false eps xi grad_reads grad_fun cost_reads cost_fun c in
  schedule G (rel_nodes false grad_reads cost_reads n) l ->
  let s := run_order gnode_eq gvar_eq G l (start (rel_mem ps)) in
  forall i, i < n ->
  rel_in (mem s) (shape (r_val (ps i))) i =
  rel_step c eps (map nopp (grad_fun i (map (fun j => data (r_val (ps j))) (grad_reads i)))) (xi i) (ps i).
Proof.
  intros c eps xi gr gf cr cf n ps l Hsep G S s.
  exact (proj1 (rel_determinate false eps xi gr gf cr cf c n ps Hsep l S)).
Qed.

Theorem C34_relativistic_snapshot :
  forall (c : rconfig T) (eps : T) (xi : nat -> list T)
         (grad_reads : nat -> list nat) (grad_fun : nat -> list (list T) -> list T)
         (cost_reads : list nat) (cost_fun : list (list T) -> list T)
         (n : nat) (ps : nat -> rstate T) (l : list gnode),
  (forall j, (In j cost_reads \/ exists i, i < n /\ In j (grad_reads i)) -> j < n /\ In j (grad_reads j)) ->
  let G := rel_graph true eps xi grad_reads grad_fun cost_reads cost_fun c in
  schedule G (rel_nodes true grad_reads cost_reads n) l ->
  let s := run_order gnode_eq gvar_eq G l (start (rel_mem ps)) in
  (forall i, i < n ->
     rel_in (mem s) (shape (r_val (ps i))) i =
     rel_step c eps (map nopp (grad_fun i (map (fun j => data (r_val (ps j))) (grad_reads i)))) (xi i) (ps i)) /\
  out s Cost = cost_fun (map (fun j => data (r_val (ps j))) cost_reads).
Proof.
  intros c eps xi gr gf cr cf n ps l Hs G S s.
  destruct (rel_determinate true eps xi gr gf cr cf c n ps
              (fun j Hj => Hs j (proj1 (in_read_params gr cr n j) Hj)) l S) as [A B].
  split; [exact A|now apply B].
Qed.

(** SVGD stacks its particles first and everything else reads the stack: any order
    gives the sequential step and the cost before the step, without conditions. *)
Theorem C34_svgd : forall (NT : NumT T) (snapshots : bool) (c : sconfig T) (eps : T) (n d : nat)
    (cost_fun lnpgrad : list (list T) -> list (list T)) (X Hs X' Hs' : list (list T)) (l : list gnode),
  length X = n -> length X' = n ->
  svgd_step c eps n d X (lnpgrad X) Hs = Ok (X', Hs') ->
  let G := svgd_op snapshots c eps n d cost_fun lnpgrad in
  schedule G (svgd_nodes snapshots n) l ->
  let s := run_order gnode_eq gvar_eq G l (svgd_start X Hs) in
  (forall i, i < n -> mem s (XParam, i) = [nth i X' []]) /\
  mem s (XHist, 0) = Hs' /\ out s Cost = cost_fun X.
Proof.
  intros. eapply svgd_determinate; eauto.
Qed.

End C34.

(** *** Examples and counterexamples *)

Fixpoint deps_ok {value} (G : graph gnode gvar value) (past l : list gnode) : bool :=
  match l with
  | [] => true
  | k :: l' => forallb (fun d => existsb (fun x => if gnode_eq d x then true else false) past) (deps (G k))
               && deps_ok G (past ++ [k]) l'
  end.
Lemma deps_ok_incl : forall value (G : graph gnode gvar value) l past, deps_ok G past l = true ->
  forall l1 k l2, l = l1 ++ k :: l2 -> incl (deps (G k)) (past ++ l1).
Proof.
  intros value G. induction l as [|x l IH]; intros past E l1 k l2 Hl; [now destruct l1|].
  cbn in E. apply andb_prop in E as [E1 E2]. destruct l1 as [|y l1]; cbn in Hl; injection Hl as -> ->.
  - rewrite app_nil_r. intros d Hd. rewrite forallb_forall in E1. specialize (E1 d Hd).
    apply existsb_exists in E1 as (z & Hz & E1). now destruct (gnode_eq d z) as [->|].
  - specialize (IH _ E2 l1 k l2 eq_refl). rewrite <- app_assoc in IH. exact IH.
Qed.
Definition mem_b (k : gnode) (l : list gnode) : bool :=
  existsb (fun x => if gnode_eq k x then true else false) l.
Lemma mem_b_in : forall k l, mem_b k l = true -> In k l.
Proof.
  intros k l E. apply existsb_exists in E as (z & Hz & E). now destruct (gnode_eq k z) as [->|].
Qed.
Fixpoint nodup_b (l : list gnode) : bool :=
  match l with [] => true | k :: l' => negb (mem_b k l') && nodup_b l' end.
Lemma nodup_b_ok : forall l, nodup_b l = true -> NoDup l.
Proof.
  induction l as [|k l IH]; intros E; constructor; cbn in E; apply andb_prop in E as [E1 E2]; auto.
  intros Hk. assert (mem_b k l = true).
  { apply existsb_exists. exists k. split; auto. now destruct (gnode_eq k k). }
  rewrite H in E1. discriminate.
Qed.
Lemma schedule_by_check : forall value (G : graph gnode gvar value) nodes l,
  nodup_b l && forallb (fun k => mem_b k nodes) l && forallb (fun k => mem_b k l) nodes && deps_ok G [] l = true ->
  schedule G nodes l.
Proof.
  intros value G nodes l E. apply andb_prop in E as [E D]. apply andb_prop in E as [E B].
  apply andb_prop in E as [N A]. rewrite forallb_forall in A, B.
  split; [now apply nodup_b_ok|]. split.
  - intros k. split; intros Hk; apply mem_b_in; auto.
  - intros l1 k l2 El. exact (deps_ok_incl value G l [] D l1 k l2 El).
Qed.

(** The ops of parameter [i] after its gradient, in program order and in another order. *)
Notation updates i := [Node OR i; Node OTau i; Node OMinv i; Node OG i; Node OVhat i; Node ONoise i;
                       Node OMom i; Node OVec i; Node OTheta i].
Notation updates' i := [Node OR i; Node OMinv i; Node OTau i; Node OVhat i; Node OG i; Node ONoise i;
                        Node OMom i; Node OVec i; Node OTheta i].

(** Two one-element parameters at 1, stepsize 1, no noise, unit inverse mass. *)
Notation ones := (fun _ : nat => pinit (T := R) (Tensor [] [1%R])).
Notation unit_conf := {| mdecay := 1%R; scale_grad := 1%R |}.
Notation xi0 := (fun _ : nat => [0%R]).
Notation fed1 := (fun _ : nat => Some [1%R]).

(** Separable: cost (a^2 + b^2) / 2.  The second parameter is updated completely before the
    first one's gradient is computed. *)
Notation sep_reads := (fun i : nat => [i]).
Notation sep_grad := (fun (_ : nat) (v : list (list R)) => nth 0 v []).
Notation sep_graph := (sghmc_graph (T := R) false 1%R xi0 fed1 sep_reads sep_grad [0; 1] (fun v => nth 0 v []) unit_conf).
Notation sep_order := (Node OGrad 1 :: updates' 1 ++ Node OGrad 0 :: updates 0 ++ [Cost]).
Example C34_separable_example :
  schedule sep_graph (sghmc_nodes false sep_reads [0; 1] 2) sep_order /\
  forall i, i < 2 -> forall j, In j (sep_reads i) -> j = i.
Proof.
  split; [apply schedule_by_check; reflexivity|]. intros i _ j [<-|[]]. reflexivity.
Qed.

Example C34_sgld_example :
  schedule (sgld_graph (T := R) false 1%R xi0 fed1 sep_reads sep_grad [0; 1] (fun v => nth 0 v [])
              {| l_A := 1%R; l_scale_grad := 1%R |}) (sgld_nodes false sep_reads [0; 1] 2)
    ([Node OGrad 1; Node OR 1; Cost; Node OR 0; Node OMinv 1; Node OTau 1; Node OVhat 1; Node OG 1; Node ONoise 1;
      Node OVec 1; Node OTheta 1; Node OGrad 0; Node OTau 0; Node OMinv 0; Node OG 0; Node OVhat 0; Node ONoise 0;
      Node OVec 0; Node OTheta 0]).
Proof. apply schedule_by_check; reflexivity. Qed.
Example C34_relativistic_example :
  schedule (rel_graph (T := R) false 1%R xi0 sep_reads sep_grad [0; 1] (fun v => nth 0 v [])
              {| r_mass := 1%R; r_c := 1%R; r_D := 1%R; r_bhat := 0%R |}) (rel_nodes false sep_reads [0; 1] 2)
    ([Node ONoise 1; Node OGrad 1; Node OMom 1; Node OVec 1; Node OTheta 1; Node OGrad 0; Node ONoise 0;
      Cost; Node OMom 0; Node OVec 0; Node OTheta 0]).
Proof. apply schedule_by_check; reflexivity. Qed.
(** Two particles; the second is updated, then the first, then the costs are computed. *)
Example C34_svgd_example :
  let c := SConfig (9 / 10)%R (1 / 1000000)%R in
  let X := [[0; 0]; [1; 0]]%R in
  schedule (svgd_op false c (1 / 10)%R 2 2 (fun X => X) (fun _ => flat 2 2)) (svgd_nodes false 2)
    [Node OStack 0; Node OPhi 0; Node OHist 0; Node OAdj 0; Node OTheta 1; Node OTheta 0; Cost] /\
  exists X' Hs', svgd_step c (1 / 10)%R 2 2 X (flat 2 2) (flat 2 2) = Ok (X', Hs') /\ length X' = 2.
Proof.
  cbv zeta. split; [apply schedule_by_check; reflexivity|].
  destruct (step_entries (SConfig (9 / 10) (1 / 1000000))%R (1 / 10)%R [[0; 0]; [1; 0]]%R (flat 2 2) (flat 2 2) 2 2)
    as (h & X' & Hs' & _ & E & SX & _); auto using flat_shape.
  - split; [reflexivity|]. repeat constructor.
  - exists X', Hs'. split; [exact E|apply SX].
Qed.

(** Coupled: cost a^2 b^2 / 2. *)
Notation cpl_reads := (fun _ : nat => [0; 1]).
Notation cpl_grad := (fun (i : nat) (v : list (list R)) =>
  vmap2 Rmult (nth i v []) (map (fun x => x * x)%R (nth (1 - i) v []))).
Notation cpl_graph sn := (sghmc_graph (T := R) sn 1%R xi0 fed1 cpl_reads cpl_grad [0; 1] (fun v => nth 0 v []) unit_conf).
Notation cpl_order := (Node OGrad 0 :: updates 0 ++ Node OGrad 1 :: updates 1 ++ [Cost]).
Notation reads i := [Read (XTau, i); Read (XG, i); Read (XVhat, i); Read (XMom, i)].
Example C34_snapshot_example :
  schedule (cpl_graph true) (sghmc_nodes true cpl_reads [0; 1] 2)
    (Read (XParam, 0) :: Read (XParam, 1) :: reads 0 ++ reads 1 ++ cpl_order) /\
  forall j, (In j [0; 1] \/ exists i, i < 2 /\ In j (cpl_reads i)) -> j < 2 /\ In j (cpl_reads j).
Proof.
  split; [apply schedule_by_check; reflexivity|]. intros j [Hj|(i & _ & Hj)]; split; auto;
    cbn in Hj; lia.
Qed.

(** With reads of the buffers, the second gradient sees the first parameter updated: the second
    parameter stays at 1 where the sequential step moves it to 0. *)
Theorem C34_coupled_refuted :
  ~ forall (c : config R) (eps : R) xi fed grad_reads grad_fun cost_reads cost_fun n (ps : nat -> pstate R) l,
    (forall i j, i < n -> In j (grad_reads i) -> j < n) ->
    let G := sghmc_graph false eps xi fed grad_reads grad_fun cost_reads cost_fun c in
    schedule G (sghmc_nodes false grad_reads cost_reads n) l ->
    forall i, i < n ->
    mem (run_order gnode_eq gvar_eq G l (start (sghmc_mem ps))) (XParam, i) =
    data (p_val (sghmc_step c eps (grad_fun i (map (fun j => data (p_val (ps j))) (grad_reads i)))
                   (xi i) (fed i) (ps i))).
Proof.
  intros Hall.
  specialize (Hall unit_conf 1%R xi0 fed1 cpl_reads cpl_grad [0; 1] (fun v => nth 0 v []) 2 ones cpl_order).
  assert (A : forall i j, i < 2 -> In j (cpl_reads i) -> j < 2) by (intros i j _ Hj; cbn in Hj; lia).
  specialize (Hall A). cbv zeta in Hall.
  assert (S : schedule (cpl_graph false) (sghmc_nodes false cpl_reads [0; 1] 2) cpl_order)
    by (apply schedule_by_check; reflexivity).
  specialize (Hall S 1 (le_n 2)). clear A S.
  lazy -[IZR Rplus Rminus Rmult Ropp Rdiv Rinv SGHMC.sigma] in Hall.
  apply (f_equal (hd 0%R)) in Hall. cbn [hd] in Hall. lra.
Qed.

(** Snapshots do not help when a parameter's own gradient does not read it, as for the
    cost a b: the op a/read may run after a was updated. *)
Notation prod_reads := (fun i : nat => [1 - i]).
Notation prod_grad := (fun (_ : nat) (v : list (list R)) => nth 0 v []).
Notation prod_graph := (sghmc_graph (T := R) true 1%R xi0 fed1 prod_reads prod_grad [0; 1] (fun v => nth 0 v []) unit_conf).
Notation prod_order :=
  (Read (XParam, 1) :: Node OGrad 0 :: reads 0 ++ updates 0 ++
   Read (XParam, 0) :: Node OGrad 1 :: reads 1 ++ updates 1 ++ [Cost]).
Theorem C34_snapshot_refuted :
  ~ forall (c : config R) (eps : R) xi fed grad_reads grad_fun cost_reads cost_fun n (ps : nat -> pstate R) l,
    (forall j, (In j cost_reads \/ exists i, i < n /\ In j (grad_reads i)) -> j < n) ->
    let G := sghmc_graph true eps xi fed grad_reads grad_fun cost_reads cost_fun c in
    schedule G (sghmc_nodes true grad_reads cost_reads n) l ->
    forall i, i < n ->
    mem (run_order gnode_eq gvar_eq G l (start (sghmc_mem ps))) (XParam, i) =
    data (p_val (sghmc_step c eps (grad_fun i (map (fun j => data (p_val (ps j))) (grad_reads i)))
                   (xi i) (fed i) (ps i))).
Proof.
  intros Hall.
  specialize (Hall unit_conf 1%R xi0 fed1 prod_reads prod_grad [0; 1] (fun v => nth 0 v []) 2 ones prod_order).
  assert (A : forall j, (In j [0; 1] \/ exists i, i < 2 /\ In j (prod_reads i)) -> j < 2)
    by (intros j [Hj|(i & _ & Hj)]; [|destruct i]; cbn in Hj; lia).
  specialize (Hall A). cbv zeta in Hall.
  assert (S : schedule prod_graph (sghmc_nodes true prod_reads [0; 1] 2) prod_order)
    by (apply schedule_by_check; reflexivity).
  specialize (Hall S 1 (le_n 2)). clear A S.
  lazy -[IZR Rplus Rminus Rmult Ropp Rdiv Rinv SGHMC.sigma] in Hall.
  apply (f_equal (hd 0%R)) in Hall. cbn [hd] in Hall. lra.
Qed.

(** With reads of the buffers the reported cost can be that of the new sample, already
    for one parameter: here cost a^2 / 2, 0 instead of 1/2. *)
Notation one_cost := (fun v : list (list R) => map (fun x => x * x / 2)%R (nth 0 v [])).
Notation one_graph := (sghmc_graph (T := R) false 1%R xi0 fed1 sep_reads sep_grad [0] one_cost unit_conf).
Notation one_order := (Node OGrad 0 :: updates 0 ++ [Cost]).
Theorem C34_cost_refuted :
  ~ forall (c : config R) (eps : R) xi fed grad_reads grad_fun cost_reads cost_fun n (ps : nat -> pstate R) l,
    (forall i j, i < n -> In j (grad_reads i) -> j = i) ->
    (forall j, In j cost_reads -> j < n) ->
    let G := sghmc_graph false eps xi fed grad_reads grad_fun cost_reads cost_fun c in
    schedule G (sghmc_nodes false grad_reads cost_reads n) l ->
    out (run_order gnode_eq gvar_eq G l (start (sghmc_mem ps))) Cost =
    cost_fun (map (fun j => data (p_val (ps j))) cost_reads).
Proof.
  intros Hall.
  specialize (Hall unit_conf 1%R xi0 fed1 sep_reads sep_grad [0] one_cost 1 ones one_order).
  assert (A : forall i j, i < 1 -> In j (sep_reads i) -> j = i) by (intros i j _ [<-|[]]; reflexivity).
  assert (B : forall j, In j [0] -> j < 1) by (intros j Hj; cbn in Hj; lia).
  specialize (Hall A B). cbv zeta in Hall.
  assert (S : schedule one_graph (sghmc_nodes false sep_reads [0] 1) one_order)
    by (apply schedule_by_check; reflexivity).
  specialize (Hall S). clear A B S.
  lazy -[IZR Rplus Rminus Rmult Ropp Rdiv Rinv SGHMC.sigma] in Hall.
  apply (f_equal (hd 0%R)) in Hall. cbn [hd] in Hall. lra.
Qed.

(** *** The session of Model/Session.v *)
Section Session.
Context {T : Type} `{Num T}.
Variable stream : Z * Z -> nat -> T.
Variable reserve : nat -> nat.

Lemma run_params_nth : forall (K : kernel (T := T)) eps f gs ps i0 ms qs,
  run_params stream reserve K eps f i0 gs ps = Ok (ms, qs) ->
  forall k p, nth_error ps k = Some p ->
  exists g, nth_error gs k = Some g /\
  let '(xi, o') := draw stream reserve (length (data (k_value K (fst p)))) (snd p) in
  nth_error qs k = Some (k_step K eps g xi (option_map data (lookup f (KMinv (i0 + k)))) (fst p), o').
Proof.
  intros K eps f. induction gs as [|g gs IH]; intros ps i0 ms qs E k p Hk; destruct ps as [|p0 ps];
    try discriminate; try (now destruct k).
  cbn in E. destruct (run_param stream reserve K eps g (lookup f (KMinv i0)) p0) as [[m q]|e] eqn:E1; [|discriminate].
  cbn in E. destruct (run_params stream reserve K eps f (S i0) gs ps) as [[ms' qs']|e] eqn:E2; [|discriminate].
  cbn in E. apply (f_equal (fun r => match r with Ok p => p | Raise _ => ([], []) end)) in E.
  apply pair_equal_spec in E as [_ <-]. destruct k as [|k]; cbn in Hk.
  - injection Hk as ->. exists g. split; auto. rewrite Nat.add_0_r. unfold run_param in E1.
    destruct (_ && _); [|discriminate]. destruct (draw _ _ _ _) as [xi o'] eqn:Ed.
    apply (f_equal (fun r => match r with Ok p => snd p | Raise _ => q end)) in E1. cbn in E1. cbn. now rewrite E1.
  - specialize (IH _ _ _ _ E2 k p Hk). destruct IH as (g' & Hg & IH). exists g'. split; auto.
    destruct (draw _ _ _ _) as [xi o']. cbn. now rewrite <- Nat.add_succ_comm.
Qed.

(** A [session.run] of Model/Session.v for SGHMC is the result of every order of execution of
    the graph with snapshot reads: variables and reported cost. *)
Theorem C34_session_any_order :
  forall (c : config T) (obj : objective (T := T)) f (z z' : sess (sghmc_kernel c)) o (cost : T) (gs : list (list T)) (p0 : pstate T * noise_op)
         (grad_reads : nat -> list nat) (grad_fun : nat -> list (list T) -> list T)
         (cost_reads : list nat) (cost_fun : list (list T) -> list T) (l : list gnode),
  session_run_model stream reserve (sghmc_kernel c) obj f z = (Ok o, z') ->
  let n := length (z_params (sghmc_kernel c) z) in
  let ps := fun i => fst (nth i (z_params (sghmc_kernel c) z) p0) in
  let xi := fun i => fst (draw stream reserve (length (data (p_val (ps i)))) (snd (nth i (z_params (sghmc_kernel c) z) p0))) in
  let fed := fun i => option_map data (lookup f (KMinv i)) in
  let old := fun j => data (p_val (ps j)) in
  obj (values (sghmc_kernel c) z) (fun u => lookup f (KUser u)) = Ok (cost, gs) ->
  (forall i, i < n -> grad_fun i (map old (grad_reads i)) = nth i gs []) ->
  cost_fun (map old cost_reads) = [cost] ->
  (forall j, (In j cost_reads \/ exists i, i < n /\ In j (grad_reads i)) -> j < n /\ In j (grad_reads j)) ->
  let G := sghmc_graph true (fed_eps (sghmc_kernel c) f z) xi fed grad_reads grad_fun cost_reads cost_fun c in
  schedule G (sghmc_nodes true grad_reads cost_reads n) l ->
  let s := run_order gnode_eq gvar_eq G l (start (sghmc_mem ps)) in
  (forall i, i < n -> sghmc_in (mem s) (shape (p_val (ps i))) i = fst (nth i (z_params (sghmc_kernel c) z') p0)) /\
  out s Cost = data (o_cost o).
Proof.
  intros c obj f z z' o cost gs p0 gr gf cr cf l E n ps xi fed old Eo Hg Hc Hs G S s.
  destruct (C34_sghmc_snapshot c (fed_eps (sghmc_kernel c) f z) xi fed gr gf cr cf n ps l Hs S) as [A B].
  fold G in A, B. fold s in A, B.
  unfold session_run_model in E. rewrite Eo in E.
  destruct (run_params stream reserve (sghmc_kernel c) (fed_eps (sghmc_kernel c) f z) f 0 gs (z_params (sghmc_kernel c) z))
    as [[ms qs]|e] eqn:Er; [|discriminate].
  apply pair_equal_spec in E as [E1 E2].
  split.
  - intros i Hi. rewrite (A i Hi). subst z'. cbn [z_params].
    destruct (nth_error (z_params (sghmc_kernel c) z) i) as [p|] eqn:Ep; [|apply nth_error_None in Ep; unfold n in Hi; lia].
    pose proof (run_params_nth (sghmc_kernel c) _ _ _ _ _ _ _ Er i p Ep) as (g & Eg & Q).
    assert (Pi : nth i (z_params (sghmc_kernel c) z) p0 = p) by now apply nth_error_nth.
    destruct (draw stream reserve (length (data (k_value (sghmc_kernel c) (fst p)))) (snd p)) as [x o'] eqn:Ed.
    rewrite (nth_error_nth _ _ _ Q). cbn [fst].
    assert (Ex : xi i = x) by (unfold xi, ps; rewrite Pi; exact (f_equal fst Ed)).
    fold old. rewrite (Hg i Hi), (nth_error_nth _ _ _ Eg), Ex. unfold ps. rewrite Pi. reflexivity.
  - rewrite B. fold old. rewrite Hc. apply (f_equal (fun r => match r with Ok p => data (o_cost p) | Raise _ => [] end)) in E1.
    cbn in E1. now rewrite E1.
Qed.
End Session.

