(** Executions of a dataflow graph whose conflicting accesses are ordered by
    dependencies: every schedule gives the same result. *)
From Coq Require Import List Arith Bool Lia.
From Verif.Base Require Import Py Num Vec.
From Verif.Model Require Import Graph.
Import ListNotations.

Section D.
Context {node var value : Type}.
Variable node_eq : forall a b : node, {a = b} + {a <> b}.
Variable var_eq : forall a b : var, {a = b} + {a <> b}.
Variable G : graph node var value.
Variable nodes : list node.

(** [k] is a (transitive) dependency of [k']. *)
Inductive before : node -> node -> Prop :=
| before_one : forall k k', In k (deps (G k')) -> before k k'
| before_trans : forall k k' k'', before k k' -> In k' (deps (G k'')) -> before k k''.

Lemma before_compose : forall a b c, before a b -> before b c -> before a c.
Proof.
  intros a b c H1 H2. induction H2 as [b c D|b c e B IH D].
  - exact (before_trans a b c H1 D).
  - exact (before_trans a c e (IH H1) D).
Qed.

(** Values of the ops and of the variables at the ops' executions, to be shown the only
    ones possible. [good] ops are those with determined values. *)
Variable m0 : var -> value.
Variable sol : node -> value.
Variable seen : node -> var -> value.
Variable good : node -> Prop.

Definition writes (w : node) (x : var) : Prop := In w nodes /\ target (G w) = Some x.
Definition view (k : node) (x : var) : Prop :=
  (exists w, writes w x /\ before w k /\ seen k x = sol w) \/
  (seen k x = m0 x /\ forall w, writes w x -> w = k \/ before k w).

Definition expected (k : node) (i : input node var value) : value :=
  match i with Var x => seen k x | Out d => sol d | Fed v => v end.

Hypothesis single : forall k k' x, writes k x -> writes k' x -> k = k'.
Hypothesis good_ok : forall k, In k nodes -> good k ->
  (forall x, In (Var x) (inputs (G k)) -> view k x) /\
  (forall d, In (Out d) (inputs (G k)) -> good d) /\
  sol k = compute (G k) (map (expected k) (inputs (G k))).
Hypothesis bad_ok : forall k, In k nodes -> good k \/ target (G k) = None.

Definition done (l : list node) (s : exec node var value) : Prop :=
  (forall k, In k l -> good k -> out s k = sol k) /\
  (forall x, (exists w, In w l /\ writes w x /\ mem s x = sol w) \/
             ((forall w, In w l -> ~ writes w x) /\ mem s x = m0 x)).

Lemma closed_prefix : forall l, (forall l1 k l2, l = l1 ++ k :: l2 -> incl (deps (G k)) l1) ->
  forall w k, before w k -> forall l1 l2, l = l1 ++ k :: l2 -> In w l1.
Proof.
  intros l C w k B. induction B as [k k' D | k k' k'' B IH D]; intros l1 l2 E.
  - exact (C _ _ _ E _ D).
  - pose proof (C _ _ _ E _ D) as D1. apply in_split in D1 as (a & b & ->).
    rewrite <- app_assoc in E. cbn in E. pose proof (IH _ _ E) as Hin. apply in_or_app. now left.
Qed.

Lemma determinate_prefix : forall l s0, mem s0 = m0 ->
  schedule G nodes l ->
  forall l1 l2, l = l1 ++ l2 -> done l1 (run_order node_eq var_eq G l1 s0).
Proof.
  intros l s0 M0 (ND & Hin & C). induction l1 as [|k l1 IH] using rev_ind; intros l2 E.
  - split; [intros k []|]. intros x. right. split; [intros w []|]. cbn. now rewrite M0.
  - rewrite <- app_assoc in E. cbn in E. specialize (IH _ E). destruct IH as [IO IM].
    unfold run_order. rewrite fold_left_app. cbn [fold_left].
    fold (run_order node_eq var_eq G l1 s0). set (s := run_order node_eq var_eq G l1 s0) in *.
    assert (Kn : In k nodes).
    { apply Hin. rewrite E. apply in_or_app. right. now left. }
    assert (Kl : ~ In k l1).
    { rewrite E in ND. apply NoDup_remove_2 in ND. intros Hk. apply ND. apply in_or_app. now left. }
    assert (OK : good k -> sol k = compute (G k) (map (fetch s) (inputs (G k)))).
    { intros Gk. destruct (good_ok k Kn Gk) as (V & Dg & ->). f_equal. apply map_ext_in.
      intros [x|d|v] Hi; cbn [expected fetch]; auto.
      - destruct (V x Hi) as [(w & Ww & Bw & Es)|[Es Aw]].
        + pose proof (closed_prefix l C w k Bw _ _ E) as Hw.
          destruct (IM x) as [(w' & Hw' & Ww' & Em)|[Nw _]].
          * rewrite Em, Es. f_equal. apply (single w w' x); auto.
          * exfalso. apply (Nw w Hw Ww).
        + destruct (IM x) as [(w & Hw & Ww & _)|[_ Em]].
          * exfalso. destruct (Aw w Ww) as [->|Bw]; [auto|].
            apply in_split in Hw as (a & b & Ea). rewrite Ea in E. rewrite <- app_assoc in E. cbn in E.
            pose proof (closed_prefix l C k w Bw _ _ E) as Hk. apply Kl. rewrite Ea.
            apply in_or_app. now left.
          * now rewrite Es, Em.
      - symmetry. apply IO; [|now apply Dg]. apply (C _ _ _ E). unfold deps. apply in_or_app. right.
        unfold out_deps. apply in_flat_map. exists (Out d). split; [auto|now left]. }
    split.
    + intros k' Hk' Gk'. unfold execute. cbn [out]. destruct (node_eq k' k) as [->|N].
      * symmetry. now apply OK.
      * apply IO; auto. apply in_app_or in Hk' as [|[->|[]]]; [auto|now destruct N].
    + intros x. unfold execute. cbn [mem]. destruct (target (G k)) as [y|] eqn:Ty.
      * destruct (var_eq x y) as [->|N].
        -- left. exists k. split; [apply in_or_app; right; now left|]. split; [split; auto|].
           destruct (bad_ok k Kn) as [Gk|Tn]; [|congruence]. symmetry. now apply OK.
        -- destruct (IM x) as [(w & Hw & Ww & Em)|[Nw Em]].
           ++ left. exists w. split; [apply in_or_app; now left|]. auto.
           ++ right. split; auto. intros w Hw Ww. apply in_app_or in Hw as [Hw|[<-|[]]].
              ** exact (Nw w Hw Ww).
              ** destruct Ww as [_ Tw]. congruence.
      * destruct (IM x) as [(w & Hw & Ww & Em)|[Nw Em]].
        -- left. exists w. split; [apply in_or_app; now left|]. auto.
        -- right. split; auto. intros w Hw Ww. apply in_app_or in Hw as [Hw|[<-|[]]].
           ++ exact (Nw w Hw Ww).
           ++ destruct Ww as [_ Tw]. congruence.
Qed.

Theorem determinate : forall l s0, mem s0 = m0 -> schedule G nodes l ->
  let s := run_order node_eq var_eq G l s0 in
  (forall k, In k nodes -> good k -> out s k = sol k) /\
  (forall w x, writes w x -> mem s x = sol w) /\
  (forall x, (forall w, ~ writes w x) -> mem s x = m0 x).
Proof.
  intros l s0 M0 S s. destruct (determinate_prefix l s0 M0 S l [] (eq_sym (app_nil_r l))) as [IO IM].
  fold s in IO, IM. destruct S as (ND & Hin & C). split; [|split].
  - intros k Hk. apply IO. now apply Hin.
  - intros w x Ww. destruct (IM x) as [(w' & Hw' & Ww' & Em)|[Nw _]].
    + rewrite Em. f_equal. apply (single w' w x); auto.
    + exfalso. apply (Nw w); auto. apply Hin. apply Ww.
  - intros x Nx. destruct (IM x) as [(w' & Hw' & Ww' & Em)|[_ Em]]; auto. exfalso. now apply (Nx w').
Qed.
End D.
