(** Concrete cases for the theorems of PPredict.v. *)
From Coq Require Import String List Arith Lia ZArith Bool Reals Lra.
From Verif.Base Require Import Py Num Vec.
From Verif.Model Require Import BaseClasses TensorUtils BaseModel BNN.
From Verif.Spec Require Import Svgd Stats.
From Verif.Props Require Import PBNNDemo PPredict.
Import ListNotations.
Local Open Scope list_scope.

(** Two nets predicting 2 and 4 everywhere, trained as in PBNNDemo.v. *)
Definition two_nets : list (list R) := [repeat (nint 2) 5; repeat (nint 4) 5].
Definition two_noises : list (list R) := [repeat (exp n0) 5; repeat (exp n0) 5].
Example C53_example : predict nat demo_value (demo_config 2 9 1 2 false false) (Matrix demo_X) true (t_bnn nat demo_schedule t1) 0 =
  Ok (Individual two_nets two_noises) /\ matrix 5 two_nets.
Proof.
  split; [lazy -[IZR Rdiv exp]; reflexivity|]. split; [discriminate|]. repeat constructor.
Qed.
(** Mean 3 and variance 1, although the total variance is 2. *)
Example C53_values : exists m v,
  predict nat demo_value (demo_config 2 9 1 2 false false) (Matrix demo_X) false (t_bnn nat demo_schedule t1) 0 = Ok (Aggregate m v) /\
  (nth 0 m 0 = 3 /\ nth 0 v 0 = 1 /\ total_variance two_nets two_noises 0 = 2)%R.
Proof.
  destruct C53_example as [E M].
  destruct (C53_aggregate_of_individual nat demo_value _ _ _ _ 5 _ _ E M) as (m & v & E' & _ & _ & J).
  exists m, v. split; [exact E'|]. destruct (J 0 ltac:(lia)) as (A & B & _). rewrite A, B.
  unfold total_variance, variance, mean, column, two_nets, two_noises. cbn [map nth repeat combine Rsum length INR].
  rewrite !nint_R, n0_R, exp_0. repeat split; field.
Qed.

(** C57, C61: values away from the optimum. *)
Local Open Scope R_scope.
Example C57_example : log_variance_prior_log_like [[0]; [1]] 1 (/ 100) < - INR 1 / 2 * ln (/ 100) /\
  weight_prior_log_like [{| shape := [2%nat]; data := [1; 0] |}] 1 < 0.
Proof.
  split.
  - destruct (C57_log_variance_prior [[0]; [1]] 1 (/ 100) 1) as [L E]; try lra; [discriminate|repeat constructor|].
    destruct L as [L|L]; [exact L|]. apply E in L. inversion L as [|? ? _ L2]; subst. inversion L2 as [|? ? L3 _]; subst. inversion L3 as [|? ? L4 _]; subst.
    exfalso. pose proof (exp_ineq1 1 ltac:(lra)). lra.
  - destruct (C57_weight_prior [{| shape := [2%nat]; data := [1; 0] |}] 1) as (L & E & _); try lra; [repeat constructor|cbn; lia|].
    destruct L as [L|L]; [exact L|]. apply E in L; [|lra]. cbn in L. inversion L; subst. lra.
Qed.
Example C61_example : default_net [[1]] [0] [[1]] [0] [[1]] [0] [[2]] [1] (-3) [[0]; [5]] <> [] /\
  forall r, In r (default_net [[1]] [0] [[1]] [0] [[1]] [0] [[2]] [1] (-3) [[0]; [5]]) -> nth 1 r 0 = -3 /\ Rabs (nth 0 r 0) <= 3.
Proof.
  split; [discriminate|]. destruct (C61_default_net [[1]] [0] [[1]] [0] [[1]] [0] [[2]] 1 (-3)) as (f & E & B).
  rewrite E. intros r Hr. apply in_map_iff in Hr as (x & <- & _). cbn [nth]. split; [reflexivity|].
  specialize (B x). cbn in B. rewrite (Rabs_pos_eq 2), (Rabs_pos_eq 1) in B by lra. lra.
Qed.
