(** Model of pysgmcmc/diagnostics/objective_functions.py.  Inputs are sequences
    ([x[0]], [x[1]], ...); numbers are any instance of the operations used, so the
    same definitions stand for plain Python, numpy and Tensorflow arithmetic. *)
From Coq Require Import List ZArith.
From Verif.Base Require Import Py Num.
Import ListNotations.
Local Open Scope num_scope.

Section Objectives.
Context {T : Type} `{Num T} `{NumT T}.

Notation "'lit' p '//' q" := (nfrac p%Z q%positive) (at level 30, p at level 0, q at level 0).
Notation "'num' z" := (nint z%Z) (at level 30, z at level 0).
Notation "x ^^ k" := (npow x k%nat) (at level 30).

(** [x[i]] of a tuple or list, non-negative [i]. *)
Definition item (x : list T) (i : nat) : res T :=
  match nth_error x i with Some v => Ok v | None => Raise IndexError end.

(** to_negative_log_likelihood, objective_functions.py:7-45; the arguments [A]
    stand for [*args, **kwargs]. *)
Definition to_negative_log_likelihood {A} (log_likelihood : A -> res T) : A -> res T :=
  fun a => do v <- log_likelihood a; Ok (- v).

(** banana_log_likelihood, objective_functions.py:49-59. *)
Definition banana_log_likelihood (x : list T) : res T :=
  do x0 <- item x 0; do x1 <- item x 1;
  Ok (- (lit 5 // 10) * (lit 1 // 100 * x0 ^^ 2 + (x1 + lit 1 // 10 * x0 ^^ 2 - num 10) ^^ 2)).

(** [scipy.misc.logsumexp] and [tf.reduce_logsumexp] of a non-empty list: the
    largest entry is subtracted before exponentiating and added back.  On an empty
    list scipy raises ValueError (zero-size array to reduction operation). *)
Definition maximum (a : T) (l : list T) : T := fold_right nmax a l.
Definition logsumexp (l : list T) : res T :=
  match l with
  | [] => Raise ValueError
  | a :: l' => let m := maximum a l' in Ok (nln (nsum (map (fun v => nexp (v - m)) l)) + m)
  end.

(** normldf / normldf_tf, objective_functions.py:71-73 and 79-80. *)
Definition normldf (x mu var : T) : T :=
  - (lit 5 // 10) * nln (num 2 * npi * var) - lit 5 // 10 * ((x - mu) ^^ 2) / var.

(** The argument [x]: something without [__iter__], or a sequence. *)
Inductive scalar_or_seq := Scalar (v : T) | Seq (l : list T).

(** gaussian_mixture_model_log_likelihood, objective_functions.py:62-85. *)
Definition gaussian_mixture_model_log_likelihood (x : scalar_or_seq) (mu var weights : list T) : res T :=
  do _ <- assert_ (Nat.eqb (length mu) (length var) && Nat.eqb (length var) (length weights));  (* 64 *)
  do v <- match x with
          | Scalar v => Ok v
          | Seq l => do _ <- assert_ (Nat.eqb (length l) 1); item l 0                            (* 66-68 *)
          end;
  logsumexp (map (fun '(w, (m, s)) => nln w + normldf v m s)
                 (combine weights (combine mu var))).                                            (* 75-85 *)

(** Default arguments, objective_functions.py:62-63. *)
Definition default_mu : list T := [num (-5); num 0; num 5].
Definition default_weights : list T := [num 1 / num 3; num 1 / num 3; num 1 / num 3].

(** gmm1-3, objective_functions.py:89-98. *)
Definition gmm1_log_likelihood (x : scalar_or_seq) : res T :=
  gaussian_mixture_model_log_likelihood x default_mu [num 1; num 1; num 1] default_weights.
Definition gmm2_log_likelihood (x : scalar_or_seq) : res T :=
  gaussian_mixture_model_log_likelihood x default_mu
    [num 1 / lit 5 // 10; lit 5 // 10; num 1 / lit 5 // 10] default_weights.
Definition gmm3_log_likelihood (x : scalar_or_seq) : res T :=
  gaussian_mixture_model_log_likelihood x default_mu
    [num 1 / lit 3 // 10; lit 3 // 10; num 1 / lit 3 // 10] default_weights.

(** bohachevski, objective_functions.py:107-122. *)
Definition bohachevski (x : list T) : res T :=
  do x0 <- item x 0; do x1 <- item x 1;
  let y := lit 7 // 10 + x0 ^^ 2 + num 2 * x1 ^^ 2 in
  let y := y - lit 3 // 10 * ncos (num 3 * npi * x0) in
  let y := y - lit 4 // 10 * ncos (num 4 * npi * x1) in
  Ok y.

(** branin, objective_functions.py:125-139. *)
Definition branin (x : list T) : res T :=
  do x0 <- item x 0; do x1 <- item x 1;
  let y := (x1 - (lit 51 // 10 / (num 4 * npi ^^ 2)) * x0 ^^ 2 + num 5 * x0 / npi - num 6) ^^ 2 in
  let y := y + (num 10 * (num 1 - num 1 / (num 8 * npi)) * ncos x0 + num 10) in
  Ok y.

(** camelback, objective_functions.py:142-156. *)
Definition camelback (x : list T) : res T :=
  do x0 <- item x 0; do x1 <- item x 1;
  Ok ((num 4 - lit 21 // 10 * (x0 ^^ 2) + ((x0 ^^ 4) / num 3)) * (x0 ^^ 2) + x0 * x1
      + (num (-4) + num 4 * (x1 ^^ 2)) * (x1 ^^ 2)).

(** goldstein_price, objective_functions.py:159-173. *)
Definition goldstein_price (x : list T) : res T :=
  do x0 <- item x 0; do x1 <- item x 1;
  Ok ((num 1 + (x0 + x1 + num 1) ^^ 2 *
        (num 19 - num 14 * x0 + num 3 * x0 ^^ 2 - num 14 * x1 + num 6 * x0 * x1 + num 3 * x1 ^^ 2))
      * (num 30 + (num 2 * x0 - num 3 * x1) ^^ 2 *
        (num 18 - num 32 * x0 + num 12 * x0 ^^ 2 + num 48 * x1 - num 36 * x0 * x1 + num 27 * x1 ^^ 2))).

(** The loops of hartmann3 and hartmann6, objective_functions.py:197-203 and
    228-234: [internal_sum += A[i, j] * (x[j] - P[i, j]) ** 2] with
    [P = 0.0001 * integers], then [external_sum += alpha[i] * exp(-internal_sum)].
    [d] is the number of columns. *)
Fixpoint hartmann_internal (x : list T) (row : list (T * Z)) (j : nat) (acc : T) : res T :=
  match row with
  | [] => Ok acc
  | (a, p) :: row' =>
      do xj <- item x j;
      hartmann_internal x row' (S j) (acc + a * (xj - lit 1 // 10000 * nint p) ^^ 2)
  end.
Fixpoint hartmann_external (x : list T) (rows : list (T * list (T * Z))) (acc : T) : res T :=
  match rows with
  | [] => Ok acc
  | (alpha, row) :: rows' =>
      do s <- hartmann_internal x row 0 (num 0);
      hartmann_external x rows' (acc + alpha * nexp (- s))
  end.
Definition hartmann (rows : list (T * list (T * Z))) (x : list T) : res T :=
  do s <- hartmann_external x rows (num 0); Ok (- s).

(** The tables, objective_functions.py:188-196. *)
Definition hartmann3_table : list (T * list (T * Z)) :=
  [ (num 1,       [(num 3, 3689%Z); (num 10, 1170%Z); (num 30, 2673%Z)]);
    (lit 12 // 10, [(lit 1 // 10, 4699%Z); (num 10, 4387%Z); (num 35, 7470%Z)]);
    (num 3,       [(num 3, 1090%Z); (num 10, 8732%Z); (num 30, 5547%Z)]);
    (lit 32 // 10, [(lit 1 // 10, 381%Z); (num 10, 5743%Z); (num 35, 8828%Z)]) ].
(** objective_functions.py:218-226. *)
Definition hartmann6_table : list (T * list (T * Z)) :=
  [ (num 1, [(num 10, 1312%Z); (num 3, 1696%Z); (num 17, 5569%Z); (lit 35 // 10, 124%Z);
             (lit 17 // 10, 8283%Z); (num 8, 5886%Z)]);
    (lit 12 // 10, [(lit 5 // 100, 2329%Z); (num 10, 4135%Z); (num 17, 8307%Z); (lit 1 // 10, 3736%Z);
             (num 8, 1004%Z); (num 14, 9991%Z)]);
    (num 3, [(num 3, 2348%Z); (lit 35 // 10, 1451%Z); (lit 17 // 10, 3522%Z); (num 10, 2883%Z);
             (num 17, 3047%Z); (num 8, 6650%Z)]);
    (lit 32 // 10, [(num 17, 4047%Z); (num 8, 8828%Z); (lit 5 // 100, 8732%Z); (num 10, 5743%Z);
             (lit 1 // 10, 1091%Z); (num 14, 381%Z)]) ].
(** hartmann3 and hartmann6, objective_functions.py:176-203 and 206-234. *)
Definition hartmann3 : list T -> res T := hartmann hartmann3_table.
Definition hartmann6 : list T -> res T := hartmann hartmann6_table.

(** levy, objective_functions.py:237-252. *)
Definition levy (x : list T) : res T :=
  do x0 <- item x 0;
  let z := num 1 + ((x0 - num 1) / num 4) in
  let s := (nsin (npi * z)) ^^ 2 in
  Ok (s + ((z - num 1) ^^ 2) * (num 1 + (nsin (num 2 * npi * z)) ^^ 2)).

(** rosenbrock, objective_functions.py:255-273: one iteration, since [d = 2]. *)
Definition rosenbrock (x : list T) : res T :=
  do x0 <- item x 0; do x1 <- item x 1;
  let y := num 0 + num 100 * (x1 - x0 ^^ 2) ^^ 2 in
  let y := y + (x0 - num 1) ^^ 2 in
  Ok y.

(** sin_one, objective_functions.py:276-294. *)
Definition sin_one (x : list T) : res T :=
  do x0 <- item x 0;
  Ok (lit 5 // 10 * nsin (num 13 * x0) * nsin (num 27 * x0) + lit 5 // 10).
(** sin_two, objective_functions.py:297-315. *)
Definition sin_two (x : list T) : res T :=
  do x0 <- item x 0; do x1 <- item x 1;
  Ok ((lit 5 // 10 * nsin (num 13 * x0) * nsin (num 27 * x0) + lit 5 // 10)
      * (lit 5 // 10 * nsin (num 13 * x1) * nsin (num 27 * x1) + lit 5 // 10)).

(** [numpy.sinc(t)]: sin(pi t)/(pi t), with t replaced by 1e-20 where it is 0. *)
Definition np_sinc (t : T) : T :=
  let z := if nltb t (num 0) then t else if nltb (num 0) t then t else lit 1 // 100000000000000000000 in
  let y := npi * z in nsin y / y.
(** sinc, objective_functions.py:101-102, on a matrix given by rows. *)
Definition sinc (x : list (list T)) : list T :=
  map (fun row => nsum (map (fun v => np_sinc (v * num 10 - num 5)) row)) x.

End Objectives.
Arguments scalar_or_seq : clear implicits.
Arguments Scalar {T} v.
Arguments Seq {T} l.
