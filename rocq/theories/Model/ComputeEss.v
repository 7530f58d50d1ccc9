(** Model of docs/source/experiments/compute_ess.py: effective sample sizes of a sampler for a range of
    stepsizes.  Command line parsing (37-129) is not modelled: the arguments are given with their types.
    Stepsizes are real numbers. *)
From Coq Require Import String List Arith ZArith Reals Bool.
From Verif.Base Require Import Py.
From Verif.Model Require Import SampleChains.
Import ListNotations.
Local Open Scope list_scope.

Record ess_args := EssArgs {
  e_benchmark : string; e_sampler : string;
  e_n_iterations : Z; e_n_chains : Z; e_samples_per_chain : Z; e_keep_every : Z;
  e_min : R; e_max : R; e_step : R; e_stepsize : option R; e_output : string
}.

Definition rleb (a b : R) : bool := if Rle_dec a b then true else false.
Definition rltb (a b : R) : bool := if Rlt_dec a b then true else false.
Definition reqb (a b : R) : bool := if Req_EM_T a b then true else false.

(** np.arange(start, stop, step): ceil((stop - start) / step) values. *)
Definition ceil (x : R) : Z := (- Int_part (- x))%Z.
Definition np_arange (start stop step : R) : list R :=
  map (fun i => (start + INR i * step)%R) (seq 0 (Z.to_nat (ceil ((stop - start) / step)%R))).

Definition mem (x : string) (l : list string) : bool := existsb (String.eqb x) l.

Section S.
Context {T W E : Type}.

(** itertools.islice(it, 0, stop, step) run to its end, as in CPython: [cnt] elements were consumed, the next
    one wanted has index [next]; elements in between are consumed and dropped, also behind the
    last one wanted, up to [stop].  [fuel] is stop - cnt. *)
Fixpoint islice (nx : W -> res (pv T * T) * W) (fuel cnt next stop step : nat) (w : W) : res (list (pv T)) * W :=
  match fuel with
  | 0 => (Ok [], w)
  | S fuel' =>
      match nx w with
      | (Ok (s, _), w1) =>
          if cnt <? next then islice nx fuel' (S cnt) next stop step w1
          else match islice nx fuel' (S cnt) (Nat.min (next + step) stop) stop step w1 with
               | (Ok l, w2) => (Ok (s :: l), w2)
               | (Raise e, w2) => (Raise e, w2)
               end
      | (Raise StopIteration, w1) => (Ok [], w1)
      | (Raise e, w1) => (Raise e, w1)
      end
  end.

(** extract_samples, 177-183.  The conversion to an array is not modelled. *)
Definition extract_samples (s : sampler T W) (n_samples keep_every : nat) (w : W) : res (list (pv T)) * W :=
  let n_iterations := n_samples * keep_every in
  islice (s_next s) n_iterations 0 0 n_iterations keep_every w.

Definition varnames_of (benchmark : string) : list string :=
  if String.eqb benchmark "banana" then ["x"; "y"]%string else ["x"]%string.        (* 216-224 *)

(** The loop over chains, 238-245. *)
Fixpoint chains (s : sampler T W) (names : list string) (ids : list nat) (spc : nat) (w : W) : res (list (trace T)) * W :=
  match ids with
  | [] => (Ok [], w)
  | i :: ids' =>
      match extract_samples s spc 10 w with                               (* 239-241 *)
      | (Raise e, w1) => (Raise e, w1)
      | (Ok smp, w1) =>
          match new_trace i smp (Some names) with                         (* 242-244 *)
          | Raise e => (Raise e, w1)
          | Ok t => match chains s names ids' spc w1 with
                    | (Ok ts, w2) => (Ok (t :: ts), w2)
                    | (Raise e, w2) => (Raise e, w2)
                    end
          end
      end
  end.

(** Graph, session, sampler and initialization for a benchmark, sampler name and stepsize, 212-234 *)
Variable make : string -> string -> R -> W -> res (sampler T W) * W.
(** np.mean(list(ess(multi_trace).values())), 248 *)
Variable mean_ess : list (nat * trace T) -> res E.

(** The body of the loop over stepsizes, 212-250. *)
Definition one_stepsize (a : ess_args) (eps : R) (w : W) : res E * W :=
  match make (e_benchmark a) (e_sampler a) eps w with
  | (Raise e, w1) => (Raise e, w1)
  | (Ok s, w1) =>
      match chains s (varnames_of (e_benchmark a)) (seq 0 (Z.to_nat (e_n_chains a))) (Z.to_nat (e_samples_per_chain a)) w1 with
      | (Raise e, w2) => (Raise e, w2)
      | (Ok ts, w2) => (do m <- multi_trace ts; mean_ess m, w2)           (* 246-248 *)
      end
  end.

(** ess_vals[stepsize].append(v) on a defaultdict(list), 208, 250: the dictionary in order of insertion. *)
Fixpoint add_value (k : R) (v : E) (d : list (R * list E)) : list (R * list E) :=
  match d with
  | [] => [(k, [v])]
  | (k', vs) :: d' => if reqb k k' then (k', vs ++ [v]) :: d' else (k', vs) :: add_value k v d'
  end.

(** The loops of 210-211, unrolled into one list of stepsizes. *)
Fixpoint all_stepsizes (a : ess_args) (l : list R) (d : list (R * list E)) (w : W) : res (list (R * list E)) * W :=
  match l with
  | [] => (Ok d, w)
  | eps :: l' =>
      match one_stepsize a eps w with
      | (Ok v, w1) => all_stepsizes a l' (add_value eps v d) w1
      | (Raise e, w1) => (Raise e, w1)
      end
  end.

Definition stepsizes (a : ess_args) : list R :=
  match e_stepsize a with
  | None => np_arange (e_min a) (e_max a) (e_step a)                      (* 201-204 *)
  | Some eps => [eps]                                                     (* 206 *)
  end.

(** open(path, "w") and json.dump, 252-253 *)
Variable write : string -> list (R * list E) -> W -> res unit * W.

(** The checks, 150-197, in order. *)
Definition check_args (a : ess_args) : res unit :=
  if negb (mem (e_benchmark a) ["banana"; "gmm1"; "gmm2"; "gmm3"]%string) then Raise ValueError else    (* 150-155 *)
  do _ <- assert_ (1 <=? e_n_iterations a)%Z;                             (* 160 *)
  do _ <- assert_ (2 <=? e_n_chains a)%Z;                                 (* 163 *)
  do _ <- assert_ (1 <=? e_samples_per_chain a)%Z;                        (* 166 *)
  do _ <- assert_ (1 <=? e_keep_every a)%Z;                               (* 169 *)
  do _ <- assert_ (rleb (e_min a) (e_max a));                             (* 187 *)
  do _ <- assert_ (rleb 0 (e_min a));                                     (* 188 *)
  do _ <- assert_ (rltb 0 (e_step a));                                    (* 189 *)
  assert_ (mem (e_sampler a) ["RelativisticSGHMC"; "SGHMC"; "SGLD"]%string).   (* 197 *)

(** main, 150-253 *)
Definition main (a : ess_args) (w : W) : res unit * W :=
  match check_args a with
  | Raise e => (Raise e, w)
  | Ok _ =>
      match all_stepsizes a (concat (repeat (stepsizes a) (Z.to_nat (e_n_iterations a)))) [] w with   (* 210-250 *)
      | (Raise e, w1) => (Raise e, w1)
      | (Ok d, w1) => write ("/home/freidanm/cluster_utils/results/" ++ e_output a)%string d w1
      end
  end.
End S.
