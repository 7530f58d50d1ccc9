(** Model of pysgmcmc/diagnostics/sample_chains.py and sampler_diagnostics.py. *)
From Coq Require Import DecimalString String List Arith ZArith Bool.
From Verif.Base Require Import Py Slice.
Import ListNotations.
Local Open Scope list_scope.

(** [str(i)] for i >= 0 *)
Definition str (n : nat) : string := NilZero.string_of_uint (Nat.to_uint n).

Section S.
Context {T : Type}.

(** Values in traces: float scalars ([true] for numpy's float32/float64), sequences with a
    length (lists, tuples, arrays of at least one dimension; rows of an array are again values),
    anything else. *)
Inductive pv := VFloat (numpy : bool) (x : T) | VSeq (l : list pv) | VOther.

(** [v[i]] for i >= 0 *)
Definition index (v : pv) (i : nat) : res pv :=
  match v with
  | VSeq l => match nth_error l i with Some x => Ok x | None => Raise IndexError end
  | VFloat true _ => Raise IndexError
  | VFloat false _ => Raise TypeError
  | VOther => Raise TypeError
  end.

Fixpoint map_res {A B} (f : A -> res B) (l : list A) : res (list B) :=
  match l with
  | [] => Ok []
  | a :: l' => do b <- f a; do bs <- map_res f l'; Ok (b :: bs)
  end.

Record trace := Trace { chain : nat; samples : list pv; n_vars : nat; varnames : list string }.

(** PYSGMCMCTrace.__init__, sample_chains.py:19-95; [samples] is a list. *)
Definition new_trace (chain_id : nat) (smp : list pv) (names : option (list string)) : res trace :=
  match smp with
  | [] => Raise AssertionError                                            (* 63 *)
  | first :: _ =>
      do (ss, n) <- match first with
                    | VFloat _ _ => Ok (map (fun s => VSeq [s]) smp, 1)     (* 69-74 *)
                    | VSeq l => Ok (smp, length l)                         (* 76 *)
                    | VOther => Raise TypeError
                    end;
      do _ <- assert_ (1 <=? n);                                           (* 78 *)
      let ns := match names with
                | None => map str (seq 0 n)                                (* 88-90 *)
                | Some ns => ns
                end in
      do _ <- assert_ (length ns =? n);                                    (* 95 *)
      Ok (Trace chain_id ss n ns)
  end.

(** [varnames.index(name)] *)
Fixpoint name_index (name : string) (ns : list string) : option nat :=
  match ns with
  | [] => None
  | n :: ns' => if String.eqb name n then Some 0 else option_map S (name_index name ns')
  end.

(** get_values, sample_chains.py:261-335 (without the conversion to an array) *)
Definition get_values (t : trace) (name : string) (burn thin : Z) : res (list pv) :=
  match name_index name (varnames t) with
  | None => Raise ValueError                                              (* 322-329 *)
  | Some i =>                                                             (* 331 *)
      do ss <- py_slice (Slice (Some burn) None (Some thin)) (samples t);
      map_res (fun s => index s i) ss                                     (* 333-335 *)
  end.

(** __getitem__, sample_chains.py:183-212 *)
Definition getitem (t : trace) (i : pyval) : res (list pv) :=
  match as_int i with
  | None => Raise AssertionError                                          (* 209 *)
  | Some z =>
      do _ <- assert_ ((0 <=? z)%Z && (z <? Z.of_nat (length (varnames t)))%Z);   (* 210 *)
      match nth_error (varnames t) (Z.to_nat z) with
      | Some name => get_values t name 0 1                                (* 212 *)
      | None => Raise IndexError
      end
  end.

(** _slice, sample_chains.py:214-237 *)
Definition slice_trace (t : trace) (s : slice) : res trace :=
  do ss <- py_slice s (samples t);
  do ns <- py_slice s (varnames t);
  new_trace (chain t) ss (Some ns).

(** point, sample_chains.py:239-255: the dictionary as the list of its bindings in
    the order in which they are made; the last one for a name counts. *)
Definition point (t : trace) (i : Z) : res (list (string * pv)) :=
  let n := Z.of_nat (length (samples t)) in
  let j := if (i <? 0)%Z then (i + n)%Z else i in
  if (j <? 0)%Z then Raise IndexError else
  match nth_error (samples t) (Z.to_nat j) with
  | None => Raise IndexError                                              (* 251 *)
  | Some s => map_res (fun '(k, name) => do v <- index s k; Ok (name, v))
                      (combine (seq 0 (length (varnames t))) (varnames t))   (* 252-255 *)
  end.
Fixpoint dict_get (d : list (string * pv)) (name : string) : option pv :=
  match d with
  | [] => None
  | (n, v) :: d' => match dict_get d' name with
                    | Some w => Some w
                    | None => if String.eqb name n then Some v else None
                    end
  end.

(** __len__, sample_chains.py:257-259 *)
Definition trace_len (t : trace) : nat := length (samples t).

(** *** Samplers: anything with [__next__] and a list of target parameters, some
    of which have names.  [W] is the state of the world. *)
Variable W : Type.
Record sampler := Sampler { s_next : W -> res (pv * T) * W; s_params : list (option string) }.

(** [[sample for sample, _ in islice(sampler, n)]] *)
Fixpoint take_samples (nx : W -> res (pv * T) * W) (n : nat) (w : W) : res (list pv) * W :=
  match n with
  | 0 => (Ok [], w)
  | S n' =>
      match nx w with
      | (Ok (s, _), w1) =>
          match take_samples nx n' w1 with
          | (Ok l, w2) => (Ok (s :: l), w2)
          | (Raise e, w2) => (Raise e, w2)
          end
      | (Raise StopIteration, w1) => (Ok [], w1)
      | (Raise e, w1) => (Raise e, w1)
      end
  end.

Definition has_name (p : option string) : bool := match p with Some _ => true | None => false end.
Definition name_of (p : option string) : string := match p with Some n => n | None => ""%string end.

(** from_sampler, sample_chains.py:97-181; n_samples >= 0 *)
Definition from_sampler (chain_id : nat) (s : sampler) (n_samples : nat) (keep_every : pyval)
    (names : option (list string)) (w : W) : res trace * W :=
  match take_samples (s_next s) n_samples w with                           (* 167-169 *)
  | (Raise e, w1) => (Raise e, w1)
  | (Ok smp, w1) =>
      (do _ <- assert_ (forallb has_name (s_params s));                    (* 174 *)
       let ns := match names with
                 | None => map name_of (s_params s)                        (* 177-180 *)
                 | Some ns => ns
                 end in
       new_trace chain_id smp (Some ns), w1)                               (* 181 *)
  end.

(** The loop of pymc3_multitrace, sample_chains.py:367-382.  [get_sampler]
    includes opening the session, [init] is the run of the variable initializer. *)
Fixpoint chains_from (get_sampler : W -> res sampler * W) (init : W -> res unit * W)
    (ids : list nat) (n : nat) (keep_every : pyval) (names : option (list string)) (w : W)
  : res (list trace) * W :=
  match ids with
  | [] => (Ok [], w)
  | i :: ids' =>
      match get_sampler w with                                             (* 370-372 *)
      | (Raise e, w1) => (Raise e, w1)
      | (Ok s, w1) =>
          match init w1 with                                               (* 373 *)
          | (Raise e, w2) => (Raise e, w2)
          | (Ok _, w2) =>
              match from_sampler i s n keep_every names w2 with            (* 374-380 *)
              | (Raise e, w3) => (Raise e, w3)
              | (Ok t, w3) =>
                  match chains_from get_sampler init ids' n keep_every names w3 with
                  | (Ok ts, w4) => (Ok (t :: ts), w4)
                  | (Raise e, w4) => (Raise e, w4)
                  end
              end
          end
      end
  end.

(** pymc3's MultiTrace(straces): a dictionary by chain id, ValueError when
    an id repeats. *)
Fixpoint nodup_ids (l : list nat) : bool :=
  match l with [] => true | i :: l' => negb (existsb (Nat.eqb i) l') && nodup_ids l' end.
Definition multi_trace (ts : list trace) : res (list (nat * trace)) :=
  if nodup_ids (map chain ts) then Ok (map (fun t => (chain t, t)) ts) else Raise ValueError.

(** pymc3_multitrace, sample_chains.py:338-384 *)
Definition pymc3_multitrace (get_sampler : W -> res sampler * W) (init : W -> res unit * W)
    (n_chains samples_per_chain : nat) (keep_every : pyval) (names : option (list string)) (w : W)
  : res (list (nat * trace)) * W :=
  match chains_from get_sampler init (seq 0 n_chains) samples_per_chain keep_every names w with
  | (Ok ts, w1) => (multi_trace ts, w1)
  | (Raise e, w1) => (Raise e, w1)
  end.

(** _pymc3_diagnostic, sampler_diagnostics.py:7-44 *)
Definition pymc3_diagnostic {A} (f : list (nat * trace) -> res A) (get_sampler : W -> res sampler * W)
    (init : W -> res unit * W) (n_chains samples_per_chain : nat) (w : W) : res A * W :=
  match pymc3_multitrace get_sampler init n_chains samples_per_chain (PInt 10) None w with
  | (Ok m, w1) => (f m, w1)
  | (Raise e, w1) => (Raise e, w1)
  end.
End S.
Arguments pv : clear implicits. Arguments trace : clear implicits. Arguments sampler : clear implicits.
Arguments s_next {T W}. Arguments s_params {T W}. Arguments Sampler {T W}.
Arguments take_samples {T W}. Arguments from_sampler {T W}. Arguments chains_from {T W}.
Arguments pymc3_multitrace {T W}. Arguments pymc3_diagnostic {T W A}.
