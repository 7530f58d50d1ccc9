(** Model of pysgmcmc/models/bayesian_neural_network.py: construction, training,
    prediction. *)
From Coq Require Import String List Arith ZArith Bool.
From Verif.Base Require Import Py Num Vec.
From Verif.Model Require Import Stepsize BaseClasses DataBatches TensorUtils BaseModel Sampling.
Import ListNotations.
Local Open Scope list_scope.

(** ** BayesianNeuralNetwork.__init__, bayesian_neural_network.py:148-298 *)

(** The arguments that are looked at.  [normalize_input], [normalize_output] are
    used as truth values only. *)
Record bnn_args := BnnArgs {
  a_method : mval; a_get_net : value; a_batch_generator : value; a_schedule : value;
  a_n_nets : value; a_n_iters : value; a_burn_in_steps : value; a_sample_steps : value;
  a_batch_size : value; a_dtype : value; a_seed : value;
  a_normalize_input : bool; a_normalize_output : bool
}.

(** The attributes of a constructed network that never change. *)
Record config := Config {
  c_method : mval; c_n_nets : nat; c_n_iters : nat; c_burn_in_steps : nat; c_sample_steps : nat;
  c_batch_size : pyval; c_seed : pyval; c_normalize_input : bool; c_normalize_output : bool
}.

Definition v_as_int (v : value) : option Z := match v with VPy p => as_int p | _ => None end.
Definition v_pos (v : value) : bool := match v_as_int v with Some z => (0 <? z)%Z | None => false end.
Definition v_nonneg (v : value) : bool := match v_as_int v with Some z => (0 <=? z)%Z | None => false end.
Definition v_nat (v : value) : nat := match v_as_int v with Some z => Z.to_nat z | None => 0 end.
Definition v_py (v : value) : pyval := match v with VPy p => p | _ => PObj 0 end.

Definition construct_bnn (a : bnn_args) : res config :=
  do _ <- assert_ (v_int (a_n_nets a));                                  (* 242 *)
  do _ <- assert_ (v_int (a_n_iters a));
  do _ <- assert_ (v_int (a_burn_in_steps a));
  do _ <- assert_ (v_int (a_sample_steps a));
  do _ <- assert_ (v_int (a_batch_size a));                              (* 246 *)
  do _ <- assert_ (v_dtype (a_dtype a));                                 (* 248 *)
  do _ <- assert_ (v_pos (a_n_nets a));                                  (* 250 *)
  do _ <- assert_ (v_pos (a_n_iters a));
  do _ <- assert_ (v_nonneg (a_burn_in_steps a));
  do _ <- assert_ (v_pos (a_sample_steps a));
  do _ <- assert_ (v_pos (a_batch_size a));                              (* 254 *)
  do _ <- assert_ (v_callable (a_get_net a));                            (* 256 *)
  do _ <- assert_ (v_callable (a_batch_generator a));                    (* 257 *)
  do _ <- assert_ (v_update (a_schedule a));                             (* 259 *)
  do _ <- assert_ (v_next (a_schedule a));                               (* 260 *)
  if negb (is_supported (a_method a)) then Raise ValueError              (* 262-268 *)
  else Ok {| c_method := a_method a; c_n_nets := v_nat (a_n_nets a); c_n_iters := v_nat (a_n_iters a);
             c_burn_in_steps := v_nat (a_burn_in_steps a); c_sample_steps := v_nat (a_sample_steps a);
             c_batch_size := v_py (a_batch_size a); c_seed := v_py (a_seed a);
             c_normalize_input := a_normalize_input a; c_normalize_output := a_normalize_output a |}.

(** The keyword arguments for get_sampler, bayesian_neural_network.py:437-457:
    [kw] are the extra keyword arguments of the constructor; [update] makes the
    network's own entries win. *)
Definition sampler_arguments (kw : kwargs) (params cost_fun batch_generator session seed dtype schedule : value)
    (n_datapoints burn_in_steps : value) : kwargs :=
  [("scale_grad", n_datapoints); ("burn_in_steps", burn_in_steps);       (* 452-457 *)
   ("params", params); ("cost_fun", cost_fun); ("batch_generator", batch_generator);
   ("session", session); ("seed", seed); ("dtype", dtype); ("stepsize_schedule", schedule)]%string ++ kw.

Section S.
Context {T : Type} `{Num T} `{NumT T}.

Notation arr := (tensor T).

(** ** The network and its surroundings *)

(** A function passed as [get_net]: the names it reserves through
    tf.get_variable / tf.layers, the shapes of the variables it creates, the rows
    (mean, log variance) it computes from their values and the inputs, and
    whether it raises on its own.
    Simplification: a failing [get_net] creates no variables. *)
Record net_builder := NetBuilder {
  gn_names : list string;
  gn_vars : list (list nat);
  gn_out : list arr -> list (list T) -> res (list (T * T));
  gn_fails : option exn
}.

(** self.net_output: the placeholder it reads, its variables and function. *)
Record net := Net {
  net_input : nat;
  net_vars : list nat;
  net_out : list arr -> list (list T) -> res (list (T * T))
}.

(** A generator function passed as [batch_generator]: what calling it returns, and
    [next] on that, which may change the arrays it was given. *)
Record batch_source := BatchSource {
  bs_state : Type;
  bs_start : pyval -> pyval -> bs_state;                 (* batch_size, seed *)
  bs_next : bs_state -> heap (list T) T -> res (arr * arr) * bs_state * heap (list T) T
}.

(** Everything of TensorFlow that is not modelled further: [w] is the state of
    the session. *)
Variable W : Type.
Variable value_of : W -> nat -> arr.                     (* value of variable number i *)
Variable get_sampler_ : W -> res unit * W.               (* Sampler.get_sampler, 464-466 *)
Variable initialize : W -> res unit * W.                 (* 468 *)
Variable log_error : heap (list T) T -> W -> res unit * W.   (* log_full_training_error, 472-503 *)
Variable run_sampler : feed arr -> W -> res (outputs arr) * W.   (* session.run of a step *)
Variable schedule_ : schedule arr (sample arr * arr).
Variable B : batch_source.
Variable builder : net_builder.

(** State shared with the rest of the program: names and shapes of the variables
    in the default graph, the next placeholder, the session, the schedule object. *)
Record ext := Ext {
  x_names : list string; x_vars : list (list nat); x_ph : nat;
  x_sess : W; x_sched : sch_state schedule_
}.

(** The attributes of the object that train changes. *)
Record bnn := Bnn {
  b_data : option (heap (list T) T);                     (* self.X, self.y *)
  b_x_stats : option (list T * list T);                  (* x_mean, x_std *)
  b_y_stats : option (T * T);                            (* y_mean, y_std *)
  b_x_ph : option (nat * nat);                           (* self.X_Minibatch: number, width *)
  b_net : option net;                                    (* self.net_output *)
  b_params : list (nat * list nat);                      (* self.network_params *)
  b_samples : list (sample arr);
  b_trained : bool
}.
(** After __init__ (290-298). *)
Definition fresh_bnn : bnn :=
  {| b_data := None; b_x_stats := None; b_y_stats := None; b_x_ph := None; b_net := None;
     b_params := []; b_samples := []; b_trained := false |}.

(** An array argument: two-dimensional, given by rows, or not. *)
Inductive ndarr := Matrix (rows : list (list T)) | NotMatrix.

(** tf's get_net call and the rest of negative_log_likelihood (337-388); the
    layers' names must be new in the graph. *)
Definition build_net (x : ext) : res net * ext :=
  match gn_fails builder with
  | Some e => (Raise e, x)
  | None =>
      if existsb (fun n => existsb (String.eqb n) (x_names x)) (gn_names builder) then (Raise ValueError, x)
      else
        (Ok {| net_input := x_ph x;
               net_vars := seq (length (x_vars x)) (length (gn_vars builder));
               net_out := gn_out builder |},
         {| x_names := x_names x ++ gn_names builder; x_vars := x_vars x ++ gn_vars builder;
            x_ph := x_ph x; x_sess := x_sess x; x_sched := x_sched x |})
  end.

(** deque(maxlen=n).append *)
Definition deque_append {A} (n : nat) (l : list A) (a : A) : list A :=
  let l' := l ++ [a] in if n <? length l' then tl l' else l'.

(** The environment of the sampler that train creates: batches from the
    generator object on the arrays, feeding the placeholders [px] and [py]. *)
Definition train_env (px py : nat) : env arr :=
  {| bg_state := bs_state B * heap (list T) T;
     bg_next := Some (fun '(s, h) =>
       let '(r, s', h') := bs_next B s h in
       (do (bx, by_) <- r; Ok [(px, bx); (py, by_)], (s', h')));
     sched := schedule_; sess_state := W; run := run_sampler |}.

Section Loop.
Variable c : config.
Variables px py : nat.
Variable n_params : nat.
Let E := train_env px py.
Let step (st : state E) := call E (burnin_next E (Z.of_nat (c_burn_in_steps c)) n_params) None st.

Definition log_step (st : state E) : res unit * state E :=
  let '(r, w) := log_error (snd (s_bg E st)) (s_sess E st) in
  (r, {| n_iterations := n_iterations E st; minv := minv E st; s_bg := s_bg E st;
         s_sched := s_sched E st; s_sess := w; s_user := s_user E st |}).

(** What was drawn in an iteration: the parameter values, and the calls the
    sampler made. *)
Definition drawn : Type := sample arr * list (event arr).

(** One iteration of the loop over [enumerate(islice(self.sampler, n_iters))], 512-531: go on,
    or leave the loop.  A StopIteration out of the sampler ends the loop like
    exhaustion. *)
Inductive iteration_result :=
| Continue (d : drawn) (st : state E) (samples : list (sample arr))
| Leave (r : res unit) (st : state E) (samples : list (sample arr)) (d : list drawn).

Definition iteration (i : nat) (st : state E) (samples : list (sample arr)) : iteration_result :=
  match step st with
  | (Raise StopIteration, st1, _) => Leave (Ok tt) st1 samples []
  | (Raise e, st1, _) => Leave (Raise e) st1 samples []
  | (Ok (p, _), st1, ev) =>
      let burning_in := i <=? c_burn_in_steps c in                       (* 514 *)
      let '(r1, st2) := if burning_in && (i mod 512 =? 0)                (* 516-519 *)
                        then log_step st1 else (Ok tt, st1) in
      match r1 with
      | Raise e => Leave (Raise e) st2 samples [(p, ev)]
      | Ok _ =>
          if negb burning_in && (i mod c_sample_steps c =? 0) then       (* 521 *)
            let '(r2, st3) := log_step st2 in                            (* 522-524 *)
            match r2 with
            | Raise e => Leave (Raise e) st3 samples [(p, ev)]
            | Ok _ =>
                let samples' := deque_append (c_n_nets c) samples p in   (* 527 *)
                if length samples' =? c_n_nets c then Leave (Ok tt) st3 samples' [(p, ev)]   (* 529-531 *)
                else Continue (p, ev) st3 samples'
            end
          else Continue (p, ev) st2 samples
      end
  end.

(** [fuel] counts the iterations that islice (510) still allows; also returns
    everything drawn, in order. *)
Fixpoint train_loop (fuel i : nat) (st : state E) (samples : list (sample arr))
  : res unit * state E * list (sample arr) * list drawn :=
  match fuel with
  | 0 => (Ok tt, st, samples, [])
  | S fuel' =>
      match iteration i st samples with
      | Leave r st' sm tr => (r, st', sm, tr)
      | Continue d st' sm' =>
          let '(r, st'', sm, tr) := train_loop fuel' (S i) st' sm' in (r, st'', sm, d :: tr)
      end
  end.
End Loop.

(** What train leaves behind: outcome, object, surroundings, the caller's arrays,
    and the parameter values drawn. *)
Record train_result := TrainResult {
  t_res : res unit; t_bnn : bnn; t_ext : ext;
  t_X : list (list T); t_y : list T; t_drawn : list drawn
}.

(** Arrays given to the batch generator: y is one-dimensional. *)
Definition arrays (X : list (list T)) (y : list T) : heap (list T) T :=
  {| hx := X; hy := y; hyrows := length y; hywidth := 1 |}.

(** train, bayesian_neural_network.py:390-533.  [X], [y] are the caller's arrays; if
    they are not normalized the network (and the batch generator) works on them
    directly. *)
Definition train (c : config) (x : ndarr) (y : list T) (b : bnn) (e : ext) : train_result :=
  match x with
  | NotMatrix => TrainResult (Raise AssertionError) b e [] y []          (* base_model.py:74-79 *)
  | Matrix X =>
      let '(X1, xs) := if c_normalize_input c                            (* 413-414 *)
                       then let '(X1, m, s) := zmuv_normalization X None None in (X1, Some (m, s))
                       else (X, b_x_stats b) in
      let '(y1, ys) := if c_normalize_output c                           (* 416-417 *)
                       then let '(y1, m, s) := zmuv_normalization1 y None None in (y1, Some (m, s))
                       else (y, b_y_stats b) in
      let h := arrays X1 y1 in
      let px := x_ph e in let py := S px in                              (* 422-425 *)
      let b1 := {| b_data := Some h; b_x_stats := xs; b_y_stats := ys; b_x_ph := Some (px, width X);
                   b_net := b_net b; b_params := b_params b; b_samples := b_samples b;
                   b_trained := b_trained b |} in
      let '(rn, e1) := build_net e in                                    (* 428-430 *)
      let e1 := {| x_names := x_names e1; x_vars := x_vars e1; x_ph := S py;
                   x_sess := x_sess e1; x_sched := x_sched e1 |} in
      match rn with
      | Raise er => TrainResult (Raise er) b1 e1 X y []
      | Ok nt =>
          let params := combine (seq 0 (length (x_vars e1))) (x_vars e1) in   (* 432 *)
          let b2 sm trained hp :=
            {| b_data := Some hp; b_x_stats := xs; b_y_stats := ys; b_x_ph := Some (px, width X);
               b_net := Some nt; b_params := params; b_samples := sm;         (* 435 *)
               b_trained := trained |} in
          let e2 w sc := {| x_names := x_names e1; x_vars := x_vars e1; x_ph := x_ph e1;
                            x_sess := w; x_sched := sc |} in
          let g0 := bs_start B (c_batch_size c) (c_seed c) in             (* 440-445 *)
          match get_sampler_ (x_sess e1) with                             (* 464-466 *)
          | (Raise er, w) => TrainResult (Raise er) (b2 [] (b_trained b) h) (e2 w (x_sched e1)) X y []
          | (Ok _, w) =>
              match initialize w with                                     (* 468 *)
              | (Raise er, w') => TrainResult (Raise er) (b2 [] (b_trained b) h) (e2 w' (x_sched e1)) X y []
              | (Ok _, w') =>
                  let E := train_env px py in
                  let '(r, st, sm, tr) :=
                    train_loop c px py (length params) (c_n_iters c) 0
                      (initial_state E (g0, h) (x_sched e1) w') [] in
                  let h' := snd (s_bg E st) in
                  TrainResult r
                    (b2 sm (match r with Ok _ => true | Raise _ => b_trained b end) h')   (* 533 *)
                    (e2 (s_sess E st) (s_sched E st))
                    (if c_normalize_input c then X else hx h')
                    (if c_normalize_output c then y else hy h') tr
              end
          end
      end
  end.

(** ** Prediction *)

(** Iterating over an array: its subarrays along the first axis. *)
Definition iterate (v : arr) : res (list arr) :=
  match shape v with
  | [] => Raise TypeError                                (* iteration over a 0-d array *)
  | n :: s => Ok (map (fun i => {| shape := s; data := window (i * prod s) (prod s) (data v) |}) (seq 0 n))
  end.

Fixpoint fed (f : list (nat * list nat * arr)) (i : nat) : option arr :=
  match f with
  | [] => None
  | (j, _, v) :: f' => if i =? j then Some v else fed f' i
  end.

(** compute_network_output, bayesian_neural_network.py:535-557.  A fed value must have
    the shape of its variable or placeholder (session.run: ValueError); a network whose
    placeholder is not fed fails. *)
Definition compute_network_output (b : bnn) (w : W) (p : sample arr) (X : list (list T)) : res (list (T * T)) :=
  do vals <- match p with SList l => Ok l | SBare v => iterate v end;    (* 555 *)
  let f := combine (b_params b) vals in
  if negb (forallb (fun '((_, s), v) => if list_eq_dec Nat.eq_dec s (shape v) then true else false) f)
  then Raise ValueError
  else
    match b_net b, b_x_ph b with
    | Some n, Some (ph, k) =>
        if negb (forallb (fun r => length r =? k) X) then Raise ValueError   (* 422-424 *)
        else if ph =? net_input n                                        (* 556 *)
        then net_out n (map (fun i => match fed f i with Some v => v | None => value_of w i end) (net_vars n)) X   (* 557 *)
        else Raise (OtherError 0)
    | _, _ => Raise AttributeError
    end.

Inductive prediction :=
| Aggregate (mean variance : list T)
| AggregateScalar (mean variance : T)                    (* no samples: numpy reduces to scalars *)
| Individual (f_out theta_noise : list (list T)).

Fixpoint outputs_of (b : bnn) (w : W) (ps : list (sample arr)) (X : list (list T)) : res (list (list (T * T))) :=
  match ps with
  | [] => Ok []
  | p :: ps' =>
      do o <- compute_network_output b w p X;
      do os <- outputs_of b w ps' X;
      Ok (o :: os)
  end.

(** predict, bayesian_neural_network.py:559-630 *)
Definition predict (c : config) (x : ndarr) (individual : bool) (b : bnn) (w : W) : res prediction :=
  match x with
  | NotMatrix => Raise AssertionError
  | Matrix X =>
      if negb (b_trained b) then Raise ValueError else                   (* 584-589 *)
      do X1 <- (if c_normalize_input c then                              (* 592-597 *)
                  match b_x_stats b with
                  | Some (m, s) => zmuv_given X m s
                  | None => Raise AttributeError
                  end
                else Ok X);
      do outs <- outputs_of b w (b_samples b) X1;                        (* 602-606 *)
      let f_out := map (map fst) outs in
      let theta_noise := map (map (fun o => nexp (snd o))) outs in
      do ys <- (if c_normalize_output c then match b_y_stats b with Some s => Ok (Some s) | None => Raise AttributeError end
                else Ok None);
      if individual then                                                 (* 611-617 *)
        Ok (match ys with
            | Some (m, s) => Individual (map (fun r => zmuv_unnormalization1 r m s) f_out)
                                        (map (map (fun v => nmul v (nmul s s))) theta_noise)
            | None => Individual f_out theta_noise
            end)
      else
        match f_out with
        | [] =>                                                          (* mean of an empty array *)
            let m := np_mean [] in let v := np_mean [] in
            Ok (match ys with
                | Some (my, sy) => AggregateScalar (nadd (nmul m sy) my) (nmul v (nmul sy sy))
                | None => AggregateScalar m v
                end)
        | _ =>
            let mean := map np_mean (columns f_out) in                   (* 619 *)
            let variance :=                                              (* 622 *)
              map np_mean (columns (map (fun r => vmap2 (fun a m => nmul (nsub a m) (nsub a m)) r mean) f_out)) in
            Ok (match ys with                                            (* 624-628 *)
                | Some (my, sy) => Aggregate (zmuv_unnormalization1 mean my sy) (map (fun v => nmul v (nmul sy sy)) variance)
                | None => Aggregate mean variance
                end)
        end
  end.

(** ** The cost *)

(** log_variance_prior_log_like, bayesian_neural_network.py:77-107, on rows of log variances. *)
Definition log_variance_prior_log_like (log_var : list (list T)) (mean var : T) : T :=
  np_mean (map (fun r => nsum (map (fun lv =>
    (safe_divide (- ((lv - nln mean) * (lv - nln mean))) (n2 * var) - nfrac 5 10 * nln var)%num) r)) log_var).

(** weight_prior_log_like, bayesian_neural_network.py:110-141 *)
Definition weight_prior_log_like (params : list arr) (wdecay : T) : T :=
  safe_divide
    (fold_left (fun ll p => (ll + nsum (map (fun v => - wdecay * nfrac 5 10 * (v * v)) (data p)))%num) params n0)
    (fold_left (fun n p => (n + nint (Z.of_nat (prod (shape p))))%num) params n0).

(** negative_log_likelihood, bayesian_neural_network.py:337-388: the cost and the mean
    squared error for a batch of labels and network outputs (mean, log variance),
    with [batch_size] and the number of datapoints as constants of the graph. *)
Definition mean_prior : T := nfrac 1 1000000.
Definition var_prior : T := nfrac 1 100.
Definition negative_log_likelihood (batch_size n_examples : nat) (params : list arr)
    (rows : list (T * (T * T))) : T * T :=
  let terms := map (fun '(y, (m, lv)) =>
    let f_var_inv := (n1 / (nexp lv + nfrac 1 10000000000000000))%num in     (* 368 *)
    let mse := ((y - m) * (y - m))%num in                                   (* 370 *)
    (- mse * (nfrac 5 10 * f_var_inv) - nfrac 5 10 * lv)%num) rows in       (* 372-374 *)
  let ll := (nsum terms / nint (Z.of_nat batch_size))%num in                (* 377 *)
  let n := nint (Z.of_nat n_examples) in
  let ll := (ll + log_variance_prior_log_like (map (fun '(_, (_, lv)) => [lv]) rows) mean_prior var_prior / n)%num in
  let ll := (ll + weight_prior_log_like params n1 / n)%num in
  (nopp ll, np_mean (map (fun '(y, (m, _)) => ((y - m) * (y - m))%num) rows)).

(** ** get_default_net, bayesian_neural_network.py:28-69 *)

(** tf.layers.dense: [kernel] has one row per input unit. *)
Definition dense (activation : T -> T) (kernel : list (list T)) (bias : list T) (x : list T) : list T :=
  map (fun '(j, b) => activation (nsum (vmap2 nmul x (map (fun r => nth j r n0) kernel)) + b)%num)
      (combine (seq 0 (length bias)) bias).
(** tf.tanh *)
Definition tanh (v : T) : T := ((nexp v - nexp (- v)) / (nexp v + nexp (- v)))%num.
Definition default_net (k1 : list (list T)) (b1 : list T) (k2 : list (list T)) (b2 : list T)
    (k3 : list (list T)) (b3 : list T) (k4 : list (list T)) (b4 : list T) (output_bias : T)
    (X : list (list T)) : list (list T) :=
  map (fun x =>
    let layer_4 := dense (fun v => v) k4 b4 (dense tanh k3 b3 (dense tanh k2 b2 (dense tanh k1 b1 x))) in
    layer_4 ++ map (fun _ => (n1 * output_bias)%num) layer_4) X.                  (* 63-67 *)
End S.
Arguments net_builder : clear implicits.
Arguments batch_source : clear implicits.
Arguments ndarr : clear implicits.
Arguments prediction : clear implicits.
Arguments net : clear implicits.
Arguments bnn : clear implicits.

(** ** The generators of data_batches.py as batch sources

    [g0]: state of numpy's global generator when train is called.  The arrays of a batch are read
    when the session is run, i.e. after the generator has shuffled them. *)
Section Sources.
Context {T : Type}.
Variable R : rng_ops.
Variable G : global_ops.
Variable g0 : glob_state G.
Definition batch_arrays (h : heap (list T) T) (b : batch) : tensor T * tensor T :=
  let x := batch_x h b in let y := batch_y h b in
  ({| shape := [length x; length (hd [] x)]; data := concat x |}, {| shape := [length y; 1]; data := y |}).
Definition gb_source : batch_source T :=
  {| bs_state := gen_state R * glob_state G;
     bs_start := fun bs seed => (GNew {| ga_batch_size := bs; ga_seed := seed |}, g0);
     bs_next := fun '(s, g) h =>
       let '(r, s', g') := gb_next R G s g h in (do b <- r; Ok (batch_arrays h b), (s', g'), h) |}.
Definition sb_source : batch_source T :=
  {| bs_state := sgen_state R * glob_state G;
     bs_start := fun bs seed => (SNew {| ga_batch_size := bs; ga_seed := seed |}, g0);
     bs_next := fun '(s, g) h =>
       let '(r, s', g', h') := sb_next R G s g h in (do b <- r; Ok (batch_arrays h' b), (s', g'), h') |}.
End Sources.
