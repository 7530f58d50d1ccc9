# Formal model of pysgmcmc in Rocq/Coq 8.16.1

Source modelled: `/repo` (MFreidank/pysgmcmc, pinned commit), read as text only.
Nothing in `/repo` was built or run; every definition of the model is a hand
translation and cites the file and lines it models.

## Layout (`rocq/theories`, logical root `Verif`)

| directory | contents |
|---|---|
| `Base/`   | Python basics (exceptions as values, values for `isinstance`, dictionaries), slices, numbers (`Num` classes and their instances), list and vector lemmas |
| `Model/`  | one file per source file, function by function (table below) |
| `Spec/`   | independent specifications: what the properties mean, in elementary terms, not using the model's helpers |
| `Proofs/` | lemmas relating model and specification |
| `Props/`  | the property theorems (`C01_...`), with `Example`s and concrete runs showing that the hypotheses are met by non-trivial cases |

| model file | source |
|---|---|
| `Model/DataBatches.v` | `data_batches.py`: `generate_batches`, `generate_shuffled_batches` |
| `Model/Stepsize.v` | `stepsize_schedules.py` |
| `Model/BaseClasses.v` | `samplers/base_classes.py`: `MCMCSampler`, `BurnInMCMCSampler` (control flow, feed dictionaries, failures) |
| `Model/TensorUtils.v` | `tensor_utils.py` |
| `Model/BurnIn.v` | the adaptation shared by `samplers/sghmc.py` and `samplers/sgld.py` |
| `Model/SGHMC.v`, `SGLD.v`, `Relativistic.v`, `SVGD.v` | one step of each sampler, their constructors' shape requirements |
| `Model/Session.v` | a sampler living in a session: variables, noise ops and their seeds, external writes |
| `Model/Graph.v` | the dataflow graphs of the four samplers and their execution in any admissible order |
| `Model/Sampling.v` | `sampling.py` and the constructors' argument handling |
| `Model/BaseModel.v` | `models/base_model.py` |
| `Model/BNN.v` | `models/bayesian_neural_network.py` |
| `Model/DefaultNet.v` | `get_default_net` as a network to be trained; its initial weights |
| `Model/SampleChains.v` | `diagnostics/sample_chains.py`, `sampler_diagnostics.py` |
| `Model/SvgdSession.v` | `session.run` on the graph of `samplers/svgd.py` |
| `Model/ComputeEss.v` | `docs/source/experiments/compute_ess.py` |
| `Model/Objectives.v` | `diagnostics/objective_functions.py` |

`tools/props.py` writes `properties.jsonl`, `tools/manifest.py` writes `MANIFEST.json`
(with `tools/notes.json`), `tools/axioms.py` writes the axiom table below.
`seeded/LOG.jsonl` records the wrong programs the theorems were tested against.

## Modelling decisions

* **Exceptions** are values: a call returns `Ok v` or `Raise e` together with the
  state at the time of the raise, so crash points are visible.
* **Python values** for `isinstance` checks: `bool` counts as `int` (as in
  Python); numpy integers, floats and other objects do not.
* **Numbers.** Numeric code is written once over a type class `Num T` of the
  operations used (`+ - * / sqrt`, comparisons, rational constants) and `NumT T`
  (adds `exp log sin cos pi`).  Instances: `R` (exact real arithmetic: algebraic
  theorems), `XR` (reals with `+inf -inf NaN`, IEEE propagation rules, no
  rounding, unsigned zero: NaN/infinity theorems), `f64` (Base/Float64.v: IEEE binary64
  from Flocq's `binary_float 53 1024`, rounding to nearest even, overflow, signed zeros, one NaN;
  a rational constant is the quotient of two integers, which is the double nearest to it for all constants in the code;
  TensorFlow's default `tf.float64`) and binary64 `PrimFloat` (only
  for running the model in sanity examples).  Structural theorems are proved for every
  instance `T`, so they hold for floating point as well.  Rounding errors are
  modelled with Flocq (instance `Num_rounded`) for `safe_divide` (C37) and the burn-in adaptation (C93), and with `f64` from C101 on, not elsewhere.
  The order in which numpy and TensorFlow sum is not modelled.
* **Random numbers** are oracles: any state type with any transition functions
  (`randint`, `random_interval`) that respect their documented range.  Theorems
  quantify over the oracle.  Normal draws of noise ops: an arbitrary stream for
  every (graph seed, op seed) pair; `tf.get_seed`'s rule for combining them is
  library behaviour transcribed into `Model/Session.v`.  Statements about
  correlation (C33) and moments (C23) use an abstract expectation: any
  linear functional with the stated values on the draws.
* **TensorFlow** is modelled at three levels: (a) as an arbitrary backend
  `run : feed -> state -> result` for the sampler control flow, (b) by explicit
  elementwise update functions over lists for the numerics of each sampler, (c)
  as a dependency graph executed in an arbitrary admissible order (C34).  The
  automatic differentiation is not modelled: gradients are inputs (arbitrary
  values, or an arbitrary function of parameters and batch).  A failing
  `session.run` leaves the variables unchanged in level (b).
* **Dataflow graphs** (`Model/Graph.v`): an op stands for an assignment together with the
  arithmetic that computes the assigned value; the cost and each gradient are single ops reading
  arbitrary sets of parameters; the random op of a parameter yields one constant per run; the fed
  `minv_t` keeps the control dependencies of its consumers; grappler rewrites are not modelled.
  Reads of a variable are modelled in both conceivable ways (snapshot, in place).
* **numpy aliasing** is modelled by a heap of two buffers (features, labels) and
  views (offset, length).
* **Library behaviour transcribed** where the code depends on it: pymc3's `MultiTrace` (dictionary by
  chain id, `ValueError` on repetition), `logsumexp`, `np.sinc`, `np.argmin`/`min`/`max` with NaN,
  Python slicing, `islice`, `deque(maxlen)`, `np.append` failures.
* **Bayesian neural network**: what TensorFlow does is a set of arbitrary functions (`get_sampler_`,
  `initialize`, `log_error`, `run_sampler`, `value_of`), over which the theorems quantify.  A failing
  `get_net` creates no variables; `predict`'s `session.run` changes no variables; the graph
  is never reset between trainings.

## Not modelled

Logging, docstrings, `__str__`, plotting/notebook code, pymc3's own diagnostic
computations, TensorFlow internals (autodiff, memory, device placement), numpy's
concrete Mersenne twister, adaptive rejection sampling inside
`arspy` (treated as an oracle returning some number), file output of
`get_json_data`, `tests/`, `docs/` (except
`experiments/compute_ess.py`, without its argument parser), `setup.py`.

## Trusted base

Coq's kernel (`coqc`, rechecked by `coqchk`), the correctness of the hand
translation described above, and the axioms listed by `Print Assumptions`; see
the table at the end of this file.

## Properties

For each property: what is modelled, and how it is proved.  Where the code violates what a user would
expect, the expected statement is written down, refuted by a concrete execution (`..._refuted`), and what
the code does instead is proved for all inputs.

* **C01-C04, C07** `generate_batches`: generator as a state machine
  (not started / running / finished) over arbitrary data, RNG oracle and Python
  values; invariant by induction on the number of `next` calls.
* **C05, C06** `generate_shuffled_batches`: heap with views and a concrete
  Fisher-Yates loop drawing from two RNG copies in lock step; joint permutation
  of the pair list is an invariant of every history; aliasing refutations by witness.
* **C08** schedule as an object with `next`/`update`; induction on call list.
* **C09-C14** sampler base classes as a state machine over an arbitrary
  backend, batch generator and schedule, with exceptions; induction on histories.
* **C15, C41-C44** `get_sampler` and the constructors: dictionaries from names to values,
  signatures transcribed; the schedule that a constructed sampler holds.
* **C16, C32** samplers in a session (`Model/Session.v`): histories of steps and external writes;
  reproducibility by a simulation between two sessions.
* **C17-C23** elementwise update functions over `R` and `XR`; inductive invariants
  over arbitrary gradient lists; limits with Coq's Reals; every call of a sampler in a session is one
  such update (`Proofs/Trajectory.v`).
* **C24-C26** relativistic update over `R`/`XR`; shape check over shapes.
* **C27-C31** SVGD step over lists of vectors, built from the models of `pdist`,
  `squareform` and `median`; C31 needs a characterisation of finiteness over `XR`.  For n = 1 the
  constructor already fails (`squareform` of an empty vector).
* **C33** noise streams keyed by (graph seed, op seed) over an arbitrary PRNG.
* **C34** dependency graphs executed in any admissible order: a general determinacy theorem
  (`Proofs/Determinacy.v`: if every op that an execution lets read or write a variable is ordered with every op
  writing it, all schedules give the same memory) applied to the graphs of SGHMC, SGLD, relativistic
  SGHMC and SVGD for any number of parameters, and connected to the sequential steps; refutations for
  coupled gradients and for the reported cost.
* **C35-C40** tensors as shape + flat data; index arithmetic.
* **C45-C48, C71** matrices as lists of rows; statistics over `R`, NaN over `XR`.
* **C49-C61, C73-C76** BNN: configuration validation, training loop (induction with the window of
  collected iterations), prediction, cost, crash points.
* **C62-C67, C72** traces as lists of samples; samplers as arbitrary state machines.
* **C68-C70** benchmark functions over `R`; optima by explicit sum-of-squares or monotonicity arguments.
* **C77** chains of the SGHMC step on a quadratic cost with a random start and noise under an abstract
  expectation functional; mean and covariance recursions derived from the step; convergence by a quadratic Lyapunov
  function, necessity of the stability conditions by special starts.
* **C78** the generator's batches are the windows at the successive answers of the RNG; double counting of
  (start, datapoint) pairs.
* **C79** two training runs on data in different units side by side: the normalized data are equal, so the runs are.
* **C80** each sample's output is a map over the rows (C55 for the values), which the aggregation preserves.
* **C81** case analysis of numpy's broadcasting (`zmuv_given`) and of the placeholder's width. The width of a matrix
  without rows is not represented.
* **C82** the dictionary argument is an object in the sampler model (`s_user`); symbolic execution of a call, and a
  simulation between a run with one shared dictionary and a run with copies.
* **C83** induction over Fisher-Yates: the answer for the largest place is forced by the target order.
* **C84** averaging one shuffle replaces the window's entries by their mean, which gives a symmetric averaging operator
  on the places; contraction of its oscillation (Doeblin's argument, neighbouring places share a window).
* **C85** the three generators are in the same state when the first batch is drawn; for batches of two they consume
  equally many words and stay in step.
* **C86** Spec/Chain.v is an independent program: entries with value, momentum, averages and last mass; one rule per
  sampler; `follows` runs it along a history of calls (five constructors: no run, failed run, failed update, success,
  end). Proofs/Chain.v is a simulation for any kernel that simulates its rule (invariant: values, seeds, position in the
  stream, stored mass = mass of the last step); Proofs/ChainKernels.v shows this for the three samplers. Hypotheses:
  positive `scale_grad`, no mass in the caller's dictionary, relativistic parameters with one element (C26).
* **C87** Model/BNN.v's `train` with its session parameter instantiated by Model/Session.v. Proofs/TrainChain.v turns the
  loop of `train` into a history of calls (`loop_drives`), C86 turns that into transitions, C50 says which are kept.
  Hypotheses: logging leaves the session's variables alone (it only evaluates cost and error), and get_sampler plus the
  initializer leave a fresh session over all variables (`prepared`). `C87_chain_of_a_network` unfolds one iteration for
  the cost of a network (`network_objective`, gradients arbitrary).
* **C88** `C88_potential`: n times the full-batch cost in logarithms of normal densities, for any network;
  `C88_posterior`: the density itself when the predicted noise is constant (default network); refutation of the unit
  prior with two weights. That SGHMC with scale n samples from exp(-n cost) is the small-stepsize limit of C77.
* **C89** Spec/Sampling.v lists the kinds (`admissible`); the constructors of Model/Sampling.v with TensorFlow's graph
  construction assumed to succeed. Refutation: SGLD with a float as schedule.
* **C90** Model/ComputeEss.v: `islice` with a start and step as in CPython, `np.arange` over the reals, the dictionary of
  results as an association list, making samplers, the diagnostic and file output as arbitrary functions.
  `valid_args`, `evaluated`, `split_run` and `grouped` (Props/PComputeEss.v) describe the run independently of the loops;
  C90_results shows every normal end to be of that form, C90_invalid_arguments that all other arguments are rejected
  with the world unchanged. Chains of their own, the use of --keep-every and nonnegative stepsizes are refuted.
* **C91** Model/SvgdSession.v is the session of an SVGD sampler (cost function mapped over the particles, one step of
  Model/SVGD.v); with `mcmc_next` of Model/BaseClasses.v it gives complete runs. Spec/SvgdChain.v (`vfollows`) describes them
  without tensors, matrices or feeds; C91_svgd_run is the refinement, C91_exchangeable lifts C30 to sequences of session runs.
  Over the reals; from the point where the median distance is zero nothing is claimed (NaN, C31).
* **C92** Spec/Averages.v defines weighted averages; Props/PForget.v carries the weights through the recursion of C17
  (tau <= t+1 bounds the averaging rate below by 1/(t+2), which telescopes to 1/(t+1)). C92_idle_parameter uses the
  same recursion with zero gradients, where tau >= (t+1)/2.
* **C93** The same model functions (`adapt_step`, `sghmc_run`, `sgld_run`) at the instance `Num_rounded` of C37, in
  which every operation is rounded by Flocq's round-to-nearest-even. Proofs/FloatAdapt.v is the error analysis for any
  rounding with a relative and an absolute error (second moments lose at most 200 units per step; the quotient
  g*g*tau/v_hat exceeds tau by at most 1/4), Proofs/FloatCell.v instantiates it and keeps v_hat >= 0 by monotonicity.
  What is missing for an unconditional statement: a bound on g^2/v_hat that does not grow with t, and overflow.
* **C94** Props/PErgodic.v sums the recursions of C23 and C77: `kap*sum(x_t - mu)` telescopes to a bounded boundary term
  plus a sum of white noise, whose variance is exactly n; Cauchy-Schwarz bounds the cross term. Hypotheses: the
  expectation is positive, draws of different steps are uncorrelated. Non-trivial case: fair signs, runs of every length.
* **C95** Props/PCoupled.v runs two chains of C23 (C77) with the noise of two parameters of one sampler (C33) side by side;
  the covariance obeys a linear recursion whose inhomogeneity is the covariance of the two noises.
* **C96** Model/DefaultNet.v (`default_initial`) gives the initial values as functions of an arbitrary stream of truncated
  normals, keyed like C33; Props/PDefaultNet.v compares entries through Spec/Mlp.v. The same file proves
  `C61_network_function`: gn_out is the documented perceptron, entry by entry.
* **C97** Spec/Convex.v defines strong convexity by tangents, Lipschitz gradients, distances, and the points a history of
  calls returns; Props/PConvex.v unrolls complete runs (C86) to one vector recursion, and Proofs/Convex.v proves its
  contraction in the norm weighted by the inverse masses. The minimiser is a point with zero gradient.
* **C98** Proofs/Momentum.v: convex functions with Lipschitz gradient are co-coercive (Baillon-Haddad, proved from the
  tangent inequality alone), an energy in position and momentum contracts under the noise-free step, noise adds at most
  its own size. Props/PMomentum.v turns a complete run (through C86) into a recursion on the points returned - the
  momentum is the difference of the last two - and applies it. Nothing is said for steps beyond mdecay^2/10.
* **C99** Props/PMinibatch.v: triangle inequality for the scaled norm, so that an inexact gradient adds at most its error to
  the contraction of C97; complete runs (C86) are paths with inexact gradients. For generate_batches the gradients are
  means over windows of the dataset (C01, C09), and Jensen's inequality bounds their distance to the mean over all
  datapoints. The cost function is any that averages a gradient per datapoint over the rows it is fed.
* **C100** Props/PMissing.v: the model of base_model.py at the type of reals with infinities and NaN. A column of the
  result is a function of that column alone (for any type of numbers); the mean of a column with a non-finite entry is
  such that some deviation from it is NaN, which makes the standard deviation NaN. No rounding, hence no overflow of
  finite data.
* **C101** Props/PSpoilt.v: the samplers at the type of IEEE doubles (Base/Float64.v). A non-finite operand makes sums,
  differences, products, and quotients with it as numerator non-finite, so the additive update never loses it; lifted
  to complete runs by an invariant of the session. SVGD: column `k` of the matrix products couples all particles, for any
  interpretation of exp and log on doubles.
* **C102** Props/PRange.v on Proofs/DoubleCell.v and Proofs/DoubleRun.v: every operation of the adaptation and of the
  updates is followed with its exponent (`fits x a e`: the double stands for the rounded-real result and is at most 2^e);
  the rounded-real invariant of C93 bounds window and mean, a drift bound the second moment, and the momentum grows at
  most linearly because rounding never enlarges `v - mdecay v`. Lifted over histories with the masses that burn-in
  freezes. Overflow: `g * g` becomes infinite, the second moment infinite, then NaN (`inf - inf`), then the mass NaN.
* **C103** Props/PDoubleData.v: np.min and np.max on finite doubles pick an extreme entry; `h - l` does not round to 0
  (gradual underflow), and rounding is monotone, so numerator and quotient stay in order and below 1. Round trip: the
  five rounding errors added up. Overflow: `inf` in the denominator. Exact inverse (C47, over the reals) refuted.
* **C104** Props/PDoubleData.v: sums in any order and bracketing are the relation `added` (Spec/Doubles.v), the model's
  sum being one of them; the error of a sum of n equal numbers is at most 2^-51 n^2 times the number, so the entries are
  `d / sqrt(mean of d*d)` with a nonzero `d` of size at least 2^-453, hence 1 or -1 up to the errors of the last steps.
  Exact sums: every partial sum is representable. "Constant columns become NaN" (C46, exact arithmetic) is refuted.
* **C105** Props/PDoubleTensor.v: the model's functions at the IEEE instance. median: sorting commutes with taking values;
  half the sum of two doubles lies between them because doubling is exact, and only one of its two roundings can be
  inexact. safe_divide: the constant is below half a unit in the last place above 4 and below -1, and between half and
  one and a half of one in [1, 4). Distances: relative error of each difference (exact underflow of sums), square and
  partial sum, then of the square root; the sum is taken in the model's order (right to left). The three refuted
  statements are `..._refuted`.
* **C106** Proofs/DoubleRel.v, Props/PDoubleRel.v: forward error analysis of `rel_velocity` at the IEEE instance (relative
  intervals 1 +- k 2^-52 through square, quotient, sum, root and product; underflow of the squared momentum is absorbed by
  the + 1), then the invariant "momentum at most 2^420 + t 2^404" through complete runs with the machinery of C102,
  whose record `steady` got a condition on stepsizes. Freezing: p*p = inf, so the quotient, the root and the denominator
  are inf and the velocity 0; a momentum of 2^512 or more absorbs every later change (less than half a unit in the last
  place), so the state is kept by all calm runs.
* **C107** Proofs/DoubleMean.v, Props/PDoublePredict.v: error of a sum in any bracketing (n^2 2^-52 B, additions have no
  underflow error), of the mean, of the squared deviations from the rounded mean and of their mean; `predict` returns such
  means of the columns of the individual predictions. An infinite or NaN summand takes over every partial sum (`takes_over`), so the
  deviation of that member from the mean is inf - inf or NaN. exp at doubles is an arbitrary function: it does not enter the
  aggregate (C54).
* **C108** Spec/DoubleParticles.v, Proofs/DoubleStein.v, Props/PDoubleSvgd.v: one entry of `svgd_step` at doubles. Histories are
  never negative (`upper`: zero, positive, +inf or NaN, closed under the operations used). If the new value is finite the direction was
  finite and the new history is not NaN; either it is +inf (the quotient is 0), or y^2 did not overflow and
  y / (fudge + sqrt h') <= (1 + 2^-48) / sqrt (1 - alpha), with directions below 2^-480, where y^2 may underflow, handled by the
  fudge factor. `counted` carries invariants that depend on the number of calls along any history. The kernel (exp, ln, the
  median) does not enter: the bounds hold for any direction.
* **C109** Spec/DoubleParticles.v, Proofs/DoubleKernel.v, Proofs/DoubleBandwidth.v, Props/PDoubleStein.v: the range of each
  intermediate result of `svgd_kernel` and `svgd_grad` at doubles. The rounded median of a table whose small entries are on the diagonal
  only is at least half the smallest other entry (`median_lower`), which bounds the bandwidth from below; the squared
  bandwidth may overflow to +inf, in which case the kernel arguments and kernel gradients are zero. The direction is then at most 2^484 and the history after t calls
  at most t 2^968. For coinciding particles the number of zeros among the squared distances exceeds half, so the
  median and the bandwidth are zero, the diagonal of the kernel is exp of 0/0, and NaN spreads through the row sums. Separation of the
  particles is a hypothesis about the run, not proved.
* **C110** Spec/DoubleObjectives.v, Props/PDoubleObjectives.v, Props/PDoubleCamel.v: Model/Objectives.v at doubles. Upper bounds on the size of every subexpression give
  finiteness; the lower bounds follow from the monotonicity of each rounded operation (`add_mono`, `sub_mono`, `times_unit`), not from an error analysis.
  Zeros of rosenbrock and banana: doubles other than 1 (10) are at least 2^-53 (2^-49) away, and the square of that does not underflow. sin, cos,
  exp and pi are any functions with the stated ranges. Powers `** 2` are rounded products. camelback: Props/PDoubleCamel.v,
  a forward error analysis with the predicates of C111. The Gaussian mixtures are in C111.
* **C111** Spec/DoubleMixture.v, Props/PDoubleMixture.v: a forward error analysis with predicates "double x is within 2^d of real r and at most 2^e in
  size" for each operation (`near_add`, `near_mul`, `near_div`, ...), Lipschitz bounds for ln on [c, inf) and exp on (-inf, 0], and for ln of a sum of exponentials as a function of its terms.
  The maximum subtracted first makes one exponential equal to one, which keeps the logarithm's argument in [1/2, 17]. The hypotheses on exp, ln and pi are
  met by rounding the real functions down to multiples of 2^-45 (`grid_functions`). scipy replaces an infinite maximum by 0 (not modelled; the maximum is finite here).
* **C112** Spec/DoubleCost.v, Props/PDoubleCost.v: sizes of every intermediate as powers of two. exp(lv) + 1e-16 cannot overflow from a finite exp(lv), because rounding to nearest moves it by at most 1e-16
  (`precision_range`), and from exp(lv) = +inf the precision is 0. The order theorem lifts monotonicity of rounding through squares, the sum, both divisions and the two prior terms (which depend on the log variances and variables only).
  `C112_guard`, `C112_cost_overflow`, `C112_cost_nan` and `C112_cost_is_a_number_refuted` describe where the cost stops being a number. Sums are taken in the order of `nsum` (TensorFlow's reduction order is not modelled; the size bounds would hold for
  any order).
* **C113** Props/PMomentumBatch.v: the SGHMC counterpart of C99. A complete run is a path of the momentum recursion with inexact gradients (`rough_momentum`); an inexact gradient is a kick to momentum and position, which adds
  sqrt(2m) h delta / mdecay to the root of the energy of C98 (`energy_misled`); the energy bounds the squared distance up to the factor 2. Batches of generate_batches as in C99.
* **C114** Spec/Rounding.v, Props/PRounding.v: stepsize, mass, A and the guarded gradient scale enter the coefficient of the drift and the standard deviation of the noise by multiplications, a division and a root, so both have a relative error of a few
  2^-52 (`coefficient`, `noise_scale`); products and sums add absolute errors relative to 2^e (`entry_error`). The exact step contracts distances (C97); the geometric series of the errors is bounded. The gradient is a parameter; masses are fed, as after burn-in (C10).
  Props/PRoundedRun.v (`C114_samples_after_burn_in`): the bound for the samples of complete samplers, over the histories of C09 and C10.
* **C115** Spec/RoundingMomentum.v, Props/PRoundingMomentum.v, Props/PMomentumRun.v: as C114, with the friction, the momentum and the variance 2*eps^2/s*alpha*m - (eps^2/s)^2 of the noise, whose subtraction loses at most one bit because
  eps^2/s <= alpha*m (`pos_sub`, `spread`). The code's term with the noise estimate 0 vanishes exactly. `C115_samples_after_burn_in` transfers the step to all samples of complete samplers with C09, C10 and the history of the graph's variables.

## Axioms

As listed by `Print Assumptions` (regenerate with `tools/axioms.py`). All are axioms of Coq's standard library
(classical reals, functional extensionality, excluded middle).

* no axioms (closed under the global context)
  (140): C01_batches_are_aligned_windows, C01_every_window_reachable, C02_large_batch_is_whole_dataset, C03_seeded_batches_reproducible, C03_unseeded_uses_some_seed, C03_seeded_shuffled_batches_reproducible, C03_effect_on_global_generator, C04_generator_validation, C04_shuffled_generator_validation, C05_shuffled_batches_keep_pairs, C05_shuffled_source, C06_caller_arrays_unchanged_refuted, C06_earlier_batch_stable_refuted, C06_step_touches_only_its_batch, C07_label_count, C07_one_label_per_row_refuted, C07_shuffled_wide_labels_lose_pairing, C08_constant_schedule_is_constant, C09_step_protocol, C09_counts, C09_batches_in_order, C09_schedule_and_session_replay, C10_burn_in_boundary_and_frozen_mass, C11_no_burn_in_never_feeds_mass, C12_user_feed_reaches_session, C12_user_feed_ignored_after_burn_in, C12_user_feed_always_fed_refuted, C13_sample_format, C13_uniform_format_refuted, C14_failed_step, C14_failed_update_still_moves_chain_refuted, C15_schedule_kept, C15_sgld_schedule_ignored, C15_schedule_always_used_refuted, C15_sgld_stepsizes, C15_stepsizes_from_schedule, C16_relativistic_samples_track_parameters, C16_samples_track_parameters, C16_external_writes_are_overwritten, C21_sghmc_shape_independent, C26_one_element_parameters_only, C26_mass_and_speed_must_be_floats, C31_shapes, C32_relativistic_seeded_runs_are_reproducible, C32_seeded_runs_are_reproducible, C33_seeded_parameters_share_one_stream, C33_identical_parameters_never_separate, C34_sghmc_separable, C34_sghmc_snapshot, C34_sgld_separable, C34_sgld_snapshot, C34_relativistic_separable, C34_relativistic_snapshot, C34_svgd, C34_session_any_order, C35_vectorize_row_major, C35_vectorize_rejects_others, C35_positions_distinct, C39_squareform_exact, C40_uninitialized_params, C40_session_required, C41_arguments_resolved, C41_arguments_reach_the_sampler, C42_rejected_iff, C42_self_dropped, C42_unknown_rejected_refuted, C43_session_required, C43_session_optional_refuted, C44_is_supported_exact, C44_documented_refuted, C49_constructor_exact, C49_attributes, C50_window, C50_collects_thinned_samples, C50_number_of_samples, C50_mass_matrix_frozen, C51_trained_without_samples, C52_trained_iff_a_train_completed, C52_predict_untrained, C55_network_evaluated_at_samples, C55_predict_independent_of_session, C58_failed_build_keeps_old_samples, C58_failed_sampling_keeps_a_prefix, C58_named_network_trains_once, C58_failed_rebuild_breaks_predict, C59_mismatched_data_fail_late, C60_safe_settings, C60_one_sided_permutation, C62_trace_faithful, C62_anonymous_names, C62_getitem_range, C62_point_indices, C63_duplicate_names, C63_index_gives_variable_refuted, C64_keep_every_ignored, C64_multitrace_keep_every_ignored, C64_consecutive_samples, C64_keeps_every_refuted, C65_slice_never_projects, C65_projection_fails, C65_reverse_relabels, C65_slice_projects_refuted, C66_vector_parameter_fails, C66_crossing_trace_unreadable, C67_one_trace_per_chain, C67_ids_never_clash, C67_diagnostic_input, C71_updates_accumulate, C71_update_untrained, C71_shape_checks, C72_burn_in_discarded, C72_burn_in_kept_refuted, C73_single_variable_refuted, C74_finite_generator_ends_training_silently, C75_variables_of_others_are_sampled, C76_own_values_win, C76_rejected_iff, C76_unknown_keyword_fails_late, C78_batches_follow_draws, C78_edges_and_centre, C80_predictions_are_pointwise, C80_test_sets_concatenate, C80_default_net, C81_wrong_width_rejected, C81_single_feature_spread, C81_without_samples, C82_dictionary_after_a_call, C82_one_sampler_may_share, C82_samplers_may_share_refuted, C83_every_order_once, C83_answers, C84_started, C84_equidistributed_states, C85_never_equidistributed, C85_first_batch, C85_lockstep, C85_every_place_reachable_refuted, C89_constructor_exact, C89_schedules_checked_refuted, C100_columns_are_independent

* `ClassicalDedekindReals.sig_forall_dec`
  (3): C33_seeded_noise_is_perfectly_correlated, C33_unseeded_noise_is_uncorrelated, C90_chains_own_refuted

* `ClassicalDedekindReals.sig_forall_dec`, `FunctionalExtensionality.functional_extensionality_dep`
  (14): C23_unique_fixed_point, C77_bias, C78_weights, C78_coverage_counts, C78_unbiased_iff, C84_shuffling_mixes, C84_rate, C84_long_run, C90_stepsizes, C90_invalid_arguments, C90_results, C90_keep_every_ignored, C90_stepsizes_nonnegative_refuted, C90_example

* `ClassicalDedekindReals.sig_forall_dec`, `ClassicalDedekindReals.sig_not_dec`, `FunctionalExtensionality.functional_extensionality_dep`
  (88): C11_mass_adapts_forever, C11_no_burn_in_means_fixed_mass_refuted, C17_sghmc_adaptation_well_posed, C17_sgld_adaptation_well_posed, C18_mass_positive_and_bounded, C18_adaptation_never_nan, C19_noise_scale, C19_sghmc_never_nan, C20_momentum_bounded, C21_sghmc_update, C21_sghmc_update_in_runs, C22_sgld_update, C22_sgld_update_in_runs, C22_sgld_never_nan, C23_moments, C23_converges, C24_speed_limit, C24_limit_is_sharp, C24_every_call, C25_noise_scale_defined_iff, C25_nan_for_ever, C25_finite_otherwise, C26_any_variables_refuted, C28_published_repels, C32_unseeded_runs_refuted, C34_coupled_refuted, C34_snapshot_refuted, C34_cost_refuted, C36_median_is_the_median, C36_median_permutation_and_shape_invariant, C37_safe_divide_exact, C37_safe_divide_never_nan, C38_safe_sqrt, C38_safe_sqrt_bounds, C39_pdist_squareform, C39_metric, C39_error_cases, C45_standardizes, C45_standardizes_targets, C45_given_constants, C46_constant_column_nan, C46_constant_targets_nan, C46_normalization_usable_refuted, C47_zero_one, C48_incumbent_is_best, C48_no_data, C57_weight_prior, C60_rows_keep_labels_refuted, C68_banana, C68_rosenbrock, C68_goldstein_price, C68_camelback, C70_camelback_symmetric, C70_negation, C77_moments, C77_stable_iff, C77_stationary, C77_floor_dominates_small_stepsizes, C86_published_chain, C86_published_chain_unseeded, C86_published_chain_relativistic, C87_training_samples_the_chain, C92_sghmc_averages, C92_sgld_averages, C92_initial_values_are_forgotten, C92_idle_parameter, C94_sgld_sample_mean, C94_sghmc_sample_mean, C95_seeded_sgld_correlates_independent_parameters, C95_unseeded_sgld_decorrelates, C95_seeded_sgld_coalesces, C95_seeded_sghmc_coalesces, C97_sgld_forgets_its_start, C97_sgld_returns_to_the_minimiser, C97_sgld_mean_square, C98_sghmc_forgets_its_start, C98_sghmc_returns_to_the_minimiser, C98_sghmc_mean_square, C99_minibatches_keep_samples_close, C99_minibatch_sgld_returns_to_the_minimiser, C99_generated_batches_keep_samples_close, C100_standardize_all_or_nothing, C100_standardize_labels_all_or_nothing, C100_zero_one_cases, C100_incumbent_is_the_missing_value, C113_minibatches_keep_samples_close, C113_minibatch_sghmc_returns_to_the_minimiser, C113_generated_batches_keep_samples_close

* `ClassicalDedekindReals.sig_forall_dec`, `ClassicalDedekindReals.sig_not_dec`, `Classical_Prop.classic`, `FunctionalExtensionality.functional_extensionality_dep`
  (122): C27_kernel_matrix, C28_update_formula, C28_flat_cost_contracts, C28_two_particles_attract, C29_step_bound, C29_run_bound, C30_permutation, C31_degenerate_nan, C31_otherwise_finite, C31_all_coincide, C37_safe_divisor_floating_point, C51_predicts_nan_refuted, C51_finite_predictions_refuted, C53_aggregate_of_individual, C53_same_failures, C54_noise_omitted, C56_cost, C56_full_batch, C56_mean_cost_refuted, C56_oversized_batch, C57_log_variance_prior, C58_atomic_train_refuted, C61_network_function, C61_trained_default_network, C61_default_net, C68_bohachevski, C68_levy, C68_branin, C68_branin_documented, C69_log_density, C69_total, C69_mismatch, C69_bounded, C69_symmetric, C69_named_mixtures, C70_sin_one, C70_sin_two, C70_number_of_coordinates, C70_hartmann3_range, C70_hartmann6_range, C70_hartmann_formula, C70_sinc, C79_label_units, C79_feature_units, C79_without_normalization_refuted, C81_wrong_width_refuted, C87_chain_of_a_network, C88_potential, C88_posterior, C88_flattening, C88_unit_weight_prior_refuted, C91_svgd_run, C91_exchangeable, C93_floating_point_adaptation, C96_initial_network, C96_seeded_kernels_repeat, C96_correlation_of_hidden_kernels, C101_entries_never_recover, C101_bad_gradients_spoil, C101_stein_particles_infect_each_other, C101_stein_gradients_spoil_all_particles, C102_runs_stay_finite, C102_large_gradients_destroy, C103_bounds, C103_scaling_in_doubles, C103_too_wide, C103_exact_round_trip_refuted, C104_exact_sums, C104_exact_constants, C104_constant_columns, C104_normalization_standardizes, C104_constant_columns_become_nan_refuted, C105_median_in_doubles, C105_median_of_equal_entries_refuted, C105_safe_divide_in_doubles, C105_safe_divide_exact_refuted, C105_safe_sqrt_in_doubles, C105_distances_in_doubles, C105_distances_symmetric, C105_distance_separates_refuted, C106_velocity_in_doubles, C106_strict_limit_refuted, C106_runs_stay_finite, C106_speed_limit_in_runs, C106_large_gradients_freeze, C107_any_order, C107_unanimous_exact, C107_predictions_in_doubles, C107_normalized_predictions, C107_unanimous_refuted, C107_finite_members_refuted, C108_steps_are_bounded, C108_runs_are_bounded, C108_overflow_freezes, C108_progress_refuted, C109_separated_particles_stay_finite, C109_coinciding_particles_are_lost, C109_equal_particles_separate_refuted, C110_camelback_even, C110_camelback_in_doubles, C110_rosenbrock_in_doubles, C110_bohachevski_in_doubles, C110_levy_in_doubles, C110_waves_in_doubles, C110_branin_in_doubles, C110_goldstein_price_minimum_refuted, C110_hartmann_in_doubles, C110_banana_in_doubles, C111_mixture_accuracy, C111_mixture_finite, C111_default_mixtures, C112_cost_finite, C112_cost_overflow, C112_cost_monotone, C112_guard, C112_cost_nan, C112_cost_is_a_number_refuted, C114_samples_after_burn_in, C114_step_error, C114_rounding_does_not_accumulate, C115_samples_after_burn_in, C115_sghmc_step_error
