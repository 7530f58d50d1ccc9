#!/usr/bin/env python3
"""Source of /verif/properties.jsonl: run `python3 tools/props.py > properties.jsonl`."""
import json
P = []
def p(title, statement, quantifier, why, anchors):
    P.append(dict(id="C%02d" % (len(P) + 1), title=title, statement=statement,
                  quantifier=quantifier, why_tests_cant=why, anchors=anchors))

DB = "pysgmcmc/data_batches.py"
BC = "pysgmcmc/samplers/base_classes.py"
TU = "pysgmcmc/tensor_utils.py"
SG = "pysgmcmc/samplers/sghmc.py"
SL = "pysgmcmc/samplers/sgld.py"
RS = "pysgmcmc/samplers/relativistic_sghmc.py"
SV = "pysgmcmc/samplers/svgd.py"
SA = "pysgmcmc/sampling.py"
SS = "pysgmcmc/stepsize_schedules.py"
BM = "pysgmcmc/models/base_model.py"
BN = "pysgmcmc/models/bayesian_neural_network.py"
SC = "pysgmcmc/diagnostics/sample_chains.py"
SD = "pysgmcmc/diagnostics/sampler_diagnostics.py"
OF = "pysgmcmc/diagnostics/objective_functions.py"
CE = "docs/source/experiments/compute_ess.py"

# ---- data batches -------------------------------------------------------------
p("Every minibatch is an in-bounds, aligned, contiguous window of the dataset",
  "Whatever dataset (x, y), batch size b > 0 and seed are passed to generate_batches, every batch it ever yields maps the x placeholder to the min(b, N) consecutive rows x[s..s+min(b,N)) and the y placeholder to exactly the labels of those same rows, for some s with s + min(b,N) <= N; the dataset itself is never modified.",
  "all datasets, batch sizes, seeds, RNG streams and all positions in the infinite batch sequence",
  "the generator is infinite and the start offset depends on an RNG; the off-by-one at s = N - b and the x/y alignment must hold for every draw",
  [DB + ": generate_batches"])
p("Batch size >= dataset size yields exactly the whole dataset every time",
  "If batch_size >= N then every batch of generate_batches is the complete dataset in its original order (and the effective batch size is N).",
  "all datasets, all batch sizes >= N, all RNG streams, all positions in the sequence",
  "holds for every RNG value only because randint's range collapses to {0}",
  [DB + ": generate_batches"])
p("Seeded batch sequences are reproducible and independent of global RNG state",
  "Two generators created with the same data, batch size and integer seed yield the same batches at every position, however their consumption is interleaved with each other and whatever the state of numpy's global RNG; with seed=None the sequence is the one of some seed in [1, 99999].",
  "all data, seeds, global RNG states and interleavings of next() calls on two generators",
  "a test compares a few batches from one interleaving; independence from the global RNG state is a non-interference property",
  [DB + ": generate_batches"])
p("Batch-generator argument validation is exact, lazy and final",
  "Creating a generator never raises. The first next() raises AssertionError if and only if batch_size is not an int, batch_size <= 0, seed is neither None nor an int in [0, 2**32-1], or len(x) != len(y); after such a failure every further next() raises StopIteration; otherwise no next() ever raises.",
  "all Python values for batch_size and seed, all datasets, all numbers of next() calls",
  "the value domain is unbounded and mixed-type (bool is an int), and 'never raises later' ranges over the infinite run",
  [DB + ": generate_batches"])
p("Shuffled batches keep every datapoint paired with its own label, forever",
  "For generate_shuffled_batches, at every point of the infinite run: the current batch's i-th feature row and i-th label belong to the same original datapoint, no datapoint is lost or duplicated in the arrays, and the batch is a window of the dataset's current arrangement.",
  "all datasets with one label per row, batch sizes, seeds, RNG streams and numbers of batches drawn",
  "relies on two separately seeded RNGs staying in lock-step through all Fisher-Yates shuffles of arbitrary length",
  [DB + ": generate_shuffled_batches"])
p("Shuffled batches permute the caller's arrays in place (contract violation)",
  "One would expect drawing batches to leave the caller's x and y untouched and earlier batches stable. generate_batches satisfies this for every history, but generate_shuffled_batches shuffles numpy views: the caller's arrays and batches yielded earlier do change, and what survives is only that (x, y) is jointly permuted.",
  "all datasets, batch sizes, RNG streams and numbers of batches (positive part); existence of a witness (violation)",
  "aliasing between yielded views and the caller's buffers is invisible to tests that look only at batch contents",
  [DB + ": generate_batches, generate_shuffled_batches"])
p("Labels wider than one column break the one-label-per-row batch contract",
  "For y of shape (N,) or (N,1) every batch has exactly one label per feature row; for y of shape (N,k) with k >= 2 the length check passes but every non-empty batch carries k times as many labels as feature rows.",
  "all datasets, all widths k, all batch sizes and RNG streams",
  "needs all label widths and all offsets",
  [DB + ": generate_batches"])
# ---- schedule -----------------------------------------------------------------
p("A constant stepsize schedule is constant under every interleaving of next and update",
  "For any sequence of next(schedule) and schedule.update(...) calls with any arguments, every next returns the initial value and initial_value never changes.",
  "all initial values and all finite call sequences with arbitrary update arguments",
  "quantifies over all call histories",
  [SS + ": ConstantStepsizeSchedule"])
# ---- sampler state machine ----------------------------------------------------
p("Each successful sampler step consumes exactly one batch and one stepsize and reports once to the schedule",
  "For every sampler and every history of next() calls, after k successful steps n_iterations is k, exactly k batches and k stepsizes were drawn, update was called exactly k times with the sample and cost just returned, and the t-th step ran with the t-th batch and the t-th stepsize.",
  "all samplers built on the base classes, batch generators, schedules, backends and step counts, across the burn-in boundary",
  "the accounting must hold for every history length, in particular across the burn-in/sampling switch where the code path changes",
  [BC + ": MCMCSampler.__next__, BurnInMCMCSampler.__next__, _next_batch, _next_stepsize"])
p("Burn-in lasts exactly burn_in_steps steps and the mass matrix is frozen afterwards",
  "With burn_in_steps = b > 0, is_burning_in is true exactly before steps 1..b; every later step runs with the mass-matrix inverse that step b returned, and no later step changes it.",
  "all b > 0, all histories, all backends",
  "off-by-one at the boundary and freezing for all later steps are properties of unbounded runs",
  [BC + ": BurnInMCMCSampler.is_burning_in, BurnInMCMCSampler.__next__"])
p("burn_in_steps <= 0 does not mean a fixed mass matrix (contract violation)",
  "One would expect a sampler without burn-in never to adapt its mass matrix. For burn_in_steps <= 0 the code never feeds a frozen mass matrix: each step uses the freshly adapted one, forever, so the mass matrix used by SGHMC/SGLD changes from step to step.",
  "all burn_in_steps <= 0, all histories (exact behaviour); existence of a run with two different mass matrices (violation)",
  "needs reasoning over the complete run, not a single step",
  [BC + ": BurnInMCMCSampler.__next__", SG + ": SGHMCSampler.__init__"])
p("User feed_dict entries are dropped after burn-in (contract violation)",
  "Entries of the feed_dict passed to sampler.__next__ should reach the session in every step. They do during burn-in and for samplers with burn_in_steps <= 0, unless overridden by the batch/stepsize; but after burn-in with burn_in_steps > 0 the whole user feed_dict is discarded.",
  "all feed dictionaries, all histories",
  "the behaviour flips at an arbitrary position in the run",
  [BC + ": BurnInMCMCSampler.__next__"])
p("Sample format for a single target parameter changes at the burn-in boundary (contract violation)",
  "Samplers return, for p >= 2 parameters, a list of p arrays in every step. For p = 1 the burn-in samplers return a one-element list during burn-in but the bare array afterwards, so consumers cannot rely on one format; non-burn-in samplers always return the bare array.",
  "all parameter counts, burn-in lengths and step numbers",
  "depends on the interaction of parameter count and an unbounded step index",
  [BC + ": MCMCSampler.__next__, BurnInMCMCSampler.__next__"])
p("A failing step never counts as an iteration, and what it consumed is determined",
  "If next(sampler) raises (batch generator exhausted or failing, schedule exhausted, session.run failing, schedule.update failing), n_iterations is unchanged; a failing batch generator leaves the schedule untouched, a failing schedule has consumed exactly one batch, a failing run has consumed one batch and one stepsize; the next successful call continues the count.",
  "all failure points, all histories, all samplers",
  "crash-point property over arbitrary histories",
  [BC + ": MCMCSampler.__next__, BurnInMCMCSampler.__next__"])
p("Samplers use the stepsize schedule they were given - except SGLD (contract violation)",
  "A sampler obtained with stepsize_schedule=s (directly or via Sampler.get_sampler) draws all its stepsizes from s. True for SGHMC, RelativisticSGHMC and SVGD for every s; SGLDSampler does not pass s to its base class and always uses the default constant 0.01.",
  "all samplers, all schedules, all other arguments",
  "quantifies over all schedules and argument combinations",
  [SL + ": SGLDSampler.__init__", SG + ": SGHMCSampler.__init__", RS + ": RelativisticSGHMCSampler.__init__", SV + ": SVGDSampler.__init__"])
p("Returned samples track the target parameters; external writes to them are overwritten",
  "In every run in which only the sampler writes the variables, the returned sample, the target variable and the sampler's internal vectorized clone agree after every step, and shapes never change. A value assigned to a target variable from outside between steps influences only the next gradient: the next step overwrites it by continuing from the internal clone.",
  "all parameter shapes, step counts, gradients, noises, and all positions of an external write",
  "an invariant between two copies of the state over unbounded histories",
  [BC + ": MCMCSampler.__init__", SG + ": SGHMCSampler.__init__", SL + ": SGLDSampler.__init__", RS + ": RelativisticSGHMCSampler.__init__"])
# ---- SGHMC / SGLD numerics ----------------------------------------------------
p("SGHMC/SGLD burn-in adaptation is well-posed for every gradient history",
  "For every sequence of gradients, in exact arithmetic: tau >= 1, the smoothing rate lies in (0, 1/2], the gradient-variance estimate stays strictly positive and at least the square of the smoothed gradient, and it stays between the extremes of 1 and the squared gradients seen.",
  "all finite gradient sequences (any length, any reals)",
  "an inductive invariant (g^2 <= v_hat) over unbounded adversarial gradient histories",
  [SG + ": SGHMCSampler.__init__ (burn-in logic)", SL + ": SGLDSampler.__init__ (burn-in logic)"])
p("The mass-matrix inverse is always finite and strictly positive",
  "After any gradient history the inverse mass used by SGHMC and SGLD equals 1/(sqrt(v_hat)+3e-16), is strictly positive and at most 1e16/3, so no division by zero or square root of a negative number occurs.",
  "all gradient histories",
  "needs the positivity invariant of v_hat over all histories",
  [SG + ": SGHMCSampler.__init__", SL + ": SGLDSampler.__init__", TU + ": safe_divide, safe_sqrt"])
p("SGHMC noise is never NaN and never vanishes",
  "For every stepsize, momentum decay, scale_grad > 0 and mass matrix the standard deviation of the injected noise is sqrt(max(2 eps^2/s * mdecay * minv - eps^4/s^2, 1e-16)) >= 1e-8; no NaN can arise even when the variance formula is negative.",
  "all real stepsizes, decays, positive scales and inverse masses",
  "continuum of inputs including the negative-variance region",
  [SG + ": SGHMCSampler.__init__ (noise_scale, sigma)"])
p("SGHMC momentum stays bounded",
  "If 0 < mdecay <= 1 and every step's drive |eps^2 * minv * grad| + |noise| is at most B, then the momentum never exceeds max(|V0|, B/mdecay) in absolute value, over any number of steps.",
  "all step counts and all gradient/noise sequences bounded by B",
  "stability over unbounded time",
  [SG + ": SGHMCSampler.__init__ (v_t)"])
p("One SGHMC step is exactly the published update, elementwise and shape-independent",
  "One step of SGHMCSampler maps (theta, v, adaptation state) to the SGHMC update of Springenberg et al. applied to every scalar entry separately: entries never interact (beyond the gradient), and reshaping or flattening a parameter only reshapes the result.",
  "all parameter shapes, states, gradients, stepsizes and noise values",
  "all shapes and all real values",
  [SG + ": SGHMCSampler.__init__"])
p("One SGLD step is exactly preconditioned Langevin dynamics",
  "One step of SGLDSampler is theta' = theta - eps*minv*A*grad + sqrt(max(0, 2*eps*minv*A/(s~)))*xi entrywise with s~ the guarded scale_grad; the noise never is NaN for s > 0; drift and noise satisfy the fluctuation-dissipation relation variance = 2*drift-coefficient/s~.",
  "all parameter shapes, states, gradients, stepsizes, A >= 0, scale_grad > 0, and noise values",
  "continuum of inputs",
  [SL + ": SGLDSampler.__init__"])
p("SGLD on a Gaussian target contracts to the target variance",
  "For a quadratic cost with frozen mass matrix the mean of the chain contracts geometrically to the minimum, and the variance recursion has the unique fixed point 1/(s~ (1 - eps*minv*A/2)) to which it converges from any start, whenever 0 < eps*minv*A < 2.",
  "all stepsizes in the stable range, all starts, all times",
  "an asymptotic statement about the unbounded chain",
  [SL + ": SGLDSampler.__init__"])
# ---- Relativistic -------------------------------------------------------------
p("Relativistic SGHMC obeys its speed limit",
  "With mass m > 0, speed of light c > 0 and stepsize eps > 0, every step moves every target parameter by strictly less than eps*c, whatever the momentum, gradient or noise; over k steps by less than the sum of eps_t*c.",
  "all momenta, gradients, noises, stepsizes and step counts",
  "a bound over all reals and all run lengths",
  [RS + ": RelativisticSGHMCSampler.__init__"])
p("Relativistic SGHMC noise is NaN-free exactly when eps*Bhat <= 2D (for eps > 0)",
  "The injected noise scale sqrt(eps*(2D - eps*Bhat)) is a real number if and only if eps*Bhat <= 2D (eps > 0); otherwise it is NaN and from then on momentum and parameter are NaN forever.",
  "all eps, D, Bhat, and all later steps",
  "NaN poisoning ranges over the rest of the infinite run",
  [RS + ": RelativisticSGHMCSampler.__init__"])
p("Relativistic SGHMC accepts only one-element parameters (contract violation)",
  "The constructor is documented for any list of variables, but the momentum is one scalar per parameter: construction succeeds if every parameter has exactly one element and raises ValueError as soon as one has not.",
  "all lists of parameter shapes",
  "all shape lists",
  [RS + ": RelativisticSGHMCSampler.__init__, _sample_relativistic_momentum"])
# ---- SVGD ---------------------------------------------------------------------
p("The SVGD kernel is a valid RBF kernel matrix",
  "For n >= 2 pairwise distinct particles the bandwidth is positive, the kernel matrix is symmetric with unit diagonal and all entries in (0, 1), and entry (i,j) is exp(-|xi-xj|^2/(2 h^2)); the second output is row-wise sum_j K_ij (x_i - x_j)/h^2, the gradient of the kernel.",
  "all particle counts n >= 2, dimensions and particle positions",
  "median heuristic over n^2 entries, all n",
  [SV + ": SVGDSampler.svgd_kernel", TU + ": pdist, squareform, median"])
p("SVGD's kernel term attracts particles instead of repelling them (contract violation)",
  "Stein variational gradient descent must push particles apart when the cost is flat. As coded (cost gradient and kernel gradient are added and the sum is subtracted) the update equals the published update with the sign of the kernel-gradient term flipped; with a flat cost any two distinct particles move towards each other.",
  "all particle configurations (exact formula); all pairs of distinct particles and positive stepsizes (attraction)",
  "sign of a term for all inputs; a test of convergence to a mode cannot see it",
  [SV + ": SVGDSampler.__init__"])
p("SVGD step length is bounded whatever the gradient",
  "For 0 <= alpha < 1, fudge > 0, eps >= 0 and any history the accumulated squared gradient stays nonnegative and each coordinate of each particle moves by at most eps/sqrt(1-alpha) per step.",
  "all gradients, histories and particle counts",
  "unbounded inputs and histories",
  [SV + ": SVGDSampler.__init__"])
p("SVGD treats particles as an unordered set",
  "Permuting the particles (with their histories and cost gradients) permutes the result of a step in the same way.",
  "all particle counts, all permutations, all states",
  "n! permutations for every n",
  [SV + ": SVGDSampler.__init__, svgd_kernel"])
p("SVGD degenerates to NaN for coinciding particles and rejects one-dimensional ones (contract violation)",
  "SVGD should work for any list of particles. If more than half of all n^2 pairwise squared distances are zero (in particular if all particles coincide) the bandwidth is 0 and every coordinate of every particle becomes NaN in one step; otherwise every step stays finite; and the constructor's shape requirements are met exactly when n >= 2 and the particles are vectors of equal dimension other than 1.",
  "all particle counts, dimensions, positions",
  "all configurations",
  [SV + ": SVGDSampler.__init__, svgd_kernel"])
# ---- seeding / graph -----------------------------------------------------------
p("Seeded sampler runs are reproducible",
  "Two samplers built with the same integer seed, parameters, cost, data and schedule return identical samples and costs at every step, regardless of unseeded randomness elsewhere in the process and of the op counters of the graph they live in.",
  "all seeds, run lengths, backends and global randomness states",
  "non-interference over unbounded runs",
  [BC + ": MCMCSampler._draw_noise_sample", SG + ": SGHMCSampler", SL + ": SGLDSampler", RS + ": RelativisticSGHMCSampler"])
p("With a seed, all equally sized parameters receive identical noise (contract violation)",
  "The noise injected into different parameters should be independent. When a seed is set every parameter's noise op gets the same op seed, so any two parameters with the same number of elements receive exactly the same standard-normal draws in every step (and of different sizes a common prefix).",
  "all seeds, all steps, all pairs of parameters, every PRNG keyed by its op seed",
  "equality at every step of the run",
  [BC + ": MCMCSampler._draw_noise_sample", RS + ": RelativisticSGHMCSampler.__init__"])
p("The result of a sampler step does not depend on the executor's order - within limits",
  "Executing the step's dataflow graph in any order allowed by its data and control dependencies gives the same sample and the same internal state as the sequential reference step, for SGHMC, SGLD and relativistic SGHMC: with in-place variable reads (TF1 reference variables) for any number of parameters whose gradients are separable, with snapshot reads for any parameters each of which its own gradient reads too (then the reported cost is the cost before the step as well). For SVGD it holds always, because the particles are stacked first. It fails with in-place reads and two coupled parameters (one parameter's gradient can be evaluated after the other was already updated), with snapshot reads for the cost a*b, and with in-place reads the reported cost can be that of the new sample already for one parameter.",
  "all topological execution orders of the graph, all numbers of parameters, all values",
  "all schedules of a concurrent executor",
  [SG + ": SGHMCSampler.__init__ (tf.control_dependencies)", SL + ": SGLDSampler.__init__", RS + ": RelativisticSGHMCSampler.__init__", SV + ": SVGDSampler.__init__", BC + ": MCMCSampler.__next__"])
# ---- tensor utils ---------------------------------------------------------------
p("vectorize and unvectorize are mutually inverse and row-major",
  "For every tensor, vectorize yields shape (prod(shape), 1) with the element at multi-index (i1..ik) at its row-major position, and unvectorize(vectorize(t), t.shape) == t; inputs that are not tensors or variables raise ValueError.",
  "all ranks, shapes and contents",
  "all shapes",
  [TU + ": vectorize, unvectorize"])
p("median returns a median",
  "For every non-empty tensor of any shape median returns the middle order statistic (odd count) or the mean of the two middle ones (even count); it is invariant under permutation and reshaping, and at least half of the elements are <= and >= it.",
  "all lengths, values, orders",
  "all inputs",
  [TU + ": median"])
p("safe_divide never divides by zero and is close to division",
  "For every y and positive small_constant c the actual divisor is nonzero, keeps the sign of y (positive for 0), and differs from y by at most 3c; away from zero the result approximates x/y.  This holds in exact arithmetic and for the divisor computed in binary64/binary32 with rounding.",
  "all real x, y, c > 0; all floating-point y and c",
  "continuum of inputs",
  [TU + ": safe_divide"])
p("safe_sqrt never takes the root of a negative number",
  "For every x (and default bounds) safe_sqrt(x) is sqrt(x) for x >= 0 and 0 for x < 0, in particular never NaN for non-NaN input; in general it is the root of x clipped to the bounds.",
  "all x including infinities",
  "continuum of inputs",
  [TU + ": safe_sqrt"])
p("pdist and squareform together give the full Euclidean distance matrix",
  "pdist of an (m,d) tensor has m(m-1)/2 entries in lexicographic pair order; squareform accepts a vector iff its length is n(n-1)/2 for some n >= 1, and its output is the symmetric zero-diagonal matrix with entry (i,j) the condensed entry of the pair; composed, entry (i,j) is |x_i - x_j|, satisfying the metric axioms.",
  "all m, d, contents; all vector lengths",
  "index arithmetic for all sizes; the ceil(sqrt) dimension recovery for all lengths",
  [TU + ": pdist, squareform"])
p("uninitialized_params returns exactly the uninitialized variables in order",
  "The result is the subsequence of params whose initialization flag is false, in the original order; running initializers on it leaves already initialized variables untouched and makes everything initialized.",
  "all parameter lists and initialization states",
  "all subsets",
  [TU + ": uninitialized_params", BC + ": MCMCSampler.__init__"])
# ---- registry -------------------------------------------------------------------
p("get_sampler resolves arguments exactly",
  "For every sampling method and keyword dictionary without unknown or missing names, the constructor receives exactly one value for each of its parameters: the caller's if given, otherwise the declared default; caller values always win.",
  "all sampling methods, all keyword dictionaries",
  "all subsets and values of keywords",
  [SA + ": Sampler.get_sampler"])
p("get_sampler rejects bad arguments with ValueError - but silently drops 'self' (contract violation)",
  "get_sampler raises ValueError iff the method is not a Sampler member, or some keyword is not a parameter name (checked first), or a parameter without default is missing. Violation: the keyword 'self' is accepted and silently ignored.",
  "all methods/values, all keyword dictionaries",
  "all keyword sets",
  [SA + ": Sampler.get_sampler"])
p("Omitting session always fails (contract violation)",
  "session is documented as optional, but its default is evaluated at import time: unless a default session was active when the module was imported, every construction without an explicit session raises AssertionError, whatever session is the default at call time.",
  "all samplers and all argument dictionaries without session",
  "all argument sets and session histories",
  [BC + ": MCMCSampler.__init__", SA + ": Sampler.get_sampler"])
p("is_supported does not match the set of supported samplers (contract violation)",
  "is_supported is documented to be true for every entry of the Sampler enum. It is true exactly for SGHMC and SGLD, false for RelativisticSGHMC and SVGD (which get_sampler can build) and for every non-member; consequently BayesianNeuralNetwork rejects those two methods with ValueError.",
  "all Python values",
  "all values",
  [SA + ": Sampler.is_supported, Sampler.is_burn_in_mcmc", BN + ": BayesianNeuralNetwork.__init__"])
# ---- base model -----------------------------------------------------------------
p("Normalization is invertible and standardizes every column",
  "zero_mean_unit_var_normalization of data without constant columns gives columns of mean 0 and variance 1, returns the column means and population standard deviations, and unnormalization with them restores the data; applied with given mean and std it uses exactly those.",
  "all datasets with non-constant columns, all sizes",
  "all datasets",
  [BM + ": zero_mean_unit_var_normalization, zero_mean_unit_var_unnormalization"])
p("A constant column (or constant targets) turns normalized data into NaN (contract violation)",
  "Normalization is expected to produce usable numbers for every dataset. If a column is constant and its mean is computed exactly (always in exact arithmetic), every normalized entry of that column is NaN, whatever its value; the default BayesianNeuralNetwork settings then train on NaN.",
  "all datasets with a constant column",
  "all datasets",
  [BM + ": zero_mean_unit_var_normalization", BN + ": BayesianNeuralNetwork.train"])
p("zero_one normalization maps onto [0,1] and is invertible",
  "For data without constant columns every normalized entry lies in [0,1], each column attains 0 and 1, and zero_one_unnormalization with the returned bounds restores the data.",
  "all datasets with non-constant columns",
  "all datasets",
  [BM + ": zero_one_normalization, zero_one_unnormalization"])
p("get_incumbent returns the best observation",
  "For every non-empty training set get_incumbent returns a pair (X[i], y[i]) with y[i] minimal, i being the first such index.",
  "all datasets",
  "all datasets, ties",
  [BM + ": BaseModel.get_incumbent"])
# ---- BNN ------------------------------------------------------------------------
p("BayesianNeuralNetwork constructor validation is exact",
  "Construction succeeds iff n_nets, n_iters, sample_steps, batch_size are ints > 0, burn_in_steps is an int >= 0, the dtype, callables and schedule are of the right kind and the method is supported; otherwise it raises AssertionError for bad arguments, ValueError for an unsupported method.",
  "all Python values for every argument",
  "mixed-type unbounded domain",
  [BN + ": BayesianNeuralNetwork.__init__"])
p("Training collects exactly the first n_nets thinned post-burn-in samples",
  "train collects the parameter values of exactly the iterations i < n_iters with i > burn_in_steps and i divisible by sample_steps, in order, up to the first n_nets of them; it stops right after the n_nets-th and never evicts one; the number collected is min(n_nets, floor((n_iters-1)/sample_steps) - floor(burn_in_steps/sample_steps)) (0 if negative); all of them were drawn after the mass matrix was frozen.",
  "all n_nets, n_iters, burn_in_steps, sample_steps and sampler behaviours",
  "all configurations and run lengths",
  [BN + ": BayesianNeuralNetwork.train"])
p("A trained network may hold no samples and then predicts NaN (contract violation)",
  "After a successful train, predict should return finite predictions per test point. If no iteration index in (burn_in_steps, n_iters) is divisible by sample_steps, train still succeeds and sets is_trained, and predict then returns NaN scalars instead of per-point arrays.",
  "all configurations with an empty collection window",
  "all configurations",
  [BN + ": BayesianNeuralNetwork.train, predict"])
p("predict before a completed train raises ValueError",
  "On a network whose train never completed (never called, or every call raised), predict on 2-d input raises ValueError; on non-2-d input AssertionError.",
  "all histories of failed train calls and predicts",
  "all histories and failure points",
  [BN + ": BayesianNeuralNetwork.predict"])
p("Aggregate and individual predictions agree",
  "predict's mean is the sample average and its variance the population variance of the individual predictions returned by return_individual_predictions=True, also after un-normalization; the variance is nonnegative, zero iff all nets agree.",
  "all collections of sampled nets, test sets, normalization settings",
  "all ensembles",
  [BN + ": BayesianNeuralNetwork.predict"])
p("The predictive variance omits the observation noise",
  "The variance returned by predict equals the total predictive variance (law of total variance over the sampled nets) minus the average predicted noise variance, hence never exceeds it and is strictly smaller whenever the noise is positive.",
  "all ensembles and test points",
  "all ensembles",
  [BN + ": BayesianNeuralNetwork.predict"])
p("predict is pure",
  "predict changes neither the samples, nor the normalization constants, nor any variable: any number of predict calls in any order between trainings give the same results as if called alone.",
  "all call histories",
  "all histories",
  [BN + ": BayesianNeuralNetwork.predict, compute_network_output"])
p("The training cost is mis-scaled when batch_size exceeds the dataset (contract violation)",
  "The cost should be the mean Gaussian negative log likelihood over the minibatch plus priors/N. It is when batch_size <= N; when batch_size > N the batch has N rows but the sum is divided by batch_size, shrinking the likelihood term by N/batch_size.",
  "all batch sizes, datasets and network outputs",
  "all sizes",
  [BN + ": BayesianNeuralNetwork.negative_log_likelihood", DB + ": generate_batches"])
p("The priors are proper log-densities up to a constant: bounded and uniquely maximized",
  "log_variance_prior_log_like is at most -0.5*log(var), attained iff every log variance equals log(mean); weight_prior_log_like is at most 0 for wdecay >= 0 and, for wdecay > 0, 0 iff all weights vanish; adding weights scales by the total number of entries.",
  "all tensors, all positive mean/var/wdecay",
  "continuum of inputs, all sizes",
  [BN + ": log_variance_prior_log_like, weight_prior_log_like"])
p("An interrupted train is not atomic (contract violation)",
  "A first train interrupted anywhere leaves the network untrained. But a later train that fails leaves is_trained set: failing while the network is rebuilt (as the default network does on every second train) leaves old samples with the new normalization constants and a dangling placeholder, so predict fails or mixes two datasets; failing during sampling leaves a shorter sample set.",
  "all interruption points, all histories of train calls",
  "crash-point property",
  [BN + ": BayesianNeuralNetwork.train"])
p("Mismatched X/y lengths are only detected mid-training",
  "train checks only that X is two-dimensional; for any X, y with different lengths it never completes: AssertionError is raised by the batch generator in the first sampler step, after the model's data and normalization state have been replaced.",
  "all data sizes with len(X) != len(y), all configurations",
  "all sizes",
  [BN + ": BayesianNeuralNetwork.train", BM + ": BaseModel._check_shapes_predict", DB + ": generate_batches"])
p("Training with shuffled batches can misalign the caller's data (contract violation)",
  "train must leave the caller's (X, y) usable. With batch_generator=generate_shuffled_batches and exactly one of normalize_input/normalize_output disabled, the caller's un-normalized array is permuted in place while the other is not, so the caller's rows no longer match their labels; with both enabled the caller's data never change.",
  "all datasets, RNG streams and run lengths (safe part), existence of witness (violation)",
  "aliasing across three modules",
  [BN + ": BayesianNeuralNetwork.train", DB + ": generate_shuffled_batches", BM + ": zero_mean_unit_var_normalization"])
p("The default network is homoscedastic with bounded mean",
  "For get_default_net with any weights, the second output (log variance) is the same for every input point, and the first output is bounded by the last layer's weights, whatever the input.",
  "all weights, all inputs, any number of points",
  "all inputs",
  [BN + ": get_default_net"])
# ---- diagnostics ------------------------------------------------------------------
p("A trace stores its samples faithfully and looks variables up by name",
  "For every non-empty list of samples with n variables and n distinct names, len(trace) is the number of samples, get_values(name, burn, thin) is the list of that variable's values at positions burn, burn+thin, ..., trace[i] equals get_values(varnames[i]), point(t) maps each name to its value at step t, and unknown names raise ValueError.",
  "all sample lists, names, burn and thin values",
  "all sizes and slice parameters",
  [SC + ": PYSGMCMCTrace"])
p("Duplicate variable names make variables unreachable (contract violation)",
  "trace[i] should return the samples of variable i. If names repeat, trace[i] returns the samples of the first variable with that name while point() reports the last one.",
  "all name lists with duplicates",
  "all name lists",
  [SC + ": PYSGMCMCTrace.get_values, __getitem__, point"])
p("keep_every has no effect (contract violation)",
  "from_sampler and pymc3_multitrace are documented to keep only every keep_every-th sample. The argument is ignored: the trace always holds the first n_samples consecutive samples, and exactly n_samples sampler steps are performed per chain.",
  "all keep_every values, samplers and sample counts",
  "all argument values and samplers",
  [SC + ": PYSGMCMCTrace.from_sampler, pymc3_multitrace"])
p("Slicing a trace fails unless all variables are kept (contract violation)",
  "_slice(s) is documented to project the trace onto the selected variables. It slices the list of samples and the list of names with the same slice and raises AssertionError whenever the slice does not keep exactly n_vars names and at least one sample; it never drops a variable column. A full reversal does not fail but attaches every name to another variable's samples.",
  "all traces and slices",
  "all slices",
  [SC + ": PYSGMCMCTrace._slice"])
p("from_sampler fails for burnt-in samplers with one vector-valued parameter (contract violation)",
  "from_sampler should work for burnt-in samplers. For a single parameter with d >= 2 entries a burnt-in sampler returns bare d-vectors, which are taken for d variables: AssertionError; and a trace crossing the burn-in boundary with one scalar parameter makes get_values raise.",
  "all d >= 2, sample counts, burn-in lengths",
  "interaction of two modules over all dimensions and boundaries",
  [SC + ": PYSGMCMCTrace.__init__, from_sampler, get_values", BC + ": BurnInMCMCSampler.__next__"])
p("A multitrace holds one trace per chain with distinct ids and equal lengths",
  "pymc3_multitrace builds exactly n_chains fresh samplers, in order, gives chain k the id k, and every chain contains samples_per_chain samples drawn from its own sampler only.",
  "all chain counts, sample counts, samplers",
  "all counts",
  [SC + ": pymc3_multitrace", SD + ": _pymc3_diagnostic"])
# ---- objective functions ------------------------------------------------------------
p("Documented optima of the benchmark functions are global optima",
  "banana_log_likelihood has its unique global maximum 0 at (0,10); rosenbrock, bohachevski, levy have unique global minimum 0 at (1,1), (0,0), 1; goldstein_price has unique global minimum 3 at (0,-1); branin's minimum is 10/(8 pi), attained on the documented search space x0 in [-5, 10] exactly at its three documented points; camelback is nowhere below -1.0317 and at most -1.0316 at both documented points.",
  "all real inputs",
  "global statements over the continuum; tests check only the optimum itself",
  [OF + ": banana_log_likelihood, rosenbrock, bohachevski, levy, goldstein_price, branin"])
p("The Gaussian-mixture log likelihood is the log of the mixture density",
  "exp(gaussian_mixture_model_log_likelihood(x, mu, var, w)) equals sum_i w_i N(x; mu_i, var_i) for all positive weights and variances; mismatched argument lengths raise AssertionError; gmm1-3 are symmetric and bounded by their largest component peak.",
  "all x, component counts, means, positive variances and weights",
  "continuum and all component counts",
  [OF + ": gaussian_mixture_model_log_likelihood, gmm1_log_likelihood, gmm2_log_likelihood, gmm3_log_likelihood"])
p("The sine and Hartmann benchmarks have the documented structure and range",
  "sin_one maps into [0,1], sin_two is the product of two sin_one values and lies in [0,1]; hartmann3 and hartmann6 lie in [-8.4, 0); camelback is symmetric under x -> -x; each entry of sinc is bounded by the number of columns; to_negative_log_likelihood negates pointwise and is an involution.",
  "all real inputs",
  "continuum",
  [OF + ": sin_one, sin_two, hartmann3, hartmann6, camelback, to_negative_log_likelihood"])
# ---- additions ----------------------------------------------------------------------
p("BaseModel.update accumulates all data ever seen",
  "For any model whose train keeps the data it is given, any number of successful updates leaves the model trained on all batches in order, none lost or duplicated; update before the first train raises ValueError and changes nothing. The shape checks of train and predict accept exactly matrices (with a vector of as many labels).",
  "all models, all update sequences",
  "unbounded update sequences over any subclass",
  ["pysgmcmc/models/base_model.py: BaseModel.update"])
p("Diagnostics throw away the burn-in of the samplers they are given (contract violation)",
  "get_sampler may return an already burnt-in sampler. pymc3_multitrace runs tf.global_variables_initializer() after get_sampler returned, so the recorded chains do not depend on the parameters, momenta and statistics reached by burn-in: two samplers burnt in differently give identical traces, starting at the initial values.",
  "all samplers, burn-in lengths, chain counts",
  "quantifies over all samplers and burn-in histories",
  [SC + ": pymc3_multitrace", SD + ": _pymc3_diagnostic"])
p("A network with a single variable trains but can never predict (contract violation)",
  "A network trained successfully should be able to predict. If the graph has exactly one trainable variable (not of leading dimension 0), every collected sample is the bare array, compute_network_output iterates over its rows, and predict raises on every input, although train succeeded and is_trained is set.",
  "all single-variable networks, data, configurations, inputs",
  "quantifies over all networks and training runs",
  [BN + ": BayesianNeuralNetwork.train, compute_network_output, predict", BC + ": MCMCSampler.__next__"])
p("A finite batch generator ends training silently",
  "train swallows StopIteration: with a batch generator that yields only k batches, train returns normally with is_trained set after at most k iterations, with only the samples of the window among the first k, however large n_iters and n_nets are.",
  "all finite generators, configurations and data",
  "all generator lengths",
  [BN + ": BayesianNeuralNetwork.train"])
p("Training samples every trainable variable of the graph",
  "network_params is tf.trainable_variables(): after k completed trainings in one graph the sampler of the last one updates all variables that existed before plus the k copies of the network, although only the last copy influences the cost.",
  "all graphs, networks and numbers of trainings",
  "unbounded histories",
  [BN + ": BayesianNeuralNetwork.train"])
p("Sampler keywords of a network: checked only by train, and overridden",
  "Extra keyword arguments of the constructor are not looked at until train. train passes them to get_sampler after overwriting params, cost_fun, batch_generator, session, seed, dtype, stepsize_schedule, scale_grad and burn_in_steps: the values of these never reach the sampler, all other sampler parameters do; a keyword the sampler does not know makes every train raise ValueError, after the data, the normalization constants and the network have been replaced and the samples dropped.",
  "all keyword dictionaries, configurations and data",
  "all keyword sets and interaction of two modules",
  [BN + ": BayesianNeuralNetwork.__init__, train", "pysgmcmc/sampling.py: Sampler.get_sampler"])

p("SGHMC on a Gaussian target: exact moments, stability region, stationary law and bias",
  "On a quadratic cost lam/2 (x-mu)^2 with frozen inverse mass m, mean and covariance of (position, momentum) follow a linear recursion exactly. The means converge from every start iff 0 < mdecay < 2 and 0 < eps^2 m lam < 2(2 - mdecay); then the covariances converge to a unique stationary covariance, whose position variance differs from the target's 1/(scale_grad lam) by the factor (1 - eps^2/(2 s m d)) (2-d)/(2-d-eps^2 m lam/2). Contract violation: because of the 1e-16 floor on the noise variance, the stationary variance does not approach the target's as the stepsize goes to 0 but exceeds every bound.",
  "all stepsizes, decays, scales, masses, curvatures, start distributions and step counts",
  "limits over infinitely many steps and distributions over a continuum",
  [SG + ": SGHMCSampler.__init__ (update equations)"])
p("Window minibatches under-represent the ends of the dataset (contract violation)",
  "Minibatch means should be unbiased estimates of dataset means. generate_batches yields windows at randint starts; over the start positions, datapoint r is covered min(r+1, N-r, b, N-b+1) times: the first and last datapoint once, those at least a batch away from both ends b times. Averaged over the starts batch means equal dataset means for every function iff b = 1 or b = N.",
  "all datasets, batch sizes, generators, functions of datapoints",
  "a statement about all starts, datasets and functions; any single batch looks right",
  [DB + ": generate_batches"])

p("Normalization makes training and prediction independent of the units of measurement",
  "With normalize_output, multiplying all labels by a > 0 and shifting them by s changes nothing about training (same outcome, same batches drawn, same samples, same session) and transforms predictions accordingly: means y -> a y + s, variances by a^2. With normalize_input, re-expressing every feature in its own unit (positive factor, any offset) in both training and test data changes no prediction at all. Without normalize_output the first fails.",
  "all data, units, networks, samplers, batch generators, configurations",
  "relates two complete training runs for all data and units",
  [BN + ": BayesianNeuralNetwork.train, predict", BM + ": zero_mean_unit_var_normalization"])
p("The prediction for a test point does not depend on the other test points",
  "After a successful training of a network that treats its input rows independently (the default network is proved to be one) predict never fails on test points of the right width and applies fixed functions to the test points one by one: predictions for the union of two test sets are those for the sets, in order.",
  "all data, networks, samplers, configurations, test sets",
  "relates predictions on all test sets of a trained network",
  [BN + ": BayesianNeuralNetwork.predict, compute_network_output, get_default_net"])
p("Test points with the wrong number of features are rejected (contract violation)",
  "predict should reject test points whose number of features differs from the training data's. With at least one sample it raises ValueError, with one exception: with normalize_input test points with a single feature are silently broadcast and predicted as points all of whose features have that value. Without samples and without normalize_input everything is accepted.",
  "all data, widths, networks, configurations",
  "all widths and training runs; interaction of numpy broadcasting with the graph's placeholder shapes",
  [BN + ": BayesianNeuralNetwork.predict, train", BM + ": zero_mean_unit_var_normalization"])

p("A sampler step writes into the caller's feed dictionary (contract violation)",
  "next(sampler, feed_dict) should leave the caller's dictionary alone. It does so only after burn-in; otherwise the dictionary is updated in place with the batch and the stepsize the step obtained, also when the step then fails, and the session is run with exactly this dictionary. Sharing one dictionary object over all calls of one sampler is nevertheless harmless when its batches always fill the same placeholders; sharing it between samplers is not: a sampler without batches is fed the other's batch.",
  "all samplers, sessions, batch generators, schedules, dictionaries, numbers of calls",
  "aliasing between calls; holds over all histories of calls",
  [BC + ": MCMCSampler.__next__, BurnInMCMCSampler.__next__"])

p("Shuffling can bring a batch into every order, each by exactly one sequence of draws",
  "The in-place Fisher-Yates shuffle of a batch of b datapoints asks its generator for b-1 numbers with i+1 possible values each (i = b-1 .. 1). There are b! possible sequences of answers, and for every order of the batch exactly one sequence leads to it; labels are reordered in the same way. Hence uniform answers give uniform orders.",
  "all datasets, windows, orders, generators",
  "b! orders of all batch sizes; tests see single shuffles",
  [DB + ": generate_shuffled_batches"])
p("With independent uniform draws shuffled batches become representative in the long run",
  "Shuffling happens in place, so datapoints wander through the dataset. If start positions and shuffle answers were independent and uniform, the mean over the k-th batches of any function of the datapoints would converge, geometrically in k with an explicit rate, to its mean over the dataset, for every batch size - while the batches of the generator without shuffling stay biased for ever (C78).",
  "all datasets, batch sizes, functions of datapoints, numbers of batches, generators",
  "a statement about limits of averages over all random streams",
  [DB + ": generate_shuffled_batches, generate_batches"])
p("Start positions and shuffles are not independent: all generators are seeded alike (contract violation)",
  "Batch starts and shuffles should be independent. generate_shuffled_batches seeds the two shuffling generators and the generator of the start positions with the same seed. With numpy's masked draws the start position then determines the first answer of the shuffle (batch size 2^q, N = 2^q + 2^p - 1, q <= p): the last datapoint of the first batch always comes from an even place. With batches of two out of 2^p+1 datapoints the generators stay in step for ever and only datapoints 2i and 2i+1 ever change places: the last datapoint never moves, for any seed and number of batches.",
  "all datasets, seeds, numbers of batches, generators drawing by masking",
  "a statement about all seeds and arbitrarily many batches",
  [DB + ": generate_shuffled_batches, generate_batches"])

p("A complete sampler run is the published Markov chain",
  "Every history of calls of SGHMC, SGLD or relativistic SGHMC - through feed dictionaries, batch generator, stepsize schedule and session, failing calls included - is the chain of the papers, computed entry by entry: started at the initial values (SGHMC: zero momentum, averages 1), driven by the stepsizes the schedule hands out, the gradients at the current values under the current batch, and consecutive standard normals of the pair (graph seed, sampler seed); the inverse mass is re-estimated in every step until burn-in ends and then stays that of the last burn-in step; results and the feedback to the schedule are the new values and the cost at the old ones.",
  "all objectives, parameter lists and shapes, seeds, batch generators, schedules, numbers of burn-in steps, caller dictionaries without fed masses, histories of calls",
  "a refinement between two programs over all executions; tests compare single trajectories",
  [SG + ": SGHMCSampler.__init__", SL + ": SGLDSampler.__init__", RS + ": RelativisticSGHMCSampler.__init__", BC + ": MCMCSampler.__next__, BurnInMCMCSampler.__next__, _draw_noise_sample"])

p("A training collects the thinned states of the published chain",
  "The networks a trained BayesianNeuralNetwork holds are states of the published SGHMC or SGLD chain: from the initial values of all variables, iteration i takes the next batch of the generator (on the normalized data), the next stepsize of the schedule, and makes one transition of the chain for the cost of the network on that batch; the mass is adapted for the first burn_in_steps iterations; the k-th network collected is the state after iteration number (k-th multiple of sample_steps beyond burn_in_steps). Nothing else - logging, normalization, feed dictionaries, the deque - influences the chain.",
  "all networks, datasets, generators, schedules, objectives, seeds, settings accepted by the constructor, for trainings that succeed or fail part-way",
  "relates three layers (model, sampler, session) over all executions; tests look at shapes and rough accuracy of predictions",
  [BN + ": BayesianNeuralNetwork.train, negative_log_likelihood", BC + ": BurnInMCMCSampler.__next__", SG + ": SGHMCSampler.__init__", SL + ": SGLDSampler.__init__"])

p("The density sampled by a network is likelihood times prior, with a weight prior that fades with network size (contract violation)",
  "With the gradient scale train passes to the sampler (the number n of datapoints), a network trained on full batches samples from exp(-n*cost). That is the Gaussian likelihood of all labels times independent zero-mean normal priors on the weights times a log-normal prior on the noise - but the weights' prior variance is the number of weights N, not 1/wdecay = 1: the prior log density is divided by the number of parameters, so it vanishes as the network grows.",
  "all datasets, network outputs and weights",
  "an identity between densities over the reals; the tests only run the code",
  [BN + ": negative_log_likelihood, weight_prior_log_like, log_variance_prior_log_like, train"])

p("Constructors accept exactly admissible arguments; SGLD never looks at its schedule (contract violation)",
  "Called directly or through get_sampler, a sampler constructor accepts exactly the arguments of the demanded kinds (batch_generator None or iterator, seed None or int, session a session, dtype a dtype, cost_fun callable, schedule with update/__next__/initial_value, burn_in_steps int, alpha and fudge_factor numbers), stores each of them in its attribute, and raises AssertionError otherwise - except SGLD, which accepts anything as stepsize_schedule.",
  "all methods, keyword dictionaries and values",
  "all combinations of arguments of all kinds",
  [SA + ": Sampler.get_sampler", BC + ": MCMCSampler.__init__, BurnInMCMCSampler.__init__", SG + ": SGHMCSampler.__init__", SL + ": SGLDSampler.__init__", SV + ": SVGDSampler.__init__"])

p("The effective sample size script cuts one run into chains and ignores --keep-every (contract violation)",
  "compute_ess.py rejects invalid arguments before doing anything; tries exactly the stepsizes min + i*step below max (or the one given with --stepsize, which is not checked and may be negative); for each stepsize and iteration it makes one sampler, runs it for 10*n_chains*samples_per_chain steps and cuts that run into consecutive pieces, so that the 'chains' are not chains of their own; --keep-every is checked and then ignored in favour of 10; the file written has the stepsizes in order, each with one value per iteration.",
  "all argument values, samplers that do not stop, diagnostics, sessions",
  "all ranges of stepsizes and numbers of chains, samples and iterations; the script is not tested at all",
  ["docs/source/experiments/compute_ess.py: main, extract_samples"])

p("A complete SVGD run is coordinatewise AdaGrad descent along the reversed Stein direction",
  "Every history of calls of SVGDSampler - through feed dictionaries, batch generator, schedule and session, failing calls included - starts from the given particles with averages zero, uses the stepsizes of the schedule and the costs and gradients of cost_fun at all current particles under the current batch, moves all particles at once along the direction of C28 scaled by the root of the running average of its squares, and returns the list of new particles with the vector of old costs. Listing the particles in another order only reorders what is returned.",
  "all objectives, numbers and lengths of particles, alpha, fudge factors, batch generators, schedules, histories of calls, until half of all distances are zero (C31)",
  "a refinement between two programs over all executions",
  [SV + ": SVGDSampler.__init__, svgd_kernel", BC + ": MCMCSampler.__next__"])

p("The burn-in estimates are weighted averages that forget their initial values like 1/(t+1)",
  "The adapted mass should reflect the gradients seen, not the values 1 the variables start with. After t steps g and v_hat are averages, with the same positive weights, of the initial 1 and of all gradients (squared gradients) so far; the initial value has weight between 2^-t and 1/(t+1), the newest gradient at least 1/(t+1). So squared gradients within d of q give an estimate within d + |1-q|/(t+1) of q. For a parameter with zero gradients the inverse mass lies between about sqrt(t+1) and sqrt((t+1)(t+2)/2).",
  "all gradients, numbers of steps, parameter sizes, feeds, settings of SGHMC and SGLD",
  "a bound over unboundedly many steps and all gradient sequences",
  [SG + ": SGHMCSampler.__init__", SL + ": SGLDSampler.__init__"])

p("The burn-in adaptation is stable under rounding",
  "The adaptation divides by v_hat and by tau+1 and relies on g^2 <= v_hat, which rounding can violate. In any binary format with gradual underflow that represents 1e-16, all operations rounded to nearest, and as long as 2048*(t+1)^2 <= 2^precision (two million steps in double precision), whatever the gradients: 1/2 <= tau <= t+1, the averaging rate is in (0,3/4], v_hat >= 0, g^2 exceeds v_hat at most by a relative 200*t*2^-precision and t*2^(emin+7), and the inverse mass is nonnegative and at most 2^54.",
  "all formats, gradients, parameter sizes, settings; all numbers of steps below the stated bound; overflow excluded",
  "rounding errors over millions of steps for all gradients",
  [SG + ": SGHMCSampler.__init__", SL + ": SGLDSampler.__init__", TU + ": safe_divide, safe_sqrt"])

p("Averages over a run converge in mean square to the mean of a Gaussian target, at a known rate",
  "What users do with samples is average them. On a Gaussian target with constant stepsize inside the stable region, the mean of the first n samples of SGLD or SGHMC converges in mean square to the target's mean, without bias from the stepsize, from every start: n times the mean square error tends to 2/(scale*h*precision^2) for SGLD and to noise/k^2 for SGHMC, with an error of at most C/sqrt(n) for an explicit C (SGLD) or one depending on the settings and the initial mean and covariance only (SGHMC).",
  "all targets, means, starts, settings in the stable region, probability spaces, white noise sequences, run lengths",
  "a limit statement about expectations over all noise",
  [SG + ": SGHMCSampler.__init__", SL + ": SGLDSampler.__init__"])

p("With a seed, samples of independent parameters are correlated (contract violation)",
  "Parameters that are independent under the target should have uncorrelated samples. With a seed all scalar parameters of a sampler receive the same noise (C33); for SGLD on a product of two Gaussians the covariance of the two parameters then converges geometrically to a positive limit, and when both have the same h*precision their correlation tends to 1: the difference of the two parameters shrinks geometrically in every outcome, i.e. the sampler collapses onto a line, from every start. The same collapse happens for SGHMC with equal settings in its stable region. Without a seed the covariance tends to zero.",
  "all targets, starts, settings in the stable region, generators, seeds, pairs of parameters, numbers of steps",
  "a statement about a limit of covariances over all noise",
  [SG + ": SGHMCSampler.__init__", SL + ": SGLDSampler.__init__"])

p("The default network starts odd - and with a seed all its kernels are the same draws (contract violation)",
  "Initial weights of different layers should be independent. get_default_net gives all four kernel initializers the same seed: with a seed both hidden kernels start equal, the output kernel starts equal to the first row of the hidden kernels and the input kernel is sqrt(50/n) times their first rows. Without a seed they are uncorrelated. In either case the network starts as an odd function of the (normalized) input with noise variance 1/1000, and its variables have the shapes the network reads.",
  "all generators, seeds, graph seeds, numbers of features, inputs",
  "an identity for all generators, seeds and positions; the tests never look at initial weights",
  [BN + ": get_default_net"])

p("On strongly convex costs SGLD forgets its start and stays near the minimiser",
  "For a cost that is mu-strongly convex with L-Lipschitz gradient, any number of parameters of any shapes, and a constant stepsize with h L^2 <= 2 mu (h = eps*A*mass): (1) two complete runs with the same seed and one step of burn-in approach each other whatever their starts and the noise: squared distance of the k-th samples <= (1 - 2 h mu + h^2 L^2)^(k+1) times that of the starts. (2) After any burn-in, with the masses it ends with, every sample is closer to the minimiser than the one before by a fixed factor, up to the noise of that call. (3) Over random streams the mean squared distance to the minimiser approaches 2n/(s(2 mu - h L^2)) from above or stays below it, at that geometric rate.",
  "all strongly convex smooth costs, dimensions, starts, seeds, noise streams, lengths of runs, batch generators",
  "a rate for all costs of a class, all noise and all lengths of runs; tests can try single costs and seeds",
  [SL + ": SGLDSampler.__init__", BC + ": BurnInMCMCSampler.__next__"])

p("On strongly convex costs SGHMC forgets its start and stays near the minimiser",
  "For every cost with strongly monotone, Lipschitz gradient, constant stepsize eps, friction 0 < mdecay <= 1 and eps^2*m*L <= mdecay^2/10: two complete seeded runs from any two starts approach each other geometrically (factor 1 - eps^2*m*mu/(2*mdecay) per call, in squared distance, up to the constant 2); after any burn-in an explicit energy of the last two samples shrinks by a fixed factor per call up to that call's noise, and bounds the distance to the minimiser; over white noise the mean squared distance is at most 16 n/(scale_grad*mu) plus a term from the 1e-16 guard, plus a geometrically vanishing remainder.",
  "all strongly convex costs, dimensions, starts, noise streams, burn-in lengths, run lengths, batch generators",
  "a bound on all later samples of a stochastic recursion with momentum, for all costs of a class; no finite set of runs shows it",
  [SG + ": SGHMCSampler.__init__", BC + ": BurnInMCMCSampler.__next__"])

p("Minibatch gradients move SGLD samples by at most a multiple of their error",
  "On a cost with strongly monotone, Lipschitz gradient, two complete seeded SGLD runs whose gradients are computed from minibatches and are within delta and delta' of the full gradient end up at most h(delta+delta')/(1-r) apart, whatever the batches and the noise, with r = sqrt(1-2h*mu+h^2*L^2) < 1. In particular for generate_batches: if every datapoint's gradient is within delta of the mean over the dataset, runs with any two batch sizes and batch seeds complete every call and their k-th samples differ by at most 2h*delta(1-r^(k+1))/(1-r). After any burn-in, the distance to the minimiser of the full cost shrinks per call up to the minibatch error and the noise.",
  "all strongly convex costs, datasets, batch sizes, batch seeds, random generators, noise streams, starts, run lengths",
  "tests compare a few runs on one dataset; the claim bounds the effect of every choice of minibatches on every later sample",
  [SL + ": SGLDSampler.__init__", DB + ": generate_batches", BC + ": MCMCSampler._next_batch", BC + ": BurnInMCMCSampler.__next__"])

p("Missing or infinite values make whole columns NaN, and the incumbent NaN",
  "With IEEE infinities and NaN: zero_mean_unit_var_normalization standardizes a column (or the labels) exactly if its entries are finite and not all equal; otherwise - one NaN or one infinity suffices - every entry becomes NaN. zero_one_normalization turns a column with a NaN or -inf, and a constant column, into NaN; with +inf and no other, finite entries become 0 and infinite ones NaN; otherwise entries are (x-min)/(max-min). Columns do not influence each other. If an observation is NaN, get_incumbent returns the first such observation rather than the best of the others.",
  "all matrices and label vectors of every size with entries finite, infinite or NaN",
  "tests normalize clean data; what one bad entry does to the rest of the training set is a statement about all data",
  [BM + ": zero_mean_unit_var_normalization", BM + ": zero_one_normalization", BM + ": BaseModel.get_incumbent"])

p("An entry that became infinite or NaN never recovers",
  "In double precision (IEEE binary64 with its infinities, NaN, rounding and overflow): once an entry of a parameter in a sample of SGHMC, SGLD or relativistic SGHMC is infinite or NaN, it is infinite or NaN in every later sample, whatever the later gradients, stepsizes, noise and batches are; and an infinite or NaN gradient entry makes its entry infinite or NaN in the very sample it was computed for. With SVGD a single infinite or NaN gradient coordinate of one particle does so to that coordinate of all particles, and so does a bad coordinate of one particle.",
  "all targets, stepsize schedules, batch generators, seeds, feeds, numbers of parameters, particles, dimensions and calls, burn-in included; all interpretations of exp and log",
  "a test sees runs that stay finite; that no continuation of a run can repair an entry is a statement about all continuations",
  [SG + ":130-251", SL + ":120-215", RS + ": RelativisticSGHMCSampler.__init__", SV + ": SVGDSampler.__init__", BC + ": MCMCSampler.__next__, BurnInMCMCSampler.__next__"])

p("Long runs in double precision do not overflow",
  "In double precision (IEEE binary64), for SGHMC and SGLD with scale_grad between 1 and 2^900, mdecay between 0 and 1 (A at most 1024 for SGLD), initial values up to 2^500, stepsizes at most 1 and fed masses at most 2^54: as long as the gradient entries met stay at most 2^400 in size and the noise at most 2^10, no call among the first two million returns an infinite or NaN entry, and all entries stay below 2^503; this includes the adaptation, the freezing of the mass at the end of burn-in and failing calls in between. Conversely a single finite gradient entry of 2^512 or more makes its entry infinite or NaN from the second successful step after it on, unless a frozen mass is fed by then.",
  "all targets, stepsize schedules, batch generators, seeds, numbers of parameters, sizes and up to 2^21 - 1 calls; all positions of failing calls; all gradients within the bounds",
  "overflow is a matter of the sizes of all intermediate results over a whole run: a test sees one run of moderate size; the bound has to hold at every operation of every run, including the feedback of the adapted window into the next step",
  [SG + ":130-251", SL + ":120-215", TU + ": safe_divide, safe_sqrt", BC + ": BurnInMCMCSampler.__next__"])

p("Scaling to [0, 1] in double precision: range, ends, order and round trip",
  "In double precision (IEEE binary64), for a column of finite entries between its bounds l < h (at most 2^1021 in size; given, or its smallest and largest entry): zero_one_normalization returns entries in [0, 1], l becomes exactly 0 and h exactly 1, the order of entries is kept, and zero_one_unnormalization gives each entry back up to 2^-49 of the larger bound (plus 2^-1073) - but not exactly: in the column 49, 0, 1 the 1 comes back as another number. If h - l exceeds the largest double, entries within 2^1023 of l become 0 and those as far away as h become NaN.",
  "all matrices, columns, given or computed bounds and finite double entries, subnormal numbers included",
  "a test compares a few columns with a tolerance; that no rounding leaves [0, 1], swaps two entries or moves the ends, also when the differences are subnormal, has to hold for every triple of doubles",
  [BM + ":109-118 zero_one_normalization", BM + ":121-122 zero_one_unnormalization"])

p("Constant columns in double precision become NaN or plus/minus one",
  "In double precision, in whatever order the sums of np.mean and np.std are taken: a constant column of n entries m * 2^e with n * |m| < 2^53 (whole numbers, say) is summed exactly and standardization makes all its entries NaN; for any constant between 2^-400 and 2^400 in size and up to 2^20 rows, either all entries become NaN or - if the rounded mean differs from the constant - all become one and the same finite number, 1 or -1 up to 2^-30. The second case occurs: three labels 0.1 become -1, -1, -1.",
  "all constants and numbers of rows in the ranges given, all orders and bracketings of the sums",
  "whether the mean of equal numbers is that number depends on every rounding of a sum of any length and on the order numpy takes; a test on one constant sees NaN and misses that a neighbouring constant silently becomes a column of ones",
  [BM + ":125-133 zero_mean_unit_var_normalization"])

p("Tensor utilities in double precision",
  "In double precision: median of finite entries (up to 2^1022) is finite, for an odd number of entries it is exactly one of them and exactly the median, otherwise within 2^-53 relative (plus 2^-1075) of the mean of the two middle ones, and at least half of the entries are <= it and half >= it. safe_divide by any finite y divides by a finite nonzero D with the sign of y, |D| >= |y|; D = y when y >= 4 or y <= -1, and D is the next double after y when 1 <= y < 4; results are finite for numerators up to 2^969. safe_sqrt of any finite x is the rounded sqrt(max(x, 0)) and monotone. pdist of points with up to 2^20 coordinates of size up to 2^490 is finite, not negative, exactly symmetric, exactly zero for equal points and within (d+1) 2^-50 relative (plus 2^-525) of the true distance. Refuted: the median of two equal finite entries is finite; dividing by 1 changes nothing; different points have nonzero distance.",
  "all finite doubles in the ranges given, all numbers of entries, points and coordinates",
  "rounding, overflow and underflow behaviour depends on every bit of the operands; tests compare a handful of values up to a tolerance",
  [TU + ":160-208 median", TU + ":211-269 safe_divide", TU + ":272-323 safe_sqrt", TU + ":326-419 pdist"])

p("Relativistic SGHMC in double precision",
  "With mass and speed of light c between 2^-20 and 2^20, stepsize between 0 and 1 and momentum up to 2^460, the velocity computed in doubles is finite, within 2^-47 relative (plus 2^-1050) of the exact relativistic velocity, and at most (1 + 2^-47) eps c (plus 2^-1050). Complete runs of up to 2^21 calls with 0 <= Bhat <= D <= 1024, parameters up to 2^500, initial momenta up to 2^420, gradients up to 2^400 and noise up to 2^10 return finite samples only (below 2^503), and at every call each entry x moves by at most (1 + 2^-46) eps c + 2^-53 |x| + 2^-1049. Refuted: the velocity is strictly below eps c (C24 over the reals). A single gradient g with 2^513 <= eps |g| <= 2^900 makes the square of the momentum overflow: the velocity and with it the friction become 0, and all later samples of that parameter are the same number for ever, without any error.",
  "all configurations, parameters, momenta, targets, schedules, batches and call sequences in the ranges given",
  "the silent stop needs a rare spike, and the rounding of the velocity depends on every bit; tests sample a few hundred steps of moderate size",
  [RS + ":123-140 velocity, momentum and parameter updates", RS + ":125 noise scale"])

p("Predictions in double precision",
  "For an ensemble of up to 2^20 networks whose individual predictions at a test point are at most B in size (2^-400 <= B <= 2^490), the predictive mean and variance computed in doubles are finite, the variance is never negative, the mean is within (n + 2) 2^-52 B of the exact average and the variance within (n + 3) 2^-47 B^2 of the exact population variance, in whatever order the sums are taken; with normalized targets the same holds after scaling back, relative to y_std B + |y_mean|. One individual prediction that is infinite or NaN makes the mean at that test point infinite or NaN and the variance NaN. Refuted: networks that agree exactly give their common prediction and variance 0 (three networks predicting 0.1 give a mean above 0.1 and a positive variance; agreement is exact for numbers with few digits); finite individual predictions give finite aggregates.",
  "all ensembles, test points, network outputs, normalization statistics and orders of summation in the ranges given",
  "the rounding depends on every bit of every network output; tests compare with a tolerance and on one ensemble",
  [BN + ":619-630 mean and variance of the individual predictions"])

p("Stein variational descent in double precision",
  "In every run of SVGD in doubles (0 <= alpha < 1, fudge factor at least 2^-400, any cost, any gradients, any functions exp and ln), a sample whose coordinate is finite is within (1 + 2^-46) e / sqrt(1 - alpha) + 2^-53 |x| + 2^-1074 of the value x of that coordinate in the sample before, e being the stepsize; x was finite. After T calls with stepsizes up to e a finite coordinate is at most (1 + 2^-53)^T (|x_0| + T times that step) in size. If alpha > 0 and a computed direction is once 2^512 or larger in size, its square overflows, the accumulated history is infinite for ever and the coordinate never changes again (or is infinite or NaN). Refuted: particles at which the gradients are finite and not zero keep moving.",
  "all complete runs: costs, gradients, feeds, batch generators, stepsize schedules, numbers of particles, dimensions, exp and ln",
  "the bound holds because of the historical gradient accumulated from every earlier step, in rounded arithmetic including underflow and overflow; the freezing needs one large gradient in a long run and raises no error",
  [SV + ":130-144 historical gradient, adjusted gradient and update"])

p("SVGD particles that stay apart and particles that coincide, in double precision",
  "SVGD in doubles with n >= 2 particles of dimension d (n, d <= 2^20, 0 <= alpha < 1, fudge factor at least 2^-400), initial coordinates up to 2^390 in size, an exp that maps non-positive numbers and -inf into [0, 1] and a ln(n + 1) between 1/2 and 16: if at each of up to 2^20 calls the stepsize is in [0, 1], the gradients are at most 2^400 in size and the particles are at least 2^-20 apart, every coordinate of every sample is finite and at most 2^391 in size. If at some call more than half of the n^2 ordered pairs of particles coincide (for instance two of three, or all particles initialised alike), the median distance is zero and every coordinate of every particle is infinite or NaN in that sample and all later ones. Refuted: SVGD separates particles that start equal.",
  "all complete runs within the stated sizes: costs, feeds, batch generators, stepsize schedules, numbers of particles, dimensions, exp and ln",
  "the range of every intermediate result (distances, their squares, the median, the bandwidth and its square, the kernel, the direction and the accumulated history) has to be bounded at once and over a million calls; no error is raised when the kernel becomes NaN",
  [SV + ":146-180 svgd_kernel", SV + ":121-144 direction and update", TU + ":median, pdist and squareform"])

p("Benchmark functions in double precision",
  "With sin, cos in [-1, 1], cos 0 = 1, pi in [3, 4] and exp of non-positive numbers in [0, 1], evaluated in doubles: rosenbrock on coordinates up to 2^200 is finite and at least 0, and is 0 exactly at (1, 1); bohachevski up to 2^400 is finite and at least -2^-54, and is -2^-54 at the origin, so the origin is a minimiser although its value is not the documented 0; levy up to 2^400 is finite and at least 0, but positive at 1 whenever the computed sin(pi) is not tiny; sin_one and sin_two lie in [0, 1]; branin up to 2^100 is finite and not below 0.39788735773 - 2^-41 for the double nearest pi; hartmann3 and hartmann6 up to 2^100 lie in [-8.5, 0]; banana up to 2^200 is finite and at most 0, and 0 only if the second coordinate is 10 and the first is below 2^-530 in size, which all points with first coordinate up to 2^-540 do reach. camelback up to 2^100 is finite and, to the last bit, the same at a point and its mirror image; up to 4 it is within 2^-25 of the six-hump camel function and not below -1.03171. Refuted: goldstein_price has its least value 3 at (0, -1); one ulp further it is below 3 - 2^-45.",
  "all double inputs within the stated boxes; all sin, cos, exp and pi as described",
  "the doctests compare a single point with np.allclose; whether rounding moves the optimum, makes a value negative or overflows is a statement about all doubles of the box",
  [OF + ":49-59 banana_log_likelihood", OF + ":107-139 bohachevski, branin", OF + ":159-252 goldstein_price, hartmann, levy", OF + ":255-315 rosenbrock, sin_one, sin_two"])

p("Gaussian mixtures in double precision: accurate near the means, finite far away",
  "Let exp (of non-positive numbers), ln (between 2^-30 and 2^30) and pi be computed with an error of at most 2^-40. For a mixture of 1 to 16 components with weights in [2^-10, 1], means up to 32 in size and variances in [1/8, 8], and an argument up to 32 in size given as a scalar or a one-element sequence, gaussian_mixture_model_log_likelihood in doubles is finite and within 2^-21 of ln of the mixture density with these weights, means and variances; for arguments up to 2^400 in size, where every component density underflows, it is still finite. Both hold for gmm1, gmm2 and gmm3.",
  "all double arguments, mixtures, and implementations of exp, ln and pi within the stated sizes and errors",
  "np.allclose at chosen points cannot show an error bound for all arguments or the absence of overflow and -inf far from the modes",
  [OF + ":62-98 gaussian_mixture_model_log_likelihood, gmm1, gmm2, gmm3"])

p("The training cost in double precision: finite, ordered by fit, and its NaN",
  "Let exp of a finite double be a non-negative double or +inf. For a batch of 1 to 2^20 labels, predicted means and log variances up to 2^200 in size and 1 to 400 variables with entries up to 2^200, the cost and the mean squared error of negative_log_likelihood in doubles are finite, however large or small exp of the log variance; and with the same log variances, predictions at least as close to their labels never have a higher cost or error. The guard 1e-16 is lost in rounding once the variance is at least one, and makes the precision exactly 1e16 when the variance is zero. A label 2^513 or further from its prediction makes cost and error infinite or NaN, and the cost is NaN if that row's variance overflows too, so finite outputs do not always give a number.",
  "all batches, variables and implementations of exp and ln within the stated sizes; all double variances for the guard; all batches containing such a row for overflow and NaN",
  "a test evaluates the cost on a few batches; it cannot show that rounding never reverses the order of two fits or that no batch in the range overflows",
  [BN + ":77-141 log_variance_prior_log_like, weight_prior_log_like", BN + ":337-388 negative_log_likelihood"])

p("Minibatch gradients move SGHMC samples by at most a multiple of their error",
  "On a cost with strongly monotone, Lipschitz gradient, with friction 0 < mdecay <= 1 and h*L <= mdecay^2/10 (h = eps^2*m), two complete seeded SGHMC runs whose gradients are computed from minibatches and are within delta and delta' of the full gradient have k-th samples at most r^(k+1)*sqrt(2)*(distance of the starts) + (1-r^(k+1))*2h(delta+delta')/(mdecay(1-r)) apart, whatever the batches and the noise, with r = sqrt(1-h*mu/(2*mdecay)) < 1. In particular for generate_batches: if every datapoint's gradient is within delta of the mean over the dataset, runs with any two batch sizes and batch seeds complete every call and their k-th samples differ by at most 4h*delta(1-r^(k+1))/(mdecay(1-r)). After any burn-in, the energy of the last two samples relative to the minimiser of the full cost shrinks per call up to the minibatch error and the noise.",
  "all strongly convex costs, datasets, batch sizes, batch seeds, random generators, noise streams, starts, burn-in lengths, run lengths",
  "tests compare a few runs on one dataset; the claim bounds the effect of every choice of minibatches on every later sample of a recursion with momentum",
  [SG + ": SGHMCSampler.__init__", DB + ": generate_batches", BC + ": MCMCSampler._next_batch", BC + ": BurnInMCMCSampler.__next__"])

p("Rounding errors of SGLD do not accumulate",
  "One SGLD step in IEEE double precision with frozen masses has finite entries, each within 2^(e-46) of the exact preconditioned Langevin step, when entries, drifts and noises are at most 2^e in size. On a cost with strongly monotone, Lipschitz gradient computed with an error of at most delta, the chain in double precision and the exact chain with the same masses and noise stay, after any number k of steps, within r^k*(distance of the starts) + (1-r^k)*(h*sqrt(hi)*delta + sqrt(n/lo)*2^(e-46))/(1-r) of each other (distances weighted by the inverse masses), with r < 1: the bound does not grow with the length of the run. In a complete sampler with burn-in every sample after burn-in satisfies the bound of one step, from the values before, with the masses returned by the last run of burn-in, the stepsize fed and the gradients of that call.",
  "all stepsizes, A and gradient scales of usual size, masses, strongly convex costs, gradient routines, noise sequences, starts, numbers of steps",
  "a test compares finitely many steps of one run with a reference it cannot compute exactly; the claim bounds the difference from exact arithmetic for runs of every length",
  [SL + ": SGLDSampler.__init__", "pysgmcmc/tensor_utils.py: safe_divide", "pysgmcmc/tensor_utils.py: safe_sqrt"])

p("One SGHMC step in double precision is close to the exact step",
  "One SGHMC step in IEEE double precision with frozen masses has finite momenta and values; each momentum is within 2^(e-45) of v - eps^2*m*g - alpha*v + sqrt(max(2*eps^2/s*alpha*m - (eps^2/s)^2, guard))*xi in exact arithmetic, and each value within 2^(e-44) of the old value plus that exact momentum, when values, momenta, pushes of the gradient and noises are at most 2^e in size and eps^2/s <= alpha*m. Every sample a sampler returns after burn-in satisfies this with the masses of the last sample of burn-in.",
  "all stepsizes, frictions and gradient scales of usual size, masses, gradients, noises, momenta, values, magnitudes 2^e with -900 <= e <= 1000, batch generators, costs, numbers of calls",
  "a test compares finitely many steps with a reference rounded in the same way; the subtraction inside the root cancels, and the claim bounds its effect for every state",
  [SG + ": SGHMCSampler.__init__", BC + ": BurnInMCMCSampler.__next__", "pysgmcmc/tensor_utils.py: safe_divide", "pysgmcmc/tensor_utils.py: safe_sqrt"])

if __name__ == "__main__":
    for x in P:
        print(json.dumps(x))
