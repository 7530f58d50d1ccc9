{
 "C03": {
  "note": "Batch sequences as functions of (data, batch size, seed, RNG oracle); the concrete Mersenne twister is an arbitrary oracle with the documented ranges."
 },
 "C06": {
  "note": "Contract violation: the expected clauses are refuted by concrete histories (caller's arrays and earlier batches change); what the code guarantees instead is C06_step_touches_only_its_batch. generate_batches never changes the arrays (C01)."
 },
 "C07": {
  "note": "Contract violation for labels of width >= 2: exact label count proved, the documented clause refuted, and with shuffling the pairing is lost."
 },
 "C11": {
  "note": "Contract violation: refuted by a concrete run; positive half: without burn-in no mass matrix is ever fed, and the one used is the newly adapted one in every step."
 },
 "C12": {
  "note": "Contract violation after burn-in, exact characterisation of when user entries reach the session."
 },
 "C13": {
  "note": "Contract violation for one target parameter; exact format in all cases plus refutation of a uniform format."
 },
 "C14": {
  "note": "The failure of schedule.update is the one case in which the chain has already moved (refutation of atomicity)."
 },
 "C15": {
  "note": "Holds for SGHMC, RelativisticSGHMC, SVGD; contract violation for SGLD, stated and refuted."
 },
 "C26": {
  "note": "Contract violation: success iff every parameter has exactly one element (and float mass / speed of light); the documented generality is refuted."
 },
 "C28": {
  "note": "Contract violation: the coded update is the published one with the kernel-gradient sign flipped, for all inputs; contraction and its opposite for the published update proved."
 },
 "C31": {
  "note": "Contract violation: exact condition for NaN."
 },
 "C32": {
  "note": "Reproducible for every seeded run from equal op counters or op seeds; unseeded runs refuted. TensorFlow's per-op seed derivation (get_seed) is modelled as library behaviour."
 },
 "C33": {
  "note": "Contract violation: identical streams proved for seeded runs; correlation 1 and, for unseeded distinct streams, 0 under an abstract expectation functional."
 },
 "C34": {
  "note": "Order independence for every admissible order and every number of parameters, under two readings of variable reads; its limits are refuted (coupled gradients with in-place reads; the reported cost)."
 },
 "C42": {
  "note": "Contract violation for the keyword 'self'; otherwise exact."
 },
 "C43": {
  "note": "Contract violation: session is not optional."
 },
 "C44": {
  "note": "Contract violation: exact set, documented set refuted."
 },
 "C46": {
  "note": "Contract violation: constant columns and constant targets give NaN."
 },
 "C51": {
  "note": "Contract violation: exact condition for an empty sample set, and predict's result for it."
 },
 "C56": {
  "note": "Exact cost; contract violation for batch_size > N refuted."
 },
 "C58": {
  "note": "Contract violation: atomicity refuted, the state after each failure point proved."
 },
 "C60": {
  "note": "Contract violation with exactly one normalization disabled; safe settings proved."
 },
 "C63": {
  "note": "Contract violation for repeated names."
 },
 "C64": {
  "note": "Contract violation: keep_every is ignored; what is recorded is proved."
 },
 "C65": {
  "note": "Contract violation: slices never project; exact outcome."
 },
 "C66": {
  "note": "Contract violation for one-parameter samplers."
 },
 "C72": {
  "note": "Contract violation: the recorded chains do not depend on the burn-in state."
 },
 "C73": {
  "note": "Contract violation: networks with a single variable cannot predict."
 },
 "C77": {
  "note": "Over real arithmetic, scalar parameter, frozen mass; the noise enters through an abstract expectation functional (standardised, uncorrelated with the state). Contract violation for tiny stepsizes: the 1e-16 noise floor makes the stationary variance exceed every bound."
 },
 "C78": {
  "note": "Contract violation: exact weights of the datapoints; batch means are unbiased over the starts iff b = 1 or b = N. The uniformity of randint enters only as a hypothesis on the draws (every start drawn equally often)."
 },
 "C79": {
  "note": "Over real arithmetic (statistics exact); a constant column is 0 after normalization over R where the code gives NaN, see C46. Refuted without normalize_output."
 },
 "C80": {
  "note": "For networks with at least two variables (see C73) that treat rows independently; the default network is proved to."
 },
 "C81": {
  "note": "Contract violation: a single feature is broadcast when inputs are normalized; all other widths rejected."
 },
 "C82": {
  "note": "Contract violation: exact content of the dictionary after a call; when sharing is harmless is proved."
 },
 "C84": {
  "note": "Independence and uniformity of the draws enter as hypothesis (equidistributed); such states exist (C84_equidistributed_states) but the code's equal seeding prevents them with numpy's generator, see C85."
 },
 "C85": {
  "note": "Contract violation. That numpy's randint and shuffle mask the same 32-bit words (masked) is numpy's behaviour, entered as hypothesis; the LCG of the examples satisfies it."
 },
 "C87": {
  "note": "For seeded samplers; logging is assumed to leave the variables unchanged; the gradients are those the objective returns."
 },
 "C88": {
  "note": "Contract violation: prior variance of each weight is the number of weights. Full batches; constant predicted noise for the density form."
 },
 "C89": {
  "note": "Contract violation: SGLD accepts any value as stepsize_schedule. TensorFlow's own complaints while building the graph are assumed absent."
 },
 "C90": {
  "note": "Contract violations: chains are pieces of one run, --keep-every is ignored, --stepsize is not checked. Stepsizes are real numbers; argparse and pymc3's diagnostic are not modelled."
 },
 "C93": {
  "note": "Exponents are unbounded upwards (no overflow); gradients are arbitrary reals. The bound on the number of steps is a hypothesis: 2048*(t+1)^2 <= 2^precision."
 },
 "C95": {
  "note": "Stated for two scalar parameters of a separable quadratic cost with frozen mass; the unseeded theorem assumes the draws of a step to be uncorrelated with the other parameter's current value."
 },
 "C96": {
  "note": "variance_scaling_initializer and truncated_normal are library code, modelled from their documentation: draws from an op of its own times sqrt(1.3/fan_in)."
 },
 "C97": {
  "note": "Exact arithmetic; the cost must not depend on the batch (full-batch gradients). Adaptation for ever (burn_in_steps <= 0) is not covered: the preconditioner then changes with the gradients. The gradient function is a hypothesis of the model (TensorFlow's automatic differentiation)."
 },
 "C98": {
  "note": "Stepsize condition eps^2 m L <= mdecay^2/10; the constants are not claimed to be sharp."
 },
 "C99": {
  "note": "Worst-case bound over all batches; no use is made of the randomness of the batches."
 },
 "C100": {
  "note": "Exact characterisation, including the contract violations: a single missing value is not contained."
 },
 "C101": {
  "note": "The library has no check for non-finite values; this is the consequence. Relativistic SGHMC for the one-element parameters its step supports (C26)."
 },
 "C102": {
  "note": "The gradient bound is a hypothesis on the gradients met in the run, so no assumption on the target elsewhere is needed. Masses: the mass used is computed from the second moment before the current gradient, hence the delay of two steps."
 },
 "C103": {
  "note": "C47 is the same statement over the reals, C100 with NaN and infinities in the data."
 },
 "C104": {
  "note": "C46 describes constant columns in exact arithmetic; this is the double-precision picture."
 },
 "C105": {
  "note": "Double-precision companion of C36-C39; the sum of squares is taken in the order of the model."
 },
 "C106": {
  "note": "Double-precision companion of C24 and C25; the strict limit fails by rounding only, the freeze needs a gradient spike."
 },
 "C107": {
  "note": "Double-precision companion of C53; exact agreement and overflow are the two ways the real-number claim fails."
 },
 "C108": {
  "note": "Double-precision companion of C29; the refuted part is the overflow of the historical gradient."
 },
 "C109": {
  "note": "Double-precision companion of C27 and C31; the refuted part is the loss of coinciding particles. That particles stay apart is a hypothesis."
 },
 "C110": {
  "note": "Double-precision companion of C68; goldstein_price's documented minimum and the exact optimum values of bohachevski and levy fail in doubles."
 },
 "C111": {
  "note": "Double-precision companion of C69."
 },
 "C112": {
  "note": "Double-precision companion of the cost properties; the claim that finite outputs give a number is refuted."
 },
 "C113": {
  "note": "SGHMC counterpart of C99."
 },
 "C114": {
  "note": "The step with fed (frozen) masses, as after burn-in; the computed gradient is a parameter with a known error."
 },
 "C115": {
  "note": "The step with fed (frozen) masses, as after burn-in; the bound is per step, from the state in doubles before it."
 }
}