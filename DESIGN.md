# Formal model of Optima (reaktoro/optima) in Rocq

The C++ source in `/repo/Optima` was read as text; nothing of it was built or
run. The tie between the theorems and the code is therefore the fidelity of the
model, which is why every definition in a model file cites the file and lines it
transcribes.

## Files

| kind | naming | content |
|------|--------|---------|
| model | `*_model.v` | transcription of the C++ functions, no proofs |
| spec | `*_spec.v` | small definitions used only to state properties (what a user would write) |
| proofs | `*_proofs.v` | lemmas |
| properties | `P_*.v` | only property theorems, each closed by `exact`, each followed by `Print Assumptions`, with satisfiability examples beside them |

## Numbers

Three arithmetic domains are used, each where it carries the property.

1. **Abstract `Num` operations** (`Num.v`): models of the vector algorithms
   (steps, backtracking, Brent, errors, solver loop) are written once against a
   record of operations and comparisons.  Two instances:
   * `xreal`: exact real arithmetic extended with +inf, -inf and NaN following
     the IEEE-754 rules for special values (no rounding, no signed zero);
   * `spec_float` with the standard library's `SFadd`, `SFmul`, `SFdiv`,
     `SFcompare` at precision 53 / emax 1024: IEEE-754 binary64, with rounding
     to nearest even.  Used when a property must survive rounding.
2. **Arbitrary fields** (mathcomp `fieldType` / `realFieldType` matrices): the
   linear algebra (echelon forms, linear solvers, residuals, sensitivities).
   Rounding is not modelled there; thresholds such as `abs(s) > threshold` are
   modelled where the code branches on them.
3. **nat / Z** for indices, dimensions and counters. `unsigned` wrap-around is
   written out where a property is about it (`minimizeBrent`'s counter).

## What each property is modelled by

| id | model | proof idea |
|----|-------|------------|
| C01-C05 | index vectors as `list nat`; `std::partition` as the relation allowed by the C++ standard (any permutation split by the predicate), plus the executable libstdc++ loop shown to be one such result | permutations, counting |
| C06 | `StablePartition` state machine, call histories as lists | invariant over histories |
| C07 | `Stability::update` on lists over `Num` | composition of three partitions |
| C08, C10 | `performConservativeStep`/`performAggressiveStep` on `spec_float` | the final clamp is a total-order argument on `SFcompare` |
| C09, C11, C12 | same models on `xreal` | loop invariants over the scanned prefix |
| C13-C15 | loops with explicit fuel = the C++ counter; `f` an arbitrary function | invariants on the bracket |
| C64 | same loop, `f` unimodal | bracket invariant |
| C16-C18 | `farey` on `Z` with real `x` | Farey neighbour invariant `bc-ad=1` |
| C19, C20 | list matrices over reals | entrywise |
| C21, C22 | mathcomp matrices over any field / real field | Sherman-Morrison algebra, induction over the diagonal; secant equation |
| C23, C24 | matrices with explicit dimensions and previous contents | case analysis |
| C25-C31 | mathcomp matrices; LU factors as inputs that satisfy `P A Q = L U` | block algebra, induction over operation lists |
| C32 | index orderings as lists, reordered blocks as functions of indices | permutation reasoning |
| C33-C35 | triangular solves over a field, with the row-discarding loop of `assembleU` | back substitution; witness for rank deficiency |
| C36-C41 | block matrices as in the C++ code, reduced system solved by any exact solver | noncommutative block algebra |
| C42-C46 | residual and error assembly | block algebra; ordering lemmas with NaN |
| C47-C55 | `MasterSolver` loop with user functions, linear solver and transformation as arbitrary oracles | invariants over iterations, fuel = iteration limit |
| C56-C60, C63 | wrapper functions of `Solver`, `Problem`, with memory contents before the call as an input | case analysis |
| C61 | right-hand sides assembled by `SensitivitySolver` | corollary of C36-C39 |
| C62, C72 | lines of the output table as strings; numbers enter already formatted | width lemmas, lengths of entries and values |
| C65 | rank of the echelon form with Eigen's threshold, over a real field | witness matrix and exact-rank criterion |
| C66 | same loop as C13, `f` unimodal | bracket invariant |
| C67 | `EchelonizerW` on top of the two echelonizers, histories as lists of updates | composition of C25-C30, invariant over histories |
| C68 | the whole residual update, with echelon form, stability and canonical form | composition of C25-C32 and C07 |
| C69 | points at which the user's functions are evaluated | invariant over iterations |
| C70, C71 | checks and default names made by `Solver` | case analysis |
| C73 | the last line of the output table | loop invariant on the previous iterate |
| C74 | `Result::operator+=` | induction over a list of results |
| C75 | `Solver::solve` as a whole: wrapper, loop, residual update, errors; user functions, Newton directions and transformations arbitrary | composition of C43, C45, C46, C49, C57, C59; the echelonizer is C83's |
| C76 | same | at a KKT point all errors are zero, so the loop stops; for the refutation, the error stays above 1 at every point |
| C77 | `Convergence::rate` | field |
| C78 | the success flags over a sequence of evaluations | invariant over the sequence |
| C79 | weights of `ResidualFunction` with the extended echelonizer | a basis that no exchange improves maximises the smallest weight; on top of C30 |
| C80 | `NewtonStep` with `LinearSolver` and the residual vector | composition of C36-C39 and C42; nonsingularity of the canonical form from that of the master equations |
| C81 | `Solver::solve` with `NewtonStep` in place of the arbitrary direction | the step to the solution solves the Newton equations, uniqueness, then C76's argument; exactness carried from the user's functions to the master's |
| C82 | `EchelonizerW` as an object with run-time ranks; its state is the history of updates | invariant over the history (both stages hold an echelon form of their matrix), rank of [A; J] by stages, exchange argument of C79 |
| C83 | `Solver::solve` with that object in place of the arbitrary echelonizer | C82 discharges the contract; each inequality constraint has a slack of its own, so independent equality gradients give full row rank |
| C84 | the state handed back by `Solver::solve` (finalize, the index sets and s), any outcome | the last update of the residual function is at the returned point (C49); Stability::update is characterised by membership; C59 for the parts below dims.x |
| C85 | `Solver::solve` with the echelonizer object, at points with independent active constraints | a basic variable on a bound would give a row of R that vanishes on all columns off the bounds; so C75's exceptions do not occur; for any threshold below the nonzero coefficients (Pivot_spec, also in C86, C87, C91) |
| C86 | `Solver::solve` with sensitivities, with the echelonizer object | the columns solve the master equations (C61's argument); unstable variables are exactly those held (licq); rows of the master matrices give the user's equations; a path of solutions satisfies the same equations by the chain rule, uniqueness |
| C87 | `Solver::solve` with the echelonizer object and the Newton step | near the solution the stability measures and slacks keep their signs, so the same variables are held; the Newton equations give an equation for the distance to the solution, bounded by the conditioning; induction on the iterations; the error is bounded by the residuals |
| C88 | the points recorded by the loop of `MasterSolver`, and the whole `Result` it returns | induction on the iterations; each branch of the transformation step makes one or two evaluations; refuted for the counters, which are never set |
| C89 | user functions that receive the options of `updateFunctionEvalsAux`, for `Solver::solve` with and without sensitivities | the functions of the master problem read only what is asked for; equality of the updates, then of the whole calculation |
| C90 | the options at an evaluation, with the echelonizer object | from C82 for the previous update; refuted with one slack variable on the basis, and with a basis that changes between two points |
| C91 | convexity by chords and directional derivatives (Convex_spec), the results of C85 | from C85: gradient inequality, multipliers times constraint residuals; a KKT point bounds the value from below; refuted without convexity by a one-iteration run (C81) to the maximum |
| C92 | `Solver::solve` with echelonizer object, Newton step and backtracking on quadratic programs | equality constraints only: the Newton equations are regular and their solution is the minimiser (from C80, C82 and the uniqueness of the Newton step), where the error is exactly zero; refuted for a positive LU threshold (the step is zero at every far point) and with bounds: an invariant (the iterate is one of two points) kept by every iteration |
| C93 | the solver loop, backtracking and Newton update on binary64 numbers (`Num_b64`) | the operations of the standard library's specification of floats are shown equal to Flocq's (Float_proofs); error of the step fraction, of the mixture and of the clamping against the exact run of C51; magnitudes bounded by an invariant that grows by a constant per iteration; refuted parts by computation and a trap of 26 points |
| C94 | the step-length functions of Step_model on binary64 numbers | invariant of the scan over the variables (the factor is at most each variable's computed factor, and equals one of them), error bounds of each operation from Float_proofs; refuted parts by computation, and by C09 for the exact factor |
| C95 | the residual vector and its error on binary64 numbers, for every order of evaluation of the sums (FSum_model: a relation between the terms and the possible results; FResidual_model) | induction on the evaluation: error (1+2^-53)^n - 1 times the sum of the magnitudes; composition of such errors through awstar, R*awstar and the round-off filter; the maximum of the entries; refuted parts by computation on literals |
| C96 | ErrorStatus with a flag for failed assertions, sequences of calls | induction on the updates; monotonicity of rounding for the products with the factors; refuted part on literals |
| C97 | the minimisers of Minimize_model.v on binary64 numbers | invariant of the bracket with explicit rounding errors (linear inequalities); the drift of the interior points of golden section with rounding; refuted part on literals |
| C98 | two runs of u_solve, the second from the state of the first, with any memory of the solver | refuted part: invariant of all iterates after the first step (Restart_proofs.v); quadratic part from C92 |
| C99 | the iterations with every assertion on the way of solve as an extra outcome Aborted (Debug_model.v), the swaps of basic variables with their assertion (DebugE_model.v) | simulation of the release run step by step; which assertions hold from C47 and the contract of std::partition; refuted parts from the first evaluation |
| C100 | the memory a Solver keeps between calls (matrices, last residual, errors, master state; Reuse_model.v) and a call starting from it; the memories reachable by any sequence of calls with any end (Reuse_spec.v) | the written blocks cover the matrices; the first update overwrites the rest; the history does not matter by C54; counterexample calculated exactly |
| C101 | exchange, reordering, cleanup and priority weights of the Echelonizer on any kind of number (FEchelon_model.v), read on binary64 and on a real field | the exact exchange maps R A Q - [I S] linearly; entrywise rounding errors with Flocq, fused or not; induction over the changes; the model on a real field is that of C26; counterexample by evaluation |
| C102 | farey, rational, rationalize (Rational_model.v) on binary64 numbers | distinct fractions are further apart than the rounding errors, so every comparison but one comes out as in exact arithmetic; invariant: the fraction lies between the two Farey neighbours; counterexample by evaluation |
| C103 | the solver of C75/C81/C83 (End_model.v, Newton_model.v) | the violation that a reported success leaves room for is below that of every point; counterexamples: the Newton direction when no variable is basic, then one iteration |
| C104 | the loop of C47-C55 (Loop_model.v) and the solver around it (End_model.v) | induction over the iterations of two runs with different options |
| C105 | the same; worlds that behave alike after an update at the same point | simulation between the resumed and the longer run; a binary64 run for the refutation |
| C106 | the product of C20 for every order of evaluation (FMultiply_model.v) | the summation bounds of C95; binary64 counterexamples |
| C107 | the functions of C19 in binary64 (MatUtil_model.v) | rounding to nearest at most doubles a number, so the threshold stays below the largest entry; monotonicity of rounding |
| C108 | the loop of C47 with user functions that can throw, and what the solver and the State keep (Throw_model.v) | induction on the iterations against the loop without exceptions; the comparison of C105 for the later call; binary64 counterexample |
| C109 | the sensitivity calculation of C61 for combined derivatives (Sens_model.v) and with the solution (SensW_model.v) | linearity of the canonical equations and their unique solution; LU::solve with scaled right-hand sides, for every factorization |
| C110 | the calculation as a whole (End_model.v, SensW_model.v) for two problems | induction over the iterations: the updates agree at every point evaluated; C69 and C47 put these points within the bounds |
| C111 | the calculation with sensitivities (SensW_model.v) under different iteration limits | the runs of C104 end at the same point, from which the sensitivities are computed |

## Reading the theorem names

* `Cnn_…` is a theorem for property Cnn of `properties.jsonl`; `MANIFEST.json`
  lists all of them per property.
* `…_partial`: only part of the property is proved; the note in `MANIFEST.json`
  says what is missing.  Most partial theorems carry a side condition that is
  needed: the matching `…_refuted` theorem shows the property fails without it.
* `…_refuted : exists …`: the faithful model violates the property as a user
  would state it; the theorem exhibits the input.
* `…_case`: a concrete, non-trivial instance that meets the hypotheses of the
  theorem beside it.

## Findings

Each item is proved about the model as a `…_refuted` theorem of the property
named, on a concrete input, except where said otherwise.

Index utilities and stability
* C02, C06, C07: `moveIntersectionLeft(Stable)` (Utils.hpp) called with an empty `p` reports
  the wrong number of moved indices.
* C04: the order that `…Stable` preserves is the order of the base set, not that of `p`.
* With no constraints at all (no basic variables), `Stability` is computed as if every
  variable were basic.
* C76: hence a problem that has bounds but no constraints, and whose solution lies on a bound, is
  never solved: `solve` reports failure from every initial state, the solution included.
* C84: and the state returned for such a problem never lists an unstable variable.

Steps
* C11: the two-argument `largestStep` overlooks entries of `p` that are zero.

One-dimensional minimisation and rationals
* C14: `maxiters = 0` makes the unsigned counter of `minimizeBrent` wrap around (2^32 iterations).
* C15: `minimizeGoldenSectionSearch` does not end for `tol = 1e-14`.
* C17: `farey` yields denominator 0 when `|x| > maxden + 1`.
* C18: the fraction returned is not always the closest one.

Matrices
* C23: `<<=` leaves the target unchanged when the operand is empty or rectangular.
* C24: `FixedMatrix` silently takes another size.
* C25, C27, C30: for a rank-deficient `A` the bottom rows of `R*A*Q` are not zero.
* C28: the threshold makes `updateWithPriorityWeights` overlook heavier variables.
* C31: `numEquations` of the extended echelonizer is stale after an update.
* C65: matrices with tiny entries get rank 0.
* Not proved: `compute` on a 0-by-0 matrix leaves the rank uninitialised; `Canonicalizer` relies on
  `ju` having no duplicates.

Linear solvers
* C33: `LU::solve` discards equations with `eps*|y_k| >= |U_kk|`.
* C34: unknowns of discarded equations are not zero; a singular 1-by-1 matrix divides by zero.
* C35: `LU::Q()` returns `P`.
* C38: a sign error in the block M33 of one of the reduced systems; harmless when `nbe = 0`.
* C39: rows of `W` that depend only on `p` are dropped.
* C40: refuted for the Rangespace method.

Residuals and errors
* C44: `std::max` drops NaN in the errors of `p` and `w`.
* C45: the sign of `s` is not checked for basic variables on their bounds.
* C46: violated constraints that are linearly dependent on others are ignored.

Solver loop
* C48: up to `maxiters + 1` iterations are made.
* C49: convergence in iteration `maxiters + 1` is reported as failure.
* C50: a NaN error is accepted by the transformation step.
* C53: `Result::error` is always 0.
* C54: `Convergence::rate` mixes histories of earlier solves.
* C55: failed evaluations do not prevent success.
* C69: functions are evaluated outside the bounds after a rejected transformation.
* C73: on failure the last line of the output shows the previous iterate.
* Not proved: the line search is commented out in `ErrorControl`.

Wrapper
* C56, C57: the block of the master `Ax` in the rows of `be` and the columns of the slacks of `bg`
  is never initialised.
* C58: a failure reported by `he` is overwritten by the call of `hg`.
* C60: `Problem::operator=` does not copy `r`, `f`, `he`, `hg`, `v`.
* C61: derivatives of meta-stable variables are set to zero after the solve, which breaks the
  differentiated constraints; `ds/dc` misses `H*dx/dc` on unstable variables.
* C86: the sensitivities leave out the second derivatives of nonlinear constraints, so they are wrong
  for problems whose constraints are curved (a factor 3 in the example).
* C87: the Newton equations leave out the second derivatives of nonlinear constraints, so for constraints with curvature
  the solver can move away from a strict minimum it was started next to: min x1 + x0^2/2 subject to x1 = x0^2 multiplies
  x0 by -2 in every iteration and always ends in failure (C87_curved_refuted).
* C88: the numbers of evaluations and the times in `Result` are never set: they are 0 after every calculation
  (C88_counters_refuted).
* C85: a coefficient of a constraint that is not zero but at most the echelonizer's threshold (1e-8) keeps a variable on its bound basic, and
  ResidualErrors sets the errors of basic variables on their bounds to zero (ResidualErrors.cpp:96-103): on a convex problem solve reports
  success at a point that is not a minimum, with an arbitrarily large derivative of the Lagrange function of the wrong sign (C85_weak_refuted).
* C91: nothing makes the iterations descend (the line search is commented out, errors and not objective values are compared), so
  for nonconvex problems success may be reported at a maximum, also from points arbitrarily near a minimum on a bound
  (C91_maximum_refuted).
* C92: the step is cut back at the bounds variable by variable and nothing checks that it helps (ErrorControl.cpp:57-61, the line search is
  commented out), so the iterations can cycle: on a strictly convex quadratic program with three lower bounds solve goes back and forth
  between two feasible points for ever (C92_cycle_refuted).
* C93: the fraction of the Newton step and the new point are computed as `(bound - xo)/(x - xo)` and `uo*(1 - betamin) + betamin*u`
  (BacktrackSearch.cpp:80-95), and nothing sets the limiting variable to its bound. In double precision it may end a little inside
  (C93_misses_bound_refuted). The next step is then cut by a factor of about 1e-16 for all variables. This may repeat until the variable
  is a denormal number, where the fraction is rounded to 0 and the iterations stop moving for ever (C93_frozen_refuted; the same problem
  takes two iterations in exact arithmetic, C93_frozen_exact). A variable held on its bound may also be moved off it by the rounding of the
  mixture (C93_blocked_leaves_refuted).
* C94: performConservativeStep does put the limiting variable on its bound by assignment, so it does not have the problem of C93; the solver
  does not use it. Its factor is not stable under rounding: a bound that the full step violates by less than half a unit in the last place is not
  noticed, and all variables then take the full step (C94_factor_refuted). fractionToTheBoundary gives a negative entry when the factor is a denormal
  number (C94_fraction_denormal_refuted).
* C96: ErrorStatus::update asserts that the first error is positive, so an initial guess that is a solution violates it (C96_zero_refuted); a NaN
  error violates `error >= 0` before errorIsntFinite can be asked. The solver never calls update, so only users of the class are affected.
* C97: the midpoint (min + max)/2 of minimizeBrent and the width b - a of minimizeGoldenSectionSearch overflow for ends near the largest double; the search then
  leaves the interval and the result is outside (C97_brent_overflow_refuted) or infinite (C97_golden_overflow_refuted).
  Function values whose differences overflow make the parabola's step NaN; the search then steps left by the tolerance, out of the interval even for small intervals
  (C97_brent_values_refuted).  A function that is NaN at the right end makes Brent return the right end whatever it evaluates (C97_brent_nan, C97_brent_nan_refuted).
* C36, C37, C80, C81, C92: LU::solve discards an equation when its pivot is at most eps times its right-hand side (LU.cpp:136), i.e. when the unknown would be 1/eps or more.
  A Newton step all of whose components are that long becomes zero, and solve repeats it for ever: from |x0|, |x1| >= 1/eps = 4.5e15 the function (x0^2+x1^2)/2 is never
  minimised (C92_threshold_refuted), although its Newton equations are those of the identity (C36_refuted, C37_refuted, C80_refuted).
* C27, C30: no sequence of calls makes the rows of R*A*Q beyond the basic ones those of C(), unless the factorization happens to have Lnb = 0 (C27_all_rows_iff, C30_all_rows_iff).
* C98: MasterSolver::solve takes a step before it looks at the error, so that a state which meets the tolerance is left; solving again from the returned state
  can fail for every number of iterations, even for a smooth convex problem with one minimiser (C98_refuted).
* C99: with assertions compiled in, EchelonizerW::update asserts that R has rows, so that every problem without linear constraints aborts at its first evaluation
  (C99_no_linear_constraint_refuted); Stability::update asserts that as many variables were moved as there are basic ones, but moveIntersectionLeft returns the
  number of all variables when there are none (C99_no_basic_variable_refuted); BacktrackSearch asserts the bounds of the previous iterate, which a NaN fails (C99_nan_refuted).
* C100: the entries of Ax that belong to the linear equality constraints and the slack variables of the linear inequality constraints are never written (C56), and Matrix::resize keeps the old
  ones when the number of entries is the same.  After a problem with two variables and two equality constraints, the problem x = 1, x >= 0 is reported as solved at x = 1/2 (C100_refuted).
* C101: the threshold 1e-8 for pivots is absolute.  Exchanges with pivots just above it make entries of S of about 1e8, whose rounding errors are again above 1e-8 and pass as pivots: one call of
  `updateWithPriorityWeights` makes variables with linearly dependent columns basic (C101_refuted; A = [I S] with entries of at most 1).
* C102: for limits of the denominator above about 2^27, `rational` compares the double with the computed value of each mediant and returns the first that is equal, which can be a different fraction
  with the same computed value (C102_large_refuted: 39088169/63245986 for the double nearest to 102334155/165580141).
* C103: nothing but the assertions of debug builds (BacktrackSearch.cpp:62) checks that xlower <= xupper: the initial point is clamped to xupper, and is reported as a solution if the gradient vanishes there (C103_bounds_refuted). A constraint 0 x = 1
  has no basic variable, so its residual never enters the error, and the solver reports success (C103_row_refuted).
* C105: the limit is checked before the tolerance, so a calculation that converges in the iteration after the last one allowed is reported as failed; a second call from its point makes
  another step instead of ending there (C105_resume_refuted).
* C106: the threshold eps * (|A||x|)_i does not grow with the number of columns, as the round-off error does: a row of eight products that cancel keeps its residue (C106_roundoff_refuted). It also
  removes an entry that was computed exactly (C106_exact_refuted), and any entry when |A||x| overflows (C106_overflow_refuted).
* C107: one infinite entry makes cleanResidualRoundoffErrors set the whole matrix to zero, the infinite entry included (C107_infinite_refuted).
* C108: a transformation that declines a step makes solve evaluate the functions at the Newton point before it is put back within the bounds; a function that throws outside the
  bounds makes solve throw although the bounds exclude the point (C108_inside_refuted).
* C109: LU::solve compares pivots with the right-hand side, not with the matrix.  The sensitivities of a parameter are therefore not multiplied by a when its derivatives are: for every problem there are units in
  which they are returned as zero (C109_large_zero, C109_units_refuted).
* C110 is proved, with a consequence worth noting: the value of the objective function is never used, only its derivatives (C110_constant).
* C111: MasterSolver::solve computes sensitivities after every calculation, successful or not; only Result::succeeded tells them apart
  (C111_unsuccessful_refuted).
* C95: the error is computed with cancellation, so that a success with error 0 is compatible with an exact residual of 1 (C95_cancellation_refuted);
  the residual is then small only relative to the terms it is made of. multiplyMatrixVectorWithoutResidualRoundOffError sets an entry to zero when
  |R||awstar| overflows, however large the entry (C95_overflow_refuted).
* C90: `ibasicvars` is filled before the echelon form is updated, so it belongs to the previous point
  (C90_stale_refuted), and it indexes the master problem, slack variables included (C90_slack_refuted): a function that
  uses it to index its x reads past the end.
* Not proved: a vector `c` of another size than `dims.c` makes also the plain `solve` throw
  (`SensitivitySolver::initialize` is called in both); sensitivities are computed from whatever point was
  reached even if the solve failed, and a failed evaluation in `updateOnlyJacobian` is not reported.
* C62: separators do not advance the column iterator; long values shift the columns.
* C63: `r` receives the variables together with the slacks.
* C70: functions that were never set are not refused.
* C74: `Result +=` drops most counters and timers.

## Trusted base

* Coq 8.16.1's kernel, including its `vm_compute` conversion (used by the concrete
  examples and by the `…_refuted` theorems).
* The reading of the C++ code described by the citations in the model files.
* Libraries used: the standard library, mathcomp 1.x, Coquelicot (`is_derive` in C86). Flocq (theorems on rounding, in C93 to C95: Float_proofs, Round_proofs, StepRound_proofs, FSum_proofs, FResidual_proofs).
* External code is represented by its documented contract as a hypothesis of the theorems (never by
  an axiom), and for each contract a value that satisfies it is shown:
  `std::partition` (any permutation split by the predicate; the libstdc++ loop is shown to be one),
  `std::sort`, Eigen's `FullPivLU` (`P A Q = L U`, unit lower triangular `L`, pivots of
  non-increasing magnitude, threshold), `PartialPivLU` as an exact solver of nonsingular systems,
  Eigen's `resize` (memory kept or arbitrary), `std::setw`.

`Print Assumptions` (axioms all of the standard library: `functional_extensionality_dep` from
`Coq.Logic.FunctionalExtensionality`, `sig_forall_dec` and `sig_not_dec` from `Coq.Reals.ClassicalDedekindReals`,
`classic` from `Coq.Logic.Classical_Prop` and `constructive_indefinite_description` from
`Coq.Logic.ClassicalEpsilon`; the last two are used to see Coq's reals as an ordered field of
mathcomp, R_rf.v).  No theorem depends on any other axiom:

* none (closed under the global context): C01_moveLeftIf, C01_moveRightIf, C01_stableMoveLeftIf, C01_stableMoveRightIf, libstdcxx_partition_meets_contract, C02_moveIntersectionLeft_partial, C02_moveIntersectionLeftStable_partial, C02_moveIntersectionLeft_refuted, C03_moveIntersectionRight, C03_moveIntersectionRightStable, C04_leftStable_keeps_order_of_base, C04_rightStable_keeps_order_of_base, C04_order_of_p_refuted, C05_difference, C05_intersect, C05_difference_intersect_complementary, C05_isIntersectionEmpty, C06_always_a_partition, C06_setStable_partial, C06_setUnstable, C06_setStable_refuted, C07_stability_update_partial, C07_empty_basis_all_stable, C07_stability_update_refuted, C08_conservative_step_within_bounds, C10_aggressive_step_within_bounds, C14_brent_terminates, C14_brent_budget_partial, C14_brent_budget_refuted, C15_golden_terminates_refuted, C16_farey_terminates, C16_no_overflow, C17_rational_denominator_small, C17_rationalize_entrywise, C19_clean_matrix_unchanged_or_zero, C21_inverseShermanMorrison, C21_inverseShermanMorrison_posdef, C22_bfgs_secant, C22_bfgs_symmetric, C22_bfgs_update_posdef, C22_bfgs_posdef, C23_assign_square, C23_assign_diagonal, C23_assign_zero_refuted, C24_fixed_assign, C24_fixed_copy_refuted, C24_ensureMinimumDimension, C25_compute_partial, C25_compute_full_row_rank, C25_all_rows_iff, C25_zero_rows_refuted, C26_swap, C27_history_partial, C27_history_full_row_rank, C27_all_rows_iff, C27_zero_rows_refuted, C28_sorted, C28_exchange_optimal_partial, C28_maximum_weight_basis_partial, C28_threshold_refuted, C29_reset, C30_extended_partial, C30_ordering_and_cleanup, C30_exchange_optimal_partial, C30_all_rows_iff, C30_zero_rows_refuted, C31_numEquations_partial, C31_numEquations_refuted, C32_canonical_view, C32_error, C33_nonsingular_partial, C33_eps0, C33_nonsingular_refuted, C34_dependent_partial, C34_zero_refuted, C34_one_equation_refuted, C35_accessors_partial, C35_accessors_refuted, C36_fullspace_partial, C36_eps0, C36_matrix, full_piv_exists, C36_refuted, C37_nullspace_partial, C37_reduced, C37_eps0, C37_refuted, C38_rangespace_off_by, C38_rangespace_partial, C38_rangespace_refuted, C39_master_equations, C39_solve_partial, C39_all_rows_partial, C39_refuted, C40_full_null_agree_partial, C40_full_range_agree_partial, C40_agree_refuted, C41_product, C41_product_transpose, C41_vector_roundtrip, C42_residuals, C43_small_error_is_kkt, C44_nan_partial, C44_nan_refuted, C45_bound_optimality_partial, C45_bound_optimality_refuted, C46_all_constraints_partial, C46_all_constraints_refuted, C47_bounds, C47_sizes, C48_terminates_partial, C48_terminates_refuted, C49_success_sound, C49_failure_partial, C49_failure_refuted, C50_transform, C50_no_transform, C50_nan_refuted, C53_result_error_refuted, C53_never_set, C54_reuse_partial, C54_rate_refuted, C54_flags_refuted, C55_failure_refuted, C56_matrices_partial, C56_matrices_refuted, C57_objective, C58_layout, C58_layout_f_v, C58_flag_partial, C58_flag_refuted, C59_roundtrip, C59_complete, C59_indices, C59_sensitivity, C60_copy_partial, C60_copy_refuted, C61_zeros, C61_equations_partial, C61_solution_partial, C61_stability_partial, C61_stability_refuted, C61_metastable_refuted, C62_header, C62_aligned_partial, C62_separator_refuted, C62_long_value_refuted, C63_arguments_partial, C63_arguments_refuted, C65_rank_partial, C65_tiny_matrix_has_rank_zero, C65_rank_refuted, C67_echelonizerW, C68_update_total, C69_evaluations_partial, C69_evaluations_refuted, C70_unset_partial, C70_unset_refuted, C70_set_never_empty, C71_names, C71_wrong_size, C72_table, C72_wrong_size, C73_last_line_partial, C73_last_line_refuted, C77_too_few, C78_flag_partial, C79_basic_variables_partial, C80_newton_partial, C80_refuted, C82_echelonizer, C82_basis_partial, C88_evaluations, C88_transformed, C88_counters_refuted, C93_overflow_refuted, C93_blocked_leaves_refuted, C93_misses_bound_refuted, C93_frozen_refuted, C94_fraction_denormal_refuted, C96_last_two, C96_history, C96_new, C96_assertions, C96_zero_refuted, C96_nan_asserts, C97_brent_nan, C99_same_partial, C99_no_linear_constraint_refuted, C99_no_basic_variable_refuted, C99_nan_refuted, C99_pivots, C101_weights, C101_exact, C104_maxiters_any, C104_tolerance_any, C104_failure_any, C105_resume_any_partial, C105_resume_refuted, C107_vector, C108_returns, C108_never, C108_where, C108_state, C108_bounds_partial, C108_inside_partial, C108_inside_refuted, C108_next_partial, C109_linear_partial, C109_irrelevant, C109_large_zero, C109_units_refuted, C110_evaluated_any.
* `functional_extensionality_dep`, `sig_forall_dec`: C07_stability_values, C09_conservative_step_exact, C10_aggressive_step_is_projection, C11_largestStep_bounded, C11_stepUpToBounds, C11_largestStep_zero_bound, C11_largestStep_zero_entry_refuted, C12_fractionToTheBoundary, C12_fractionToTheBoundary_constraints, C12_fractionToTheLowerBoundary, C13_brent_inside_and_no_worse, C15_golden_inside, C15_golden_terminates_partial, C16_rational_recovers, C17_rational_denominator_partial, C17_rational_denominator_refuted, C18_rational_close_partial, C18_rational_close_large_partial, C18_rational_closest_refuted, C19_clean_matrix, C19_clean_matrix_keeps_largest, C19_clean_matrix_idempotent, C19_clean_vector, C20_multiply, C51_backtrack, C51_feasible_unchanged, C52_linesearch, C52_stays_in_bounds, C57_slack_partial, C57_kkt_partial, C57_slack_refuted, C64_golden_finds_minimum, C66_brent_finds_minimum, C74_accumulated_partial, C74_accumulated_refuted, C77_rate, C87_rate, C87_quadratic, C93_frozen_exact, C94_factor_refuted, C95_constraints, C95_rounding, C99_exact_partial, C101_refuted, C106_roundoff_refuted, C106_exact_refuted, C106_overflow_refuted.
* `classic`, `constructive_indefinite_description`, `functional_extensionality_dep`, `sig_forall_dec`: C75_success_partial, C85_weak_refuted, C76_kkt_accepted_partial, C76_bounds_only_refuted, C81_one_iteration_partial, C81_user_partial, C92_threshold_refuted, C83_contract, C83_success_partial, C83_kkt_accepted_partial, C84_state_partial, C84_constrained_partial, C84_bounds_only_refuted, C85_success_partial, C86_equations_partial, C87_local_partial, C87_eventually_partial, C89_solve, C89_sens, C90_previous_partial, C90_slack_refuted, C90_stale_refuted, C91_success_partial, C91_maximum_refuted, C92_equality_partial, C92_cycle_refuted, C98_quadratic_partial, C100_same_partial, C100_state_partial, C100_refuted, C103_one_row_partial, C103_bounds_refuted, C103_row_refuted, C104_maxiters, C104_tolerance, C104_failure, C105_resume_partial, C108_solver, C109_same, C110_bounds, C110_sensitivities, C110_constant, C111_maxiters, C111_unsuccessful_refuted.
* `classic`, `functional_extensionality_dep`, `sig_forall_dec`, `sig_not_dec`: C93_backtrack, C93_finite, C93_zero_fraction, C94_conservative, C94_aggressive, C94_fraction, C95_success, C95_solve, C95_left_to_right, C95_cancellation_refuted, C95_overflow_refuted, C96_consistent, C97_brent, C97_golden, C97_brent_overflow_refuted, C97_brent_values_refuted, C97_brent_nan_refuted, C97_golden_overflow_refuted, C101_swap, C101_drift_partial, C102_rational, C102_rounded, C102_rationalize, C102_large_refuted, C106_error, C106_left_to_right, C106_pair, C107_threshold, C107_largest, C107_idempotent, C107_infinite_refuted.
* `classic`, `constructive_indefinite_description`, `functional_extensionality_dep`, `sig_forall_dec`, `sig_not_dec`: C86_derivative_partial, C86_nonlinear_refuted, C87_curved_refuted, C98_refuted.

## Modelled

| C++ | model file |
|-----|------------|
| IndexUtils.hpp, StablePartition.cpp, Stability.cpp | Index_model.v |
| Utils.cpp: performConservativeStep, performAggressiveStep, largestStep, stepUpToBounds, fractionTo… | Step_model.v |
| Utils.cpp: minimizeBrent, minimizeGoldenSectionSearch | Minimize_model.v (over the reals and, for C97, in binary64) |
| Utils.cpp: farey, rationalize | Rational_model.v |
| Utils.cpp: multiplyMatrixVectorWithoutResidualRoundOffError, cleanResidualRoundoffErrors and other entrywise helpers | MatUtil_model.v; in binary64 with any order of evaluation FMultiply_model.v |
| Utils.cpp: matrixStructure helpers, `<<=`, inverseShermanMorrison, bfgs; Matrix.hpp sizes | Dense_model.v |
| Echelonizer.cpp, EchelonizerExtended.cpp, EchelonizerW.cpp | Echelon_model.v, EchelonExt_model.v, EchelonW_model.v; as objects with a history: EchelonO_model.v |
| Canonicalizer.cpp, LinearSolver.cpp | Canonical_model.v |
| LU.cpp | LU_model.v |
| LinearSolverFullspace/Nullspace/Rangespace.cpp | Linear_model.v |
| MasterMatrix.cpp, MasterMatrixOps.cpp, MasterVector.hpp | Master_model.v |
| ResidualVector.cpp, ResidualErrors.cpp, ResidualFunction.cpp (after the evaluations) | Residual_model.v, ResErr_model.v; in binary64 with any order of evaluation FSum_model.v, FResidual_model.v |
| MasterSolver.cpp, NewtonStep.cpp, TransformStep.cpp, BacktrackSearch.cpp, ErrorControl.cpp, Convergence.cpp, LineSearch.cpp | Loop_model.v |
| Solver.cpp, Problem.cpp, State.cpp, Sensitivity.cpp, ObjectiveFunction.cpp, ConstraintFunction.cpp | Wrapper_model.v |
| Solver.cpp solve, MasterSolver.cpp solve and finalize, put together | End_model.v |
| the same when a user function throws | Throw_model.v |
| NewtonStep.cpp apply with LinearSolver.cpp (the direction; the step u = uo + du is in Loop_model.v) | Newton_model.v |
| SensitivitySolver.cpp | Sens_model.v |
| Solver.cpp and MasterSolver.cpp solve with sensitivities, put together | SensW_model.v |
| Outputter.cpp, output part of MasterSolver.cpp | Output_model.v |
| Result.cpp | Result_model.v |
| ErrorStatus.cpp | ErrorStatus_model.v |
| Result.hpp as filled by MasterSolver.cpp and returned by Solver.cpp | Evals_model.v |
| ResidualFunction.cpp updateFunctionEvals, updateSkipJacobian, updateOnlyJacobian: the options handed to the user's functions | Calls_model.v |

Simplifications are stated in the comment of each definition.  The general ones:
* linear algebra, residuals and sensitivities use exact arithmetic over an ordered field; rounding
  is modelled in the steps and, given the partition and the canonical form, in the residual vector
  and its error (binary64);
* Eigen's expression evaluation, aliasing and memory layout are not modelled, except where a matrix
  is used uninitialised;
* assertions that are compiled out in Release builds are not modelled, except those of ErrorStatus.cpp (ErrorStatus_model.v) and those on the way of solve (Debug_model.v, DebugE_model.v).

## Not modelled

Timing (`Timing.hpp`), the file itself written by the output, number formatting, Python bindings
(`python/`), copying of implementation pointers,
`Eigen.cpp`, the tests, the texts of `Exception.hpp`.
