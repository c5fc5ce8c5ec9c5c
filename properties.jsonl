{"id": "C01", "title": "Predicate partitions split an index vector exactly", "statement": "moveLeftIf, moveRightIf, stableMoveLeftIf and stableMoveRightIf only permute the given index vector; the returned count k splits it so that every one of the first k entries is in group 1 and no later entry is (group 1 = predicate true for the Left versions, false for the Right versions), and k is the number of entries of the input in group 1.", "quantifier": "every index vector (any length, duplicates allowed), every predicate, and every permutation the C++ standard allows std::partition to return", "why_tests_cant": "std::partition may return any ordering; a test observes only the one of the installed library and a few vectors", "anchors": ["Optima/IndexUtils.hpp:moveLeftIf", "Optima/IndexUtils.hpp:moveRightIf", "Optima/IndexUtils.hpp:stableMoveLeftIf", "Optima/IndexUtils.hpp:stableMoveRightIf"]}
{"id": "C02", "title": "moveIntersectionLeft counts exactly the entries that lie in p", "statement": "moveIntersectionLeft(base,p) and moveIntersectionLeftStable(base,p) permute base so that group 1 is made of exactly the entries of base found in p and return the size of that group.", "quantifier": "every base and every p, including an empty p", "why_tests_cant": "the claim concerns all vectors, and fails only for one degenerate shape of p", "anchors": ["Optima/IndexUtils.hpp:moveIntersectionLeft", "Optima/IndexUtils.hpp:moveIntersectionLeftStable"]}
{"id": "C03", "title": "moveIntersectionRight puts exactly the entries of p at the end", "statement": "moveIntersectionRight(base,p) and moveIntersectionRightStable(base,p) permute base so that the entries after the returned count are exactly the entries of base found in p.", "quantifier": "every base and every p, including an empty p", "why_tests_cant": "universal over vectors; includes the degenerate empty p", "anchors": ["Optima/IndexUtils.hpp:moveIntersectionRight", "Optima/IndexUtils.hpp:moveIntersectionRightStable"]}
{"id": "C04", "title": "Stable intersection moves leave the moved group in the order of p", "statement": "As documented, after moveIntersectionLeftStable (RightStable) group 1 (group 2) lists the indices of p in the order of p.", "quantifier": "every base without repetition and every p contained in base", "why_tests_cant": "needs all relative orders of base and p", "anchors": ["Optima/IndexUtils.hpp:moveIntersectionLeftStable", "Optima/IndexUtils.hpp:moveIntersectionRightStable"]}
{"id": "C05", "title": "difference, intersect and isIntersectionEmpty implement multiset difference and intersection", "statement": "difference(a,b) holds exactly the entries of a not in b, intersect(a,b) exactly the entries of a that are in b, with their multiplicities in a; together they are a permutation of a; isIntersectionEmpty(a,b) is true exactly when no value is in both.", "quantifier": "all pairs of index vectors", "why_tests_cant": "universal over vectors and over the orders std::partition may choose", "anchors": ["Optima/IndexUtils.hpp:difference", "Optima/IndexUtils.hpp:intersect", "Optima/IndexUtils.hpp:isIntersectionEmpty"]}
{"id": "C06", "title": "StablePartition always partitions the variables", "statement": "After any sequence of setStable/setUnstable calls, stable() followed by unstable() is a permutation of 0..nx-1; right after setStable(js) (setUnstable(ju)) with distinct in-range indices, stable() holds exactly js (unstable() holds exactly ju).", "quantifier": "every nx, every finite call history, every index argument", "why_tests_cant": "histories are unbounded and the ordering left by earlier calls differs", "anchors": ["Optima/StablePartition.cpp:setStable", "Optima/StablePartition.cpp:setUnstable"]}
{"id": "C07", "title": "Stability::update classifies every variable exactly once and correctly", "statement": "After Stability::update, (js,jlu,juu) is a partition of all x variables; jlu are exactly the non-basic variables on their lower bound with positive stability s=g+Wx'w, juu exactly those on their upper bound with negative s, every basic variable is in js, and jms are exactly the basic variables that meet one of these bound conditions.", "quantifier": "all dimensions, vectors, bounds and duplicate-free basic index sets, including the empty one", "why_tests_cant": "must hold for every size and every ordering left by std::partition", "anchors": ["Optima/Stability.cpp:Stability::update", "Optima/Stability.cpp:Stability::status"]}
{"id": "C08", "title": "performConservativeStep never leaves the bounds, in IEEE double arithmetic", "statement": "If lower<=upper componentwise and no NaN arises in the step, p after performConservativeStep satisfies lower<=p<=upper exactly, with rounding, infinities and subnormals included.", "quantifier": "all vectors of binary64 numbers, infinite bounds included", "why_tests_cant": "2^64 values per entry; rounding makes sampled checks inconclusive", "anchors": ["Optima/Utils.cpp:performConservativeStep"]}
{"id": "C09", "title": "performConservativeStep takes the longest feasible common step and attaches the limiting variable", "statement": "In exact arithmetic, for a feasible p, the returned factor alpha lies in (0,1]; every variable that is not already on the bound it moves out of becomes p+alpha*dp and is within bounds; blocked variables stay on their bound; if alpha<1 some variable sits exactly on a bound and any longer step up to 1 would violate a bound.", "quantifier": "all real vectors and all extended-real bounds", "why_tests_cant": "universal over reals; maximality quantifies over all longer steps", "anchors": ["Optima/Utils.cpp:performConservativeStep"]}
{"id": "C10", "title": "performAggressiveStep is the projection of the full step onto the box", "statement": "p after performAggressiveStep is componentwise the point of [lower,upper] closest to p+dp, and stays within the bounds in binary64 arithmetic whenever no NaN arises.", "quantifier": "all vectors and bounds with lower<=upper", "why_tests_cant": "universal over doubles and reals", "anchors": ["Optima/Utils.cpp:performAggressiveStep"]}
{"id": "C11", "title": "largestStep and stepUpToBounds return a step that keeps the bounds", "statement": "For a feasible p the factor alpha returned by the bounded largestStep (and by stepUpToBounds) is nonnegative, p+min(alpha,1)*dp is within the bounds, when alpha is finite some variable is exactly on a bound at p+alpha*dp, and alpha is +inf exactly when p+dp violates no finite bound.", "quantifier": "all real vectors and extended-real bounds", "why_tests_cant": "universal over reals", "anchors": ["Optima/Utils.cpp:largestStep", "Optima/Utils.cpp:stepUpToBounds"]}
{"id": "C12", "title": "fractionToTheBoundary is the largest step that keeps the fraction to the boundary", "statement": "For p>0 and tau in (0,1), the returned alpha is the maximum of {a in (0,1] : p+a*dp >= (1-tau)p}; ilimiting is p.size() exactly when alpha=1 and otherwise indexes a variable where equality holds. The variants with Cp>=r and with lower bounds are the maximum for C(p+a*dp)-r >= (1-tau)(Cp-r) and p+a*dp-l >= (1-tau)(p-l).", "quantifier": "all vectors, matrices and tau in (0,1)", "why_tests_cant": "maximality quantifies over all reals", "anchors": ["Optima/Utils.cpp:fractionToTheBoundary", "Optima/Utils.cpp:fractionToTheLowerBoundary"]}
{"id": "C13", "title": "minimizeBrent stays in the interval and is never worse than its starting end point", "statement": "For min<=max and tolerance>0 every point where f is evaluated, and the returned point, lies in [min,max]; the returned point is one that was evaluated; f there is at most f(max) and at most f at every other evaluated point.", "quantifier": "every function f (no continuity assumed), every interval, tolerance and positive maxiters", "why_tests_cant": "f is arbitrary and the path depends on every comparison", "anchors": ["Optima/Utils.cpp:minimizeBrent"]}
{"id": "C14", "title": "minimizeBrent respects its evaluation budget", "statement": "minimizeBrent evaluates f at most maxiters+1 times.", "quantifier": "every function, interval, tolerance and every unsigned maxiters, including 0", "why_tests_cant": "the failing input is one value out of 2^32 and shows up as a non-terminating run", "anchors": ["Optima/Utils.cpp:minimizeBrent"]}
{"id": "C15", "title": "minimizeGoldenSectionSearch terminates and stays inside the interval", "statement": "For tol>0 the search ends, the result lies in [a,b], and f is evaluated only in [a,b].", "quantifier": "every function f and every interval and tolerance", "why_tests_cant": "termination for every f cannot be tested", "anchors": ["Optima/Utils.cpp:minimizeGoldenSectionSearch"]}
{"id": "C16", "title": "rational recovers every fraction with denominator within the limit", "statement": "For x=a/b in lowest terms with 0<=a/b<=1 and b<=maxden, rational(x,maxden) returns (a,b); with the sign moved to the numerator for negative x; for |x|>1 it returns the fraction whenever its numerator is within the limit. The search ends after at most 2*maxden mediants and its integers never exceed 2*maxden.", "quantifier": "all fractions and all limits", "why_tests_cant": "infinitely many fractions; termination for all x", "anchors": ["Optima/Utils.cpp:farey", "Optima/Utils.cpp:rational", "Optima/Utils.cpp:rationalize"]}
{"id": "C17", "title": "rational always returns a valid fraction within the denominator limit", "statement": "rational(x,maxden) returns a denominator between 1 and maxden for every finite x.", "quantifier": "every real x and every maxden>=1", "why_tests_cant": "holds on the usual test range and fails only for large x", "anchors": ["Optima/Utils.cpp:rational", "Optima/Utils.cpp:rationalize"]}
{"id": "C18", "title": "rational returns the closest fraction", "statement": "Among all fractions with denominator at most maxden, the one returned by rational(x,maxden) is at least as close to x as any other.", "quantifier": "every x in [0,1] and every maxden", "why_tests_cant": "quantifies over all fractions", "anchors": ["Optima/Utils.cpp:farey"]}
{"id": "C19", "title": "cleanResidualRoundoffErrors only zeroes negligible entries", "statement": "Every entry is either unchanged or set to zero, an entry is zeroed exactly when its magnitude is at most eps*max|.|*max(rows,cols), the entry of largest magnitude survives when eps*max(rows,cols)<1, and a second call changes nothing.", "quantifier": "all matrices and vectors of any size", "why_tests_cant": "universal over sizes and values", "anchors": ["Optima/Utils.cpp:cleanResidualRoundoffErrors"]}
{"id": "C20", "title": "multiplyMatrixVectorWithoutResidualRoundOffError is the product up to a relative eps", "statement": "Each entry of the result is either the entry of A*x or zero, and differs from it by less than eps*(|A|*|x|) in that entry.", "quantifier": "all matrices and vectors of matching size", "why_tests_cant": "universal over sizes and values", "anchors": ["Optima/Utils.cpp:multiplyMatrixVectorWithoutResidualRoundOffError"]}
{"id": "C21", "title": "inverseShermanMorrison inverts A+diag(D)", "statement": "If invA is the inverse of A and none of the divisors 1+D[i]*invM(i,i) met on the way is zero, the result is the inverse of A+diag(D).", "quantifier": "all square matrices of any size over any field", "why_tests_cant": "universal over sizes; test matrices are few", "anchors": ["Optima/Utils.cpp:inverseShermanMorrison"]}
{"id": "C22", "title": "The bfgs update satisfies the secant equation and preserves symmetry and positive definiteness", "statement": "After every call but the first, with dx'dg nonzero, the returned H satisfies H*dg=dx; H stays symmetric; if the previous H is positive definite and dx'dg>0 the new one is positive definite.", "quantifier": "every call history and all vectors of any size", "why_tests_cant": "histories are unbounded", "anchors": ["Optima/Utils.cpp:bfgs"]}
{"id": "C23", "title": "Structured assignment writes the matrix its operand represents", "statement": "A <<= B makes A equal to B when B is square, to diag(B) when B is a single column, and to the zero matrix when B is empty (the representations documented for MatrixStructure).", "quantifier": "all sizes and all previous contents of A", "why_tests_cant": "depends on stale contents of the target", "anchors": ["Optima/Utils.cpp:operator<<=", "Optima/Utils.cpp:matrixStructure"]}
{"id": "C24", "title": "Fixed-size assignment never changes a size and never loses data silently", "statement": "Assigning to a FixedMatrix/FixedVector (and assignOrError) either throws and leaves the target unchanged, or makes the target equal to the source with its dimensions unchanged; it throws exactly when the dimensions differ, unless both sides hold no entry.", "quantifier": "all dimensions and contents", "why_tests_cant": "universal over dimensions", "anchors": ["Optima/deps/eigenx/Eigen/src/FixedMatrix.h:operator=", "Optima/Utils.hpp:assignOrError"]}
{"id": "C25", "title": "Echelonizer::compute yields a canonical form", "statement": "After compute(A), Q is a permutation, R is invertible and R*A*Q=[I S;0 0] with the identity of size the number of basic variables, for every LU factorization P*A*Q=L*U with the numerical rank its exact rank.", "quantifier": "all matrices of any size and rank over any field", "why_tests_cant": "universal over sizes, ranks and values", "anchors": ["Optima/Echelonizer.cpp:compute"]}
{"id": "C26", "title": "Swapping a basic variable preserves the canonical form", "statement": "updateWithSwapBasicVariable(ib,in) with a nonzero pivot S(ib,in) keeps R*A*Q=[I S;0 0], R invertible and Q a permutation, and exchanges exactly the two named variables in the ordering.", "quantifier": "all canonical forms of any size and all admissible index pairs", "why_tests_cant": "universal over matrices", "anchors": ["Optima/Echelonizer.cpp:updateWithSwapBasicVariable"]}
{"id": "C27", "title": "Every sequence of Echelonizer updates preserves the canonical form of the same matrix", "statement": "After compute(A) and any sequence of swaps, priority-weight updates, reorderings, cleanups and resets, R*A*Q=[I S;0 0] still holds with R invertible and Q a permutation, and the number of basic variables is unchanged.", "quantifier": "all matrices and all finite operation histories", "why_tests_cant": "histories are unbounded", "anchors": ["Optima/Echelonizer.cpp:updateWithSwapBasicVariable", "Optima/Echelonizer.cpp:updateWithPriorityWeights", "Optima/Echelonizer.cpp:updateOrdering", "Optima/Echelonizer.cpp:reset"]}
{"id": "C28", "title": "Priority weights order the variables and determine the preferred basis", "statement": "After updateWithPriorityWeights(w) the basic variables and the non-basic variables are each sorted by descending weight, and no non-basic variable could replace a basic variable of smaller weight (no exchange with nonzero pivot increases the weight of the basis).", "quantifier": "all canonical forms and weight vectors", "why_tests_cant": "optimality quantifies over all exchanges", "anchors": ["Optima/Echelonizer.cpp:updateWithPriorityWeights"]}
{"id": "C29", "title": "reset restores the canonical form first computed", "statement": "After any sequence of updates, reset() restores exactly R, S and Q as they were right after compute.", "quantifier": "all operation histories", "why_tests_cant": "histories are unbounded", "anchors": ["Optima/Echelonizer.cpp:reset"]}
{"id": "C30", "title": "EchelonizerExtended gives a canonical form of the stacked matrix", "statement": "After updateWithPriorityWeights(J,w), R*[A;J]*Q=[I S;0 0], R invertible, Q a permutation, for every J, also after any number of earlier updates with other J of any row count.", "quantifier": "all A, J, weights and update histories", "why_tests_cant": "universal over sizes and histories", "anchors": ["Optima/EchelonizerExtended.cpp:updateWithPriorityWeights"]}
{"id": "C31", "title": "EchelonizerExtended reports the equations of the current matrix", "statement": "numEquations() is rows(A)+rows(J) for the J of the last update.", "quantifier": "all update histories", "why_tests_cant": "needs a history in which J disappears", "anchors": ["Optima/EchelonizerExtended.cpp:numEquations"]}
{"id": "C32", "title": "Canonicalizer::update returns a consistent canonical view of the Jacobian", "statement": "The ordering (jbs,jns,jnu) it produces is a permutation of the variables that keeps basic before non-basic and stable before unstable; explicit variables come before implicit ones; and the reordered R, S, Sp and H blocks still satisfy R*[Wx Wp]=[I S Sp] in that ordering.", "quantifier": "all master matrices of any dimensions and stability index sets", "why_tests_cant": "universal over sizes and all orderings of std::partition", "anchors": ["Optima/Canonicalizer.cpp:update", "Optima/Canonicalizer.cpp:canonicalMatrix"]}
{"id": "C33", "title": "LU::solve solves every nonsingular system", "statement": "After decompose(A) with A nonsingular of size n, solve(b) returns the x with A*x=b.", "quantifier": "all nonsingular matrices and right-hand sides of any size, for every pivot order the LU may choose", "why_tests_cant": "universal over sizes", "anchors": ["Optima/LU.cpp:solve", "Optima/LU.cpp:assembleU"]}
{"id": "C34", "title": "LU::solve handles linearly dependent equations by zeroing the discarded unknowns", "statement": "When the elimination meets a linearly dependent row, the equation is replaced by setting the corresponding unknown to zero and the returned x satisfies every other equation.", "quantifier": "all consistent square systems of any rank", "why_tests_cant": "degenerate ranks at every position", "anchors": ["Optima/LU.cpp:assembleU"]}
{"id": "C35", "title": "LU accessors give a factorization of the decomposed matrix", "statement": "With P=lu.P(), Q=lu.Q() and the triangular factors in matrixLU(), P*A*Q=L*U.", "quantifier": "all matrices whose pivoting permutes columns", "why_tests_cant": "holds on matrices where no column permutation happens", "anchors": ["Optima/LU.cpp:P", "Optima/LU.cpp:Q"]}
{"id": "C36", "title": "The Fullspace method solves the canonical equations", "statement": "If the assembled matrix is nonsingular, the vectors returned by the Fullspace method satisfy all canonical saddle-point equations.", "quantifier": "all canonical matrices and right-hand sides of any dimensions", "why_tests_cant": "universal over sizes", "anchors": ["Optima/LinearSolverFullspace.cpp:decompose", "Optima/LinearSolverFullspace.cpp:solve"]}
{"id": "C37", "title": "The Nullspace method solves the canonical equations", "statement": "If the explicit diagonal entries are as selected by the canonicalizer and the reduced matrix is nonsingular, the vectors returned by the Nullspace method satisfy all canonical saddle-point equations.", "quantifier": "all canonical matrices and right-hand sides of any dimensions and any explicit/implicit split", "why_tests_cant": "universal over sizes and splits", "anchors": ["Optima/LinearSolverNullspace.cpp:decompose", "Optima/LinearSolverNullspace.cpp:solve"]}
{"id": "C38", "title": "The Rangespace method solves the canonical equations with diagonal Hessian", "statement": "For a diagonal Hessian, if the reduced matrix is nonsingular, the vectors returned by the Rangespace method satisfy all canonical saddle-point equations.", "quantifier": "all canonical matrices with diagonal Hessian, right-hand sides and explicit/implicit splits", "why_tests_cant": "universal over sizes and splits; sign errors show only for some splits", "anchors": ["Optima/LinearSolverRangespace.cpp:decompose", "Optima/LinearSolverRangespace.cpp:solve"]}
{"id": "C39", "title": "LinearSolver::solve solves the master equations", "statement": "A solution of the canonical equations is mapped by LinearSolver::solve to a solution u of the master equations J*u=a: Hss xs+Hsp p+Ws'w=as, xu=au, Vps xs+Vpp p=ap and Ws xs+Wp p = aw on the row space of W.", "quantifier": "all dimensions, stable/unstable splits and ranks of W", "why_tests_cant": "universal over sizes and ranks", "anchors": ["Optima/LinearSolver.cpp:solve"]}
{"id": "C40", "title": "All linear solver methods agree", "statement": "Whenever the canonical system is nonsingular and each method's own reduced matrix is nonsingular, Fullspace, Nullspace and (for diagonal Hessian) Rangespace return the same vectors.", "quantifier": "all canonical systems", "why_tests_cant": "universal over sizes and splits", "anchors": ["Optima/LinearSolver.cpp:decompose"]}
{"id": "C41", "title": "Master matrix products agree with the dense matrix", "statement": "M*u and tr(M)*u computed blockwise for a MasterMatrix equal the product of the dense matrix obtained by converting M with the concatenated vector.", "quantifier": "all master matrices and vectors, any stability split", "why_tests_cant": "universal over sizes", "anchors": ["Optima/MasterMatrix.cpp:operator Matrix", "Optima/MasterMatrixOps.cpp:operator*"]}
{"id": "C42", "title": "The canonical residual is the canonicalized master residual", "statement": "After ResidualVector::update, the canonical residual of the constraints is R times the master residual (b-Ax*x-Ap*p, -h) up to the removal of relative round-off below the machine epsilon, and the optimality residual on stable variables is -(g+Ax'y+Jx'z) with zeros on unstable ones.", "quantifier": "all dimensions, ranks and values", "why_tests_cant": "universal over sizes and values", "anchors": ["Optima/ResidualVector.cpp:update"]}
{"id": "C43", "title": "A small residual error means an approximate KKT point", "statement": "If the error reported by ResidualErrors is below tol then every stable variable off its bounds has |g+Wx'w|<tol, every component of v is below tol in magnitude and every linear and nonlinear equality constraint residual, expressed in canonical form, is below tol up to the round-off the residual removes.", "quantifier": "all states, functions and tolerances", "why_tests_cant": "universal over values; NaN and dependent rows are corner cases", "anchors": ["Optima/ResidualErrors.cpp:update"]}
{"id": "C44", "title": "A NaN residual is never reported as a small error", "statement": "If any component of the residuals ex, ep or ewbar is NaN then the reported error is not below any tolerance.", "quantifier": "all residual vectors of binary64 values", "why_tests_cant": "needs NaN in a specific block", "anchors": ["Optima/ResidualErrors.cpp:update"]}
{"id": "C45", "title": "Bound-constrained optimality is enforced by the reported error", "statement": "If the reported error is zero then every x variable satisfies the first-order conditions with bounds: s=0 strictly inside, s>=0 on the lower bound, s<=0 on the upper bound.", "quantifier": "all states including degenerate ones with basic variables on bounds", "why_tests_cant": "degenerate states only", "anchors": ["Optima/ResidualErrors.cpp:update", "Optima/Stability.cpp:Stability::update"]}
{"id": "C46", "title": "Violated linearly dependent constraints are detected", "statement": "If the reported error is zero then all linear equality constraints Ax*x+Ap*p=b hold, also when rows of A are linearly dependent.", "quantifier": "all A of any rank and all b", "why_tests_cant": "needs rank deficiency with inconsistent b", "anchors": ["Optima/ResidualErrors.cpp:update", "Optima/ResidualVector.cpp:update"]}
{"id": "C47", "title": "solve keeps x and p within their bounds at every iterate", "statement": "Whatever f, h, v, the linear solver and the custom transformation return, as long as no NaN arises every iterate and the returned x and p satisfy their lower and upper bounds, in binary64 arithmetic.", "quantifier": "all problems with lower<=upper, all user functions, all iteration counts", "why_tests_cant": "quantifies over all user functions and unbounded iteration", "anchors": ["Optima/MasterSolver.cpp:initialize", "Optima/MasterSolver.cpp:step", "Optima/BacktrackSearch.cpp:execute", "Optima/TransformStep.cpp:execute"]}
{"id": "C48", "title": "solve terminates within the iteration limit", "statement": "solve performs at least one and at most maxiters iterations and then returns.", "quantifier": "all problems, user functions and options", "why_tests_cant": "termination for all inputs", "anchors": ["Optima/MasterSolver.cpp:solve", "Optima/MasterSolver.cpp:stepping"]}
{"id": "C49", "title": "Result.succeeded tells whether the convergence criterion was met", "statement": "After solve, succeeded is true exactly when the last residual error is below the convergence tolerance or the custom convergence check accepted the last iterate.", "quantifier": "all problems, user functions and options", "why_tests_cant": "quantifies over all iterations paths, off-by-one at the limit", "anchors": ["Optima/MasterSolver.cpp:stepping", "Optima/MasterSolver.cpp:finalize", "Optima/Convergence.cpp:converged"]}
{"id": "C50", "title": "A transformation step never increases the error and is undone otherwise", "statement": "With a transformation function set, TransformStep::execute returns success only if the error after it is not larger than before and x is within bounds; in every other case u is exactly as before the call and F, E are evaluated at that u.", "quantifier": "all transformation functions and states", "why_tests_cant": "arbitrary user callback", "anchors": ["Optima/TransformStep.cpp:execute"]}
{"id": "C51", "title": "The backtracking step moves along the Newton direction up to the first bound", "statement": "BacktrackSearch::execute replaces u by uo+beta*(u-uo) with the largest common beta in (0,1] for which variables not already on a violated bound stay within bounds, then projects; multipliers w are scaled by the same beta; nothing changes when u is feasible.", "quantifier": "all vectors and extended-real bounds", "why_tests_cant": "maximality quantifies over reals", "anchors": ["Optima/BacktrackSearch.cpp:execute"]}
{"id": "C52", "title": "The line search never worsens the residual of the full step and stays on the segment", "statement": "LineSearch::execute leaves u on the segment from uo to u, within the bounds when both ends are, with an error not larger than that of the full step.", "quantifier": "all residual functions and all end points", "why_tests_cant": "arbitrary error function", "anchors": ["Optima/LineSearch.cpp:execute"]}
{"id": "C53", "title": "Result reports the final error", "statement": "After solve, Result.error is the residual error of the returned state.", "quantifier": "all problems", "why_tests_cant": "the field keeps its default for every problem, tests do not look at it", "anchors": ["Optima/MasterSolver.cpp:finalize", "Optima/Result.hpp:error"]}
{"id": "C54", "title": "A solver can be reused", "statement": "The outcome of solve depends only on the problem, options and the initial state, not on earlier solves with the same solver object; Convergence::rate refers to the current calculation only.", "quantifier": "all histories of earlier solves", "why_tests_cant": "histories are unbounded", "anchors": ["Optima/MasterSolver.cpp:initialize", "Optima/Convergence.cpp:initialize"]}
{"id": "C55", "title": "A failed function evaluation prevents success", "statement": "If the evaluation of f, he, hg or v at the returned state reports failure (succeeded=false) then solve does not report success.", "quantifier": "all problems and evaluation outcomes", "why_tests_cant": "needs failing user functions", "anchors": ["Optima/MasterSolver.cpp:step", "Optima/ResidualFunction.cpp:updateFunctionEvalsAux", "Optima/Solver.cpp:updateMasterProblem"]}
{"id": "C56", "title": "The master problem has the documented matrix", "statement": "The linear constraint matrix given to the master solver is [[Aex,0,0],[Agx,I,0]] and Ap=[Aep;Agp], whatever the memory contained before.", "quantifier": "all dimensions, matrices and previous memory contents", "why_tests_cant": "depends on uninitialised memory", "anchors": ["Optima/Solver.cpp:updateMasterProblem"]}
{"id": "C57", "title": "The slack reformulation is equivalent to the user's problem", "statement": "x,p satisfy the user's constraints (equalities, >= inequalities and bounds) exactly when slacks within the master bounds exist for which the master equality constraints hold, and the objective value is the same.", "quantifier": "all problems and all points", "why_tests_cant": "universal over points and functions", "anchors": ["Optima/Solver.cpp:updateMasterProblem"]}
{"id": "C58", "title": "The constraint wrapper lays out values and derivatives and forwards failure", "statement": "The master h is (he, hg+xhg), its Jacobian is [[he_x,0,0],[hg_x,0,I]], and its success flag is false whenever he or hg reports failure.", "quantifier": "all user functions and points", "why_tests_cant": "needs failing user functions and all dimensions", "anchors": ["Optima/Solver.cpp:updateMasterProblem"]}
{"id": "C59", "title": "State transfer to and from the master solver loses nothing", "statement": "Writing a State to the master state and reading it back without solving returns the same x, p, ye, yg, ze, zg, xbg, xhg; index sets returned to the user contain exactly the indices below dims.x of the master's sets.", "quantifier": "all dimensions and states", "why_tests_cant": "universal over dimensions", "anchors": ["Optima/Solver.cpp:updateMasterState", "Optima/Solver.cpp:updateState", "Optima/Solver.cpp:updateSensitivity"]}
{"id": "C60", "title": "Copy assignment copies the problem", "statement": "After P = Q every member of Problem P (dimensions, matrices, vectors and functions) equals that of Q; likewise for State and Sensitivity.", "quantifier": "all problems", "why_tests_cant": "the functions are the members tests do not compare", "anchors": ["Optima/Problem.cpp:operator=", "Optima/State.cpp:operator=", "Optima/Sensitivity.cpp:operator="]}
{"id": "C61", "title": "Sensitivity derivatives solve the differentiated optimality conditions", "statement": "The computed dx/dc, dp/dc, dw/dc satisfy the linear system obtained by differentiating the KKT conditions with the stable set fixed, dx/dc is zero on the unstable variables, and ds/dc is the derivative of s = fx + Wx'w (zero on the stable variables).", "quantifier": "all problems, parameters and stable sets", "why_tests_cant": "universal over dimensions", "anchors": ["Optima/SensitivitySolver.cpp:solve"]}
{"id": "C62", "title": "Output columns line up with their headers", "statement": "Each line written by outputState has one field per entry, and field number k starts at the same column as header number k when every value is shorter than its column; separators do not shift widths.", "quantifier": "all entry lists, values, widths and separator placements", "why_tests_cant": "all combinations of entries and separators", "anchors": ["Optima/Outputter.cpp:outputHeader", "Optima/Outputter.cpp:outputState"]}
{"id": "C63", "title": "The resources function sees the user's variables", "statement": "The function r of the user's problem is called with the x of the user's problem (dims.x entries), like f, he, hg and v.", "quantifier": "all problems with inequality constraints", "why_tests_cant": "needs a problem with inequality constraints and a resources function", "anchors": ["Optima/Solver.cpp:updateMasterProblem", "Optima/ResidualFunction.cpp:updateFunctionEvalsAux"]}
{"id": "C64", "title": "Golden section search finds the minimum of a unimodal function", "statement": "For f strictly decreasing up to some x* and strictly increasing after it, minimizeGoldenSectionSearch on [a,b] with tolerance tol >= 2e-12 returns a point within 3*tol*(b-a) of x*.", "quantifier": "all unimodal f (no continuity needed), all intervals, all tol >= 2e-12", "why_tests_cant": "all functions; tests minimise a few parabolas", "anchors": ["Optima/Utils.cpp:minimizeGoldenSectionSearch"]}
{"id": "C65", "title": "Echelonizer::numBasicVariables is the rank of the matrix", "statement": "After compute(A) the number of basic variables equals the number of nonzero pivots of A, for every nonzero matrix however it is scaled.", "quantifier": "all pivot sequences", "why_tests_cant": "tests use well scaled matrices", "anchors": ["Optima/Echelonizer.cpp:numBasicVariables"]}
{"id": "C66", "title": "minimizeBrent finds the minimum of a unimodal function", "statement": "For f strictly decreasing up to some x* and strictly increasing after it, a run of minimizeBrent that stops before its evaluation budget is spent returns a point r with |r-x*| <= tol*(2|r|+1/2).", "quantifier": "all unimodal f (no continuity needed), all intervals, tolerances and budgets", "why_tests_cant": "all functions; tests minimise a few parabolas", "anchors": ["Optima/Utils.cpp:minimizeBrent"]}
{"id": "C67", "title": "EchelonizerW hands the canonicalizer a reduced form of W", "statement": "After EchelonizerW::update with any priority weights, following any history of earlier updates, R, S, Sp and the basic/non-basic indices satisfy R*[Wx Wp] = [I S Sp] for W = [Ax Ap; Jx Jp], the indices listing every variable once.", "quantifier": "all matrices A, J, all ranks, all weights and all histories of updates", "why_tests_cant": "histories and sizes are unbounded", "anchors": ["Optima/EchelonizerW.cpp:initialize", "Optima/EchelonizerW.cpp:update", "Optima/EchelonizerW.cpp:asMatrixViewRWQ"]}
{"id": "C68", "title": "The residual function can be updated in every state", "statement": "ResidualFunction::update never runs into the canonicalizer's refusal of unstable basic variables: for every state, function values and basis it computes a canonical form.", "quantifier": "all problems, states, bases and function values", "why_tests_cant": "the exception depends on the interplay of Stability and Canonicalizer in all degenerate states", "anchors": ["Optima/ResidualFunction.cpp:update", "Optima/Stability.cpp:Stability::update", "Optima/Canonicalizer.cpp:update"]}
{"id": "C69", "title": "The user's functions are evaluated within the bounds", "statement": "During solve, f, he, hg and v are called only with x and p within their lower and upper bounds.", "quantifier": "all problems with lower<=upper, all user functions and iteration counts", "why_tests_cant": "all user functions; functions such as log are undefined outside the bounds", "anchors": ["Optima/MasterSolver.cpp:step", "Optima/NewtonStep.cpp:apply", "Optima/TransformStep.cpp:execute", "Optima/ErrorControl.cpp:execute"]}
{"id": "C70", "title": "Solving a problem whose functions were not set is refused", "statement": "Solver::solve throws when the objective function f, or a constraint function he, hg or v whose dimension is positive, was never set in the problem.", "quantifier": "all problem dimensions and all subsets of functions set", "why_tests_cant": "tests always set the functions they need", "anchors": ["Optima/Solver.cpp:solve", "Optima/ObjectiveFunction.cpp:initialized", "Optima/ConstraintFunction.cpp:initialized"]}
{"id": "C71", "title": "The output has one name per variable of the master problem", "statement": "When the output is active, the variables printed are one name per user variable (the user's names when given, else their indices) followed by names of the slack variables; a list of names of the wrong length is refused.", "quantifier": "all dimensions and all lists of names", "why_tests_cant": "universal over dimensions and name lists", "anchors": ["Optima/Solver.cpp:updateMasterOptions"]}
{"id": "C72", "title": "The output table shows each value below its own heading", "statement": "Each line of the table written during a solve has one value per heading, the value of x[i] below x[name of i] and likewise for p, y, z, s and the residual errors; a list of names of the wrong length is refused.", "quantifier": "all dimensions, name lists and states", "why_tests_cant": "universal over dimensions and names", "anchors": ["Optima/MasterSolver.cpp:outputHeaderTop", "Optima/MasterSolver.cpp:outputCurrentState", "Optima/Outputter.cpp:addEntries"]}
{"id": "C73", "title": "The last line of the output shows the returned point", "statement": "The x, p, y, z in the last line of the output table are those of the state returned to the caller.", "quantifier": "all problems, options and outcomes", "why_tests_cant": "needs the output of calculations that fail", "anchors": ["Optima/MasterSolver.cpp:finalize", "Optima/MasterSolver.cpp:outputCurrentState", "Optima/MasterSolver.cpp:stepping"]}
{"id": "C74", "title": "Accumulating results adds up all counters and times", "statement": "After r += r1; r += r2; ... every counter and every time of r is the total of those of the accumulated results, and the outcome is that of the last one.", "quantifier": "all sequences of results of any length", "why_tests_cant": "all sequences", "anchors": ["Optima/Result.cpp:operator+="]}
{"id": "C75", "title": "Success means an approximate optimum of the user's problem", "statement": "When Solver::solve reports success, the returned x, p, ye, yg, ze, zg satisfy the first-order optimality conditions of the user's problem up to the tolerance: bounds, signs of the multipliers, complementarity, stationarity and constraints.", "quantifier": "all problems with ordered bounds, all user functions, initial states, options, Newton directions and transformations", "why_tests_cant": "all user functions and all executions; tests solve a few problems to convergence", "anchors": ["Optima/Solver.cpp:solve", "Optima/MasterSolver.cpp:solve", "Optima/ResidualFunction.cpp:update", "Optima/ResidualErrors.cpp:update"]}
{"id": "C76", "title": "A solution is recognised", "statement": "Solver::solve started at a point that satisfies the first-order optimality conditions exactly reports success and returns that point.", "quantifier": "all problems and all their solutions", "why_tests_cant": "all problems, including those without constraints", "anchors": ["Optima/Solver.cpp:solve", "Optima/MasterSolver.cpp:solve", "Optima/Stability.cpp:Stability::update", "Optima/ResidualErrors.cpp:update"]}
{"id": "C77", "title": "Convergence::rate is the factor of linear convergence", "statement": "When the last three errors are limit+e, limit+q*e, limit+q*q*e, rate() is q; with fewer than three errors it is 0.", "quantifier": "all histories, limits and factors q other than 1", "why_tests_cant": "all histories", "anchors": ["Optima/Convergence.cpp:rate"]}
{"id": "C78", "title": "A failing user function is noticed", "statement": "After an update of the residual function at some point, the succeeded flag of its result is true exactly when all of f, h (if there are nonlinear constraints) and v (if there are parameters) reported success at that point, whatever happened at earlier points.", "quantifier": "all dimensions and all sequences of evaluations and outcomes", "why_tests_cant": "all sequences of outcomes", "anchors": ["Optima/ResidualFunction.cpp:updateFunctionEvals", "Optima/ResidualFunction.cpp:result"]}
{"id": "C79", "title": "Basic variables are chosen away from the bounds", "statement": "When the constraints can be solved for variables that are off their bounds, the basic variables reported are off their bounds; when they can be solved for variables off their bounds with |x| at least t, so are the basic variables.", "quantifier": "all constraint matrices, bounds and points, and all earlier states of the echelonizer", "why_tests_cant": "universal over matrices; optimality of a basis among all bases", "anchors": ["Optima/ResidualFunction.cpp:updateEchelonFormMatrixW", "Optima/EchelonizerW.cpp:update", "Optima/EchelonizerExtended.cpp:updateWithPriorityWeights"]}
{"id": "C80", "title": "The Newton direction solves the linearised optimality conditions", "statement": "The direction computed from the residuals at a point solves the first-order optimality conditions linearised at that point, with the variables held by their bounds kept fixed, whatever linear solver method is chosen.", "quantifier": "all problems, points, linear solver methods and echelon forms", "why_tests_cant": "universal over problems and points", "anchors": ["Optima/NewtonStep.cpp:apply", "Optima/LinearSolver.cpp:solve", "Optima/ResidualVector.cpp:update"]}
{"id": "C81", "title": "Problems that equal their linearisation are solved in one iteration", "statement": "Solver::solve on a problem with quadratic objective function and affine constraints, started at a point where the active bounds are known, reports success after one iteration and returns the solution exactly, whatever the initial multipliers.", "quantifier": "all such problems, initial points and multipliers", "why_tests_cant": "universal over problems and initial states", "anchors": ["Optima/Solver.cpp:solve", "Optima/MasterSolver.cpp:solve", "Optima/NewtonStep.cpp:apply"]}
{"id": "C82", "title": "The echelonizer gives the echelon form of the present constraints, whatever came before", "statement": "After any sequence of updates, an update of the echelonizer with the present constraint matrix and weights gives R and an order of the variables with R*W = [I S]; the number of basic variables is the rank of W; basic and non-basic variables come in descending order of weight; and with weights |x| off the bounds, basic variables lie off their bounds whenever a basis of such variables exists.", "quantifier": "all matrices of any size and rank, all weights and all sequences of earlier updates", "why_tests_cant": "all histories of updates and all ranks; tests use a few matrices and one or two updates", "anchors": ["Optima/EchelonizerW.cpp:update", "Optima/EchelonizerExtended.cpp:updateWithPriorityWeights", "Optima/Echelonizer.cpp:compute", "Optima/Echelonizer.cpp:updateWithPriorityWeights"]}
{"id": "C83", "title": "With independent equality constraints, success means that all constraints hold", "statement": "When Solver::solve reports success at a point where the gradients of the user's equality constraints are linearly independent, all linear and nonlinear constraints of the user's problem hold up to the tolerance and round-off, times the inverse of the basic columns; and a first-order solution with independent equality gradients is recognised.", "quantifier": "all problems with ordered bounds, all user functions, initial states, options and histories", "why_tests_cant": "universal over user functions and executions; independence is a property of the returned point", "anchors": ["Optima/Solver.cpp:solve", "Optima/MasterSolver.cpp:solve", "Optima/EchelonizerW.cpp:update", "Optima/ResidualErrors.cpp:update"]}
{"id": "C84", "title": "The returned state describes the returned point", "statement": "Whatever the outcome of Solver::solve, the state it hands back describes the point in it: s holds the stability measures of the variables at that point (State.hpp:38), the stable and unstable variables divide all variables, as do basic and non-basic ones, and the lower and upper unstable variables are the non-basic variables on their lower or upper bound whose stability measure says that the objective would decrease beyond that bound.", "quantifier": "all problems with ordered bounds, all user functions, initial states, options, Newton directions and outcomes", "why_tests_cant": "all executions including failed ones; tests look at the index sets of a few solved problems", "anchors": ["Optima/Solver.cpp:solve", "Optima/MasterSolver.cpp:finalize", "Optima/Stability.cpp:Stability::update", "Optima/State.hpp:State"]}
{"id": "C85", "title": "With independent active constraints, success means an approximate optimum without exceptions", "statement": "When Solver::solve reports success at a point where the gradients of all active constraints (bounds, equality constraints, inequality constraints without slack) are linearly independent, every variable has a stability measure below the tolerance or of the right sign for the bound it is on, every multiplier of an inequality constraint has the right sign or is below the tolerance, and the constraints hold up to tolerance and round-off times the inverse of columns of variables off their bounds.", "quantifier": "all problems with ordered bounds, all user functions, initial states, options and histories", "why_tests_cant": "universal over user functions and executions; needs that the basis avoids the bounds whenever it can", "anchors": ["Optima/Solver.cpp:solve", "Optima/ResidualErrors.cpp:update", "Optima/EchelonizerW.cpp:update", "Optima/ResidualFunction.cpp:updateEchelonFormMatrixW"]}
{"id": "C86", "title": "Sensitivities are the derivatives of the solution with respect to the parameters", "statement": "Solver::solve with a Sensitivity argument returns the same result and state as without it, and column k of every sensitivity matrix (for x, p, slacks and multipliers) is the derivative of the solution as parameter c_k moves: of every differentiable path of solutions of the user's problem through the returned point along which the variables and constraints held stay held.", "quantifier": "all problems, user functions, parameters, options, initial states and executions; all solution paths", "why_tests_cant": "universal over problems and paths; a derivative is a limit, tests compare with finite differences on a few problems", "anchors": ["Optima/Solver.cpp:solve", "Optima/MasterSolver.cpp:solve", "Optima/SensitivitySolver.cpp:solve", "Optima/ResidualFunction.cpp:updateOnlyJacobian"]}
{"id": "C87", "title": "Started close enough to a regular solution, solve finds it", "statement": "Given correct derivatives, Solver::solve started close enough to a solution at which the active constraints are independent, strict complementarity holds and the linearised optimality conditions are nonsingular reports success and returns a point near that solution; the distance decreases in every iteration, quadratically where the constraints are linear.", "quantifier": "all problems, solutions with these properties, initial points near them, options and histories", "why_tests_cant": "universal over problems and starting points in a neighbourhood; convergence is a statement about sequences of iterations of any length", "anchors": ["Optima/Solver.cpp:solve", "Optima/MasterSolver.cpp:step", "Optima/NewtonStep.cpp:apply", "Optima/ResidualVector.cpp:update"]}
{"id": "C88", "title": "The user's functions are evaluated once per iteration and once at the start, and the Result says how often", "statement": "Without a transformation function Solver::solve evaluates the objective, constraint and resources functions exactly at the starting point (moved into the bounds) and at every iterate: one more time than the number of iterations it reports. With a transformation function it makes between two and three evaluations per iteration and one at the start. The number of evaluations and the times in the returned Result are those of the calculation.", "quantifier": "all problems, user functions, transformations, options, initial states and executions", "why_tests_cant": "the number of evaluations depends on the whole execution; tests look at a few runs", "anchors": ["Optima/MasterSolver.cpp:step", "Optima/MasterSolver.cpp:initialize", "Optima/TransformStep.cpp:execute", "Optima/Result.hpp:Result"]}
{"id": "C89", "title": "User functions need compute only what the options ask for", "statement": "A user function may leave out every derivative that the options given to it do not ask for, and the objective function may leave out its value: Solver::solve then gives the same results as with functions that always compute everything. solve asks for derivatives with respect to x and p, and for those with respect to c only in the one extra evaluation made for sensitivities.", "quantifier": "all problems, families of user functions depending on the options, initial states and executions", "why_tests_cant": "a function that leaves out a derivative is wrong only if some execution reads it; needs all executions", "anchors": ["Optima/ResidualFunction.cpp:updateFunctionEvalsAux", "Optima/Solver.cpp:updateMasterProblem", "Optima/ObjectiveFunction.hpp:ObjectiveOptions", "Optima/ConstraintFunction.hpp:ConstraintOptions"]}
{"id": "C90", "title": "The basic variables in the options are basic variables among x at the point of evaluation", "statement": "The indices ibasicvars in the options given to a user function are different from each other, are indices of the user's variables x, and are the basic variables of the constraint matrix at the point at which the function is evaluated.", "quantifier": "all problems, points and sequences of evaluations", "why_tests_cant": "depends on the echelon form of an earlier point and on slack variables that the user never sees; needs all histories", "anchors": ["Optima/ResidualFunction.cpp:updateFunctionEvalsAux", "Optima/EchelonizerW.cpp:RWQ", "Optima/Solver.cpp:updateMasterProblem"]}
{"id": "C91", "title": "On success the point returned minimises the objective function", "statement": "When Solver::solve reports success, no feasible point x (for the parameters returned) has a smaller value of the objective function than the point returned, up to the tolerance times the distance and what the allowed violations of the constraints are worth at the multipliers; for a strongly convex problem the distance to the solution is bounded in the same way.", "quantifier": "all convex problems, initial states, options and executions ending with success; and whether convexity is needed", "why_tests_cant": "a statement about all feasible points and all executions; tests compare with known solutions of a few problems", "anchors": ["Optima/Solver.cpp:solve", "Optima/Convergence.cpp:check", "Optima/ResidualErrors.cpp:update", "Optima/NewtonStep.cpp:apply"]}
{"id": "C92", "title": "Strictly convex quadratic programs are solved from every initial point", "statement": "For a problem with linear constraints, bounds and a quadratic objective function that is strictly convex along the equality constraints, whose active constraints are independent, Solver::solve reports success at the minimiser from every initial point, given enough iterations; with equality constraints only it does so in a single iteration.", "quantifier": "all such problems, initial points and multipliers, options, linear-solver methods and histories", "why_tests_cant": "a statement about all initial points and iteration counts; a cycle of the iterations looks like slow convergence in a test", "anchors": ["Optima/Solver.cpp:solve", "Optima/ErrorControl.cpp:execute", "Optima/BacktrackSearch.cpp:execute", "Optima/NewtonStep.cpp:apply", "Optima/Stability.cpp:update"]}
{"id": "C93", "title": "In double precision the iterates stay finite and the step is the exact one up to rounding", "statement": "In IEEE double arithmetic: if the starting point and the Newton directions are finite and not near the overflow threshold, every iterate of Solver::solve is finite (no NaN, no infinity) and within the bounds; the step that is cut back at the bounds is, up to a few units in the last place, the largest step along the Newton direction that respects the bounds, the variable that limits the step ends on its bound, variables held on a bound stay there, and rounding does not keep the solver from solving a problem that it solves in exact arithmetic.", "quantifier": "all bounds, points, directions, user functions, options and numbers of iterations, with rounding in every operation", "why_tests_cant": "rounding errors depend on the bit patterns of all operands; tests sample a few", "anchors": ["Optima/BacktrackSearch.cpp:execute", "Optima/NewtonStep.cpp:apply", "Optima/MasterSolver.cpp:step", "Optima/MasterVector.hpp"]}
{"id": "C94", "title": "The step-length functions keep their promises in double precision", "statement": "In IEEE double arithmetic and for finite p within the bounds and finite dp not near the overflow threshold: performConservativeStep returns finite numbers within the bounds, moves the variables that are not held by the returned factor up to a few units in the last place, leaves the held variables exactly where they are, and if the factor is less than 1 some variable ends exactly on its bound and would go beyond it with a larger factor; the factor is close to that of exact arithmetic; performAggressiveStep gives the projection of p + dp onto the bounds up to rounding; fractionToTheBoundary returns a factor with which no positive entry loses more than the fraction tau, so that the computed p + alpha dp is positive.", "quantifier": "all vectors of doubles, bounds and sizes, with rounding in every operation", "why_tests_cant": "rounding errors depend on the bit patterns of all operands; tests sample a few", "anchors": ["Optima/Utils.cpp:performConservativeStep", "Optima/Utils.cpp:performAggressiveStep", "Optima/Utils.cpp:fractionToTheBoundary"]}
{"id": "C95", "title": "Success means small exact residuals also in double precision", "statement": "In IEEE double arithmetic: when Solver::solve reports success by its own criterion, the exact residuals at the point returned (the gradient of the Lagrange function of the variables that are not unstable and not basic on a bound, the residuals v of the parameters, the residuals b - Ax x - Ap p of the linear constraints and h of the nonlinear ones, the constraints combined as in the echelon form) are below the tolerance up to a rounding term of the order of the unit roundoff times the number and the magnitude of the terms, in whatever order the sums are evaluated and with or without fused multiply-add.", "quantifier": "all doubles, sizes, partitions of the variables, orders of summation, options and executions ending with success", "why_tests_cant": "the error reported is itself computed with rounding; a test sees only the computed error", "anchors": ["Optima/ResidualVector.cpp:update", "Optima/Utils.cpp:multiplyMatrixVectorWithoutResidualRoundOffError", "Optima/ResidualErrors.cpp:update", "Optima/Convergence.cpp:check", "Optima/Solver.cpp:solve"]}
{"id": "C96", "title": "The error status compares the last two errors", "statement": "After ErrorStatus::initialize, the answers of errorHasDecreased, errorHasIncreased and their significant variants compare the error of the last update with the one before it (+inf if there is none) and depend on nothing else; an error has not both decreased and increased; a significant decrease (increase) is a decrease (increase) when the factor is at most (at least) 1, also with rounding and for infinite errors; and updating with the error of any calculation does not violate an assertion.", "quantifier": "all sequences of calls, options and errors, in double precision", "why_tests_cant": "depends on all histories of updates and on rounding of the products with the factors", "anchors": ["Optima/ErrorStatus.cpp:update", "Optima/ErrorStatus.cpp:errorHasDecreasedSignificantly", "Optima/ErrorStatus.cpp:errorHasIncreasedSignificantly", "Optima/ErrorStatus.cpp:sanitycheck"]}
{"id": "C97", "title": "The one-dimensional minimisers stay in their interval also in double precision", "statement": "In IEEE double arithmetic: every point at which minimizeBrent and minimizeGoldenSectionSearch evaluate the function, and the result, is a number between the ends of the interval; the result of minimizeBrent is one of the evaluated points and no evaluated value is smaller than its value; and minimizeGoldenSectionSearch ends after at most 66 evaluations for every tolerance from 2e-12.", "quantifier": "all functions, intervals, tolerances, budgets and executions, in double precision", "why_tests_cant": "the points and the brackets are rounded in every iteration; a test sees a few functions", "anchors": ["Optima/Utils.cpp:minimizeBrent", "Optima/Utils.cpp:minimizeGoldenSectionSearch"]}
{"id": "C98", "title": "Solving again from the returned state succeeds", "statement": "When Solver::solve has reported success, solving the same problem again with the same options from the returned state reports success too and returns the same point up to the tolerance.", "quantifier": "all problems, options, initial states and numbers of iterations", "why_tests_cant": "a test restarts a few problems near well-conditioned solutions", "anchors": ["Optima/MasterSolver.cpp:solve", "Optima/MasterSolver.cpp:stepping", "Optima/Solver.cpp:solve"]}
{"id": "C99", "title": "Debug and release builds agree", "statement": "A program that calls Solver::solve does the same when the library is compiled with assertions as without: no assertion on the way of solve fails.", "quantifier": "all problems, options, initial states, user functions and iterations", "why_tests_cant": "a test suite runs in one build type, and only on its own problems", "anchors": ["Optima/EchelonizerW.cpp:update", "Optima/BacktrackSearch.cpp:execute", "Optima/Stability.cpp:update", "Optima/ResidualErrors.cpp:sanitycheck", "Optima/MasterSolver.cpp:sanitycheck", "Optima/Echelonizer.cpp:updateWithSwapBasicVariable"]}
{"id": "C100", "title": "A used solver answers like a new one", "statement": "A Solver object that has been used for other problems, or that an exception of a user function has left in the middle of a calculation, gives for the next problem the same outcome, result and state as a newly constructed Solver.", "quantifier": "all sequences of earlier calls with any problems and any end, all contents of freshly allocated memory, all problems, options and initial states", "why_tests_cant": "the differences come from memory that resize leaves as it is; a test sees them only for particular sequences of problem sizes", "anchors": ["Optima/Solver.cpp:solve", "Optima/Solver.cpp:updateMasterProblem", "Optima/EchelonizerW.cpp:initialize", "Optima/Convergence.cpp:initialize", "Optima/MasterSolver.cpp:initialize"]}
{"id": "C101", "title": "Exchanging basic variables in double precision keeps the echelon form", "statement": "However often basic and non-basic variables are exchanged, reordered and cleaned of round-off errors, the matrices R, S and the ordering Q that an Echelonizer holds satisfy R*A*Q = [I S] up to rounding errors, and the columns of the basic variables are linearly independent.", "quantifier": "all matrices, all sequences of changes, all weights, fused or separate multiplication and subtraction", "why_tests_cant": "the errors accumulate over sequences of exchanges; a test sees the pivots of a few of them", "anchors": ["Optima/Echelonizer.cpp:updateWithSwapBasicVariable", "Optima/Echelonizer.cpp:updateWithPriorityWeights", "Optima/Echelonizer.cpp:updateOrdering", "Optima/Echelonizer.cpp:cleanResidualRoundoffErrors"]}
{"id": "C102", "title": "rationalize removes rounding errors from fractions in double precision", "statement": "From a double that differs from a fraction in lowest terms with small numerator and denominator by rounding errors only, rational returns exactly that fraction, and rationalize replaces every such entry by the double nearest to its fraction; applying it again changes nothing.", "quantifier": "all fractions and all doubles near them, all arrays, all limits of the denominator", "why_tests_cant": "all double neighbours of all fractions; a test tries a few fractions", "anchors": ["Optima/Utils.cpp:farey", "Optima/Utils.cpp:rational", "Optima/Utils.cpp:rationalize"]}
{"id": "C103", "title": "A problem without feasible points is not reported as solved", "statement": "If no values of the variables and parameters meet the constraints and bounds of the problem, Solver::solve does not report success.", "quantifier": "all problems without feasible points, all initial states, all options", "why_tests_cant": "infeasibility of a problem is a statement about all points; a test tries a few problems", "anchors": ["Optima/Solver.cpp:solve", "Optima/MasterSolver.cpp:initialize", "Optima/ResidualErrors.cpp:update", "Optima/EchelonizerW.cpp:update"]}
{"id": "C104", "title": "Larger limits never spoil a result", "statement": "A calculation that succeeds gives the same Result and State for every Options::maxiters of at least the number of iterations it took. With a larger convergence tolerance it still succeeds, in no more iterations, and returns the same State or the one at which a smaller maxiters stops the first calculation. A calculation that fails gives the same Result and State for every smaller tolerance.", "quantifier": "all problems, user functions, initial states and pairs of options", "why_tests_cant": "it compares runs with all pairs of options; a test compares the results of a few", "anchors": ["Optima/MasterSolver.cpp:stepping", "Optima/MasterSolver.cpp:finalize", "Optima/Convergence.cpp:converged"]}
{"id": "C105", "title": "A calculation stopped by the iteration limit can be resumed", "statement": "When Solver::solve fails because of Options::maxiters, a second call from the State it returned gives what a single call with the added limits gives: the same success, the same values and the iterations added up.", "quantifier": "all problems, initial states and pairs of limits", "why_tests_cant": "it compares interrupted and uninterrupted runs of every length; a test compares a few", "anchors": ["Optima/MasterSolver.cpp:solve", "Optima/MasterSolver.cpp:initialize", "Optima/MasterSolver.cpp:stepping", "Optima/MasterSolver.cpp:finalize", "Optima/Solver.cpp:solve"]}
{"id": "C106", "title": "In double precision a product without residual round-off errors is free of them", "statement": "multiplyMatrixVectorWithoutResidualRoundOffError returns, in double precision and for every order of evaluation, entries that differ from those of the exact product A*x by rounding errors of |A||x| only; an entry whose products cancel exactly is returned as zero; an entry that was computed without any rounding is returned as it is.", "quantifier": "all matrices and vectors of finite numbers, all orders of evaluation", "why_tests_cant": "the error depends on every value, size and order; a test samples a few", "anchors": ["Optima/Utils.cpp:multiplyMatrixVectorWithoutResidualRoundOffError", "Optima/ResidualVector.cpp:update"]}
{"id": "C107", "title": "In double precision cleanResidualRoundoffErrors removes small entries only", "statement": "cleanResidualRoundoffErrors sets to zero exactly the entries not above eps * (largest magnitude) * (larger dimension), up to the rounding of this threshold; it keeps the entry largest in magnitude; a second call changes nothing. An infinite entry does not affect the others.", "quantifier": "all matrices and vectors of doubles without NaN, all dimensions up to 2^49", "why_tests_cant": "it quantifies over all values and sizes, infinities included", "anchors": ["Optima/Utils.cpp:cleanResidualRoundoffErrors", "Optima/EchelonizerW.cpp:update"]}
{"id": "C108", "title": "An exception thrown by a user function leaves the State and the solver usable", "statement": "If an objective function, constraint function, transformation or convergence check throws, solve throws, the State passed in is as it was before the call, and a later call on the same solver with functions that do not throw has the outcome of the same call on a new solver. If no function throws during the call, solve has the outcome it would have with functions that cannot throw. Functions that throw only at points outside the bounds of x and p never make solve throw.", "quantifier": "all problems, states, options, histories of the solver and all calls at which a function throws", "why_tests_cant": "the throwing call can be any evaluation of any iteration, and the effect shows in later calls", "anchors": ["Optima/Solver.cpp:solve", "Optima/MasterSolver.cpp:solve", "Optima/TransformStep.cpp:execute"]}
{"id": "C109", "title": "Sensitivities follow the chain rule", "statement": "The column of sensitivities of a parameter depends only on the derivatives with respect to this parameter, linearly: a parameter on which nothing depends has zero sensitivities, a parameter measured in other units has sensitivities multiplied by the same factor, and a parameter that changes two others has the sum of their sensitivities at the given rates. Asking for sensitivities changes neither the State nor the Result.", "quantifier": "all problems, points and parameters, all factors and rates", "why_tests_cant": "linearity quantifies over all derivatives and factors of all magnitudes", "anchors": ["Optima/SensitivitySolver.cpp:solve", "Optima/LU.cpp:solve", "Optima/Solver.cpp:solve"]}
{"id": "C110", "title": "Functions matter only within the bounds, and the objective only through its derivatives", "statement": "Without a transformation function, two problems that differ only in what the user's functions return outside the bounds, in the value of the objective function and in the derivatives with respect to c are solved alike: solve returns the same Result and the same State. If the derivatives with respect to c agree within the bounds, so do the sensitivities. Adding a constant to the objective function changes nothing, also with a transformation function. With a transformation function, what the functions return at points that were not evaluated does not matter.", "quantifier": "all pairs of such problems, all initial states and options", "why_tests_cant": "a test compares finitely many pairs of functions", "anchors": ["Optima/MasterSolver.cpp:solve", "Optima/ResidualFunction.cpp:update", "Optima/Solver.cpp:solve"]}
{"id": "C111", "title": "Sensitivities are returned for successful calculations only", "statement": "solve(problem, state, sensitivity) gives sensitivities of a solution: a calculation that does not succeed can be told apart by its sensitivities. A larger iteration limit changes neither the State nor the sensitivities of a calculation that succeeds.", "quantifier": "all problems, initial states, options and transformations", "why_tests_cant": "the relation between runs with different limits holds for every run", "anchors": ["Optima/MasterSolver.cpp:solve", "Optima/Solver.cpp:solve"]}
