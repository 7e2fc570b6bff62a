{"id": "C01", "title": "LMPC equality rows are exactly the plant dynamics", "statement": "After setStateSpaceModel(A,B,C) and setDisturbances(Bd,Dd), a vector satisfies the equality rows of the quadratic program handed to the solver by optimize(x0,lastU) if and only if the trajectory it encodes starts at x0 with previous command lastU and satisfies x(k+1)=A x(k)+B u(k)+Bd d(k), with u(k)=u(k-1)+du(k), for every step of the prediction horizon.", "quantifier": "every dimension tuple, every model, every disturbance sequence, every x0 and lastU, every candidate vector, every history of setter calls before optimize", "why_tests_cant": "tests solve a handful of plants with fixed horizons; an index slip in the stacked matrices may only show for other dimension tuples", "anchors": ["include/mpc/LMPC/ProblemBuilder.hpp:setStateModel", "include/mpc/LMPC/ProblemBuilder.hpp:setExogenousInput", "include/mpc/LMPC/ProblemBuilder.hpp:buildTimeInvariantTems", "include/mpc/LMPC/ProblemBuilder.hpp:get"]}
{"id": "C02", "title": "LMPC objective is the documented tracking cost", "statement": "For every trajectory, the quadratic cost 1/2 z'Pz+q'z handed to the solver equals one half of the sum over the horizon of the weighted squared output, command and command-increment tracking errors, up to an additive constant that does not depend on the decision variables (so both have the same minimisers).", "quantifier": "every dimension tuple, weights, references, disturbances and decision vector", "why_tests_cant": "a solved test problem only checks the minimiser for one weight choice; equality of two polynomials for all vectors needs a proof", "anchors": ["include/mpc/LMPC/ProblemBuilder.hpp:setObjective", "include/mpc/LMPC/ProblemBuilder.hpp:get", "include/mpc/LMPC/ProblemBuilder.hpp:buildTimeInvariantTems"]}
{"id": "C03", "title": "LMPC quadratic term is symmetric and convex", "statement": "The quadratic matrix given to the solver is symmetric for every configuration, and positive semidefinite whenever all weights set through setObjectiveWeights are non-negative; a single negative weight on a command increment makes it non-convex.", "quantifier": "all configurations, all vectors", "why_tests_cant": "definiteness quantifies over all vectors and all weights", "anchors": ["include/mpc/LMPC/ProblemBuilder.hpp:buildTimeInvariantTems", "include/mpc/LMPC.hpp:setObjectiveWeights"]}
{"id": "C04", "title": "LMPC state bounds", "statement": "The state bound rows of the program hold for a vector iff every predicted state x(k), k=1..ph, lies between the bounds set for step k-1 by setStateBounds; the bounds of step 0 are additionally imposed on the measured state x(0) itself.", "quantifier": "every configuration history, every step, every state component, bounds finite or infinite", "why_tests_cant": "tests look at one bound on one step; off by one placement for other steps is invisible", "anchors": ["include/mpc/LMPC/ProblemBuilder.hpp:setStateBounds", "include/mpc/LMPC.hpp:setStateBounds"]}
{"id": "C05", "title": "LMPC output bounds with measured disturbance", "statement": "The output bound rows hold iff every predicted output y(k)=C x(k)+Dd d lies between the output bounds set for that step, with the disturbance sample used by the predictor (column k-1, column 0 for k=0).", "quantifier": "every configuration history, step, output component, disturbance sequence", "why_tests_cant": "the disturbance shift is folded in the bounds; tests with zero Dd never exercise it", "anchors": ["include/mpc/LMPC/ProblemBuilder.hpp:setOutputBounds", "include/mpc/LMPC/ProblemBuilder.hpp:get"]}
{"id": "C06", "title": "LMPC input bounds act one step late", "statement": "Intended: bounds set by setInputBounds for step k constrain the command u(k) of that step. FINDING: the code violates this; what the input rows of the program impose, for every configuration, is that the bounds of step k>=1 constrain u(k-1), those of step 0 constrain the previous command lastU, and the last command u(ph-1) is constrained by the bounds of the last step. Hence bounds that are the same at every step are respected by every feasible command, while step-wise bounds are not.", "quantifier": "every configuration history, every step, every horizon", "why_tests_cant": "most tests set the same bounds on the entire horizon, which hides shifts", "anchors": ["include/mpc/LMPC/ProblemBuilder.hpp:setInputBounds", "include/mpc/LMPC/ProblemBuilder.hpp:buildTimeInvariantTems", "include/mpc/LMPC.hpp:setInputBounds"]}
{"id": "C07", "title": "LMPC commands are frozen only after step ch", "statement": "Intended: u(k)=u(ch-1) for every k>=ch, so that only ch free moves exist. FINDING: the code violates this; the increment rows hold iff u(k)=u(ch) for every k>=ch, i.e. one more free move (ch+1) than the documented control horizon.", "quantifier": "every ph and ch, every feasible vector", "why_tests_cant": "tests use ch=ph or check only the first command", "anchors": ["include/mpc/LMPC/ProblemBuilder.hpp:buildTimeInvariantTems"]}
{"id": "C08", "title": "LMPC scalar constraint: bounds per step, multipliers global", "statement": "Intended: setScalarConstraint on a step (or slice) imposes min <= X'x(k)+U'u(k) <= max on exactly those steps and leaves the other steps as they were. FINDING: the code violates this; the multipliers of the last call are used at all steps, with the bounds of each step (bounds of step k on x(k+1),u(k), and those of step 0 also on x(0),lastU). The intended property holds when all calls give the same multipliers.", "quantifier": "every sequence of setScalarConstraint calls, every step", "why_tests_cant": "tests set one scalar constraint; interference needs two calls on different steps", "anchors": ["include/mpc/LMPC/ProblemBuilder.hpp:setScalarConstraint", "include/mpc/LMPC.hpp:setScalarConstraint"]}
{"id": "C09", "title": "Horizon slices: exact acceptance rule", "statement": "Intended: a setter taking a HorizonSlice accepts a slice [start,end) iff it is the 'all' slice or 0<=start<end<=horizon. FINDING: the code accepts iff the slice is 'all' or start<end<=horizon and start+end<=horizon, so valid late slices are rejected and slices with a negative start accepted; setExogenousInputs is checked against the control horizon although documented for the prediction horizon. Accepted slices with non-negative start do lie inside the horizon; the index form of setScalarConstraint accepts exactly the indices below the prediction horizon.", "quantifier": "all pairs of int, all horizons", "why_tests_cant": "two 32 bit integers and a horizon: the input space is far beyond enumeration by tests", "anchors": ["include/mpc/IMPC.hpp:isPredictionHorizonSliceValid", "include/mpc/IMPC.hpp:isControlHorizonSliceValid", "include/mpc/IMPC.hpp:isSliceUnset", "include/mpc/Types.hpp:HorizonSlice"]}
{"id": "C10", "title": "Rejected slices change nothing", "statement": "An LMPC setter that returns false (or throws) leaves the object, and so every later optimize and every later answer, exactly as it was. What is answered is fixed: the calls a linear controller does not support (sampling time, input and state scale) always throw and nothing else does; a setter with a slice or an index answers whether the slice or index is accepted (the rule of C09); every other setter answers success; optimize answers a result.", "quantifier": "all setters, all arguments, all states", "why_tests_cant": "needs every setter and every state", "anchors": ["include/mpc/LMPC.hpp:setStateBounds", "include/mpc/LMPC.hpp:setReferences", "include/mpc/NLMPC.hpp:setStateBounds"]}
{"id": "C11", "title": "Accepted slices change exactly their steps", "statement": "A slice setter of LMPC (state, input and output bounds, scalar constraint) with an accepted slice [start,end) changes exactly the bounds of the rows belonging to the steps start..end-1 of the program, leaves all other rows, the cost and the constraint matrix as they were, and every slice form (also weights, references, disturbances) gives the same problem as the whole-horizon call with the earlier values patched on those steps.", "quantifier": "all setters, slices, histories", "why_tests_cant": "frame property over all states", "anchors": ["include/mpc/LMPC.hpp:setStateBounds", "include/mpc/LMPC.hpp:setInputBounds", "include/mpc/LMPC.hpp:setOutputBounds", "include/mpc/LMPC.hpp:setObjectiveWeights", "include/mpc/LMPC.hpp:setReferences", "include/mpc/LMPC.hpp:setExogenousInputs"]}
{"id": "C12", "title": "LMPC configuration is last-writer-wins", "statement": "After any sequence of LMPC setter calls the problem solved by optimize is the one determined, step by step, by the last accepted call touching that step; intermediate calls and their order otherwise do not matter, and optimize calls in between do not alter the configuration.", "quantifier": "all finite histories of API calls", "why_tests_cant": "the number of interleavings of setters is unbounded", "anchors": ["include/mpc/LMPC.hpp", "include/mpc/LMPC/ProblemBuilder.hpp", "include/mpc/LMPC/LOptimizer.hpp"]}
{"id": "C13", "title": "LMPC calls that are free of undefined behaviour", "statement": "Intended: for arguments of the documented sizes and 1<=ch<=ph no public call of LMPC reads or writes outside a matrix. FINDING: the code violates this; exactly the following are undefined in every reachable state: whole-horizon (or 'all' slice) setInputBounds when ch<>ph, slices with start<end<0, nonlinear parameters passed to the linear controller, a problem rejected by the solver's setup. Every history without these (and without short warm-start vectors, C46) is free of undefined behaviour.", "quantifier": "all histories of setter calls, all dimension tuples", "why_tests_cant": "an out-of-range access may be silent in a test build", "anchors": ["include/mpc/LMPC/ProblemBuilder.hpp", "include/mpc/LMPC.hpp"]}
{"id": "C14", "title": "LMPC optimal sequence is consistent with the solution", "statement": "If the solver returns a feasible point, getOptimalSequence starts at x0, obeys the plant dynamics row by row, its outputs equal C x + Dd d row by row, and the returned command equals the first row of the input sequence.", "quantifier": "all problems, all solver answers", "why_tests_cant": "depends on solver output; must hold for every answer", "anchors": ["include/mpc/LMPC/LOptimizer.hpp:run", "include/mpc/LMPC/ProblemBuilder.hpp:mapToOutput"]}
{"id": "C15", "title": "LMPC optimality transfer", "statement": "If the solver's point is a minimiser of the quadratic program, the returned command sequence minimises the tracking cost among all command sequences whose trajectories satisfy the constraints of the configured problem.", "quantifier": "all configurations, all competing command sequences", "why_tests_cant": "quantifies over all competing trajectories", "anchors": ["include/mpc/LMPC/LOptimizer.hpp:run", "include/mpc/LMPC/ProblemBuilder.hpp"]}
{"id": "C16", "title": "LMPC behaviour when no solution is available", "statement": "When the solver yields no solution vector, optimize returns the command of the previous result, infinite cost, status ERROR, is_feasible=false and an all-zero sequence, and keeps the warm start and the configuration.", "quantifier": "all states and histories", "why_tests_cant": "failure injection in the external solver at every history point", "anchors": ["include/mpc/LMPC/LOptimizer.hpp:run"]}
{"id": "C17", "title": "LMPC status translation table", "statement": "Intended: SUCCESS only if the solver declared the problem solved, INFEASIBLE for all infeasibility verdicts, and is_feasible iff SUCCESS or MAX_ITERATION. FINDING: the code violates this; the table is: SUCCESS for solved, solved inaccurate, primal infeasible inaccurate and dual infeasible inaccurate; INFEASIBLE for the exact infeasibility verdicts; MAX_ITERATION for the iteration limit only; is_feasible exactly for solved, solved inaccurate and maximum iterations. is_feasible implies SUCCESS or MAX_ITERATION.", "quantifier": "all solver codes (all ints)", "why_tests_cant": "solver verdicts such as 'infeasible inaccurate' or 'time limit' hardly ever occur in tests", "anchors": ["include/mpc/LMPC/LOptimizer.hpp:convertToResultStatus", "include/mpc/LMPC/LOptimizer.hpp:run", "include/mpc/Types.hpp:ResultStatus"]}
{"id": "C18", "title": "LMPC warm start", "statement": "The solver is warm started iff enable_warm_start is set and both stored vectors are non-empty; the stored vectors are those of the last solution or of the last setSolverWarmStart; with warm start disabled optimize is independent of previous optimize calls.", "quantifier": "all histories of optimize/setSolverWarmStart/setOptimizerParameters", "why_tests_cant": "history-dependent state", "anchors": ["include/mpc/LMPC/LOptimizer.hpp:run", "include/mpc/LMPC.hpp:setSolverWarmStart", "include/mpc/LMPC.hpp:getSolverWarmStartPrimal"]}
{"id": "C19", "title": "Sparse conversion preserves the matrix", "statement": "The compressed-column arrays given to the solver are well formed (monotone column pointers, strictly increasing row indices, counts that match) and represent exactly the dense constraint matrix, and for the cost exactly its upper triangle, from which the symmetric cost matrix can be recovered.", "quantifier": "all matrices", "why_tests_cant": "round trip over all sparsity patterns", "anchors": ["include/mpc/LMPC/LOptimizer.hpp:createOsqpSparseMatrix", "include/mpc/LMPC/ProblemBuilder.hpp:getSparse"]}
{"id": "C20", "title": "Solver workspace lifetime", "statement": "Intended: along any history (construction, any number of optimize calls, destruction) every allocation of the linear optimizer is freed exactly once and no freed or uninitialised pointer is used. FINDING: any number of optimize calls whose allocations and setup succeed is safe and frees exactly what it allocated; a call in which an allocation or the setup fails is not (no failure is handled); destroying the optimizer is never safe (wild pointers before the first call, double free after it). The public controller never destroys its optimizer, so its life is safe but leaks the optimizer object.", "quantifier": "all histories, all allocation outcomes", "why_tests_cant": "double free or use after free need particular histories, and are not observable reliably", "anchors": ["include/mpc/LMPC/LOptimizer.hpp:clearData", "include/mpc/LMPC/LOptimizer.hpp:initData", "include/mpc/LMPC/LOptimizer.hpp:~LOptimizer", "include/mpc/LMPC.hpp:~LMPC"]}
{"id": "C21", "title": "NLMPC control parametrisation", "statement": "The commands NLMPC shows to the user cost and constraints at any decision vector, and returns in the optimal sequence, follow the control horizon: u(k) is the k-th control block times the input scale for k<ch and u(k)=u(ch-1) for ch<=k<=ph; the returned command is u(0). States are the state blocks times the state scale. Converting decision variables to commands and back is the identity for nonzero scales. Every registered function has as many values and as many gradient entries as the solver was told.", "quantifier": "all 1<=ch<=ph, all nonzero input scales, all decision vectors", "why_tests_cant": "index mapping over all horizons", "anchors": ["include/mpc/NLMPC/Mapping.hpp:computeMapping", "include/mpc/NLMPC/Mapping.hpp:unwrapVector", "include/mpc/NLMPC/Mapping.hpp:Iz2u", "include/mpc/NLMPC/Mapping.hpp:Iu2z"]}
{"id": "C22", "title": "NLMPC trajectory starts at the scaled measured state", "statement": "Intended: the state trajectory shown to the user functions and returned by getOptimalSequence has x(0)=x0 as first row, for every state scale. FINDING: the first row is x0 multiplied by the state scale (the measured state is treated as already scaled); it equals x0 exactly where the scale is 1 or the measured value is 0.", "quantifier": "all x0, all scales, all decision vectors", "why_tests_cant": "tests use unit scaling", "anchors": ["include/mpc/NLMPC/Mapping.hpp:unwrapVector", "include/mpc/NLMPC.hpp:setStateScale"]}
{"id": "C23", "title": "NLMPC bounds act on scaled variables", "statement": "Intended: bounds installed by setStateBounds/setInputBounds hold for the states and commands of the trajectory, for every scaling. FINDING: the box given to the solver is exactly the user's numbers on the decision variables, so state/scale and command/scale (not state and command) lie in the user's bounds; with unit scales the intended property holds. The slack is always 0 in the box.", "quantifier": "all scales, bounds, histories, decision vectors", "why_tests_cant": "tests use unit scaling", "anchors": ["include/mpc/NLMPC/NLOptimizer.hpp:setStateBounds", "include/mpc/NLMPC/NLOptimizer.hpp:setInputBounds", "include/mpc/NLMPC.hpp:setInputScale"]}
{"id": "C24", "title": "NLMPC dynamics constraint characterises trajectories", "statement": "The equality residual installed by setStateSpaceFunction is zero iff the trajectory obeys the user's dynamics: x(k+1)=f(x(k),u(k)) for discrete time and the trapezoidal rule with the sampling time for continuous time, at every step of the horizon.", "quantifier": "all user dynamics functions, decision vectors, horizons", "why_tests_cant": "for arbitrary user functions", "anchors": ["include/mpc/NLMPC/Constraints.hpp:getStateEqConstraints", "include/mpc/NLMPC/Constraints.hpp:evaluateStateModelEq", "include/mpc/NLMPC.hpp:setDiscretizationSamplingTime"]}
{"id": "C25", "title": "NLMPC objective gradient", "statement": "Intended: for a cost affine in states, inputs and slack the gradient passed to the solver is the true gradient. FINDING: true for inputs and slack, and for states only with unit state scale: the state part lacks the factor of the state scale. For costs with first-order expansions (error K*t within radius rho) every entry is within K times the step of the partial derivative without that factor.", "quantifier": "all affine costs, all decision vectors, horizons and scales", "why_tests_cant": "gradient tests compare a few entries at one point", "anchors": ["include/mpc/NLMPC/Objective.hpp:computeJacobian", "include/mpc/NLMPC/Objective.hpp:evaluate"]}
{"id": "C26", "title": "NLMPC inequality Jacobian misses the last command row", "statement": "Intended: the inequality Jacobian is exact for constraints at most quadratic in every single entry. FINDING: exact except in the columns of the last control block, where the contribution of the last row (index ph) of the command trajectory is missing; exact everywhere when the constraint does not depend on that row. For constraints with first-order expansions the entries are within K times the step.", "quantifier": "all such constraints, decision vectors", "why_tests_cant": "depends on the user function and on every entry", "anchors": ["include/mpc/NLMPC/Constraints.hpp:computeIneqJacobian", "include/mpc/NLMPC/Constraints.hpp:evaluateIneq"]}
{"id": "C27", "title": "NLMPC equality Jacobian", "statement": "The Jacobian of the user equality constraints passed to the solver is exact whenever the constraint has central differences that are exact (e.g. at most quadratic in every single entry), for all scales and horizons; for constraints with first-order expansions every entry is within K times the step of the derivative.", "quantifier": "all such constraints, decision vectors", "why_tests_cant": "depends on the user function and on every entry", "anchors": ["include/mpc/NLMPC/Constraints.hpp:computeEqJacobian", "include/mpc/NLMPC/Constraints.hpp:evaluateEq"]}
{"id": "C28", "title": "NLMPC dynamics Jacobian", "statement": "The Jacobian of the dynamics residual passed to the solver is the exact derivative with respect to every decision variable whenever the user dynamics have exact central differences (all plants linear or affine in the state and input, all at most quadratic in every entry), in discrete and in continuous time, for all horizons and scales.", "quantifier": "all linear plants, horizons, scales, decision vectors", "why_tests_cant": "block structure over all horizons", "anchors": ["include/mpc/NLMPC/Constraints.hpp:getStateEqConstraints", "include/mpc/NLMPC/Constraints.hpp:computeStateEqJacobian", "include/mpc/NLMPC/Constraints.hpp:glueJacobian"]}
{"id": "C29", "title": "NLMPC feasibility flag", "statement": "is_feasible is true iff at the returned point every user inequality is at most its tolerance and every user equality is within its tolerance in absolute value. The flag says nothing about the dynamics, and a value that is NaN counts as satisfied.", "quantifier": "all user constraint values including NaN", "why_tests_cant": "NaN and boundary values", "anchors": ["include/mpc/NLMPC/Constraints.hpp:isFeasible", "include/mpc/NLMPC/NLOptimizer.hpp:run"]}
{"id": "C30", "title": "NLMPC warm start shifts the previous solution", "statement": "Intended: with warm start the initial guess is the previous optimal trajectory shifted by one step with the last entries repeated; otherwise, and before the first success, x0 and lastU replicated. FINDING: the shifted previous solution is used exactly so, also after failed calls; the cold guess replicates x0 and lastU as decision variables, i.e. the trajectories shown to the user functions are the scale times x0 and lastU; a failing call made while warm start is off overwrites the retained solution.", "quantifier": "all previous solutions, horizons, histories", "why_tests_cant": "index shift over all horizons", "anchors": ["include/mpc/NLMPC/NLOptimizer.hpp:run"]}
{"id": "C31", "title": "NLMPC behaviour on solver failure", "statement": "When the solver throws, optimize returns the previous command (zero if none), infinite cost, status ERROR, code -1, is_feasible=false and all-zero sequences of full size; the problem (bounds, functions, parameters) handed to the next call is unchanged, and a first optimization remains a first one.", "quantifier": "all states and histories", "why_tests_cant": "failure injection at every point of a history", "anchors": ["include/mpc/NLMPC/NLOptimizer.hpp:run"]}
{"id": "C32", "title": "NLMPC status translation", "statement": "The status reported by NLMPC is SUCCESS exactly for the solver's success codes (success, stopval, ftol, xtol), MAX_ITERATION exactly for evaluation or time limit, ERROR exactly for the failure codes (including roundoff-limited and forced stop); it is never INFEASIBLE; code and cost are passed through.", "quantifier": "all solver codes", "why_tests_cant": "rare codes", "anchors": ["include/mpc/NLMPC/NLOptimizer.hpp:convertToResultStatus"]}
{"id": "C33", "title": "Soft constraints can never be enabled", "statement": "Intended: after setOptimizerParameters with hard_constraints=false the slack is free to be positive. FINDING: in every reachable state the slack variable is bounded to exactly 0, whatever hard_constraints was set to.", "quantifier": "all sequences of setOptimizerParameters", "why_tests_cant": "history of parameter changes", "anchors": ["include/mpc/NLMPC/NLOptimizer.hpp:setParameters", "include/mpc/NLMPC/NLOptimizer.hpp:onInit"]}
{"id": "C34", "title": "Optimizer parameters are last-writer-wins", "statement": "Intended: after setOptimizerParameters(p) the solver runs with the limits and tolerances of p, whatever was set before. FINDING: true for the iteration limit and the tolerances (and for all parameters of the linear controller); the time limit of NLMPC is that of the last structure with a positive limit, so a limit can never be removed. Defaults before any call are given.", "quantifier": "all sequences of parameter structures", "why_tests_cant": "history of parameter changes", "anchors": ["include/mpc/NLMPC/NLOptimizer.hpp:setParameters", "include/mpc/LMPC/LOptimizer.hpp:setParameters"]}
{"id": "C35", "title": "NLMPC slice bounds", "statement": "setStateBounds/setInputBounds of NLMPC on a slice return true iff the slice passes the acceptance rule (see C09); if true they change exactly the variable bounds of the steps in the slice (as seen by the solver), if false nothing; the matrix forms change exactly all steps. Other variables keep their bounds.", "quantifier": "all slices, horizons, histories", "why_tests_cant": "frame property", "anchors": ["include/mpc/NLMPC/NLOptimizer.hpp:setStateBounds", "include/mpc/NLMPC/NLOptimizer.hpp:setInputBounds", "include/mpc/NLMPC.hpp:setStateBounds"]}
{"id": "C36", "title": "Dimension arithmetic", "statement": "Intended: size arithmetic yields Dynamic iff an operand is Dynamic and otherwise the ordinary integer result, for every operator and operand order. FINDING: sums and products do, differences of two sizes (and size minus integer) do unless the result collides with the code of Dynamic; integer minus size computes the difference with the operands reversed.", "quantifier": "all integers", "why_tests_cant": "all operand pairs", "anchors": ["include/mpc/Dim.hpp"]}
{"id": "C37", "title": "Execution statistics", "statement": "After any number of optimize calls since the last reset, the statistics report the exact count, total, minimum, maximum and mean of the recorded durations, and per-status counters that sum to the count.", "quantifier": "all sequences of durations and statuses, interleaved with resets", "why_tests_cant": "incremental accumulators over all histories", "anchors": ["include/mpc/Profiler.hpp:addSolutionTime"]}
{"id": "C38", "title": "Standard deviation of the execution statistics", "statement": "Intended: the reported standard deviation is the standard deviation (sample or population) of the recorded durations. FINDING: an integer division makes it deviate for three or more records: it lies between sqrt(2/3) of the sample standard deviation and the sample standard deviation, and equals it exactly in the cases proved.", "quantifier": "all sequences of durations", "why_tests_cant": "incremental formula over all histories", "anchors": ["include/mpc/Profiler.hpp:addSolutionTime"]}
{"id": "C39", "title": "Logger filtering", "statement": "A message is emitted iff its severity is at least the configured level when it is emitted, goes to the configured stream and carries the configured prefix; a reset restores the default level and prefix (but neither the stream nor the current severity); text written before any message was started is undefined behaviour.", "quantifier": "all sequences of logger calls", "why_tests_cant": "history of a global singleton shared by controllers", "anchors": ["include/mpc/Logger.hpp"]}
{"id": "C40", "title": "RK4 integrator", "statement": "Intended: the integrator composed over n sub steps equals n single Runge-Kutta 4 steps, is exact for dynamics that are polynomials in time of degree at most 3, and equals the degree 4 Taylor polynomial of the exact solution on affine systems. FINDING: the composition, the Taylor polynomial and exactness of a single step hold; with more than one sub step the time passed to the dynamics is never advanced, so a time-varying field is integrated over [t,t+h] again and again and multi-step exactness fails. Equilibria and linear first integrals are preserved exactly; a negative number of steps runs 2^64+n steps.", "quantifier": "all fields, initial states, times, step sizes and numbers of steps", "why_tests_cant": "real-valued inputs", "anchors": ["include/mpc/Integrator.hpp"]}
{"id": "C41", "title": "Discretisation helper", "statement": "The discretisation helpers return the zero-order-hold matrices: Ad=exp(A Ts), Bd=int_0^Ts exp(A s) ds B (and Bed with Be), so that every solution of x'=Ax+Bu(+Be d) under constant inputs satisfies x(Ts)=Ad x(0)+Bd u(+Bed d); discretising s+t equals composing s and t; the output overload returns C and D unchanged and exists only for as many outputs as states.", "quantifier": "all A, B, Be, Ts, sizes, solutions", "why_tests_cant": "matrix-valued analytic identity", "anchors": ["include/mpc/Utils.hpp:discretization"]}
{"id": "C42", "title": "NLMPC output sequence", "statement": "The output sequence passed to the cost and returned equals the user output function applied row by row (rows 0..ph) to the states and inputs of the same sequence with the step index, and is zero when no output function is set.", "quantifier": "all output functions and trajectories", "why_tests_cant": "all horizons and functions", "anchors": ["include/mpc/NLMPC/Model.hpp:getOutput"]}
{"id": "C43", "title": "Slice check overflow", "statement": "Intended: slice validation never performs a signed overflow for any pair of ints. FINDING: it does, exactly for start<end<=horizon with start+end below the minimum int; in particular it never overflows for slices with a non-negative end.", "quantifier": "all pairs of 32 bit ints", "why_tests_cant": "extreme ints", "anchors": ["include/mpc/IMPC.hpp:isPredictionHorizonSliceValid"]}
{"id": "C44", "title": "LMPC hands ordered bounds to the solver iff the configured ones are", "statement": "The lower and upper row bounds passed to the solver by optimize are ordered (which the solver's setup requires) iff for every step all configured state, output, input and scalar bounds are ordered.", "quantifier": "every configuration history, every state and command", "why_tests_cant": "ranges over all bounds of all steps and all dimensions", "anchors": ["include/mpc/LMPC/ProblemBuilder.hpp:get", "include/mpc/LMPC/LOptimizer.hpp:run"]}
{"id": "C45", "title": "LMPC command-increment references are shifted by one step", "statement": "Intended: the command-increment reference of step k is the target of u(k)-u(k-1). FINDING: the code violates this (the tracking cost proved for C02 uses the reference of the following step); no additive constant makes the program's cost equal to the intended one.", "quantifier": "every configuration history and decision vector", "why_tests_cant": "tests use zero or constant increment references", "anchors": ["include/mpc/LMPC/ProblemBuilder.hpp:buildTimeInvariantTems"]}
{"id": "C46", "title": "LMPC warm start with short vectors", "statement": "With warm start enabled and stored non-empty warm-start vectors that are shorter than the number of variables or rows of the problem, optimize has undefined behaviour (the solver reads past their end); setSolverWarmStart does not check the length.", "quantifier": "every reachable state and every pair of stored vectors", "why_tests_cant": "an out-of-range read may be silent", "anchors": ["include/mpc/LMPC/LOptimizer.hpp:run", "include/mpc/LMPC.hpp:setSolverWarmStart"]}
{"id": "C47", "title": "What each part of the LMPC problem depends on", "statement": "For any two histories and any two measured states: the cost matrix depends only on model and weights; the constraint matrix only on model and scalar multipliers; the linear cost only on model, weights, references and measured disturbances; the row bounds only on model, disturbances, bounds and the current state and command; the sizes only on the dimensions.", "quantifier": "all pairs of histories, states and commands", "why_tests_cant": "relational property over two arbitrary executions", "anchors": ["include/mpc/LMPC/ProblemBuilder.hpp:get"]}
{"id": "C48", "title": "NLMPC registration of functions", "statement": "setObjectiveFunction, setIneqConFunction, setEqConFunction and setOutputFunction return true whatever the solver says, setStateSpaceFunction returns the solver's verdict. Calling a constraint setter again does not replace the earlier constraint: the solver holds one constraint per accepted call, in order, each with the tolerance of its call, and all constraints of a kind evaluate the function passed last, even if that one was refused (a refused inequality still decides is_feasible).", "quantifier": "all histories of calls and solver verdicts", "why_tests_cant": "histories", "anchors": ["include/mpc/NLMPC/NLOptimizer.hpp:bindUserIneq", "include/mpc/NLMPC/NLOptimizer.hpp:bindEq", "include/mpc/NLMPC.hpp:setStateSpaceFunction", "include/mpc/NLMPC/Constraints.hpp"]}
{"id": "C50", "title": "NLMPC refuses starts outside its own bounds", "statement": "If the measured state violates a state bound of any step, or lastU an input bound (or the command bound of any control step), a cold start makes NLMPC return status ERROR with the previous command even when the optimization problem is feasible, because NLopt rejects initial guesses outside the box.", "quantifier": "all states, bounds, histories", "why_tests_cant": "depends on the interplay of bounds and measured state", "anchors": ["include/mpc/NLMPC/NLOptimizer.hpp:run"]}
{"id": "C51", "title": "NLMPC calls that are free of undefined behaviour", "statement": "Which NLMPC calls are undefined: constructing with ch>ph; setStateBounds/setInputBounds with a slice whose start<end<-1 (or end=-1 with start the least int); setOptimizerParameters with linear parameters; setEqConFunction on a dynamically sized controller; a successful optimize with an equality function of size 0. Every history of calls avoiding these, with documented sizes, is free of undefined behaviour whatever the solver answers, and the functions registered with the solver are defined at every decision vector.", "quantifier": "all histories, solver answers, horizons", "why_tests_cant": "memory safety over all histories", "anchors": ["include/mpc/NLMPC.hpp", "include/mpc/NLMPC/NLOptimizer.hpp", "include/mpc/NLMPC/Mapping.hpp:computeMapping"]}
{"id": "C52", "title": "NLMPC is deterministic", "statement": "The starting point, the bounds, the stopping criteria, the constraints with their tolerances and the values and gradients of all registered functions are determined by the configuration (the last value passed for each setting, and the last solution): they depend neither on the order in which the setters were called, nor on how often, nor on the contents of uninitialised memory.", "quantifier": "all pairs of histories, all memory contents", "why_tests_cant": "pairs of histories", "anchors": ["include/mpc/NLMPC.hpp", "include/mpc/NLMPC/Constraints.hpp", "include/mpc/NLMPC/Objective.hpp"]}
{"id": "C53", "title": "NLMPC optimality transfer", "statement": "The box, constraint and cost callbacks NLMPC hands to the solver describe exactly the user's optimal control problem: with non-zero scales, a decision vector is feasible (up to the constraint tolerances) iff its slack is zero and the trajectory it encodes is admissible (starts at the measured state, commands held after the control horizon, bounds, dynamics, user constraints), so an optimal decision vector makes optimize() return an admissible trajectory no admissible trajectory beats, and every optimal trajectory is represented.", "quantifier": "all histories, dynamics, costs, constraints, tolerances, scales, horizons, trajectories", "why_tests_cant": "quantifies over all admissible trajectories", "anchors": ["include/mpc/NLMPC/NLOptimizer.hpp:run", "include/mpc/NLMPC/Mapping.hpp", "include/mpc/NLMPC/Constraints.hpp", "include/mpc/NLMPC/Objective.hpp"]}
{"id": "C54", "title": "LMPC command is well defined", "statement": "With non-negative weights and every command component weighted (by its command or increment weight at every step), the optimization problem of optimize() has at most one optimal trajectory: two solvers (or two runs, warm or cold) that both return an optimum yield the same command and the same state, input and output sequences. Without weights on the commands this fails.", "quantifier": "all histories, plants, weights, bounds, states, pairs of optima", "why_tests_cant": "uniqueness over all pairs of optimal points", "anchors": ["include/mpc/LMPC/ProblemBuilder.hpp:get", "include/mpc/LMPC/LOptimizer.hpp:run"]}
{"id": "C55", "title": "LMPC keeps a plant at rest at rest", "statement": "If the measured state and previous command form an equilibrium of the plant (under the exogenous inputs) that matches all references and satisfies all constraints, staying there is optimal with cost zero; if moreover the commands are weighted, optimize() returns the previous command, and the closed loop of controller and plant stays at the equilibrium for any number of steps.", "quantifier": "all plants, equilibria, weights, bounds, histories, numbers of closed-loop steps", "why_tests_cant": "unbounded closed-loop runs", "anchors": ["include/mpc/LMPC/ProblemBuilder.hpp:get", "include/mpc/LMPC/LOptimizer.hpp:run"]}
{"id": "C56", "title": "LMPC with an inexact solver", "statement": "If the point the QP solver returns satisfies each constraint row only up to a tolerance e, the sequences LMPC publishes still obey the plant model up to e(1 + row sum of |B|), every state, output, input and scalar bound up to e and the control horizon up to 2e, and the plant driven by the published commands stays within an explicit drift (depending on e and the row sums of |A|, |B|) of the published states at every step of the horizon.", "quantifier": "all histories, plants, bounds, tolerances e >= 0, solver points, horizons", "why_tests_cant": "an error bound for all approximate solutions and all horizons", "anchors": ["include/mpc/LMPC/LOptimizer.hpp:run", "include/mpc/LMPC/ProblemBuilder.hpp:get"]}
{"id": "C57", "title": "Optimality conditions of the solver suffice", "statement": "With non-negative weights, a primal/dual point that satisfies the QP optimality conditions encodes an admissible trajectory no admissible trajectory beats; with a dual residual ed it is beaten by at most 2\u00b7ed times the 1-norm distance of the decision vectors; with primal residual ep as well the value of the problem is missed by at most ed\u00b7distance + ep\u00b7(1-norm of the multipliers). With a negative weight the conditions do not imply optimality.", "quantifier": "all histories, plants, weights, bounds, points, multipliers, residuals, competing trajectories", "why_tests_cant": "quantifies over all competing trajectories and all residuals", "anchors": ["include/mpc/LMPC/LOptimizer.hpp:run", "include/mpc/LMPC/ProblemBuilder.hpp:get"]}
{"id": "C58", "title": "INFEASIBLE means infeasible", "statement": "If the solver's infeasibility verdicts come with their standard certificates (Farkas multipliers for primal infeasibility, a recession direction for dual infeasibility) and weights are non-negative, status INFEASIBLE is reported only when no admissible trajectory exists; the problems LMPC builds never have a certificate of dual infeasibility, whatever the bounds.", "quantifier": "all histories, plants, weights, bounds, states, certificates", "why_tests_cant": "absence of any admissible trajectory, for all certificates", "anchors": ["include/mpc/LMPC/LOptimizer.hpp:run", "include/mpc/LMPC/ProblemBuilder.hpp:get"]}
{"id": "C59", "title": "Controllers do not influence each other", "statement": "In a process with any number of LMPC and NLMPC controllers (none copied), created, configured, run, read and destroyed in any order, every answer a controller gives is the one it would give in a process that has only this controller and receives only its calls; and an execution that goes wrong (undefined behaviour) does so only where one of the controllers, alone, goes wrong.", "quantifier": "all interleavings of the calls on all controllers, all solver answers and clock readings", "why_tests_cant": "quantifies over every interleaving of histories of unbounded length", "anchors": ["include/mpc/IMPC.hpp:optimize", "include/mpc/IMPC.hpp:setLoggerLevel", "include/mpc/LMPC.hpp:LMPC", "include/mpc/NLMPC.hpp:NLMPC"]}
{"id": "C60", "title": "Reading back", "statement": "getLastResult answers what the last optimize on that controller returned (the empty result before the first); getOptimalSequence and getLastResult of a controller are those the calls made on it, in their order, give to a controller that is alone, so after a solve the sequence is the trajectory of that solve (states and commands held by the solver's point, times the scales for NLMPC, outputs along them) whatever was done with other controllers meanwhile; getExecutionStats is about exactly the optimize calls on that controller since its last resetStats - their number, total, minimum, maximum and average duration, and how many ended with each status; the getters change nothing.", "quantifier": "all interleavings, all clock readings", "why_tests_cant": "all histories of unbounded length on several controllers", "anchors": ["include/mpc/IMPC.hpp:getLastResult", "include/mpc/IMPC.hpp:getExecutionStats", "include/mpc/IMPC.hpp:resetStats", "include/mpc/Profiler.hpp:Profiler"]}
{"id": "C61", "title": "Copies and lifetime of controllers", "statement": "Intended: a copy of a controller is an independent controller, and destroying controllers releases what they own, once. FINDING: violated. Copying or assigning an NLMPC compiles and copies only the pointer to the optimizer: the copy is a second name of the original (every later call on either gives the answers, and writes the log, of a program that makes it on the original), destroying one makes every call that needs the optimizer on the other undefined, no execution destroys both, and assignment leaks the optimizer of the target. Destroying an LMPC leaks its optimizer. Without copies, each NLMPC optimizer is allocated exactly as long as its controller exists, and destroying or reading a controller is never undefined.", "quantifier": "all histories before the copy, all continuations, all interleavings with other controllers", "why_tests_cant": "all continuations of unbounded length; use after free need not show in a run", "anchors": ["include/mpc/NLMPC.hpp:~NLMPC", "include/mpc/NLMPC.hpp:onSetup", "include/mpc/LMPC.hpp:~LMPC", "include/mpc/LMPC.hpp:onSetup", "include/mpc/IMPC.hpp:optPtr"]}
{"id": "C62", "title": "What controllers log", "statement": "The logger is shared: whatever a controller writes goes to the stream, with the prefix and filtered by the level last set on any controller; at level NONE nothing is written. Intended: every refused call is reported as an error and nothing else is. A refused LMPC call changes nothing and writes exactly one error, an accepted one writes nothing above level DEEP; LMPC optimize at level ALERT writes one error per failure reported by the solver and nothing otherwise. FINDING for NLMPC: refused slices and output bounds write one error, but a refused state space function (answer false) and a failed solve write nothing at level ALERT.", "quantifier": "all histories of several controllers, all levels, prefixes and streams", "why_tests_cant": "all histories and settings", "anchors": ["include/mpc/IMPC.hpp:setLoggerLevel", "include/mpc/IMPC.hpp:setLoggerPrefix", "include/mpc/Logger.hpp:Logger", "include/mpc/LMPC.hpp", "include/mpc/NLMPC.hpp", "include/mpc/LMPC/LOptimizer.hpp:run", "include/mpc/NLMPC/NLOptimizer.hpp:run"]}
{"id": "C63", "title": "What holds for IEEE doubles", "statement": "On binary64 numbers with rounding, infinities and NaN: no history of valid calls and no vector the solver passes to the callbacks leads to undefined behaviour; a failed solver call is reported as in C31; bounds reach the solver unchanged. LMPC copies the solver's numbers bit for bit into command and sequences. In NLMPC, if the solver's input variables are finite, command and input sequence are the correctly rounded products scale * variable up to the sign of a zero (with scale 1: the variables), and with state scale 1 the state sequence is the measured state and the solver's variables bit for bit. Intended: a non-finite variable affects only its own entry, NaN constraint values are not feasible, and the predicted states are scale * variable. FINDINGS: violated. One NaN input variable at any step of the horizon makes every entry of the command and of the input sequence NaN (one infinite variable: every entry but its own); NaN inequality values are reported feasible; the states shown are variable / (1 / scale), e.g. 1 is shown as 48.99999999999999 with scale 49.", "quantifier": "all histories, all double inputs including NaN, infinities, subnormals and signed zeros", "why_tests_cant": "2^64 values per entry; special values; rounding", "anchors": ["include/mpc/NLMPC/Mapping.hpp:unwrapVector,computeMapping", "include/mpc/NLMPC/NLOptimizer.hpp:run", "include/mpc/NLMPC/Constraints.hpp:isFeasible", "include/mpc/LMPC/LOptimizer.hpp:run"]}
{"id": "C64", "title": "The linear constraints are exact in double arithmetic", "statement": "When LMPC runs on IEEE doubles and no measured disturbance acts (the default), the constraint rows it computes contain no rounding error: reading every entry of A, l and u as the rational number it denotes, a real decision vector satisfies them iff it is a trajectory of the plant denoted by the user's doubles that satisfies the bounds denoted by the user's doubles (weights and references, which only enter the cost, may be anything). Intended: the same with a measured disturbance. FINDING: not so; Bd*d and bound + Dd*d are rounded, so the solver receives the rows of a slightly different plant.", "quantifier": "all histories, all finite doubles in plant, bounds, multipliers and measurements, all horizons", "why_tests_cant": "all pairs of doubles; a test compares with a tolerance and cannot see an error of one ulp", "anchors": ["include/mpc/LMPC/ProblemBuilder.hpp:buildTimeInvariantTems,get", "include/mpc/LMPC/LOptimizer.hpp:createOsqpSparseMatrix,run"]}
{"id": "C65", "title": "The linear and the non-linear controller agree on linear problems", "statement": "Give NLMPC the linear plant of an LMPC as state and output function (discrete time, unit scales, with the measured disturbance), its tracking cost as objective, the same state bounds, the input bounds LMPC really applies (those of step i+1 to command i, C06), output bounds and scalar constraint as inequality functions, and a control horizon one larger than LMPC's (capped at the prediction horizon). Then, for a current state and previous command within the bounds of step 0: both accept the same trajectories, one has an optimum iff the other has, and, with non-negative weights and every free command weighted, the command and the state, input and output sequences returned by the two are equal. Intended: with the same control horizon. FINDING: not so when it is below the prediction horizon; LMPC frees commands 0..ch, NLMPC 0..ch-1.", "quantifier": "all plants, weights, references, disturbances, bounds, horizons, states and previous commands, all exact solvers", "why_tests_cant": "a statement about all problems and all optima of two independent implementations; tests compare two solvers on one problem with a tolerance", "anchors": ["include/mpc/IMPC.hpp:optimize", "include/mpc/LMPC/ProblemBuilder.hpp:buildTimeInvariantTems,get", "include/mpc/NLMPC/Mapping.hpp:unwrapVector", "include/mpc/NLMPC/Constraints.hpp:getStateEqConstraints"]}
{"id": "C66", "title": "What the Python module does", "statement": "A method call on a Python LMPC or NLMPC object makes exactly the C++ call of the same name whose parameter types its arguments fit (one-dimensional arrays are columns, ints are accepted as floats), whatever order the overloads were registered in; no arguments fit two overloads. Arguments that fit none raise TypeError and change nothing, so every guarantee about sequences of C++ calls holds of Python programs. Intended: the whole C++ interface is available. FINDING: it is not. setOptimizerParameters always raises, for both controllers (no parameter class is exported), so warm start, tolerances and iteration limits cannot be set; setReferences has no whole-horizon form (its slice form is registered twice); getOptimalSequence always raises (its type is not exported); the feasibility flag of a result is not exported; the tolerances of NLMPC's functions cannot be omitted; and a flat array passed to a whole-horizon setStateBounds, setOutputBounds or setObjectiveWeights is not rejected but undefined behaviour unless the prediction horizon is 1.", "quantifier": "all method names, argument lists, controller states and programs", "why_tests_cant": "all argument lists and all programs; tests call each method with one well-typed argument list", "anchors": ["python/pybind_export.cpp:expose_NLMPC,expose_LMPC,PYBIND11_MODULE", "include/mpc/LMPC.hpp", "include/mpc/NLMPC.hpp"]}
{"id": "C67", "title": "The horizons given to the constructors", "statement": "Intended: a control horizon longer than the prediction horizon is refused or cut. FINDING: it is not. Constructing an NLMPC (with at least one input) is undefined behaviour exactly when the control horizon exceeds the prediction horizon. An LMPC accepts any: for prediction horizon ph, all control horizons from ph-1 on give the same controller (same problems handed to the solver, same results, for every program without whole-horizon input bounds or slices the two judge differently), so ph-1 and ph cannot be told apart; with a longer one, setInputBounds and setExogenousInputs accept slices reaching beyond the prediction horizon and write outside their matrices.", "quantifier": "all dimensions and horizons, all histories of calls, all slices", "why_tests_cant": "the horizons are unbounded and the difference between ph-1 and ph is invisible to any test", "anchors": ["include/mpc/IDimensionable.hpp:setDimension", "include/mpc/NLMPC/Mapping.hpp:computeMapping", "include/mpc/LMPC/ProblemBuilder.hpp:buildTimeInvariantTems,setInputBounds", "include/mpc/IMPC.hpp:isControlHorizonSliceValid"]}
{"id": "C68", "title": "User functions that throw", "statement": "Intended: when a user function of an NLMPC throws a std::exception, optimize returns an ERROR result, and a failed call leaves what can be read back and the next warm start as they were. FINDING: only partly. While NLopt runs, any exception becomes a solver failure (C31). Afterwards: thrown while the returned point is judged (outputs and inequalities if inequalities are registered, then equalities unless an inequality is violated), a std::exception gives an ERROR result with the previous command, zero sequences and a statistics entry, anything else leaves optimize with result, sequences and statistics unchanged; thrown by the output function when the sequences are filled (so: when no inequality is registered), even a std::exception leaves optimize, with the old result and a sequence of new states and inputs with old outputs. In all three cases the next warm start shifts the point of the failed call. No exception ever leads to undefined behaviour or changes the problem (bounds, functions, criteria), and after the next call in which nothing is thrown the controller is the same, but for its statistics, as if the throwing calls had not been made.", "quantifier": "all histories of calls with any user functions throwing at any of their arguments, any solver answers", "why_tests_cant": "which evaluation throws depends on the point the solver returns and on the functions registered; the effect shows only in later calls", "anchors": ["include/mpc/NLMPC/NLOptimizer.hpp:run", "include/mpc/NLMPC/Constraints.hpp:isFeasible", "include/mpc/NLMPC/Model.hpp:getOutput", "include/mpc/IMPC.hpp:optimize"]}
{"id": "C69", "title": "Where and how often user functions are evaluated", "statement": "Each time NLopt evaluates the objective, a constraint or the dynamics at a decision vector, the user's functions are called exactly on the trajectories described by that vector and on finite-difference neighbours of them, in a fixed order: 3+ph(nx+nu) objective calls when the gradient is requested (one otherwise), 3+2ph(nx+nu) inequality calls and 1+2ph(nx+nu) equality calls whether or not the gradient is requested, ph(1+2(nx+nu)) dynamics calls (twice that for a continuous-time model), and ph+1 output-function calls with every objective or inequality call. Every table has the documented size, every step index is in range, the objective, inequality and equality functions always see the (scaled) measured state in the first row, and no entry departs from the trajectory by more than 1e-6 (objective) or 2^-26 (constraints, dynamics) times the largest magnitude in it. The result depends on the user functions only through their answers to these calls. Intended as well: calls respect the configured bounds when the decision vector does, each entry is moved in proportion to its own magnitude, and the measured state is not moved. FINDING: none of the three holds: the dynamics are called with inputs beyond their bounds when the iterate sits on a bound; the objective and the inequalities scale the increment of component j by the j-th entry of the table in column-major order instead of by the entry moved; the dynamics Jacobian at step 0 perturbs the measured state although its state part is not used.", "quantifier": "all reached controllers, all decision vectors, measured states and user functions", "why_tests_cant": "call sites are inside nested loops over horizon and dimensions that modify and restore shared buffers; a test observes one size and one function", "anchors": ["include/mpc/NLMPC/Objective.hpp:evaluate", "include/mpc/NLMPC/Objective.hpp:computeJacobian", "include/mpc/NLMPC/Constraints.hpp:evaluateIneq", "include/mpc/NLMPC/Constraints.hpp:evaluateEq", "include/mpc/NLMPC/Constraints.hpp:getStateEqConstraints", "include/mpc/NLMPC/Constraints.hpp:computeStateEqJacobian", "include/mpc/NLMPC/Model.hpp:getOutput"]}
{"id": "C70", "title": "Tolerances of user constraints are single precision", "statement": "Intended: a point reported feasible satisfies the user constraints within the tolerance given to setIneqConFunction / setEqConFunction. FINDING: not exactly. The tolerances are float parameters: the one in force is the requested one rounded to binary32, which differs by at most one part in 2^24 (tolerances up to 2^-150 become zero; the default 1e-10 becomes 14411519*2^-57, larger than 1e-10). So feasible implies every value within (1+2^-24) times the requested tolerance, values within (1-2^-24) times it are feasible, and nothing better holds.", "quantifier": "all requested tolerances at least 2^-126, all reached controllers and returned points, all user functions (real arithmetic otherwise)", "why_tests_cant": "the interval of values on which the answer differs has relative width 2^-24", "anchors": ["include/mpc/NLMPC.hpp:setIneqConFunction", "include/mpc/NLMPC.hpp:setEqConFunction", "include/mpc/NLMPC.hpp:setStateSpaceFunction", "include/mpc/NLMPC/Constraints.hpp:setIneqConstraints", "include/mpc/NLMPC/Constraints.hpp:isFeasible"]}
{"id": "C71", "title": "Linear controller: the choice of units does not matter", "statement": "Two linear controllers configured (by any calls) with the same problem in different units - a non-zero factor per state, command, output and disturbance component, negative factors exchanging lower and upper bounds, a factor for the scalar constraint and a positive factor for the cost - admit the same trajectories at proportional cost; when the commands are weighted and the solver answers with optima, both return the same command and predicted sequences, each in its own units. (Special cases: multiplying all weights by a constant changes nothing; mirroring the problem mirrors the command.)", "quantifier": "all dimensions and horizons, all pairs of reached controllers, all unit systems, states and previous commands, all optimal solver answers", "why_tests_cant": "relates two arbitrary runs; a test compares particular numbers", "anchors": ["include/mpc/LMPC.hpp:optimize", "include/mpc/LMPC/ProblemBuilder.hpp:get", "include/mpc/LMPC/LOptimizer.hpp:run", "include/mpc/IMPC.hpp:optimize"]}
{"id": "C72", "title": "Linear controller: widening bounds never hurts", "statement": "If a second linear controller differs from the first only by wider bounds (state, output, input, scalar), every point feasible for the first is feasible for the second, its optimal tracking cost is not larger, and if its optimum respects the first controller's bounds it is also optimal for the first.", "quantifier": "all pairs of reached controllers so related, all measured states and previous commands, all decision vectors", "why_tests_cant": "quantifies over all feasible points of two problems", "anchors": ["include/mpc/LMPC.hpp:optimize", "include/mpc/LMPC/ProblemBuilder.hpp:get", "include/mpc/LMPC/LOptimizer.hpp:run", "include/mpc/IMPC.hpp:optimize", "include/mpc/LMPC.hpp:setStateBounds", "include/mpc/LMPC.hpp:setInputBounds", "include/mpc/LMPC.hpp:setOutputBounds"]}
{"id": "C73", "title": "Linear controller without bounds is a linear feedback", "statement": "With no finite bounds, non-negative weights and weighted commands, the returned command (and the predicted states and commands) is linear in the measured state, the previous command, the references and the disturbances together: the controller for the combined data a*first + b*second returns a*(first command) + b*(second command).", "quantifier": "all dimensions and horizons, all triples of reached controllers so related, all factors a and b, all optimal solver answers", "why_tests_cant": "relates three arbitrary runs of the controller", "anchors": ["include/mpc/LMPC.hpp:optimize", "include/mpc/LMPC/ProblemBuilder.hpp:get", "include/mpc/LMPC/LOptimizer.hpp:run", "include/mpc/IMPC.hpp:optimize"]}
{"id": "C74", "title": "Nonlinear controller: where the user functions are called, in double precision", "statement": "Intended: each user-function call made for a gradient differs from the nominal point in the perturbed entry only, and really differs. FINDING: in double precision both fail - entries perturbed earlier are put back by subtraction and stay off by rounding (1 comes back as 1-2^-53), and, because the probe size of one entry is taken from another (C69), a probe may vanish in the rounding: the objective is asked again about the same point and the derivative 1 of 'last state' is handed to NLopt as 0. What holds: for all entries of magnitude at most B (1 <= B <= 2^1000), the calls of the objective, of both user constraints and of the dynamics are in number and order those of exact arithmetic at the nominal point, no entry becomes infinite or NaN, each is within 2^-51 B of its exact value, the measured state is never touched, and the probes of the dynamics always move the entry they are meant to move.", "quantifier": "all dimensions and horizons, all reached controllers, all measured states and solver points made of binary64 numbers of magnitude at most B", "why_tests_cant": "rounding depends on every bit of every entry; no finite set of points shows the bound", "anchors": ["include/mpc/NLMPC/Objective.hpp:computeJacobian", "include/mpc/NLMPC/Constraints.hpp:computeIneqJacobian", "include/mpc/NLMPC/Constraints.hpp:computeEqJacobian", "include/mpc/NLMPC/Constraints.hpp:computeStateEqJacobian"]}
{"id": "C75", "title": "User functions that do not write all of their output", "statement": "Intended: an entry of its output vector that a user function does not write counts as zero, so that values depend on the arguments only. FINDING: true for the output function only. The vector handed to the state-space function is uninitialised memory; the vector handed to a constraint at the evaluated point keeps what the previous evaluation left there, so a constraint of the form 'if violated, write the violation' stays violated after one bad point and optimize reports is_feasible=false for a feasible solution, depending on the points NLopt looked at before. What holds: functions that write every entry behave as pure functions - whatever lies in memory and whatever was evaluated before, NLopt receives the same values and gradients and optimize returns the same result; for all others the values are exactly the function applied to the stale vector.", "quantifier": "all dimensions and horizons, all reached controllers, all user functions of the vector they find and their arguments, all contents of memory, all sequences of evaluations by NLopt", "why_tests_cant": "depends on uninitialised memory and on the history of the solver's evaluations", "anchors": ["include/mpc/NLMPC/Model.hpp:getOutput", "include/mpc/NLMPC/Constraints.hpp:evaluateIneq", "include/mpc/NLMPC/Constraints.hpp:evaluateEq", "include/mpc/NLMPC/Constraints.hpp:isFeasible", "include/mpc/NLMPC/Constraints.hpp:getStateEqConstraints", "include/mpc/NLMPC/Constraints.hpp:onInit"]}
{"id": "C76", "title": "The linear controller in closed loop with its plant", "statement": "The user measures the state, calls optimize(x, last command), applies the returned command to the plant it configured, and repeats, with any other calls in between. Intended: (a) every command is within the configured input bounds, (b) the plant stays within the configured bounds, (c) once a problem is feasible the next ones are. FINDING: (a) fails when the solver finds nothing before its first solution - the command is then 0, whatever the bounds (and within them the bounds of step 1 apply to the command, C06); (c) fails, there is no terminal constraint. What holds: in every period whose answer satisfies its problem, the state the plant reaches equals the predicted one and meets the state, output and scalar bounds of step 0, and the command meets the bounds of step 1; if the answer satisfies the rows up to e, the state is within a e + e (1 + b) of the prediction and one more e of the bounds (a, b: row norms of A and B); a period without solution repeats the previous command, so with constant input bounds every command after the first solved period is within them; with bounds and disturbances that are the same at every step, the next problem is feasible whenever the state one step behind the horizon, with the last command held, is allowed; with bounds on the inputs only, the problem is always feasible.", "quantifier": "all dimensions and horizons, all histories of API calls interleaved with control periods, all solver answers, all initial states", "why_tests_cant": "an invariant of an unbounded closed loop over arbitrary solver answers", "anchors": ["include/mpc/LMPC/LOptimizer.hpp:run", "include/mpc/LMPC/ProblemBuilder.hpp:get", "include/mpc/IMPC.hpp:optimize", "include/mpc/LMPC.hpp:setInputBounds", "include/mpc/LMPC.hpp:setStateBounds"]}
{"id": "C77", "title": "The non-linear controller in closed loop with a plant", "statement": "The user measures the state, calls optimize(x, last command), applies the returned command to a plant (that need not be the configured model), and repeats, with any other calls in between. Intended: (a) every command is within the configured input bounds, (b) the plant follows the prediction and stays within the configured state bounds, (c) once a problem is feasible the next ones are. FINDING: (a) fails when the solver throws before its first solution - the command is then 0, whatever the bounds; (b) fails with a state scale other than 1, because the plan then starts at scale times the measured state (C22); (c) fails, there is no terminal constraint. What holds with unit scales and a discrete-time model: in every period whose answer satisfies its problem up to the solver's tolerances, the state the plant reaches differs from the predicted one by at most the tolerance of the dynamics constraint plus the distance between plant and model, and exceeds the bounds of the first predicted state by at most that; with an exact answer and an exact model it equals the prediction and is within the bounds; a period in which the solver throws repeats the previous command, so with unchanged input bounds every command after the first solved period is within them; the starting point of the next period is the plan moved one step on: it lies in the box and obeys the model at every step but possibly the last; and if the last step, with the last command held, is allowed and the user's constraints hold on the moved plan, the next problem is feasible.", "quantifier": "all dimensions and horizons, all histories of API calls interleaved with control periods, all solver answers, all plants, all initial states", "why_tests_cant": "an invariant of an unbounded closed loop over arbitrary solver answers and plants", "anchors": ["include/mpc/NLMPC/NLOptimizer.hpp:run", "include/mpc/NLMPC/Constraints.hpp:getStateEqConstraints", "include/mpc/NLMPC/Mapping.hpp:unwrapVector", "include/mpc/IMPC.hpp:optimize", "include/mpc/NLMPC.hpp:setInputBounds", "include/mpc/NLMPC.hpp:setStateBounds"]}
{"id": "C78", "title": "The statistics' counters are ints", "statement": "Intended: calling optimize() any number of times leaves the execution statistics defined. FINDING: the number of solutions and the per-status counters are int, so without a resetStats() the optimization that completes as number 2147483648 is undefined behaviour (at 1 kHz, after less than 25 days). What holds: the statistics are exactly those of C37 and C38 as long as at most 2147483647 optimizations completed since construction or the last resetStats(); undefined behaviour occurs if and only if a prefix of the history exceeds that; a reset in time gives the full range again.", "quantifier": "all sequences of completed optimizations, optimizations that throw, and resets, of any length", "why_tests_cant": "a test would have to run 2^31 optimizations", "anchors": ["include/mpc/Profiler.hpp:solutionEnd", "include/mpc/Profiler.hpp:addSolutionTime", "include/mpc/IMPC.hpp:optimize", "include/mpc/IMPC.hpp:resetStats"]}
{"id": "C79", "title": "Printing the execution statistics", "statement": "std::cout << controller.getExecutionStats(), as all examples do. Intended: the report shows all times with six decimals, one percentage for each status that occurred since the last reset, and the totals. FINDING: setprecision(2), used for the percentages, stays in force, so as soon as one optimization completed the total time is shown with two decimals (a total of less than 5 ms is shown as 0.00) and the user's stream is left in fixed format with precision 2. What holds, for every history and every stream: the report consists of exactly the lines min, max, avg, std (six decimals), then one line per status that occurred, in the order of the enumeration and none for the others, with its share of the completed optimizations in percent (two decimals; the exact shares are positive and add up to 100), then the total time and the number of completed optimizations; before the first solution there is no percentage, and min and max are the initial values (the largest and the lowest double).", "quantifier": "all histories of completed optimizations, optimizations that throw and resets; all output streams", "why_tests_cant": "all histories; a test compares a few strings", "anchors": ["include/mpc/Profiler.hpp:operator<<", "include/mpc/Profiler.hpp:resultStatusToString", "include/mpc/IMPC.hpp:getExecutionStats"]}
{"id": "C80", "title": "Non-linear controller: what scales do", "statement": "setStateScale(), setInputScale() of the non-linear controller. Intended: scales are a matter of numerical conditioning inside the optimizer, the optimal command does not depend on them. FINDING: it does. The callbacks see trajectories that are multiplied by the scales while the measured state given to optimize() and the bounds are in unscaled units, so the same model, objective, bounds and measured state with state scale 2 instead of 1 give the command -3 instead of -1. What holds, for all non-zero scales (also negative ones): the scales enter the problem only through their products with the bounds and with the measured state. Two controllers with the same functions whose bounds and measured states agree after multiplication by their scales have the same admissible trajectories with the same cost, and for every optimum of one there is one of the other with the same command, state, input and output sequences; in particular a scaled controller is an unscaled one with multiplied bounds and state.", "quantifier": "all pairs of call histories, all non-zero scales, bounds, measured states, user functions, all optima", "why_tests_cant": "all scales, functions and optima at once; a test compares a few runs of a solver that is only approximate", "anchors": ["include/mpc/NLMPC.hpp:setStateScale", "include/mpc/NLMPC.hpp:setInputScale", "include/mpc/NLMPC/Mapping.hpp:unwrapVector", "include/mpc/NLMPC/Constraints.hpp:getStateEqConstraints", "include/mpc/NLMPC/NLOptimizer.hpp:run"]}
{"id": "C81", "title": "Non-linear controller: fewer constraints never hurt", "statement": "A problem obtained by widening state or input bounds, by leaving out the user's inequality or equality constraints, or by larger tolerances is feasible whenever the original one is (every feasible decision vector stays feasible), its optimal cost is not larger, and an optimum of the relaxed problem which satisfies the constraints that were left out is an optimum of the original problem. (Scales non-zero; constraints and objective accepted by the solver.)", "quantifier": "all pairs of call histories that differ in this way, all measured states, tolerances, decision vectors and optima", "why_tests_cant": "all problems, all decision vectors", "anchors": ["include/mpc/NLMPC.hpp:setStateBounds", "include/mpc/NLMPC.hpp:setInputBounds", "include/mpc/NLMPC.hpp:setIneqConFunction", "include/mpc/NLMPC.hpp:setEqConFunction", "include/mpc/NLMPC/Constraints.hpp"]}
{"id": "C82", "title": "Non-linear controller keeps a plant at rest at rest", "statement": "If the model rests at state xs under the command us (discrete time: next state xs; continuous time: derivative 0), resting is allowed by the bounds and constraints, and among the trajectories allowed from xs staying is the cheapest and every equally cheap one begins with us, then staying is an optimum of the solver's problem, every optimum returned by the solver gives the command us, and in closed loop with a plant that rests there the state stays xs and the command us for ever, whatever other calls happen in between, as long as these conditions hold in each period. FINDING: this needs all scales to be 1; with a state scale of 2 the plant at rest is driven away (command -3 where -1 keeps it at rest).", "quantifier": "all call histories, all lengths of the closed loop, all models, objectives, constraints, all optima the solver may return", "why_tests_cant": "closed loops of every length, every optimum", "anchors": ["include/mpc/NLMPC.hpp:optimize", "include/mpc/NLMPC.hpp:setStateSpaceFunction", "include/mpc/NLMPC/Constraints.hpp:getStateEqConstraints", "include/mpc/NLMPC/NLOptimizer.hpp:run"]}
{"id": "C83", "title": "The linear controller and the problem printed in the manual", "statement": "docs/source/manual/manual.rst prints the optimization problem of the linear controller (weights, references and bounds per component, the same for every step; x_{k+1} = A x_k + B u_k + Bd d_k, y_k = C x_k + Dd d_k, bounds on x_k, y_k, u_k, one scalar constraint on x_k and u_k). Intended: once the setters have been given its data, optimize() solves this problem. FINDING: it solves one that differs in four ways. (1) The input bounds are also imposed on the last command handed to optimize(): outside them there is no solution although the manual's problem has one. (2) The scalar constraint pairs the state of a step with the command before it, so solutions can violate the manual's. (3) The output of step k > 0 is computed with the disturbance of step k-1, so with a varying disturbance that acts on the outputs solutions can violate the manual's output bounds. (4) Commands after step ch are held. What holds: without scalar constraint and with a disturbance that acts on the outputs in the same way at every step, the solver's problem is exactly the manual's with (1) and (4) added and a cost that differs by a constant; hence an optimum is an optimum of the manual's problem among the held command sequences (among all if the control horizon covers the prediction horizon up to one step), optimize() returns its first command and the sequences are its states, commands and outputs; and conversely every such optimum of the manual's problem is one of the solver's.", "quantifier": "all dimensions and horizons, all call histories that configure the manual's problem, all measured states and last commands, all trajectories and optima", "why_tests_cant": "all data of the problem, all trajectories", "anchors": ["docs/source/manual/manual.rst", "include/mpc/LMPC/ProblemBuilder.hpp:buildTimeInvariantTems", "include/mpc/LMPC/ProblemBuilder.hpp:get", "include/mpc/LMPC.hpp:setStateSpaceModel", "include/mpc/IMPC.hpp:optimize"]}
{"id": "C84", "title": "Linear controller: state coordinates and operating point do not matter", "statement": "Working with a model in other state coordinates (new state = T (state - xs), T any invertible matrix) and in deviations from an operating point (xs, us, ys) at which the plant rests: a second controller given A' = T A T^-1, B' = T B, C' = C T^-1, Bd' = T Bd, the same weights and disturbances, references and bounds of commands and outputs reduced by us and ys, the scalar constraint rewritten accordingly and state bounds that allow the same states (for instance none), allows exactly the same trajectories at exactly the same cost, an optimum of one converted is an optimum of the other, and where the command is well defined (C54) both return the same command, up to us, and the same state, command and output sequences up to the change of coordinates.", "quantifier": "all dimensions and horizons, all invertible T, all operating points, all pairs of call histories related in this way, all measured states and optima", "why_tests_cant": "all plants, coordinate systems and operating points", "anchors": ["include/mpc/LMPC.hpp:setStateSpaceModel", "include/mpc/LMPC.hpp:setDisturbances", "include/mpc/LMPC/ProblemBuilder.hpp:setStateModel", "include/mpc/LMPC/ProblemBuilder.hpp:get", "include/mpc/LMPC/LOptimizer.hpp:run"]}
{"id": "C85", "title": "Linear controller: mixtures of solvable situations are solvable, the optimal cost is convex", "statement": "Three controllers with the same plant, weights, bounds and scalar constraint. If measured state, last command, references and disturbances of the third are a mixture a, b (a, b >= 0, a + b = 1) of those of the other two, then its problem is feasible whenever those of the other two are (so the set of states from which the controller can be started is convex), and with non-negative weights its optimal cost is at most the same mixture of their optimal costs.", "quantifier": "all dimensions, horizons, triples of call histories related in this way, mixtures, states and optima", "why_tests_cant": "a continuum of states and mixtures", "anchors": ["include/mpc/LMPC/ProblemBuilder.hpp:get", "include/mpc/LMPC/ProblemBuilder.hpp:buildTimeInvariantTems", "include/mpc/LMPC/LOptimizer.hpp:run"]}
{"id": "C86", "title": "Non-linear controller: functions that read variables changed between calls", "statement": "The functions given to NLMPC may capture the user's variables by reference and the user may change those variables between calls (a moving target, an obstacle, an identified parameter). Each optimize() then uses every such function - cost, dynamics, outputs, constraints, whenever it was passed - at the values the variables have at that call: the solver sees the same starting point, bounds, criteria, cost and constraint functions with the same gradients, and the call returns and stores the same result and sequences, as if the variables had had these values from the start and the solver had given the same answers. No setter has to be called again. What has been read back from an earlier optimize() (result, state, input and output sequences) does not follow the variables afterwards.", "quantifier": "all dimensions, all types of variables, all histories of calls each made at its own values, all functions of the variables, all solver answers", "why_tests_cant": "all histories of changes of the variables interleaved with calls", "anchors": ["include/mpc/IDimensionable.hpp:ObjFunHandle", "include/mpc/NLMPC.hpp:setObjectiveFunction", "include/mpc/NLMPC.hpp:setStateSpaceFunction", "include/mpc/NLMPC.hpp:setOutputFunction", "include/mpc/NLMPC.hpp:setIneqConFunction", "include/mpc/NLMPC/NLOptimizer.hpp:run", "include/mpc/IMPC.hpp:optimize"]}
{"id": "C87", "title": "Linear controller: reaching a point of rest by the end of the horizon makes the closed loop stable", "statement": "Configure LMPC with weights, references, disturbance and bounds that are the same at every step, the references being those of a point of rest of the plant that the bounds allow, and set the state and input bounds of the last step to that point of rest (possible only with the matrix versions of setStateBounds and setInputBounds, with control horizon = prediction horizon: a slice covering only the last step is refused). Let the plant follow the prediction model and let OSQP answer each optimize() with an optimum. Then every period's plan, moved on by one step, is admissible in the next period and costs exactly the current period's cost less; so the next problem always has a solution, its optimal cost is smaller by at least the cost of the period just passed, the total cost of all periods - tracking error of the output and of the last command, plus command increments, weighted - never exceeds the cost of the first period's plan, and at most (planned cost)/e periods can have a cost of e or more: the errors die out. Without the bounds of the last step this fails: for x+ = 2x + u, output weight 1, command weight 9, target 0, no bounds, horizon 2, optimal answers drive the state away.", "quantifier": "all dimensions, plants, points of rest, non-negative weights, bounds, horizons of at least 2, initial states and last commands, closed loops of any length", "why_tests_cant": "the claim is about closed loops of every length and every plant and configuration", "anchors": ["include/mpc/LMPC.hpp:setStateBounds", "include/mpc/LMPC.hpp:setInputBounds", "include/mpc/LMPC/ProblemBuilder.hpp:get", "include/mpc/LMPC/LOptimizer.hpp:run", "include/mpc/IMPC.hpp:optimize"]}
{"id": "C88", "title": "Non-linear controller: a closed loop whose plans can always be improved on is stable", "statement": "Let NLMPC (no scales, objective and constraints accepted by the solver) drive a plant that ends each period where the plan read back said, with optimal answers of NLopt, under configurations that pose the same problem. Suppose that after the first step of any admissible plan there is an admissible plan that costs less by at least l(x, u), the cost of that step. Then the cost of the plan read back decreases from period to period by at least the cost of the period just passed, all periods together cost no more than the first plan, at most (cost of the first plan)/e periods cost e or more, and after every period the next problem has a solution. The supposition holds for a discrete-time model that does not look at the step index, an objective that adds up l over all rows of the state and command matrices it is given, bounds that are the same at every step, and user constraints that are the same condition on every row and demand a point of rest of the model, of cost 0, on the last row - whatever the control horizon.", "quantifier": "all dimensions, horizons, models, objectives, user constraints, step costs, solver answers that are optimal, closed loops of any length with any other calls in between", "why_tests_cant": "the claim is about closed loops of every length and every model, objective and constraint", "anchors": ["include/mpc/NLMPC.hpp:setObjectiveFunction", "include/mpc/NLMPC.hpp:setEqConFunction", "include/mpc/NLMPC.hpp:setStateSpaceFunction", "include/mpc/NLMPC/NLOptimizer.hpp:run", "include/mpc/IMPC.hpp:optimize"]}
{"id": "C89", "title": "The example programs for NLMPC: what they do for every run", "statement": "Let vanderpol_ex.cpp, networked_oscillators_ex.cpp or ugv_ex.cpp run for any number of periods, with NLopt answering each call with a point that satisfies what it was given up to tolerances, or failing. Started at the origin with an NLopt that finds the optimum, the two oscillator programs apply no command and the oscillators stay there. FINDINGS included: (van der Pol, networked oscillators) in every period the command applied - its first entry in the network - is at most 0.5 up to the tolerance, and so is every step of every plan, also in the periods in which NLopt failed; the other entries of the network's command are not held by the user constraint (the program only constrains the first input), so the intended 'every input is at most 0.5' is false there. (UGV) every row of every plan read back is outside every obstacle, up to the tolerance, as is the place the vehicle gets to after the period, up to the tolerances on the dynamics; from a state inside an obstacle no answer satisfies the problem, because the first row of the plan is the measured state and soft constraints are not implemented, so once there every optimize() fails and the program applies the same command, the last one that was found, period after period, until it is out.", "quantifier": "every run: number of periods, horizons, sampling time, parameters, network size, number and place of obstacles, tolerances, solver answers and failures; the discretised matrices of the UGV are arbitrary", "why_tests_cant": "the claims are about runs of every length and every answer a solver may give, including its failures", "anchors": ["examples/vanderpol_ex.cpp:stateEq", "examples/networked_oscillators_ex.cpp:oscillatorNetworkDynamics", "examples/ugv_ex.cpp:conIneq", "include/mpc/NLMPC/NLOptimizer.hpp:run", "include/mpc/IMPC.hpp:optimize"]}
{"id": "C90", "title": "The quadrotor example: every call is accepted, hovering is a plan, the printed command is the unique optimum within the limits", "statement": "In quadrotor_ex.cpp every call before optimize() is accepted and no call has undefined behaviour, optimize() included, unless the solver's setup fails. Hovering (no command, no motion) satisfies the problem posed, so a certified answer of OSQP is never 'infeasible'. Whenever OSQP's answer satisfies the problem, the printed command and every printed input are within the thrust limits, every printed state within its bounds, the printed states follow the printed inputs from the origin, and the printed outputs are the printed states. Whenever the answer is optimal, command, states and plan do not depend on the solver that found it, and the plan costs no more than hovering; were the reference the origin, hovering would be the optimum and the command zero.", "quantifier": "every answer of the solver, every prediction horizon, every model matrices, weights (non-negative, positive on the commands), bounds that contain the origin, references and solver settings; the constants of the program are checked to be such", "why_tests_cant": "the claims are about every answer of the solver and every constant of the program", "anchors": ["examples/quadrotor_ex.cpp:main", "include/mpc/LMPC.hpp:setObjectiveWeights", "include/mpc/LMPC.hpp:setStateBounds", "include/mpc/LMPC/LOptimizer.hpp:run"]}
{"id": "C91", "title": "Principle of optimality: planning again over the rest of the horizon does not change the plan", "statement": "Let an LMPC object solve its problem optimally and let its first command be applied. Let a second LMPC object have one step less on both horizons and say about each step what the first says about the next one (a task of finite length, seen one period later). Then what is left of the plan satisfies the second problem, and whatever solves the second problem with what is left of the plan is an optimum; the optimal costs differ by exactly the cost of the first period; when the weights determine the commands (C54), the command and the sequences of the second optimize() are those the first left from the second entry on. Over any number of periods: the commands given are those of the first plan, the plant passes through its states, and the cost predicted at the start is the cost paid plus the one predicted at the end. Conditions: the settings of step 0 and step 1 agree (both rule the initial stage), and so do their increment references. FINDING: the latter is needed because step i tracks the increment reference of step i-1 (C45): without it replanning changes the plan.", "quantifier": "every pair of objects reached by any calls, all dimensions, all horizons, all plants, weights, bounds, references and disturbances, all measured states and last commands; any number of periods", "why_tests_cant": "it is about optimal solutions of every problem, and about runs of every length", "anchors": ["include/mpc/LMPC.hpp:optimize", "include/mpc/LMPC/ProblemBuilder.hpp:get", "include/mpc/LMPC/LOptimizer.hpp:run"]}
{"id": "C92", "title": "What the horizons of the linear controller do to its problem", "statement": "Let two LMPC objects have the same settings on the steps both have, one with a prediction horizon not longer and a control horizon not shorter than the other's. Whatever plan the first can make from a measured state, its first steps are a plan of the second; so a state the longer-sighted controller can handle can be handled by the other, and the optimal cost never decreases when the prediction horizon is lengthened or the control horizon shortened. From the last-but-one step on the control horizon has no effect: with control horizons ph-1, ph or more the same vectors are feasible and the same are optimal. FINDING: the input bounds must not change where the shorter horizon ends; otherwise the longer horizon may allow a command the shorter one forbids, because input bounds act one step late (C06).", "quantifier": "every pair of objects reached by any calls, all dimensions and horizons, all plants, weights (non-negative for the cost), bounds, references, disturbances, measured states, last commands and plans", "why_tests_cant": "it relates the feasible sets and the optima of two optimisation problems of any size", "anchors": ["include/mpc/LMPC/ProblemBuilder.hpp:get", "include/mpc/LMPC.hpp:optimize", "include/mpc/IDimensionable.hpp:IDimensionable"]}
{"id": "C93", "title": "Linear controller: raising a weight trades in the expected direction", "statement": "Let two LMPC objects have the same settings, but for a common factor greater than 1 on one of the three kinds of weights of setObjectiveWeights() (outputs, commands, command increments) at all steps. Then, for the same measured state and last command, the terms with that kind of weight contribute to the cost of the second object's optimal plan at most what they contribute to the first's, and the other two kinds together at least as much - both measured with the first object's weights. So raising the increment weights never makes the planned commands move more, raising the output weights never makes the planned tracking worse.", "quantifier": "every pair of objects reached by any calls, each kind of weight, every factor above 1, all dimensions, horizons, plants, bounds, references, disturbances, measured states and last commands; weights of any sign", "why_tests_cant": "it relates the optima of two optimisation problems of any size", "anchors": ["include/mpc/LMPC.hpp:setObjectiveWeights", "include/mpc/LMPC/ProblemBuilder.hpp:setObjective", "include/mpc/LMPC/ProblemBuilder.hpp:get"]}
{"id": "C94", "title": "Linear controller: bounds the plan does not touch do not matter", "statement": "Let an optimal plan of an LMPC object stay strictly off some of its bounds (lower and upper bounds of states, outputs, commands and the scalar constraint, each step and component on its own). A second object whose settings differ only in those bounds - moved, tightened, removed, or newly added where there was none - and whose bounds the plan still respects has the same optimal plan for the same measured state and last command; and when every free command or its increment has a positive weight, both objects plan the same commands and states. So only the bounds a plan touches shape it. Moving a bound the plan does touch may change the plan.", "quantifier": "every pair of objects reached by any calls whose settings differ only in bounds not touched by the plan, all dimensions, horizons, plants, non-negative weights, references, disturbances, measured states and last commands", "why_tests_cant": "it compares the optima of two optimisation problems over all admissible plans", "anchors": ["include/mpc/LMPC.hpp:setStateBounds", "include/mpc/LMPC.hpp:setInputBounds", "include/mpc/LMPC.hpp:setOutputBounds", "include/mpc/LMPC.hpp:setScalarConstraint", "include/mpc/LMPC/ProblemBuilder.hpp:get"]}
