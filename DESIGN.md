# Formal model of libmpc in Rocq (Coq 8.16.1)

Nothing here was executed against the C++ code. The only tie between the model and `/repo` is that every model
definition cites the file and lines it was read from.

## 1. Layout (`rocq/theories`)

| files | role | contents |
|---|---|---|
| `Scalar`, `ScalarR`, `Sums` | base | scalar operations and ordered-field laws as classes; instances `Qc` (axiom free) and `R`; finite sums |
| `Mat` | base | dense matrices with Eigen's block/segment/product operations and a sticky *undefined behaviour* flag |
| `Slice` | **model** | `HorizonSlice` validation in `int` / `size_t` semantics (Types.hpp, IMPC.hpp), `outcome = Ok \| UB` |
| `Builder` | **model** | LMPC/ProblemBuilder.hpp, function by function |
| `Csc` | **model** | dense → sparse → OSQP compressed columns (ProblemBuilder.hpp, LOptimizer.hpp) |
| `LMPC` | **model** | LMPC/LOptimizer.hpp and LMPC.hpp (with IMPC.hpp) as a state machine `l_step`, `l_call` (data handed to OSQP) |
| `LMem` | **model** | allocation trace of LOptimizer; property C20 |
| `NLMap` | **model** | NLMPC/Mapping.hpp |
| `NLFun` | **model** | NLMPC/Model.hpp, Objective.hpp, Constraints.hpp (values and finite-difference Jacobians, loop by loop) |
| `NLMPC` | **model** | NLMPC/NLOptimizer.hpp, NLMPC.hpp as a state machine `n_step`, `n_call` (what NLopt observes) |
| `Dim`, `Profiler`, `Logger`, `Integrator`, `Discretize` | **model** + theorems | Dim.hpp, Profiler.hpp, Logger.hpp, Integrator.hpp, Utils.hpp; properties C36–C41 |
| `World` | **model** | a process: controllers constructed, copied, assigned, destroyed; every message sent to the shared logger; getters and statistics (IMPC.hpp) |
| `SpecLMPC`, `SpecQP`, `SpecCert` | **spec** | plant, constraints, cost, configuration of a history (`cfg_run`), meaning of a QP; no reference to the code's matrices; residuals and certificates of a QP solver |
| `SpecNL`, `SpecNLC`, `SpecNLP`, `SpecNLO` | **spec** | decision vector layout, derivatives, configuration of a history (`ncfg_run`), trajectories, the optimal control problem |
| `NLExc` | **model** | the NLMPC with user functions that throw: evaluations after NLopt returned (NLOptimizer.hpp:498-607) |
| `SpecExc` | **spec** | which user functions are called on the returned point, in which order; first exception of a series |
| `NLTrace` | **model** | the loops of `NLFun` keeping the arguments of the user-function calls instead of the values (C69 ties the two: results are determined by the answers to the traced calls) |
| `SpecTrace` | **spec** | the lists of trajectories around a decision vector on which each user function is called |
| `SpecDrift` | **spec** | entrywise closeness of points made of doubles to points of real numbers (C74) |
| `DoubleR`, `DoubleStep`, `NLDrift`, `NLDrift2` | proofs | doubles as approximations of real numbers (Flocq); the perturb-and-restore loops in double precision |
| `NLBuf` | **model** | user functions as maps from the content of the vector they find to what they leave there; the loops of Constraints.hpp with the vectors handed over (C75) |
| `SpecBuf` | **spec** | functions that write every entry; functions in force |
| `PyBind` | **model** | the Python module: binding tables, overload choice (pybind_export.cpp) |
| `SpecLoop`, `SpecNLoop` | **spec** | a controller in closed loop with a plant (C76, C77) |
| `SpecCoord` | **spec** | the same linear problem in other state coordinates and in deviations from an operating point (C84) |
| `SpecManual` | **spec** | the linear problem printed in docs/source/manual/manual.rst (C83) |
| `Examples`, `ExampleQuad` | model | examples/*.cpp: the four example programs as sequences of calls |
| `SpecExamples` | **spec** | a run of an example program; distance to an obstacle (C89) |
| `SpecNLMeta` | **spec** | non-linear problems that differ by scales, relaxed problems, rest (C80–C82) |
| `SpecMeta` | **spec** | a configuration in other units, with wider bounds, without bounds; superposition |
| `SpecPy` | **spec** | Python calls and the C++ calls they stand for |
| `SpecWorld` | **spec** | which calls concern a controller, the program with one controller only, copies, logger settings in force |
| `BuilderEnt`, `BuilderRows`, `CscProof`, `LMPCRef`, `LQP`, `LOk`, `LSeq`, `LDet`, `LRows`, `LRows2`, `LUniq`, `LRowsE`, `LCert` | proofs | lemmas for the linear controller |
| `NLTraj`, `NLLoop`, `NLGrad`, `NLEval`, `NLDyn`, `NLSlope`, `NLSlope2`, `NLAcc`, `NLDynSlope`, `NLRef`, `NLRun`, `NLCall`, `NLObs`, `NLTraceEnt`, `NLTraceSame` | proofs | lemmas for the non-linear controller |
| `Wit`, `WitNL` | witnesses | concrete controllers over `Qc` used by the instances |
| `PropLoop`, `PropNLoop`, `PropNLMeta`, `PropManual`, `PropCoord`, `PropConvex`, `PropEnv` (with its model of functions reading variables), `PropStab`, `PropStab2`, `PropNLStab`, `PropNLStab2` (its instance), `PropExamples`, `PropExamples2`–`5` (the example programs), `PropCount` (with its model of the `int` counters), `PropPrint` (with its model of `operator<<`), `PropLMPC1`–`5`, `PropNL1`–`6`, `PropWorld`, `PropWorld2`–`5`, `PropTwin`, `PropDouble`, `PropDouble2`, `PropPy`, `PropPy2`, `PropHor`, `PropExc`, `PropExc2`, `PropTrace`, `PropTol`, `PropMeta`, `PropDrift`, `PropDrift2`, `PropBuf`, `PropBuf2` (and the five small headers) | **theorems** | the property theorems, with non-vacuity instances (`..._instance`) beside them |
| `RepoTests` | fidelity check | the solver-independent assertions of the repository's own unit tests (common, objective, constraints, NL optimizer, linear MPC, logger, profiler), replayed on the model as `Example`s. They are tests of the model, not theorems, and no claim rests on them |

To review a property: read its line in `properties.jsonl`, the theorems named in `MANIFEST.json`, then the `Spec*` definitions the
statements mention.

## 2. Modelling choices

* **Scalars.** All numeric code is written once over a class `ScalarOps F`. Theorems which only move data (slices, layout, shifts, status
  translation, frame properties, determinism, undefined behaviour) need no laws and so hold for IEEE doubles as well. Theorems using
  ring/order laws (`ScalarLaws F`) are about exact arithmetic in an arbitrary ordered field. The bookkeeping of the NLMPC needs only
  `ScalarMild` (1/1 = 1, not 0 < 0), which IEEE doubles satisfy: `Double.v` instantiates the model with binary64 as specified by
  `Coq.Floats.SpecFloat` (C63). Theorems whose `About` shows no `ScalarLaws` argument hold for doubles as they stand: C09, C10, C11_slice_is_patched_matrix,
  C12, C13, C16, C17, C18, C31_solver_failure, C32, C34, C35, C43, C46–C48 (but C48_refused_constraint_still_judges), C51, C59–C62.
* **Infinity.** Bounds live in `ext F` (finite, +inf, -inf).
* **Matrices.** `mat` = rows, columns, entry function, `ok` flag. An access out of range or of mismatching size clears `ok` (Eigen
  assertion in debug builds, undefined behaviour otherwise); a call using such a matrix returns the outcome `UB`.
* **Uninitialised storage** is a universally quantified function `junk`; determinism theorems (C12, C52) show it is unobservable.
* **External code** (OSQP, NLopt) is an oracle: every `optimize` operation of a history carries the solver's answer, universally
  quantified; contracts of the solvers used by a theorem are explicit hypotheses (e.g. `is minimiser` in C15, box rejection in C50).
* **Integers.** `int` is `Z` with an explicit 32 bit range, `size_t` conversion mod 2^64; dimensions are `nat`.
* **Histories.** `reached`/`nreached`: any finite list of API calls (with solver answers) from the constructor, of any length.

## 3. Properties: what is modelled and how it is proved

Properties whose *intended* reading is false of the code are kept in view: the statement in `properties.jsonl` gives the intended
claim and the finding, a `_refuted` theorem shows the intended claim false of the model, and a positive theorem characterises what
the code does in every case.

* C01–C08, C44, C45, C47: pointwise characterisation of every block the builder writes (`BuilderEnt`), rows applied to a decision vector
  (`BuilderRows`), refinement of the state to the configuration (`LMPCRef`), then "row satisfied iff relation on the decoded trajectory"
  (`LQP`, `LRows`, `LRows2`).
* C09, C43: integer reasoning on the validation predicates. C10–C12: refinement to the last-writer-wins configuration; determinism (`LDet`).
* C13, C46: `ok` invariant over all histories (`LOk`) plus one theorem per undefined call.
* C14–C16, C18: sequence extraction (`LSeq`) composed with C01/C02. C17: status tables. C19: induction on columns (`CscProof`).
* C20: trace model of malloc/free, safety monitor, invariant over runs (`LMem`).
* C21–C24, C29, C42: closed form of the trajectories (`NLTraj`) and of everything evaluated on them (`NLEval`, `NLDyn`), for every reachable
  controller (`NLCall`). C25–C28: closed form of the finite-difference loops (`NLGrad`, `NLLoop`), then algebra to derivatives of the composite
  function of the decision vector (`NLSlope*`, `NLAcc`, `NLDynSlope`).
* C30–C35, C48, C50–C52: refinement of the non-linear controller (`NLRef`, `NLRun`, `NLObs`).
* C53: C21–C24 and C29 assembled into an equivalence of the two optimization problems. C54, C55: midpoint convexity of the tracking cost
  (`LUniq`), C01/C02, induction on the closed loop.
* C56: the row lemmas of `LQP` repeated with a tolerance (`LRowsE`), induction over the horizon. C57, C58: weak duality for convex QPs
  (`LCert`, on the specification of residuals and certificates in `SpecCert`) transported to trajectories by C01/C02/C03; C58's second half by
  unboundedness along a recession direction against C02's non-negative cost.
* C59–C62: the controllers' state machines, the statistics and the logger composed into one process (`World`). C59: simulation between the process and
  the process with one controller. C60: induction on histories with C37/C38's summaries; a second invariant says that the state of each controller is the one `l_play`/`n_life` reach with its own calls, which makes C14, C21, C22, C42 speak about what the getters answer (PropWorld5.v). C61: simulation that merges the copy with the original;
  ownership invariants. C62: closed form of the logger's output of a list of messages, per-call case analysis of the messages.
* C63: the same model on binary64 numbers; sums with at most one nonzero term need no rounding analysis, x*1 and x/1 are exact by arithmetic on significands.
* C64: a value map dbl -> Qc (+-m*2^e) that commutes with 0, 1, negation, products with a zero factor or left factor 1 and sums with a zero summand; a generic
  transfer lemma (`Exact.v`) shows entry by entry that the constraint matrix and bounds only use these, so the double-built rows read over Qc are the rows of the
  exact model of the mapped configuration, to which C01 applies.
* C65: C15 and C53 composed through a specification of "the same problem" (`SpecTwin.twin`), uniqueness by C54's convexity argument.
* C66: the binding tables as data, pybind11's two-round overload resolution as a function; parameter lists of one name clash pairwise (decided), so
  resolution is "the binding that fits"; calls characterised against the table of `SpecPy`; programs by induction.
* C67: `build` does not mention the control horizon beyond `i > ch` for i < ph, so steps and histories are equal as functions; the mapping loop of NLMPC leaves its matrix at step ph.
* C68: the refinement relation of the NLMPC holds after each kind of exception with another memory (first-call flag, retained point, slack); the rest of the
  state is a function of the other calls (`strip`).
* C69: loops threading a table that is perturbed and restored append the calls of one point per pass, so traces are closed-form lists; a parallel-loop
  invariant (no scalar law) shows equal answers give equal results.
* C70: Flocq's `round` to binary32 (FLT, nearest even) applied to the requested tolerance before it enters the model (`k_itol`, `k_etol` hold the value after the conversion to `float`); relative-error lemma plus C25/C26's exact characterisation of `r_feasible`; the default by bracketing.
* C74: an addition or multiplication of doubles is the exact one rounded (Flocq's `BinarySingleNaN` theorems, whose `spec_float` functions are the ones the model computes with); per-entry invariant "nominal, or nominal perturbed and put back, within 2^-51 B" through the same loops as C69, whose point lists (over `R`) are the reference; the findings by computation on the kernel.
* C75: the loops of `NLFun` repeated with the vector handed to each call (`NLBuf`), instantiated by convertibility to `NLFun`'s when the call ignores it; congruence of loops; invariant on the sizes of the two member vectors along NLopt's evaluations.
* C76: `SpecLoop` defines the closed loop (API calls, then periods that apply the returned command to the configured plant) as an inductive predicate; invariants by induction on it (every period starts in a reached object; the stored command is that of the last period), then C14, C16 and C56 per period; recursive feasibility by the shifted plan with its last command held, through C01.
* C77: `SpecNLoop`, the same for the non-linear controller and an arbitrary plant (a function of the last state and command, possibly different from the configured dynamics); per period C29 (the returned point satisfies the discretised dynamics), C31, C42; the warm start is the shifted decision vector of C30, checked against the dynamics rows of C24; recursive feasibility by the moved plan through C53.
* C78: `PropCount` repeats the statistics' step with `int` counters (undefined at INT_MAX), a simulation against `Profiler` as long as the counters fit, by induction over the history; a reset starts again.
* C79: a stream is modelled by its two sticky format flags and the list of printed items (`PropPrint`); the report is computed for an arbitrary history through C37's counters.
* C86: the object is modelled as a family of states indexed by the values of the user's variables (functions follow the variables, all other data are stored); an invariant relates it, under every history, to plain controllers whose functions were passed with the variables fixed.
* C87: spec `SpecStab` (what it is to ask for, and to be made to reach, a point of rest; the cost of one period). The moved-on plan is shown admissible and its cost computed by splitting off the first term of the tracking cost; the closed loop follows by induction over `control_run` (C76) with the optimality of each answer. `PropStab2` refutes the claim without the bounds of the last step by a three-period run whose optimality is proved by completing the square.
* C88: spec `SpecNLStab` (when plans can be improved on, what periods cost, the usual terminal constraint). Optimality transfer (C53) turns the solver's optimum into the best admissible plan; the improved plan of one period bounds the optimum of the next; induction over `nl_control_run` (C77). The terminal constraint is shown sufficient by moving the plan on one step.
* C89: `Examples` is the text of the three NLMPC programs of examples/ as calls (their constants arbitrary; a variable captured by reference, `v_pref` of ugv_ex.cpp, is the same objective registered again, C86, and since it is uninitialised at the first optimize() the theorems hold for every value); `SpecExamples` says what a run of a program is. A run is a control loop of C77, whose closed-loop theorems give the constraint on every plan and command; a failed period keeps the last command (C21). The user constraint of ugv_ex.cpp on row 0 of the matrix it is given is a condition on the measured state, which no command changes: hence `C89_ugv_inside` and `C89_ugv_stuck`. Printing, timing and the logger level are left out. `PropExamples5`: at the origin the equilibrium of C82 applies, so with optimal answers the oscillators stay (and runs of every length with such answers exist).
* C90: `ExampleQuad` is quadrotor_ex.cpp as calls and its constants; the configuration its history leaves is computed by the fold of section 2 (`setup_history`), hovering is checked admissible and at rest, then C01, C13, C14, C15, C54, C55, C58 apply.
* C91: `SpecTail` says when one controller continues another with one step less (`shorter`, `continues`), the steady start, the cost of the first period and a shrinking run; no new model. A plan of the short horizon preceded by the first period of the long one is a plan of the long one (`long_admissible`), the costs agree stage by stage but for what the first period fixes (`cost_split`, `rest_same`), so optimality transfers through C01, C02, C15 and uniqueness through C54; runs by induction on the number of periods. The condition on increment references is shown necessary by two concrete controllers over Qc.
* C92: `SpecHorizon` (`with_horizons`, `agree_upto`); admissibility of prefixes constraint by constraint, the cost as a shorter sum of non-negative stages, transfer through C01, C02, C15; the saturation of the control horizon because `frozen` is empty from ph-1 on. The condition on the input bounds is shown necessary by two concrete controllers.
* C93: `SpecTune` (`share`, `retuned`); the two optimality inequalities (C15) cross, since both costs are sums of the same three shares with one of them scaled.
* C94: `SpecSlack` (`free_to_move`, `rebounded`); near an optimal plan only the bounds it touches limit it (a finite minimum of small step sizes, over every step and component), and the cost is convex (C85), so no plan that respects the new bounds is better.
* C84, C85: on the admissible trajectories and the tracking cost (matrix identities for the change of coordinates; convexity of boxes and squares for mixtures), carried to the solver's problem by C01/C15, to the returned commands by C14 and C54.
* C83: the manual's problem (`SpecManual`) compared, constraint by constraint, with the admissible trajectories and the tracking cost of C01/C02; optima by C15, returned sequences by C14; the three differences shown on concrete controllers over the rationals. The non-linear problem of the manual is the subject of C24, C29, C53.
* C80–C82: on the admissible trajectories and costs of `SpecNLO` (multiplication of bounds by a non-zero factor, widening, the staying trajectory), carried to the solver's problem and the returned results by C53 and C21; the closed loop by induction on `SpecNLoop`.
* C71–C73: on the trajectories and costs of `SpecLMPC` (scaling of sums; multiplication by a non-zero factor in an ordered field; for C73 first and second variation of the cost along directions, optimality = vanishing first variation), carried to the solver's program and the returned results by C01, C02, C14, C15, C54.
* C36 integer arithmetic; C37, C38 induction over histories of records and resets, over `R`; C39 logger state machine; C40 algebra and induction
  on steps; C41 matrix powers of the augmented matrix, entire power series, variation of constants and the mean value theorem over `R`.

Nothing in the list is `partial` or `not_applicable`.

## 4. Modelled / not modelled

Modelled: Types.hpp (HorizonSlice, parameter structures, result structures), Dim.hpp, IMPC.hpp (all public calls), LMPC.hpp,
LMPC/ProblemBuilder.hpp, LMPC/LOptimizer.hpp, NLMPC.hpp, NLMPC/{Mapping,Model,Objective,Constraints,NLOptimizer,Base}.hpp, Profiler.hpp, Logger.hpp,
Integrator.hpp, Utils.hpp, python/pybind_export.cpp (exported methods, argument conversion, overload choice, returned types; pybind11's rules for these
are taken from its documentation and are part of the trusted reading), examples/*.cpp (what they ask of the controller; not their printing).

Not modelled:
* floating-point rounding and NaN in the theorems that assume `ScalarLaws` (see section 2; C63, C64 and the theorems without it cover doubles), overflow of counters other than those of the statistics (C78);
* the internals of OSQP, NLopt, Eigen (Eigen's `exp` is idealised to the exact power series) and of the allocator;
* `IComponent::checkOrQuit` (IComponent.hpp): the constructors initialise every component in `onSetup` before any public call, so it never fires; `LMPC::setConstraints(index, …)` (LMPC.hpp:328-340): calls a builder member that does not exist, cannot be instantiated;
* user callbacks that change state of their own while they run (other than the vector they write into, C75; variables changed *between* calls are covered, C86) or throw inside setters; `abs(e0)` in Objective.hpp:254 is read as the floating-point absolute value (unqualified name; the slack is always 0, C33); of log messages only severity and fixed text are kept;
* threads (the library has none); the digits iostreams print (the format flags in force are modelled, C79); wall-clock time (durations are arbitrary inputs);
* static versus dynamic sizing beyond the calls whose behaviour differs (C51): both are the same model with sizes as values.

## 5. Trusted base

* Coq 8.16.1's kernel (`coqc`; re-checked by `coqchk`).
* The reading of the C++ text into the model (cited per definition), and of the English properties into theorem statements.
* Axioms, from `Print Assumptions` on each theorem named in `MANIFEST.json`:
  * all theorems of C01–C36, C39, C40, C42–C58, C63–C69, C71–C73, C75–C77, C80–C94: **closed under the global context** (no axioms), except `C89_ugv_clear` (distances are real numbers);
  * C37, C38 (`Profiler.v`), `C89_ugv_clear`, C78 (`PropCount.v`), C79 (`PropPrint.v`), C59–C62 (`PropWorld*.v`, whose model contains the statistics) , C41 (`Discretize.v`) C70 (`PropTol.v`, over `R` with Flocq's rounding) and C74 (`PropDrift*.v`): the axioms of Coq's real numbers and nothing else:
    `ClassicalDedekindReals.sig_forall_dec`, `ClassicalDedekindReals.sig_not_dec`, `FunctionalExtensionality.functional_extensionality_dep`, and for
    `C41_blocks`, `C41_zero_order_hold`, `C41_zero_order_hold_disturbance`, `C41_solution_exists`, `C41_semigroup`, the theorems of C70 and those of C74 (except `C74_nominal_point`, `C74_only_the_perturbed_entry_refuted` and
    `C74_every_probe_moves_refuted`, which are closed under the global context) also `Classical_Prop.classic`;
  * `ScalarR.v` (the instance `R` of the scalar classes) uses the real axioms; only C74 depends on it.
* Flocq is used in `PropTol.v` and for C74 as a library of proved lemmas; it adds no axioms.
* Coquelicot is used in `Discretize.v` as a library of proved lemmas; it adds no axioms.

## 6. Wrong programs

`seeded/LOG.jsonl` records edits of the model made in a scratch copy as a realistic bug would change the program, with the theorems that failed to
prove, and the theorems tightened when none did.
