# Formal model of kotarot/sawatabi in Rocq (Coq 8.16.1)

Everything lives in `rocq/theories` (logical name `Verif`). Only the Coq standard library is used.
The list of properties is in `properties.jsonl`, the theorem(s) for each in `MANIFEST.json`
(both are generated by `tools/claims.py` + `tools/status.py`, which also checks that every theorem name exists).

## Modelling decisions

* **Python exceptions are values.** Every API method is a total function `state -> state * res A` where
  `res A = Ok a | Err exn`; the state component is what the object looks like when the call returns *or raises*.
  Exception safety is therefore a statement about the first component.
* **Dynamic typing.** Arguments whose type the code checks are modelled by sums with an "ill-typed" constructor, so
  the `TypeError` paths are part of the model.
* **Numbers** are exact rationals `Qc` (Leibniz equality, decidable, no axioms). Rounding is modelled for SawatabiSolver (`Rounded.v`: the solver with a rounding after every operation; C150 says when it is exact) and for to_physical without constraints and placeholders (`RoundedLogical.v`); everywhere else arithmetic is exact.
* **Dictionaries** are insertion-ordered association lists; python `set`s are duplicate-free lists in arbitrary order, and
  theorems quantify over all orders.
* **Interactions.** The eleven default columns of `_interactions_array` are always appended to / popped from together, so
  the model keeps them as a list of row records. Attribute columns are kept as separate lists (they can get out of step,
  and do, see C36).
* **Coefficients** are expressions over numbers and placeholders; evaluation under a feed dictionary may raise.
* **Clock, object ids, RNG, exp, external services** are oracles: parameters over which the theorems quantify.
* **Streaming**: Beam's runner is represented by an arbitrary finite history of windows (timestamp, elements) delivered to
  the stateful function; user callbacks are arbitrary functions that may raise.

## Plan per property

"Witness" means a concrete execution, evaluated in the kernel, on which the full property fails; the guarded `_partial`
theorem next to it says when the property does hold. The exact theorem names are in `MANIFEST.json`.

| property | what is modelled | how it is proved | files |
|---|---|---|---|
| C01 unique names | every public method of LogicalModel as an operation of a history (`History.v`) | invariant over histories; witness (two failing `to_physical`) | History, PropsHistory |
| C02 atomic rejection | the argument checks and the effect of add/update/remove, state returned on raise | case analysis on the first failing check | PropsInteractions |
| C03, C04, C06 add/update/remove | the same; a success condition (`iff`) and the exact effect | computation of the new row and columns; index lemmas | LogicalProofs, InteractionProofs, PropsInteractions |
| C05 default timestamp | the default argument as a value fixed at import (`env`) | witness; exact effect | PropsInteractions |
| C07, C08 pairs and default names | label order, `a*b` names | string lemmas (first separator) | PropsInteractions |
| C09-C11 to_physical | constraint models, merge, aggregation, index maps, purge; `energy` is a separate specification (Spec.v) | loop invariants for aggregation, merge and purge | EnergyProofs, PhysicalProofs, ToPhysicalProofs, PropsPhysical |
| C12 exception safety of to_physical | the state on raise | theorem without constraints; exact effect; two witnesses | PropsPhysical, PropsExactNames |
| C13, C14 index maps, labels | index loop; decimal rendering of indices | fold invariant; injectivity of rendering | PropsPhysical, PropsState |
| C15-C18 delete/fix | the loops over interactions and constraints | loop invariants, energy identities, witnesses | PropsVariables, PropsRejected |
| C19-C21 to_ising/to_qubo | the two loops, names with the clock | invariant over the processed prefix, ring identities, witness | ConvertProofs, PropsConvert, PropsExactConvert |
| C22-C25 merge | all of merge, both models' final states | energy of appended rows; renaming; witnesses | MergeProofs, PropsMerge, PropsRejected, PropsExactNames |
| C26-C30 constraints | the three classes, `to_model`, set operations, the dictionary | sums over pairs by induction; set lemmas | ConstraintProofs, PropsConstraints |
| C31, C32 from_pyqubo | the loop over the terms, the argument's own state | loop invariant; witnesses | PropsPyqubo |
| C33, C34, C80 declaring | `variables`, `append`, sizes | induction on shapes | PropsState, PropsDeclare |
| C35, C36, C63, C81 attributes | attribute columns as separate lists | column invariant; over histories; witnesses | PropsState, PropsHistory, PropsInteractions, PropsRagged |
| C37, C38, C64 physical model | to_bqm, to_polynomial, equality | sums over dictionaries | BqmProofs, PropsBqm |
| C39-C45, C65, C66 SawatabiSolver | the whole annealer; random numbers come from an arbitrary generator, `exp` is an arbitrary function | tracked energy = true energy by induction over sweeps; refinement of an abstract Metropolis process | Solver, SolverSpec, SolverProofs, PropsSolver |
| C46, C47 solve_npp_with_dp | the table and the backtracking | table invariants | Npp, NppSpec, PropsNpp |
| C48-C56, C68-C73, C84, C85 the stream | SolveDoFn.process for the five algorithms; an arbitrary history of windows, arbitrary callbacks | invariants over histories; refinement of the functional specification `outcomes` | Stream, StreamSpec, PropsStream, PropsPipeline, PropsAttenuation, PropsHandover, PropsExactStream |
| C57, C58, C60, C61, C76, C86 io and helpers | number filter, output, Pub/Sub paths, flatten, element-wise operations | induction on strings and nested lists | Services, ServicesSpec, PropsServices |
| C59, C74, C75, C77, C78 the other solvers | LocalSolver, DWaveSolver, OptiganSolver up to the external sampler | consequences of C09 and C37; minimality of enumeration | Services, PropsSolvers, PropsExactSolvers |
| C67 end to end | logical model, to_physical, SawatabiSolver composed | C09 + C39 | PropsSolver |
| C62, C79, C87 streaming number partitioning | sample/algorithm/npp_window.py composed with the stream, the logical model and a solver | invariant over histories of windows: the active interactions are exactly the (faded) pairs | NppStream, NppStreamSpec, PropsNppStream, PropsNppSolve, PropsNppAttenuation |
| C82, C83 streaming travelling salesman | sample/algorithm/tsp_window.py | energy of penalties + distance; exchange argument for optimality; witness | Tsp, TspSpec, TspProofs, TspTours, PropsTsp |
| C88, C89 text file to answers | read_from_text_as_number, index assignment, reassigned timestamps and Beam's windows composed with C62, C79, C87 | composition; the positions of the file in a window are the elements of the stream in its range; counting positions | NppStream (npp_elements), NppStreamSpec (at_positions, outcome_of), PropsNppPipeline |
| C90-C92 equality | == of logical models and constraints; models from arbitrary histories | == decides a relation on content (EqualitySpec.v); a congruence proved method by method; the coefficients of a physical model are determined by its energies; witness | EqualitySpec, ModelEq, ProperProofs, ConstrKeeps, PropsEquality, AlikeProofs, PropsAlike |
| C93 variable class, C94 offset | models from arbitrary histories | invariants, method by method; witnesses | PropsClass, PropsOffset |
| C95-C97 several models, shared constraints and sets | a heap of sets, constraint objects and models; programs are arbitrary sequences of statements | refinement: content of the heap = value-level model; frame lemma per statement; witnesses | ConstrFrame, Heap, HeapSpec, HeapProofs, PropsPrograms |
| C98, C99 which assignments the annealer can return | Solver.v unchanged; random numbers are constructed | reachability of the Metropolis walk on spin vectors (two sweeps change one spin; a counting argument on the cube for sequential sweeps), then a generator that plays the walk; witness for sequential mode | ReachProofs, ReachSolve, SeqReach, PropsReach |
| C100 constraints of sufficient strength | composition of to_physical, constraints and solvers | a violated constraint costs at least its strength; comparison of sums; witness that the bound is sharp | PropsPenalty |
| C101 number partitioning with the partial algorithm | sample/algorithm/npp_partial.py (filter and options) composed with the stream | exact list of the pairs in the model of each window, by induction over the windows; witness of a wrong answer | PropsNppPartial |
| C102 a Hamiltonian entered term by term | any list of terms, one add_interaction each | induction over the terms: acceptance, energy, physical coefficients, answers of the exact solver | PropsEntered |
| C103 n-hot from scratch | sample/model/constraint/n_hot_from_scratch.py, for any N and n | sums over pairs i<j, completing the square, first k ones as witness of the minimum | SampleModels, PropsSampleModels |
| C104 models of the solver samples | sample/solver/_solver_helper.py, the chain and the field for any N | minimum of a sum of bounded terms; the fixed models by computation for every clock | SampleModels, PropsSampleModels |
| C105 the energy determines the physical model | to_physical, energies as functions on legal assignments | coefficients recovered from energies at few points; zero coefficients are dropped | PropsDetermined |
| C106 only a missing placeholder makes to_physical raise | to_physical with constraints of any kind, names as strings | injectivity of the generated names (last parenthesis, first star), by induction over the rows | PropsConverts |
| C107 models with an n-hot constraint | sample/model/constraint/n_hot_constraint.py for any s and n, _create_qubo_model | energy in the number of ones; the odd difference of neighbouring squares shows that every variable occurs | SampleModels, PropsNHotSample |
| C108 fixing several variables | fix_variable in sequence, with and without to_physical in between | C18's exact effect applied to the model left by the first call; induction on the list of variables | PropsFixing |
| C109 a fixed variable is out of the model | fix_variable, to_physical, exact solver | C105 (a variable occurs iff the energy depends on it) and C75 on the model after the call | PropsFixing |
| C110 merge is a sum | merge, to_physical, objective | constraints are concatenated, energies add up; C105 turns equal energies into equal coefficients | PropsMergeSum |
| C111 a constraint, or its model merged by hand | add_constraint, to_model, merge, to_physical | to_model's model is reachable; C26-C28, C09, C105 | PropsMergeSum |
| C112 retry after a failed to_physical | to_physical after any number of failed calls | by induction on the failed calls: what the merged constraints add to the energy; PlaceholderError excluded from all other calls | PropsRetry |
| C113 selecting interactions | the DataFrame of all columns, a query language, both formats | semantics of queries as a relation; the rows of the table are those of the model; positions sorted | Select, PropsSelect |
| C114 | a model accepted by the exact solver is accepted by the others: refuted; exact condition | `stray`: a variable with a coefficient but no index; `fill_linear` stops at it; energies depend on exactly the variables that occur (C105) | PropsUndeclared |
| C115 | incoming/outgoing as set differences by timestamp, for all five algorithms | the stored elements are sorted after any history; both scans are filters on a sorted list | PropsExactStream |
| C116, C117, C118 invariance of SawatabiSolver | two runs of solve, on a model and on the model rewritten (unit, offset, labels) | simulation: every intermediate state of the second run is the rewritten state of the first | PropsUnits |
| C119, C120 only the energies matter to SawatabiSolver | two runs of solve, on two models with the same landscape (equal models, reordered models, a QUBO and its Ising form) | simulation: at every step the energy difference of a flip is the same function of the spins in both runs (calc_spec) | PropsLandscape |
| C121 printing | `__str__` and `__repr__` over arbitrary renderings of the parts | exact lines of the text by induction over the lines (splitting what was joined) | PropsText |
| C122 the publisher sample | its loop, observed for any number of rounds | closed form of the loop by induction over the rounds; composed with the number filter (C57) | PropsText |
| C123 time and profiling utilities | exact times; any function on any state | floor arithmetic; case analysis of the outcome | PropsText |
| C124, C125, C126 order of additions, what decides the physical model, equivalent ways to enter an interaction | lists of calls of add_interaction, update_interaction and remove_interaction followed by to_physical | exact condition for a list of calls to succeed (induction), invariance under permutation; two conversions with the same energies have the same coefficients (C105) | PropsOrder |
| C127, C128, C129 deletion as setting to 0, solving by cases, solving after a conversion | delete_variable, fix_variable, to_ising, to_qubo followed by to_physical and the exact local solver | objective of the changed model as a function of the objective of the model (C15, C17, C19, penalties without a variable); composed with the exact solver (C75) | PropsBranch |
| C130 early or late | a filled version of a call and of a model; the API on both sides | each operation commutes with filling (FillProofs), induction over the program | PropsFill |
| C131 sweep | repeated to_physical with arbitrary feeds | the model after a call has the same active rows; induction over the calls | PropsFill |
| C132 more reads only add reads | Solver.v | reads on the same generator: prefix by induction on the reads; rows of the aggregated set only grow | PropsReads |
| C133 given state and cold reads | Solver.v, SolverSpec.v | the read as a Metropolis run from the given state; invariants of visits | PropsReads |
| C134 PyQUBO expressions | any expression of degree two over declared variables; sample/model/model.py 156-194 for any size | contract of the compiler, C31, C09 and C75 composed; completing the square for the samples | PropsExpression |
| C135 Updates and removals of different interactions are independent | update_interaction, remove_interaction, add_interaction | each call acts on the rows as a map at its name; the maps of different names commute; success of a call depends on its own row only | PropsCommute |
| C136 A model without couplings is solved exactly by annealing with a cold last sweep | SawatabiSolver.solve | in the last sweep every variable is visited once and settles, since its gain depends on its own value only; settled in every variable is least, by summing over the linear terms | PropsUncoupled |
| C137 Which value of a variable is called which does not matter to SawatabiSolver | SawatabiSolver.solve | simulation: the two runs have the same differences of energy, the same requests for random numbers and states that differ by the description | PropsGauge |
| C138 to_physical in between | simulation relation between the two runs (equal fields, equal interactions in force) kept by every call; C125 for the physical models | refuted for fix_variable after removal; proved otherwise | PropsEager |
| C139 exception classes | ordered list of causes as a separate specification; the first that holds decides; case analysis of the checks | proved | PropsErrors |
| C140 getters | constructors, type checks, getters over histories | frame lemmas per call, induction on the history | Entry, PropsEntry |
| C141 failing windows | process, resolve_outgoing, filter, attenuation | case analysis, induction on the filtered list, first-problem lists | PropsEscape |
| C142 rebuilding | all operations of the logical model, to_physical, SawatabiSolver | program from the content of a model, effect of its calls, C125 and C119 | PropsRebuild |
| C143-C145 starting the samples | the option handling of the six streaming samples, the subscriber's callback | case analysis over the options; induction over the messages; witnesses | Launch, PropsLaunch |
| C146-C148 the texts | the texts of npp_unmapping and tsp_unmapping, the messages of process, the output file, repr of a physical model | the lines of a text determine it; the digits of a line determine the numbers (induction over texts); witnesses | Layout, PropsLayout |
| C149 from file to text | the number partitioning samples from the lines read to the texts written | composition of C88 (answers of the windows of a file) with C146 (what the texts say) | PropsFiles |
| C150 floating point | the solver with a rounding after every operation; doubles as a rounding that leaves m * 2^e with abs m at most 2^53 alone | a grid of multiples of 2^(e-2) closed under all operations, bounds by the sum of absolute values, induction over flips, sweeps and reads | Rounded, PropsRounded |
| C151 rounding errors | the solver of Rounded.v; relative error of every operation | Rounded.v's solver; every intermediate result is compared with the exact one by a relation that counts roundings (near), by induction over sums, flips, sweeps and reads; the conversion of the model to spins is compared entry by entry | PropsError |
| C152 shape under rounding | the solver of Rounded.v | Rounded.v's solver with an arbitrary rounding; the keys of the converted model do not depend on numbers (alike), flips keep length and spins (placed), the aggregation does not look at energies (aggregate_mute) | PropsError |
| C153 refused expressions | from_pyqubo | LogicalModel.v's from_pyqubo; each term is refused without effect or loaded under its default name (step_cases), induction over the terms (loop_cases) | PropsLoad |
| C154 physical models by hand | PhysicalModel, to_bqm, to_polynomial, solve | Physical.v's add_interaction on Entry.v's constructor; induction over the calls from the left, then the C37/C38 theorems and the coefficient loop of solve | PropsDirect |
| C155 rounding from the logical model on | to_physical with rounding, solve with rounding | RoundedLogical.v; the rounded sum, the exact sum and the sum of magnitudes of every key side by side, induction over the interactions; then C151_error through near_trans | RoundedLogical, PropsLogicalError |
| C156 integers | to_physical and solve with rounding | all partial sums stay on the grid of the unit and below 2^53 of it (rows_exact); then C150_energy and C155_energy without error | PropsIntegers |
| C157 temperatures with rounding | annealing with rounding | the history is the iterated rounded product (forward_sweeps, reverse_sweeps); induction on the number of roundings | PropsCooling |
| C158 solver sample | the eight calls of sample/solver/sawatabi_solver.py | the physical models are computed once for any clock; C41_succeeds, C40 and C39 applied to them; the formulas by ring | SampleCalls, PropsSampleCalls |
| C159 random model | create_n_variable_random_model and its decorator, for any n | the nested loops enter a list of different terms (C102); counting and sums by induction | SampleCalls, PropsRandomModel |
| C160 lookup by name | variables and get_variables_by_name after any declarations | induction on the calls | PropsLookup |

All properties of the list can be expressed in the model; none is `not_applicable`.

## Trusted base

* Coq 8.16.1's kernel (including `vm_compute`, used in examples and witnesses), and the build itself.
* `Print Assumptions` is printed after every property theorem at the end of each `Props*.v` file. Every one answers
  **"Closed under the global context"**: no axiom, no parameter, no `Admitted`. The development declares none, and uses
  only the Coq standard library. (The `ssrunder` constants that a listing of the compiled library shows come with
  Coq's `ssreflect` files, which `Lia`/`ring` load; no theorem depends on them.)
* That the definitions say what the Python code does. Each carries the lines it models. `seeded/LOG.jsonl` records
  how the theorems react when the definitions are changed the way a bug would change the code.
* The meaning of the properties rests on the definitions in the specification files (`Spec.v`, `SolverSpec.v`,
  `NppSpec.v`, `StreamSpec.v`, `ServicesSpec.v`, `NppStreamSpec.v`, `TspSpec.v`, `EqualitySpec.v`, `HeapSpec.v`), which use the data types of the model
  and, where a property speaks about a function of the API, that function, but not its helpers.

## What is modelled

| file in /repo | modelled | not modelled |
|---|---|---|
| sawatabi/model/logical_model.py | `variables`, `append`, `add_`/`update_`/`remove_interaction`, `delete_variable`, `fix_variable`, `add_`/`remove_constraint`, `offset`, `from_pyqubo`, `to_physical`, `merge`, `to_ising`, `to_qubo`, the conversion between types, sizes, `get_attributes`, `get_attribute`, `get_variables_by_name`, selecting the interactions of a variable, `select_interaction` for queries of comparisons with literals and and, or, not | the rest of pandas' query language and its parser; how the parts of `__str__` and `__repr__` are rendered; warnings |
| sawatabi/model/physical_model.py | `add_linear`/quadratic as used by to_physical, index maps, `to_bqm`, `to_polynomial`, `__eq__`, `__str__`, `__repr__` | how numbers and dictionaries are rendered |
| sawatabi/model/abstract_model.py, base_mixin.py, constants.py | model types, vartype conversion, argument type checks (as ill-typed constructors of argument types), `remove_leading_spaces`, `append_prefix` | white space outside ASCII |
| sawatabi/model/constraint/*.py | construction with all checks, add/remove variables, `to_model` | `__repr__` (a Placeholder strength is rejected by the constructor, as modelled) |
| sawatabi/algorithm/abstract_algorithm.py and the five algorithms | `SolveDoFn.process`, the index DoFn, `WithTimestampStr`, output decoration, the order of the stages | Beam itself (state, bundles and windows are represented as described above); the options dictionary apart from the keys used |
| sawatabi/algorithm/io.py | number filter, Pub/Sub paths and codecs | reading and writing files, the network |
| sawatabi/solver/sawatabi_solver.py | all of it | wall-clock times in the sample set's info; progress output |
| sawatabi/solver/local_solver.py, dwave_solver.py, optigan_solver.py | checks, what is sent, what is made of the answer, the configuration lookup | the samplers (dimod's exact solver is modelled as enumeration; the others are arbitrary functions), HTTP and gzip |
| sawatabi/utils/npp.py, functions.py | all of npp.py; flatten and element-wise operations | |
| sawatabi/utils/time.py, profile.py | all of both; the clock is an oracle | |
| sample/pubsub/publish_pubsub.py | the loop and its messages | the command line, Pub/Sub, the layout of random texts and cities |
| sample/pubsub/subscribe_pubsub.py | the callback | the command line, the Pub/Sub client |
| sample/algorithm/npp_window.py (and npp_delta, npp_incremental, npp_partial, npp_attenuation) | mapping, solving, unmapping, composed with the stream; what is made of the options; the text of the answers | argparse; the text of the Dataflow arguments |
| sample/algorithm/tsp_window.py | mapping, solving, unmapping, composed with the stream; what is made of the options | pyqubo's `compile` (a contract, and a reference compiler that meets it), geopy's distance (an arbitrary function), how the input is rendered in the text |
| sample/model/model.py | the two PyQUBO models, for any size (PropsExpression) | printing; the other functions are fixed sequences of modelled calls |
| sample/model/constraint/n_hot_constraint.py | both functions as one, for any s and n | the command line, the printing |
| sample/model/constraint/n_hot_from_scratch.py | the ten functions as one, for any N and n | the command line, the printing |
| sample/solver/_solver_helper.py | the model-building functions | printing |
| sample/solver/sawatabi_solver.py | the eight calls | printing |
| sample/utils/profile.py | create_n_variable_random_model and its decorator | printing |
| tests/ | the deterministic ones are replayed on the model (Conformance*.v, see below) | those of the samplers, of printing and of the command line |
| the other samples | | everything |

## Conformance of the model

`Conformance.v`, `ConformanceModel.v` and `ConformanceRun.v` translate the repository's own unit tests (models,
operations, conversions, constraints, physical models, SawatabiSolver, LocalSolver's exact solver, the stream
algorithms, number partitioning and the helper functions) into calls of the model and check by computation that every
assertion of the tests holds of it. This is a validation of the model against the code, not a proof of any property,
and no property counts it. Where a test depends on the wall clock or on a random generator the oracle is a fixed one.
One difference was found in this way and corrected: Beam refuses a Pub/Sub path without project or topic (C86).

## Simplifications

* Floating-point numbers are exact rationals (SawatabiSolver and to_physical are also modelled with rounding, `Rounded.v`, `RoundedLogical.v`); `nan` appears only as the value of an absent attribute.
* Objects are values, except in `Heap.v`. Elsewhere two models do not share parts, except where a definition says so:
  `merge` and `from_pyqubo` return both objects, `solve` returns the caller's initial states, and SolveDoFn's stored
  model is the object map_fn works on. `Heap.v` has models, constraints and sets as objects with addresses; C95_calls,
  C95_merge and C95_faithful justify treating them as values one model at a time. A constraint's set is also shared in
  `get_variables()`, which hands out the set itself: a program that changes it is covered by `SSetAdd`/`SSetDiscard`
  on that address.
* pyqubo variables are identified by label and class, as in their `__eq__`/`__hash__`. Python sets of variables are
  duplicate-free lists; theorems about them hold for every order.
* Exceptions carry their class only.
* Strings are Coq strings (bytes); Python's order on labels is the byte order, which agrees with the code point order
  of UTF-8.
