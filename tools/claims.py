#!/usr/bin/env python3
"""Single source for properties.jsonl and MANIFEST.json (run from anywhere)."""
import json, os, re, sys

ROOT = os.path.dirname(os.path.dirname(os.path.abspath(__file__)))
LM = "sawatabi/model/logical_model.py"
PM = "sawatabi/model/physical_model.py"
SS = "sawatabi/solver/sawatabi_solver.py"
AA = "sawatabi/algorithm/abstract_algorithm.py"
NP = "sawatabi/utils/npp.py"
CN = "sawatabi/model/constraint/"

P = []


def prop(id, title, statement, quantifier, why, anchors):
    P.append(dict(id=id, title=title, statement=statement, quantifier=quantifier, why_tests_cant=why, anchors=anchors))


prop("C01", "Interaction names stay unique",
     "In any logical model obtained from an empty one by any sequence of calls to variables/append/add_interaction/update_interaction/remove_interaction/delete_variable/fix_variable/add_constraint/remove_constraint/offset/from_pyqubo/to_ising/to_qubo/to_physical, whether or not individual calls raise, no two interactions carry the same name, and every interaction's key, body and variables agree.",
     "every finite history of API calls with arbitrary (well- and ill-typed) arguments, including calls that raise",
     "Tests run a handful of short histories; uniqueness has to survive every interleaving of successful and failing calls.",
     [LM + ": add_interaction, update_interaction, remove_interaction, fix_variable, to_ising, to_qubo, to_physical"])
prop("C02", "A rejected add/update/remove leaves the model as it was",
     "If add_interaction, update_interaction or remove_interaction raises, every observable part of the logical model is unchanged (for models whose attribute columns are aligned).",
     "every model state and every argument combination",
     "There are unboundedly many argument combinations; tests only check that an exception is raised, not that state is untouched.",
     [LM + ": add_interaction, update_interaction, remove_interaction"])
prop("C03", "add_interaction adds exactly one active interaction",
     "When add_interaction succeeds, exactly one interaction is added, at the end, active and dirty, with the given coefficient, scale, timestamp (now if omitted) and attributes, under the given name or the default name of its target; all other interactions, their attributes, variables, offset and constraints are unchanged; it succeeds iff the arguments are well-typed and the name is not in use (removed ones count as in use).",
     "every model state and argument combination",
     "Needs the frame condition for all other interactions and attribute columns of arbitrary models.",
     [LM + ": add_interaction, _get_interaction_info_from_target"])
prop("C04", "update_interaction changes only what was asked",
     "When update_interaction succeeds on an existing interaction, the coefficient/scale/attributes that were passed take the new values, the others keep their old ones, the interaction is marked dirty, and no other interaction changes.",
     "every model state, target/name and subset of updated fields",
     "Frame condition over arbitrary models.",
     [LM + ": update_interaction"])
prop("C05", "update_interaction without a timestamp stamps the time of the call",
     "An update that does not pass a timestamp records the time of the update (as add_interaction does).",
     "every model state, every clock",
     "Depends on the relation between import time and call time; tests run within milliseconds of import.",
     [LM + ": update_interaction (default argument timestamp=current_time())"])
prop("C06", "remove_interaction is logical, idempotent and local",
     "remove_interaction marks exactly the named interaction removed; it no longer contributes to the energy; removing again is the same as removing once; adding or updating under that name raises ValueError until to_physical purges it, after which the name can be added again.",
     "every model state and every target/name",
     "Universally quantified over models and the pending-removal protocol.",
     [LM + ": remove_interaction, add_interaction, update_interaction, to_physical"])
prop("C07", "A pair target is unordered",
     "For distinct variables x and y, add/update/remove/get_attributes with target (x, y) and with (y, x) have exactly the same effect and result.",
     "every model, every pair of variables with different labels",
     "Lexicographic normalisation must be right for all label pairs.",
     [LM + ": _get_interaction_info_from_target"])
prop("C08", "Default names do not confuse different interactions",
     "Two targets over variables whose labels contain no '*' get the same default name iff they denote the same interaction (same set of labels).",
     "all targets over all '*'-free labels",
     "String-level injectivity over infinitely many labels.",
     [LM + ": _get_interaction_info_from_target"])
prop("C09", "to_physical preserves the energy",
     "The physical model returned by to_physical has, for every assignment, energy -sum(coefficient*scale*product of variables) over active interactions + offset + the energy of every constraint's own model, with placeholders substituted.",
     "every logical model, placeholder dictionary and variable assignment",
     "Requires induction over arbitrary interaction lists and constraint lists; tests compare a few dictionaries.",
     [LM + ": to_physical, merge", PM + ": PhysicalModel"])
prop("C10", "Physical coefficients are the per-key sums, without zeros",
     "In the physical model each linear/quadratic key occurs once, its coefficient is the sum of coefficient*scale over active interactions (including those of the constraints) with that key, it is non-zero, and keys whose sum is zero are absent.",
     "every logical model and placeholder dictionary",
     "Aggregation over arbitrarily many interactions.",
     [LM + ": to_physical"])
prop("C11", "to_physical does not disturb the logical model",
     "After a successful to_physical the logical model has the same type, variables, offset, deleted/fixed sets, constraints and active interactions (same order, same values, same attributes) as before; only removed interactions are purged and dirty flags cleared (provided no pending removal is named like an interaction of a constraint's own model). A second to_physical, whenever it is made, returns an equal physical model and changes nothing more.",
     "every logical model and placeholder dictionary",
     "The save/merge/restore dance must be exact on all models with all constraint lists.",
     [LM + ": to_physical"])
prop("C12", "to_physical is exception safe",
     "If to_physical raises (e.g. a placeholder value is missing) the logical model is unchanged.",
     "every logical model and placeholder dictionary",
     "Needs reasoning about every raising point.",
     [LM + ": to_physical"])
prop("C13", "Index maps are inverse bijections onto 0..n-1",
     "If the declared variable labels are pairwise distinct, label_to_index and index_to_label of a physical model are inverse bijections between the indexed labels and 0..n-1, in declaration order; the indexed labels are exactly the declared, non-deleted labels that occur in a non-zero interaction.",
     "every logical model whose declared labels are distinct",
     "Quantifies over all shapes, deletions and interaction sets.",
     [LM + ": to_physical"])
prop("C14", "Declared labels are distinct",
     "Variables declared by name (names containing no '[') have pairwise distinct labels, within one array and across arrays.",
     "all sequences of declarations, all shapes",
     "Injectivity of label rendering over all indices.",
     [LM + ": variables, append", "pyqubo.Array.create (external)"])
prop("C15", "delete_variable silences the variable and nothing else",
     "After a successful delete_variable(x) no active interaction of the model mentions x, the energy for any assignment equals the previous one with every interaction touching x dropped, interactions not touching x are unchanged, and x has no index in the next physical model.",
     "every model, variable and assignment",
     "All interaction lists.",
     [LM + ": delete_variable, select_interactions_by_variable"])
prop("C16", "delete_variable works on models with constraints",
     "delete_variable(x) succeeds on every model, removing x from the constraints that contain it.",
     "every model with any set of constraints",
     "Depends on which constraints mention the variable and on their class.",
     [LM + ": delete_variable", CN + "*: remove_variable"])
prop("C17", "fix_variable substitutes the value",
     "After a successful fix_variable(x, v) the energy for every assignment equals the previous energy at the assignment with x := v, and no active interaction mentions x.",
     "every model whose interactions touching x are all active, every legal value and every assignment",
     "Algebraic identity for all coefficient lists.",
     [LM + ": fix_variable"])
prop("C18", "fix_variable ignores removed interactions",
     "Interactions that were removed before fix_variable do not influence the energy afterwards.",
     "every model with pending removals",
     "Interaction between pending logical removal and fixing is a state-history property.",
     [LM + ": fix_variable, select_interactions_by_variable"])
prop("C19", "to_ising/to_qubo preserve energy differences",
     "When all scales are 1, converting the model type changes the energy by a constant only, under x = (s+1)/2.",
     "every unit-scale model with numeric coefficients, every pair of assignments",
     "Algebraic identity for arbitrary interaction lists, through a loop that mutates the list it converts.",
     [LM + ": to_ising, to_qubo, _update_variables_type"])
prop("C20", "to_ising/to_qubo preserve the energy exactly",
     "Conversion leaves the energy of corresponding assignments unchanged, offset included, for any scale.",
     "every model and assignment",
     "Tests pin the numbers the code produces; only the algebraic identity shows they are not the same Hamiltonian.",
     [LM + ": to_ising, to_qubo"])
prop("C21", "Type conversion round trip",
     "to_ising followed by to_qubo (or the converse) restores the model type and the exact energy function, offset included, for unit-scale models.",
     "every unit-scale model with numeric coefficients",
     "Composition of two list-mutating loops.",
     [LM + ": to_ising, to_qubo"])
prop("C22", "merge adds energies",
     "After a successful merge of two models of the same type the energy is the sum of the two energies for every assignment, and other is unchanged; if the types differ, other is converted first and the sum is with the converted model.",
     "every pair of models and every assignment",
     "All pairs of interaction lists with arbitrary name clashes.",
     [LM + ": merge, _convert_mtype"])
prop("C23", "merge takes the union of variables at the elementwise maximum shape",
     "After a successful merge every variable of either model is declared with the elementwise maximum shape; models whose shared variable has different dimensions are rejected and self is unchanged.",
     "every pair of models",
     "All variable dictionaries and shapes.",
     [LM + ": merge, append", "sawatabi/utils/functions.py: elementwise_max, elementwise_sub, elementwise_add"])
prop("C24", "merge keeps names unique",
     "If names are unique in both models they are unique in the merged model.",
     "every pair of models, including merging a model with itself or repeatedly",
     "Depends on the history of merges.",
     [LM + ": merge"])
prop("C25", "A rejected merge changes nothing",
     "If merge raises, both models are unchanged.",
     "every pair of models",
     "Needs every raising point.",
     [LM + ": merge"])
prop("C26", "N-hot constraint energy",
     "The model of an NHotConstraint has energy strength*((sum x - n)^2 - n^2): for positive strength, over 0/1 assignments with at least n variables, it is minimal exactly when n variables are hot, whatever the iteration order of the variable set.",
     "all variable sets, n, strengths, assignments, set iteration orders",
     "Quadratic expansion over arbitrary finite sets.",
     [CN + "n_hot_constraint.py: to_model"])
prop("C27", "Zero-or-one-hot constraint energy",
     "The model of a ZeroOrOneHotConstraint has, on 0/1 assignments, energy strength*(sum x)*(sum x - 1): zero iff at most one variable is hot, positive otherwise (positive strength).",
     "all variable sets, strengths, assignments, iteration orders",
     "Quadratic expansion over arbitrary finite sets.",
     [CN + "zero_or_one_hot_constraint.py: to_model"])
prop("C28", "Equality constraint energy",
     "For disjoint variable sets the model of an EqualityConstraint has, on 0/1 assignments, energy strength*(sum x - sum y)^2: zero iff both sides have the same number of hot variables. Overlapping sets are rejected with an exception.",
     "all variable sets, strengths, assignments, iteration orders",
     "Quadratic expansion over arbitrary finite sets.",
     [CN + "equality_constraint.py: to_model"])
prop("C29", "Constraint variable sets behave as sets",
     "add_variable unions, remove_variable subtracts, a removal naming an absent variable raises and changes nothing, and adding twice is adding once.",
     "all variable sets and argument forms",
     "Universally quantified set laws with exceptions.",
     [CN + "*: add_variable, remove_variable, _check_variables_and_to_set"])
prop("C30", "Constraint dictionary",
     "add_constraint replaces any constraint with the same label and touches no other; remove_constraint undoes it; removing an unknown label raises KeyError and changes nothing.",
     "every model and constraint",
     "All dictionaries.",
     [LM + ": add_constraint, remove_constraint"])
prop("C31", "from_pyqubo loads the expression's energy",
     "Loading a compiled QUBO into a fresh QUBO model with its variables declared gives a model whose energy is the QUBO's energy for every assignment.",
     "every compiled QUBO (any number of terms, with placeholders) and assignment",
     "Induction over the term list.",
     [LM + ": from_pyqubo"])
prop("C32", "from_pyqubo is additive and does not modify its argument",
     "Loading into a model with an existing offset adds the energies, and the passed compiled model is not modified (it can be loaded again into another model with the same result).",
     "every model and compiled QUBO",
     "Aliasing and overwrite depend on history.",
     [LM + ": from_pyqubo"])
prop("C33", "append grows an array and keeps old labels",
     "append with a shape of the same dimension and non-negative entries keeps every existing label, in order of indices, and declares the elementwise sum shape; other variables and interactions are unchanged.",
     "every model, name, shape",
     "All shapes and dimensions.",
     [LM + ": append"])
prop("C34", "Size accounting",
     "get_all_size is the number of declared variables; get_size is the number of declared variables that are neither deleted nor fixed, when deleted/fixed variables are declared, and no variable is both deleted and fixed.",
     "every model",
     "All histories of declare/delete/fix.",
     [LM + ": get_size, get_all_size"])
prop("C35", "Attributes read back",
     "An attribute passed to add_interaction, or a known attribute passed to update_interaction of an existing interaction, is what get_attributes/get_attribute return for that interaction until changed; attributes of other interactions are unaffected; unset ones read NaN.",
     "every model, attribute dictionary and history",
     "Column alignment invariant over histories.",
     [LM + ": add_interaction, update_interaction, get_attributes, get_attribute"])
prop("C36", "A new attribute introduced by update_interaction is kept",
     "An attribute key first introduced by update_interaction is returned by get_attributes and later interactions can be added, selected and converted normally.",
     "every model and later history",
     "Fails only after a specific sequence of calls.",
     [LM + ": update_interaction (attrs not registered)"])
prop("C37", "to_bqm has the physical energy",
     "The BQM produced by to_bqm has, for every assignment, exactly the physical model's energy -sum(h x) - sum(J x y) + offset, the matching vartype, and exactly the variables and pairs of the model; to_bqm fails only for an interaction of a variable with itself, which no logical model produces.",
     "every physical model and assignment",
     "All coefficient dictionaries.",
     [PM + ": to_bqm"])
prop("C38", "to_polynomial has the physical energy without offset",
     "When every interaction label is indexed, to_polynomial succeeds and its value on the index-ordered 0/1 vector equals the physical energy minus the offset; otherwise it raises KeyError.",
     "every physical model and assignment",
     "All coefficient dictionaries and index maps.",
     [PM + ": to_polynomial"])
prop("C39", "SawatabiSolver reports the true energy of each sample",
     "For every model, every random stream, any schedule and pick mode, and any initial states with legal values, the energy reported with each sample equals the physical energy of that sample.",
     "every physical model with all labels indexed, all options accepted by solve, all RNG outcomes",
     "Incremental energy tracking must be right along every random walk.",
     [SS + ": solve, annealing, calc_energy_diff"])
prop("C40", "SawatabiSolver samples are well-formed",
     "Each returned sample assigns every indexed variable exactly one value, in {-1,1} for Ising and {0,1} for QUBO; num_reads samples are returned.",
     "every model, options, RNG outcome",
     "All random walks.",
     [SS + ": solve, annealing"])
prop("C41", "SawatabiSolver never runs out of random numbers and keeps full histories",
     "Acceptance tests never index outside the pregenerated random array, each sweep visits the picked variables, and with history keeping the three histories have one entry per sweep.",
     "every model, options, RNG outcome",
     "Index safety over all walks.",
     [SS + ": annealing"])
prop("C42", "Acceptance rule",
     "A proposed flip that lowers or keeps the energy is always accepted; one that raises it is accepted iff the drawn random is below the Boltzmann factor; a sweep of sequential/random picking in which nothing was accepted ends in a strict local minimum.",
     "all states, temperatures, random draws",
     "All states.",
     [SS + ": is_acceptable, calc_energy_diff, annealing"])
prop("C43", "Cooling schedule",
     "In forward annealing the temperature at sweep k is initial_temperature*cooling_rate^k; in reverse annealing it starts at 1e-9, is reverse_temperature*(1-cooling_rate^k) after k sweeps up to reverse_period, and is multiplied by cooling_rate at each later sweep.",
     "all parameters and sweeps",
     "All sweep counts.",
     [SS + ": annealing"])
prop("C44", "SawatabiSolver argument validation",
     "An empty model, an invalid pick mode, a wrong number of initial states and reverse options without the required entries are rejected with ValueError or TypeError before anything is sampled or changed; every other combination (non-negative num_sweeps and seed, positive temperatures, complete initial states) returns a sample set.",
     "all argument combinations",
     "All combinations.",
     [SS + ": solve"])
prop("C45", "Determinism under a seed",
     "Two runs with the same non-None seed draw the same random numbers.",
     "all seeds including 0",
     "Tests use one seed.",
     [SS + ": solve"])
prop("C46", "NPP dynamic programming is optimal",
     "For non-negative integers solve_npp_with_dp returns a split of the input positions into two groups; the flag is true iff an equal-sum split exists; otherwise the difference of the returned split is the minimum possible.",
     "all lists of non-negative integers",
     "Exponentially many inputs; correctness is an induction.",
     [NP + ": solve_npp_with_dp"])
prop("C47", "NPP enumeration is complete and duplicate-free",
     "With enumerate_all on two or more positive integers every group of positions that is the lighter (or equal) side of an optimal split is returned exactly once, in ascending order, together with its complement.",
     "all lists of two or more positive integers",
     "Completeness over all subsets.",
     [NP + ": solve_npp_with_dp"])
prop("C48", "Outdated windows are dropped without side effects",
     "A window whose timestamp is older than the last processed one yields exactly one message and leaves the stored timestamp, elements, model and sample set unchanged; stored timestamps never decrease.",
     "all histories of windows in any arrival order",
     "All schedules.",
     [AA + ": SolveDoFn.process"])
prop("C49", "Exactly one output per window, state bags hold at most one value",
     "For every history of non-empty windows with the window, delta and incremental algorithms (and partial with a filter that answers) no exception escapes, whatever the user's functions do; with every algorithm each window that does not raise yields exactly one output (solution, failure or outdated message), and each state bag holds at most one value.",
     "all histories, all user callbacks including raising ones",
     "All schedules and failures.",
     [AA + ": SolveDoFn.process"])
prop("C50", "Window/delta/attenuation: incoming and outgoing are exact set differences",
     "For sorted in-order windows whose content is determined by a timestamp range, incoming is exactly the new elements, outgoing exactly the dropped ones, so previous - outgoing + incoming = current; over a whole history of sliding or fixed windows every element is incoming exactly once, in chronological order.",
     "all streams of elements with timestamps, all window sizes and periods",
     "All streams.",
     [AA + ": SolveDoFn.process resolve_outgoing/resolve_incoming"])
prop("C51", "Incremental accumulates everything",
     "After any history of non-outdated windows the incremental algorithm's elements are the sorted multiset of everything received so far, and no element is ever outgoing.",
     "all histories",
     "Induction over histories.",
     [AA + ": SolveDoFn.process", "sawatabi/algorithm/incremental.py"])
prop("C52", "Incremental reports every new element as incoming",
     "Each received element is reported incoming exactly once.",
     "all histories including late elements",
     "Only late or equal timestamps break it.",
     [AA + ": SolveDoFn.process"])
prop("C53", "Partial keeps exactly the filtered previous elements",
     "With the partial algorithm the elements of a window are, sorted, the previous elements satisfying filter_fn together with the received ones, and outgoing reports the previous elements that were dropped.",
     "all histories and filters",
     "All filters.",
     [AA + ": SolveDoFn.process", "sawatabi/algorithm/partial.py"])
prop("C54", "Attenuation scales",
     "With the attenuation algorithm every interaction's scale lies in [min_scale, 1], is a monotone function of its reference timestamp, is min_scale for the oldest and 1 for the newest, and is the point on the line between them (for every min_scale); if all reference timestamps are equal scales are unchanged.",
     "all models, timestamps and 0<=min_scale<=1",
     "All timestamp vectors.",
     [AA + ": SolveDoFn.process attenuation"])
prop("C55", "Failure isolation in the stream",
     "If map_fn raises, the stored model and sample set are kept; if solve_fn raises, the stored sample set is kept; later windows are processed normally.",
     "all histories, all failing callbacks",
     "All crash points.",
     [AA + ": SolveDoFn.process"])
prop("C56", "Global index assignment",
     "The n-th element of the input stream gets index n (0-based): indices are unique and consecutive.",
     "all input streams",
     "All streams.",
     [AA + ": IndexAssigningStatefulDoFn"])
prop("C57", "Number input filter",
     "Reading numbers keeps exactly the lines made of decimal digits (with an optional final newline), in order, with their decimal value, and never raises; numbers written with str() one per line are read back. (An interpreter with a limit on the digits of an int raises exactly when a number is longer.)",
     "all input lines",
     "All strings.",
     ["sawatabi/algorithm/io.py: _read_as_number"])
prop("C58", "Output decoration",
     "Each output is prefix + '[time] ' + result + suffix with the absent options omitted, one per result, in order.",
     "all outputs and option sets",
     "All strings.",
     [AA + ": _create_pipeline output part"])
prop("C59", "Optigan request/response consistency",
     "solve rejects Ising models and models without interactions and sends nothing then; otherwise exactly one request is sent, whose polynomial evaluates on every 0/1 vector to the energy minus the offset; each returned vector becomes a sample in which the i-th value goes to the variable of index i, and when the service returns the values of the polynomial, reported energy plus offset is the physical energy; a status other than 200 is an error. The request goes to the endpoint and token given to the constructor if both are given, else to those in the configuration file named there, and only else to those in the home directory's file.",
     "all physical models and service responses",
     "All models and responses.",
     ["sawatabi/solver/optigan_solver.py: solve"])
prop("C60", "Model type and vartype are inverse",
     "Model type to vartype and back is the identity, and invalid strings raise ValueError.",
     "all strings",
     "All strings.",
     ["sawatabi/base_mixin.py: _modeltype_to_vartype, _vartype_to_modeltype"])
prop("C61", "Flattening arrays",
     "Flattening a nested list yields its leaves in order, whatever the nesting.",
     "all nested lists",
     "Structural induction.",
     ["sawatabi/utils/functions.py: _flatten"])
prop("C62", "Streaming number partitioning keeps the exact Hamiltonian",
     "When the number-partitioning sample runs over a stream whose elements carry distinct timestamps and indices in the same order, with the window, delta or incremental algorithm, no window raises, and in every window the solver receives exactly the Ising model sum over pairs of n_i n_j s_i s_j of the elements of that window (of everything received so far for the incremental algorithm), although the model is only updated from the previous window by appending variables, adding the new pairs and deleting the variables that left.",
     "all streams of numbers, all non-empty windows whose two ends never go back (with or without overlap, skipping elements or not), all clocks and identities, every solver",
     "End-to-end invariant over histories of additions and deletions; tests run a few fixed windows.",
     ["sample/algorithm/npp_window.py: npp_mapping, npp_solving", AA + ": SolveDoFn.process", LM])
prop("C63", "The attribute table stays rectangular",
     "In any logical model obtained by any sequence of API calls (merge included), whether or not individual calls raise, every attribute column is registered and holds exactly one entry per interaction.",
     "every finite history of API calls with arbitrary arguments, including calls that raise, and merges of two such models",
     "Misalignment needs a specific order of calls; tests run only a few short histories.",
     [LM + ": _add_interaction, update_interaction, to_physical, merge, to_ising, to_qubo"])
prop("C64", "Equality of physical models is equality of content",
     "Two physical models compare equal exactly when they have the same type, coefficients, offset and index maps, whatever the insertion orders; equal models have the same energy for every assignment.",
     "all pairs of physical models, all assignments",
     "All insertion orders.",
     [PM + ": __eq__"])
prop("C65", "The energy history reports energies",
     "With need_stats the entries of energy_history are the physical energies of the states before each sweep; the first is the energy of the given initial state.",
     "every model (any offset), options, RNG outcome",
     "Offsets are rarely non-zero in tests; all runs.",
     [SS + ": annealing (energy_hist)"])
prop("C66", "solve leaves its arguments alone",
     "A call of SawatabiSolver.solve does not change the caller's initial_states; calling it again with the same objects and the same random source gives the same result.",
     "every model, options, RNG outcome, success or failure",
     "All argument combinations.",
     [SS + ": solve (initial_states)"])
prop("C67", "Logical energy is what the solver reports",
     "For a logical model built by any history of API calls, to_physical followed by SawatabiSolver.solve succeeds, and reports for each sample the energy of the logical model plus the constraint penalties (and, for an Ising model, plus the constant by which each constraint's model is shifted on conversion).",
     "every history of API calls, feed dictionary, options and RNG outcome",
     "Composition over unbounded models and random streams.",
     [LM + ": to_physical", SS + ": solve"])

prop("C68", "The first window is always processed",
     "A pipeline that has not processed any window yet does not reject a window as outdated.",
     "all first windows, any timestamp",
     "All timestamps, including events before the epoch.",
     [AA + ": SolveDoFn.process (prev_timestamp default)"])
prop("C69", "Attenuation never interrupts the stream",
     "With the attenuation algorithm no exception escapes from the processing of a window, whatever model map_fn returns.",
     "all models returned by map_fn, all callbacks",
     "All models, including empty ones and ones with placeholders.",
     [AA + ": SolveDoFn.process (attenuation)"])
prop("C70", "A failed mapping loses no element",
     "Elements that were incoming in a window whose map_fn raised are incoming again in the next window that still contains them.",
     "all histories with failing map_fn",
     "Needs a failure followed by further windows.",
     [AA + ": SolveDoFn.process (elements_state, map_fn)"])
prop("C71", "The outdated message is right",
     "The message for an outdated window names the timestamp of that window and the timestamp that has already been processed.",
     "all states and outdated windows",
     "All pairs of timestamps.",
     [AA + ": SolveDoFn.process (outdated message)"])
prop("C72", "Validation of initial_mtype",
     "create_pipeline accepts exactly the strings 'ising' and 'qubo' as initial_mtype; another string raises ValueError, anything else TypeError.",
     "all values",
     "All strings.",
     [AA + ": _create_pipeline"])
prop("C73", "Partial presents no element twice",
     "With the partial algorithm a window presented to the user's functions contains every element at most once.",
     "all streams, window sizes and periods, filters",
     "Depends on how the windows overlap and what the filter keeps.",
     [AA + ": SolveDoFn.process (partial)", "sawatabi/algorithm/partial.py: create_pipeline"])

prop("C74", "All solvers report the same energy",
     "The energy reported with a sample is the physical model's energy of that sample, offset included, whichever solver is used (SawatabiSolver, LocalSolver, DWaveSolver, OptiganSolver), given that the external sampler returns the energies of what it was asked to minimise.",
     "all physical models, samplers, options and responses",
     "Needs agreement of four conversions on every model; tests compare single models without offset.",
     [SS + ": solve", "sawatabi/solver/local_solver.py: solve", "sawatabi/solver/dwave_solver.py: solve", "sawatabi/solver/optigan_solver.py: solve", PM + ": to_bqm, to_polynomial"])
prop("C75", "The exact local solver finds a ground state of the logical model",
     "LocalSolver(exact=True) succeeds on every non-empty physical model, lists every assignment of its variables exactly once with its energy, and every completion of the lowest sample minimises the logical model's Hamiltonian plus constraint penalties over all legal assignments, for QUBO and Ising models.",
     "all logical models with constraints, all assignments",
     "Optimality over all 2^n assignments of any model.",
     ["sawatabi/solver/local_solver.py: solve", LM + ": to_physical", PM + ": to_bqm"])
prop("C76", "Element-wise operations",
     "elementwise_add and elementwise_sub return a container of the same kind whose i-th entry is the sum or difference of the i-th entries, as long as the shorter one; elementwise_max and elementwise_min of equally long ones contain the larger and smaller entry, repeat a sequence of one element and refuse other lengths; mixed or other types raise TypeError.",
     "all pairs of tuples and lists",
     "All lengths and values.",
     ["sawatabi/utils/functions.py: elementwise_add, elementwise_sub, elementwise_max, elementwise_min"])
prop("C77", "Unusable models are refused before sampling",
     "Every solver raises TypeError for something that is not a PhysicalModel and ValueError for a model without interactions, whatever the other arguments, before the sampler is called or a request is sent; and it passes the BQM of every other model on to the sampler.",
     "all solvers, arguments and models",
     "All combinations of arguments, including invalid ones.",
     [SS + ": solve", "sawatabi/solver/local_solver.py: solve, default_beta_range", "sawatabi/solver/dwave_solver.py: solve", "sawatabi/solver/optigan_solver.py: solve"])
prop("C78", "Every variable gets a value",
     "Every declared, not deleted variable of the logical model has a value in every sample of every solver.",
     "all models and solvers",
     "Depends on which interactions cancel, are removed or never existed.",
     [LM + ": to_physical", PM + ": to_bqm", SS + ": solve", "sawatabi/solver/local_solver.py: solve"])

prop("C79", "Streaming number partitioning answers with a partition, an optimal one with the exact solver",
     "In every window of such a run with at least two numbers, none of them zero, the answer of the sample is a partition of the numbers of the window into two sets together with the absolute difference of their sums; with any solver that reports true energies it is at least as good as every sample the solver returned, and with the exact local solver no partition has a smaller difference. In the other windows the exact local solver reports a failure: 'Failed to solve' (ValueError) when fewer than two numbers are not zero, 'Failed to unmap' (KeyError) when two are not zero and one is.",
     "all streams of non-zero numbers, all windows with at least two elements, all sets of samples of an honest solver, all partitions",
     "Optimality quantifies over all 2^n partitions in every window of every stream.",
     ["sample/algorithm/npp_window.py: npp_mapping, npp_solving, npp_unmapping", AA + ": SolveDoFn.process", "sawatabi/solver/local_solver.py: solve"])

prop("C80", "Declaring variables",
     "variables(name, shape) succeeds exactly when the name contains no '*' and the shape is a non-empty tuple of positive ints; it then declares under that name exactly one variable name[i][j]... of the model's type for every multi-index inside the shape, pairwise distinct, and touches nothing else. Passing a ready array of variables of one type stores it under its name if the type is the model's and raises TypeError otherwise. A rejected variables or append call changes nothing; arguments of the wrong kind raise TypeError.",
     "all names, shapes (any number of dimensions, any sizes), arrays and models",
     "Shapes, names and prior declarations are unbounded; tests use a handful of 1- and 2-dimensional shapes.",
     [LM + ": variables, append", "sawatabi/base_mixin.py: _check_argument_type, _check_argument_type_in_tuple"])

prop("C81", "Attributes passed to an update that creates the interaction are kept",
     "When update_interaction is given a target that has no interaction yet it adds the interaction with the arguments it was given, so the attributes passed to it are what get_attribute returns afterwards.",
     "every model, target, attribute dictionary and history",
     "The call succeeds and silently loses one of its arguments; only the combination unknown target plus attributes shows it.",
     [LM + ": update_interaction (lines 237-241)"])

prop("C82", "Travelling salesman: the model of a window is the problem of its cities",
     "In every window of the travelling-salesman sample the solver is handed a QUBO whose energy, for all 0/1 values, is the sum of the distances (in 100 km) between cities visited one after the other, plus 17.5 for every unit of squared deviation of a time slot from exactly one city and 15 for every such deviation of a city from exactly one time slot, over exactly the cities of that window. The assignments of a tour cost its length and nothing else; every other assignment costs at least twice the smaller penalty. A window without cities gives an empty model.",
     "all numbers of cities, all non-negative distances, all 0/1 assignments, all placeholder values, all sequences of non-empty windows in time order (window and delta), any compiler meeting the stated contract of PyQUBO",
     "The energy identity ranges over all sizes, distances and 2^(n*n) assignments; the lower bound needs a parity argument over all of them.",
     ["sample/algorithm/tsp_window.py: tsp_mapping, tsp_solving", LM + ": from_pyqubo, to_physical", AA + ": SolveDoFn.process"])

prop("C83", "Travelling salesman: the answer is a shortest tour",
     "In every window of the travelling-salesman sample with the exact local solver the answer names each city of the window exactly once, in the order of a shortest closed tour. With any solver that reports true energies, an answer whose energy is below 30 is a tour of 100 times that energy in km.",
     "all cities and distances, all tours, all sequences of windows, all honest solvers",
     "Optimality over all n! tours and all infeasible assignments; whether the penalties suffice depends on the distances.",
     ["sample/algorithm/tsp_window.py: tsp_mapping, tsp_solving, tsp_unmapping", "sawatabi/solver/local_solver.py: solve"])

prop("C84", "What one window hands to the next",
     "map_fn receives the model as solve_fn left it in the window before (also when that solve_fn raised), the initial model in the first window, and the sample set of the last window that was solved; nothing else is carried over. So the outputs of a history are the ones obtained by calling map_fn, solve_fn and unmap_fn in turn on the elements of each window, threading only the model and the sample set.",
     "all histories of windows, all user functions including raising ones and ones that modify the model in place, all algorithms without attenuation",
     "All histories and crash points; tests run a few windows with well-behaved functions.",
     [AA + ": SolveDoFn.process"])
prop("C85", "Delivery order inside a window does not matter",
     "If the elements of the windows of a history are delivered in another order, every output and the whole stored state are the same.",
     "all histories, all permutations of the elements of each window, all algorithms, options and user functions",
     "n! delivery orders per window; the runner's order is not under a test's control.",
     [AA + ": SolveDoFn.process"])
prop("C86", "Pub/Sub resources",
     "read_from_pubsub reads from the topic if one is given, else from the subscription, and raises with neither; an empty project, topic or subscription is refused with ValueError; what write_to_pubsub writes to a project and topic is read back with the same project and topic; different projects or topics are different resources.",
     "all project, topic and subscription names",
     "All strings.",
     ["sawatabi/algorithm/io.py: read_from_pubsub, write_to_pubsub"])
prop("C87", "Number partitioning with attenuation",
     "When the number-partitioning sample runs over a stream with the attenuation algorithm and the attribute attn_ts, and every window holds at least two numbers, no window raises and the solver receives in every window the sum over the pairs of that window of w n_i n_j s_i s_j, where w depends on the arrival time of the earlier number of the pair only: it runs on a line from min_scale for the oldest number of the window to 1 for the last but one. Scales of earlier windows leave no trace. A window with one number stops the stream.",
     "all streams of numbers with distinct timestamps and indices in the same order, all windows of two or more numbers whose two ends never go back, every min_scale, all clocks and identities, every solver",
     "End-to-end invariant over histories of additions, deletions and rescalings; tests run a few fixed windows.",
     ["sample/algorithm/npp_attenuation.py: npp_attenuation", "sample/algorithm/npp_window.py: npp_mapping, npp_solving", AA + ": SolveDoFn.process", LM])

prop("C88", "From a text file of numbers to the answers",
     "Reading a text file through the number-partitioning sample, with timestamps reassigned, takes exactly the lines that are numbers, and numbers their positions 0, 1, 2... in the order they are handed over. The window from lo to hi (for the incremental variant: everything up to hi) is answered, with the exact local solver, for exactly the integers at the positions in it: by two lists of integers that are together these integers and whose sums differ as little as possible, if there are at least two and none is zero; otherwise by the failure of C79. Earlier failures do not matter. When the size is a multiple of the period (at least 2), every window of a file of non-zero numbers is answered unless the file has one number more than a multiple of the period; then exactly the last window fails.",
     "all files (lists of lines), all orders in which the numbers are handed over, all window sizes and periods, all orders of the elements in a window, all clocks and identities, all partitions",
     "Composes parsing, index assignment, windowing, incremental model updates, solving and decoding over files of any length.",
     ["sample/algorithm/npp_window.py: npp_window", "sample/algorithm/npp_delta.py", "sample/algorithm/npp_incremental.py", "sawatabi/algorithm/io.py: read_from_text_as_number", AA + ": _create_pipeline, IndexAssigningStatefulDoFn, SolveDoFn.process"])
prop("C89", "The attenuation sample answers every window of a text file",
     "Run on a text file of at least two non-zero numbers, with a window size that is a multiple of the period, the attenuation sample hands the solver in every window the faded model (C87) of exactly the numbers at the positions of the window, and no window raises.",
     "all files, all window sizes and periods, all min_scale, all solvers",
     "Whether a window raises depends on the length of the file; tests use one file.",
     ["sample/algorithm/npp_attenuation.py: npp_attenuation", AA + ": SolveDoFn.process"])

prop("C90", "== of logical models and of constraints compares content",
     "For models obtained by any history of API calls, m == o holds exactly when both have the same type, arrays, interactions with their attributes in the same order, constraints, deleted and fixed variables and offset, however the arrays and constraints were ordered when declared and whatever to_physical last returned. Two constraints are equal exactly when class, label, parameters and sets of variables are, and then penalise every assignment alike. == is an equivalence and != its negation; nothing that is not a LogicalModel is equal to one.",
     "all pairs of logical models reachable by any history, all pairs of constraints, all assignments",
     "Equality ranges over pairs of arbitrary objects; tests compare a few.",
     [LM + ": LogicalModel.__eq__, __ne__", "sawatabi/model/constraint/n_hot_constraint.py: __eq__", "sawatabi/model/constraint/equality_constraint.py: __eq__", "sawatabi/model/constraint/zero_or_one_hot_constraint.py: __eq__"])
prop("C91", "Equal logical models are interchangeable",
     "If m == o then any call with the same arguments returns on both or raises on both, and after calls that return the models are equal again; the same holds of any sequence of such calls and of merging equal models into them. Their physical models have the same type, coefficients, offset and energy of every assignment.",
     "all pairs of equal models reachable by any history, all calls and sequences of calls, all feeds, all orders of the underlying dictionaries and sets",
     "It quantifies over pairs of histories leading to equal models and over every continuation.",
     [LM + ": LogicalModel.__eq__, every public method, to_physical"])
prop("C92", "Equal logical models have equal physical models",
     "If m == o and both are converted with the same placeholder values, the two physical models are equal.",
     "all pairs of equal models reachable by any history, all feeds",
     "It quantifies over pairs of histories leading to equal models.",
     [LM + ": LogicalModel.__eq__, to_physical", "sawatabi/model/physical_model.py: PhysicalModel.__eq__"])

prop("C93", "A model consists of variables of its own type",
     "In every Ising model all declared variables and all variables of active interactions are Spin variables, in every QUBO Binary variables, whatever calls, conversions and merges led to it.",
     "all models reachable by any history of calls and merges, including calls that raise",
     "It is an invariant of all histories; conversions and merges interact with removed interactions and failing calls.",
     [LM + ": _update_variables_type, to_ising, to_qubo, merge, fix_variable, add_interaction"])
prop("C94", "The offset is what was set last",
     "offset(c) sets the offset to c, whatever it was, changes nothing else and moves the energy of every assignment by the difference. A new model has offset zero. No other method changes the offset, whether it returns or raises, except from_pyqubo, fix_variable, the conversions, merge, and to_physical when it raises.",
     "all models, all calls with all arguments, all assignments",
     "It quantifies over all models and calls.",
     [LM + ": offset, get_offset"])

prop("C95", "Models are independent of each other",
     "In a program with any number of models, constraints and sets, a method called on one model has the effect described for that model alone, on the content it has at that time, and leaves every other model as it is.",
     "all programs: any sequence of calls on any models, constraint objects and sets, including calls that raise",
     "It quantifies over all programs; sharing arises from combinations of calls on several objects.",
     [LM + ": merge, delete_variable, add_constraint", "sawatabi/model/constraint: add_variable, remove_variable"])
prop("C96", "A constraint object stays connected to the models it was added to",
     "add_constraint stores the object itself. A method called on it later has the same effect in every model that holds it and none elsewhere, until the constraint is removed from the model or another of the same label is added.",
     "all programs as in C95, all constraint objects, all arguments",
     "It quantifies over all programs and over what happened between add_constraint and the later call.",
     [LM + ": add_constraint, remove_constraint, get_constraints", "sawatabi/model/constraint: add_variable, remove_variable, add_variable_to_1, remove_variable_from_2"])
prop("C97", "A constraint has its own variables",
     "A constraint's variables change only through its own methods and delete_variable of a model that holds it: not when another constraint changes and not when the program changes a collection it was made of. No call changes a set the program passes.",
     "all programs as in C95, all constraint objects and sets",
     "Aliasing shows only for particular sequences of calls on particular objects.",
     ["sawatabi/model/constraint/abstract_constraint.py: _check_variables_and_to_set", "sawatabi/model/constraint/n_hot_constraint.py: add_variable, remove_variable", "sawatabi/model/constraint/equality_constraint.py: add_variable_to_1"])
prop("C98", "SawatabiSolver can return every assignment in random pick-up mode",
     "In random pick-up mode, no assignment is excluded by the initial state: with at least twice as many sweeps as variables, for suitable random numbers solve returns any given assignment, in particular one of least energy. Without initial states this holds for both modes and any number of sweeps.",
     "all models built through the API (and all physical models in which every variable matters), all complete initial states, all schedules of positive temperatures, all target assignments",
     "Whether an annealer can get from every state to every other one is a statement about all states, all sequences of random numbers and all schedules; a test sees one run.",
     ["sawatabi/solver/sawatabi_solver.py: SawatabiSolver.solve, annealing, is_acceptable, calc_energy_diff"])
prop("C99", "SawatabiSolver can return every assignment in sequential pick-up mode",
     "In sequential pick-up mode too, with enough sweeps and suitable random numbers solve returns any given assignment, whatever the initial state.",
     "all models built through the API, all complete initial states, all schedules of positive temperatures, all target assignments",
     "As for C98; that a state is never left for any random numbers, temperatures and number of sweeps cannot be seen by running.",
     ["sawatabi/solver/sawatabi_solver.py: SawatabiSolver.annealing, is_acceptable", "sawatabi/constants.py: PICKUP_MODE_SEQUENTIAL"])
prop("C100", "Constraints of sufficient strength are respected by the optimum",
     "If every constraint's strength is larger than any difference of energy the model can make without the constraints (for instance larger than the sum of |coefficient * scale|, twice that for an Ising model), the ground states are exactly the assignments that satisfy all constraints and are best among those; and any sample as good as some assignment that satisfies the constraints satisfies them too.",
     "all models of both types with any constraints that can be satisfied together, all assignments, all solvers that report energies correctly",
     "It quantifies over all assignments of all models; a test tries a few strengths on a few models.",
     ["sawatabi/model/constraint: NHotConstraint.to_model, ZeroOrOneHotConstraint.to_model, EqualityConstraint.to_model", LM + ": to_physical", "sawatabi/solver/local_solver.py: solve"])

prop("C101", "Number partitioning with the partial algorithm answers for the numbers of the window",
     "When the number-partitioning sample runs with the partial algorithm and a filter, the model handed to the solver in every window is exactly the one of the numbers of that window (the kept ones and the received ones), so that an exact solver gives a best partition of them.",
     "every filter that answers, every sequence of windows of increasing numbers, every solver",
     "Numbers that the filter drops after a kept one linger in the model; whether they matter depends on the numbers of all earlier windows.",
     ["sample/algorithm/npp_partial.py:filter_fn", "sample/algorithm/npp_window.py:npp_mapping", "sawatabi/algorithm/abstract_algorithm.py:resolve_outgoing", "sawatabi/algorithm/partial.py:Partial"])

prop("C102", "A Hamiltonian entered term by term is the model's Hamiltonian",
     "When the linear and quadratic terms of a polynomial are entered into a model without interactions by one add_interaction each, all of them are accepted exactly when no variable is squared and no two terms are of the same variables in any order; the energy of the model is then its offset minus the polynomial for every assignment, to_physical gives the entered coefficients, and an exact solver answers with every assignment of the variables of the terms with a nonzero coefficient, each once and with that energy.",
     "all lists of terms, all models without interactions, both types, all assignments",
     "It ranges over all polynomials; a test enters a few.",
     [LM + ": add_interaction", LM + ": to_physical", "sawatabi/solver/local_solver.py: solve"])

prop("C103", "The n-hot Hamiltonian written from scratch is minimised by the n-hot assignments",
     "The n-hot models of the sample that are written without a constraint, for QUBO and Ising, are accepted and have as answers of lowest energy of an exact solver exactly the assignments with n ones (all N if n > N), with the energy (k - n)^2 - n^2, resp. 4(k - n)^2 - N - (N - 2n)^2, for k ones.",
     "every number N > 0 of variables, every n, both types, every clock",
     "The sample has the ten cases up to N = 4 only; the formula for the coefficients must be right for every size.",
     ["sample/model/constraint/n_hot_from_scratch.py"])

prop("C104", "The models of the solver samples have the documented solutions",
     "The models that the solver samples share have the solutions that their comments document: with one-body interactions of coefficient -1 all spins are -1, with two-body interactions along a chain all spins are equal, and the models of fixed size have one solution of lowest energy with the documented values and energy.",
     "chains and fields of every length, every clock",
     "The samples have 12 spins; the claim is for every length.",
     ["sample/solver/_solver_helper.py"])

prop("C105", "The energy determines the physical model",
     "In a physical model that to_physical returns, a variable occurs exactly when the energy depends on its value; and two such models of the same type whose energies differ by a constant for all legal assignments have the same linear and quadratic coefficients, with offsets that differ by that constant. So what a solver is sent does not depend on the way the same objective was entered, through interactions in any order or through constraints.",
     "all pairs of models reached by any calls, all legal assignments",
     "It compares all pairs of ways to enter an objective, and needs that no coefficient can be seen that the energy does not show.",
     [LM + ": to_physical", "sawatabi/model/physical_model.py", "sawatabi/model/constraint"])

prop("C106", "Only a missing placeholder makes to_physical raise",
     "If the variables of each constraint have distinct labels without * and spaces, the clock's text has no parenthesis, and no removed interaction that is still pending has a name with a parenthesis, then to_physical returns a physical model for every QUBO and Ising model whose placeholders are all given a value: the names that are generated for the interactions of constraints and for their conversion never collide.",
     "all models with any number of constraints of the three classes, any strengths and labels of the constraints, every feed",
     "The generated names depend on labels, texts and counters; a collision for some input raises an exception that no tested input raises.",
     [LM + ": to_physical", LM + ": _convert_mtype", "sawatabi/model/constraint"])

prop("C107", "A model with an n-hot constraint is minimised by the n-hot assignments",
     "The sample models with an array of N variables and an NHotConstraint of positive strength over it, QUBO or Ising, with any offset, are accepted and converted; an exact solver answers with every assignment of exactly these N variables, each once, with the energy offset + strength * ((k - n)^2 - n^2) for k ones (for Ising plus a constant that depends on N, n and the strength only); and the answers of lowest energy are exactly those with n ones, or with all N if n > N. The QUBO model of the solver samples has energy 0 there.",
     "every N > 0 and n > 0, every positive strength, every offset, every array name without * and space, both types",
     "The samples run s = 4 and 100 only; no variable may drop out of the physical model for any N and n although linear coefficients may be zero.",
     ["sample/model/constraint/n_hot_constraint.py", "sample/solver/_solver_helper.py:_create_qubo_model", "sawatabi/model/constraint/n_hot_constraint.py"])

prop("C108", "Fixing several variables puts in all their values",
     "After fix_variable(x, a) and fix_variable(y, b), the energy of every assignment is the energy the model had with x = a and y = b; likewise for any number of variables fixed one after the other.",
     "all models, all pairs and lists of variables, all values, all assignments",
     "It depends on which interactions couple the variables and on what happened between the calls; tests fix one variable.",
     [LM + ": fix_variable", LM + ": to_physical"])

prop("C109", "A fixed variable is out of the model",
     "After fix_variable(x, q) the physical model does not mention x, and the best answer for it, extended by x = q, is a best assignment of the model as it was among those with x = q.",
     "all models, variables, values and exact answers",
     "It compares all assignments of two models.",
     [LM + ": fix_variable", LM + ": to_physical", "sawatabi/solver/local_solver.py: LocalSolver.solve"])

prop("C110", "Merging adds the models, in any order and grouping",
     "For models of the same type, the physical model of a.merge(b) has, for every assignment, the sum of the energies of the physical models of a and b. a.merge(b) and b.merge(a) give physical models with the same coefficients and offset, and if one is accepted so is the other; likewise (a.merge(b)).merge(c) and a.merge(b.merge(c)). For models of different types with all scales 1, the two ways to merge give objectives that differ by a constant at corresponding assignments.",
     "all models with any interactions and constraints, all assignments, all clocks and ids",
     "It compares all pairs and triples of models; renaming of duplicate names, appended arrays and merged constraints must never change a coefficient.",
     [LM + ": merge", LM + ": to_physical"])

prop("C111", "Adding a constraint is merging its model",
     "add_constraint(c), and merging the model c.to_model() returns, give physical models with the same coefficients and offset, for QUBO and Ising models. Doing both, as the sample program does, counts the penalty twice.",
     "all models, all constraints of the three classes, all clocks and ids",
     "It compares two ways to build every model.",
     [LM + ": add_constraint", LM + ": merge", LM + ": to_physical", "sawatabi/model/constraint", "sample/model/model.py: model_constraints"])

prop("C112", "Calling to_physical again after it failed gives the same result",
     "When to_physical raises because a placeholder has no value, calling it again with the missing values gives the physical model it would have given the first time, however often it failed before.",
     "all models, all numbers of failed calls with any placeholders, all later calls, all assignments",
     "The number of failed calls is unbounded and what each leaves behind depends on the constraints of the model; a test shows one model and one retry.",
     [LM + ": to_physical, merge"])

prop("C113", "select_interaction returns exactly the interactions that meet the query",
     "select_interaction returns the interactions for which the query is true and no others, in the order in which they were added, each with the name, keys, coefficient, scale, timestamp, flags and attributes it has; both formats hold the same rows; and, or and not act as intersection, union and complement; an unknown column (NameError), an order comparison of a number with a string (TypeError) or an unknown format (ValueError) is refused, nothing else is; the model is not changed. What add_interaction was given is what a selection by name shows, a removed interaction is shown as removed, the attributes are those get_attribute reads, and the energy can be recomputed from the rows that are not removed.",
     "all models whose attribute table is rectangular (C63), all queries built of comparisons (==, !=, <, <=, >, >=) of a column and a literal with and, or, not, both formats, all later calls",
     "Queries and models are unbounded; tests look at single cells of a few selections.",
     [LM + ": select_interaction, select_interactions_by_variable, _update_interactions_dataframe_from_arrays, add_interaction, remove_interaction, get_attribute"])

prop("C114", "A model that one solver accepts is accepted by the others",
     "Once a logical model has been converted to a physical one, SawatabiSolver and OptiganSolver accept the physical model whenever the exact local solver does, provided the other arguments are valid. (Violated: add_interaction takes variables that were never declared in the model, and a delete_variable call stopped by a constraint leaves the variable marked deleted with its interactions in place; LocalSolver answers for such models, SawatabiSolver and OptiganSolver raise KeyError.)",
     "for every reachable logical model, placeholder feed, valid solver arguments, random generator and service configuration",
     "the failing models pass every check made while they are built, and the index used by one solver is not the list of variables used by the other; tests use models that declare what they use",
     [LM + ": to_physical", LM + ": delete_variable", "sawatabi/solver/sawatabi_solver.py: solve", "sawatabi/solver/optigan_solver.py: solve", "sawatabi/model/physical_model.py: to_polynomial"])

prop("C115", "Incoming and outgoing are decided by timestamps alone",
     "Whatever windows came before, and whatever the user's functions did in them, a window that is not outdated presents its elements (those received, plus the stored ones with incremental, plus those the filter keeps with partial) in chronological order; incoming are exactly the ones later than every stored element and outgoing exactly the stored ones earlier than every presented element, both in order.",
     "all algorithms, all histories of windows (overlapping, late, out of order), all user functions including failing ones, all total filters",
     "The two scans stop at the first element that fails a comparison; that this equals the set definition needs the stored list to be sorted after every history.",
     ["sawatabi/algorithm/abstract_algorithm.py: SolveDoFn.process", "sawatabi/algorithm/abstract_algorithm.py: AbstractAlgorithm._resolve_outgoing", "sawatabi/algorithm/abstract_algorithm.py: AbstractAlgorithm._resolve_incoming"])

prop("C116", "The unit of the coefficients does not matter to SawatabiSolver",
     "If all coefficients and the offset of a physical model and the initial temperature are multiplied by the same positive number k, SawatabiSolver.solve without reverse_options, with the same random numbers, returns the same samples with the same numbers of occurrences, accepts the same numbers of flips in every sweep, and reports energies and temperatures multiplied by k; if it raises, it raises the same exception.",
     "every physical model, every choice of options without reverse annealing, every positive factor, every random generator, every acceptance function that depends on the quotient of energy difference and temperature only",
     "A relation between two runs for all models, factors and random sequences; a test compares two runs.",
     ["sawatabi/solver/sawatabi_solver.py: solve", "sawatabi/solver/sawatabi_solver.py: annealing", "sawatabi/solver/sawatabi_solver.py: calc_energy_diff", "sawatabi/solver/sawatabi_solver.py: is_acceptable", "sawatabi/model/physical_model.py: to_bqm"])

prop("C117", "The offset does not influence SawatabiSolver",
     "Adding a constant to the offset of a physical model changes neither the samples SawatabiSolver.solve returns, nor how often each occurs, nor the temperatures and numbers of accepted flips, nor whether it raises; the reported energies change by that constant.",
     "every physical model, every choice of options (reverse annealing included), every constant, every random generator",
     "A relation between two runs for all models, constants and random sequences; the offset enters the tracked energy with the wrong sign and is corrected at the end.",
     ["sawatabi/solver/sawatabi_solver.py: solve", "sawatabi/solver/sawatabi_solver.py: annealing", "sawatabi/model/physical_model.py: to_bqm"])

prop("C118", "The labels of the variables do not influence SawatabiSolver",
     "If the variables of a physical model (and of the initial states) are given other labels, different ones for different variables, with the same indices, SawatabiSolver.solve with the same random numbers returns the same samples under the new labels, with the same energies, occurrences and histories, leaves the initial states as it would have under the new labels, and raises exactly when it would have raised.",
     "every physical model, every injective renaming, every choice of options, every random generator",
     "A relation between two runs for all models, renamings and random sequences.",
     ["sawatabi/solver/sawatabi_solver.py: solve", "sawatabi/solver/sawatabi_solver.py: annealing", "sawatabi/model/physical_model.py: to_bqm"])

prop("C119", "SawatabiSolver's answer depends only on the energies",
     "Solving two physical models of the same type with the same variables in the same index order, whose energies differ by one constant for all legal assignments, with the same options and the same random numbers gives the same samples with the same numbers of occurrences, the same temperature and acceptance histories, energies that differ by that constant, and the same exception if there is one; two models that compare equal give identical results; and two logical models that declare the same variables and whose objectives differ by a constant are solved alike, whatever calls built them and in whatever order.",
     "all pairs of physical (or logical) models with the same landscape, all options, all sources of random numbers, all acceptance functions",
     "A test compares a few pairs of models; the same trajectory must result from every arrangement of the coefficients, for every sequence of random numbers.",
     ["sawatabi/solver/sawatabi_solver.py: SawatabiSolver.solve, SawatabiSolver.annealing, SawatabiSolver.calc_energy_diff", "sawatabi/model/physical_model.py: PhysicalModel.to_bqm", LM + ": to_physical"])

prop("C120", "SawatabiSolver does not distinguish a QUBO from the equivalent Ising model",
     "If an Ising model and a QUBO have the same variables in the same index order and the energies of corresponding assignments differ by a constant, solving them with the same options and random numbers (initial states translated) gives corresponding samples with the same numbers of occurrences, the same temperature and acceptance histories, energies that differ by the constant, and the same exception if there is one.",
     "all such pairs of models, all options and initial states of 0s and 1s, all sources of random numbers, all acceptance functions",
     "A test runs one pair with one seed.",
     ["sawatabi/solver/sawatabi_solver.py: SawatabiSolver.solve, SawatabiSolver.annealing", "sawatabi/model/physical_model.py: PhysicalModel.to_bqm"])

prop("C121", "Printing a model shows every part in a box, and never changes the model",
     "str(model) and repr(model) never change the model; they raise ValueError exactly when a column of the table of interactions has another length than the number of interactions, and succeed otherwise. When no variable name contains a line break, the lines of str(model) are exactly: the upper border, the title, the type, the variable names, then for each variable its name and every line of its array indented, the interactions, the offset, the constraints and the lower border; every line begins with a character of the frame. With a line break in a variable name the frame is broken. repr(model) is a single line that lists the type, the variables, the interactions, the offset and the constraints, and replacing line breaks and indentation loses no visible character. Physical models are printed in the same way.",
     "all logical models in any state, all physical models, all renderings of the parts",
     "Tests print a few models; a name with a line break or a table with a short column does not occur in them.",
     [LM + ": __str__", LM + ": __repr__", "sawatabi/model/physical_model.py: PhysicalModel.__str__", "sawatabi/model/abstract_model.py: append_prefix", "sawatabi/model/abstract_model.py: remove_leading_spaces"])

prop("C122", "The publisher sends one message per round and ends after --incremental-end rounds",
     "With --incremental-end=n and n >= 1 the publisher publishes the messages of the rounds 1 to n and ends, whatever kind of message is selected; with n <= 0 it never ends. With --incremental-number the number filter of the pipeline receives exactly 1, 2, ..., n; with --random-number it receives exactly the numbers drawn (also when the incremental options are given as well); with --incremental-text the i-th message consists of the i letters drawn, in order.",
     "all option values, all random draws and times, any number of observed rounds",
     "The sample is an endless loop that publishes to a remote service; no test runs it.",
     ["sample/pubsub/publish_pubsub.py: main", "sawatabi/algorithm/io.py: IO.read_as_number"])

prop("C123", "The times in the different units agree and profiling is transparent",
     "At the same instant (not before the epoch) the integer time in a coarser unit is the integer time in a finer unit divided by their ratio and rounded down, and the non-integer times differ exactly by the ratio; before the epoch the integer time is that of the opposite instant with the sign changed. A function decorated with profile has the same effect, raises the same exception, and returns the same value together with its name and an execution time that is not negative when the clock does not run backwards.",
     "all instants, all pairs of units; all functions, arguments, states and clock readings",
     "Tests compare the types of a few readings.",
     ["sawatabi/utils/time.py: current_time_as_int", "sawatabi/utils/profile.py: profile"])

prop("C124", "The order of additions does not matter",
     "If a sequence of add_interaction calls succeeds on a model, the same calls in any other order succeed on it too. The two models have the same interactions up to the order of the table, the same attributes of every interaction, the same variables, offset and constraints, and the same energy of every assignment; whenever both are converted with the same placeholder values, the physical models compare equal.",
     "all models, all finite sequences of add_interaction calls with any arguments and times, all permutations of them, all placeholder values",
     "The number of orders grows factorially and the arguments are unbounded; tests fix one order.",
     [LM + ": add_interaction", LM + ": to_physical"])

prop("C125", "The physical model is decided by the energies",
     "Two models of the same type with the same variables (in the same order) and the same deleted variables, whose conversions give every assignment the same energy, have physical models that compare equal. In particular this is so when the constraints are the same and the interactions of the two models give every assignment the same energy with the same placeholder values, in however different a way they were entered.",
     "all pairs of reachable models, all placeholder values, all histories leading to them",
     "Equality of energy on all assignments and equality of models reached by arbitrary histories cannot be enumerated.",
     [LM + ": to_physical", "sawatabi/model/physical_model.py: PhysicalModel.__eq__"])

prop("C126", "Equivalent ways to enter an interaction",
     "A coefficient c with a scale s gives the same energies and equal physical models as coefficient c*s with scale 1 (also when they contain placeholders). An interaction with coefficient c+d gives the same as two interactions of the same variables under different names with coefficients c and d. Adding an interaction and updating its coefficient and scale gives the same as adding it with the final values. Adding an interaction and removing it before a conversion gives the same as not adding it.",
     "all models, targets, names, coefficients (with placeholders), scales, attributes, timestamps and placeholder values",
     "The equivalence concerns all coefficient and scale expressions and all other contents of the model; tests compare literals.",
     [LM + ": add_interaction", LM + ": update_interaction", LM + ": remove_interaction", LM + ": to_physical"])

prop("C127", "Deleting a variable of a QUBO model sets it to 0",
     "When delete_variable succeeds on a QUBO model, the objective of the model (interactions plus penalties of the constraints) afterwards is the objective before with 0 for the variable, for every assignment. So a best answer of the exact solver for the model after the deletion is, with 0 for the variable, a best one before it among those with 0 there. For a model without constraints, deleting the variable and fixing it to 0 give the same energies and physical models that compare equal.",
     "all QUBO models with any interactions and constraints, all variables, all assignments, all placeholder values",
     "It relates two operations on every model and every assignment; tests check the list of deleted labels on fixed models.",
     [LM + ": delete_variable", LM + ": fix_variable", LM + ": to_physical", "sawatabi/solver/local_solver.py: LocalSolver.solve"])

prop("C128", "Solving by cases",
     "Fixing a variable (that is in no constraint) to each of its two values gives two models; of the best answers of the exact solver for the two, the one with the lower reported energy, completed with the fixed value, is a best assignment of the original model.",
     "all models of both types with any interactions and constraints on other variables, all variables, all placeholder values",
     "It is a statement on all assignments of unbounded models and on the relation between three runs.",
     [LM + ": fix_variable", LM + ": to_physical", "sawatabi/solver/local_solver.py: LocalSolver.solve"])

prop("C129", "Solving after a type conversion",
     "The best answer of the exact solver for a QUBO model converted with to_ising, with (s+1)/2 for each spin s, is a best assignment of the QUBO model, constraints included; the best answer for an Ising model converted with to_qubo, with 2x-1 for each x, is a best assignment of the Ising model.",
     "all models with numeric coefficients and scale 1, any constraints, all assignments",
     "It is about the minimum over all assignments of two models of unbounded size.",
     [LM + ": to_ising", LM + ": to_qubo", LM + ": to_physical", "sawatabi/solver/local_solver.py: LocalSolver.solve"])

prop("C130", "Placeholder values may be given early or late",
     "Take any program of calls on a model that runs through, in which coefficients, scales and the offset are expressions with placeholders. Writing the values of some of the placeholders into the calls from the start gives a program that also runs through, and whose to_physical with the remaining values gives exactly the physical model (or the exception) that the original program's to_physical gives with all the values. The same holds for each call and for merge. Calls that accept placeholders raise in the one program exactly when they raise in the other. Only the values in the feed matter, not their order.",
     "every sequence of calls, every expression, every split of the values into early and late ones, every model, every clock",
     "Parameter tuning relies on it; tests substitute one value into one model. The substitution must commute with fixing, deleting, converting, loading from pyqubo, merging and constraints in every order.",
     [LM + ": to_physical", LM + ": add_interaction", LM + ": fix_variable", LM + ": merge", LM + ": from_pyqubo", LM + ": to_ising", LM + ": to_qubo"])

prop("C131", "One model for several placeholder values",
     "After any number of to_physical calls with any values, to_physical with given values returns exactly the physical model (coefficients in the same order, indices) that it would have returned on the untouched model, and it returns whenever it would have returned there.",
     "every model with consistent tables and unique names, every sequence of feeds and clocks",
     "to_physical merges the constraints into the model and takes them out again, and drops removed interactions; that nothing of one value leaks into the next has to hold after any number of calls.",
     [LM + ": to_physical"])

prop("C132", "More reads only add reads",
     "Calling SawatabiSolver.solve with a larger num_reads (same model, other options and seed; the initial states, if given, continue the same list) makes the same reads first, in the same order with the same samples, energies and histories, and then further ones. So every row of the smaller sample set is in the larger one, at the same place with the same energy and at least as many occurrences, the best energy never gets worse, and if the call with fewer reads raises, the call with more reads raises too.",
     "every model, options, random generator (any function of the requests made so far), Boltzmann function and number of reads",
     "It relates two runs of a random process for every generator, model and pair of read counts; a test compares single seeds.",
     ["sawatabi/solver/sawatabi_solver.py: solve", "sawatabi/solver/sawatabi_solver.py: annealing"])

prop("C133", "A read starts from the given state and a cold read does not leave a minimum",
     "With num_sweeps=0 the sample of the i-th read is exactly the i-th initial state and its energy is the energy of that state, for both variable types. With Boltzmann factors of 0 (temperature near 0) the i-th read never ends with a higher energy than the i-th initial state, and if that state is a strict local minimum the read returns it and reports no accepted flips in any sweep.",
     "every model, legal initial states, number of reads and sweeps, schedule, pick-up mode, random generator",
     "Holds for every model, state and sequence of random numbers and visits.",
     ["sawatabi/solver/sawatabi_solver.py: solve", "sawatabi/solver/sawatabi_solver.py: annealing", "sawatabi/solver/sawatabi_solver.py: is_acceptable"])

prop("C134", "A PyQUBO expression becomes a model with the expression's values and minima",
     "Take a QUBO model in which only variables were declared and any PyQUBO expression of degree at most two over these variables, with any placeholders. from_pyqubo of the compiled expression succeeds, to_physical with values for the placeholders succeeds, and the energy of every 0/1 assignment in the physical model is the value of the expression. Unless the expression is constant, the exact local solver accepts the model and its best sample is a minimum of the expression. In particular the models of the two PyQUBO samples are minimised exactly by the assignments with as many x as y set.",
     "every declaration of variables, expression of degree at most two, placeholder values, clock, 0/1 assignment; every size of the sample",
     "Ranges over all expressions and assignments, through compiling, loading, resolving placeholders and building the physical model.",
     [LM + ": from_pyqubo", LM + ": to_physical", LM + ": variables", "sample/model/model.py: model_from_pyqubo_expression", "sample/model/model.py: model_from_pyqubo_model"])

prop("C135", "Updates and removals of different interactions are independent",
     "Update and remove calls about different existing interactions may be made in any order: they all return exactly when each of them alone would, the interactions, attributes, offset, variables and energies of the resulting model are the same, each interaction ends as its own call alone would leave it, the others stay as they were, and the energy changes by the sum of the changes of the single calls. They may also be swapped with additions of new interactions when no update introduces a new attribute.",
     "every model whose interaction names are unique and attribute table is complete; every list of update/remove calls (by name or by target, any coefficients, scales, attributes and timestamps) about pairwise different interactions, every permutation of it, every list of additions, every assignment and every placeholder values",
     "Interleavings of calls from several sources are unboundedly many, and an index computed at the wrong time or a write to the wrong row would show only for particular orders.",
     [LM + ": update_interaction", LM + ": remove_interaction", LM + ": add_interaction"])

prop("C136", "A model without couplings is solved exactly by annealing with a cold last sweep",
     "When no two variables interact, every read of SawatabiSolver whose last sweep is cold (uphill moves have Boltzmann factor 0) ends in an assignment of least energy, whatever the earlier temperatures, random numbers, starting states and visiting order; every sample of the sample set then reports the minimum of the model.",
     "every physical model without couplings and every logical model without constraints whose active interactions are on single variables; all options with at least one sweep, all start states, all random sources",
     "All models, starts, visiting orders and random numbers; a sweep that skipped or repeated a variable would show only for some of them.",
     ["sawatabi/solver/sawatabi_solver.py: annealing", "sawatabi/solver/sawatabi_solver.py: calc_energy_diff", "sawatabi/solver/sawatabi_solver.py: is_acceptable"])

prop("C137", "Which value of a variable is called which does not matter to SawatabiSolver",
     "Describing some variables of a problem by their opposite values (spin s by -s, bit x by 1 - x) with the coefficients adapted, and the initial states as well, makes SawatabiSolver return the same samples in the new description, with the same numbers of occurrences, temperature and acceptance histories and energies (up to the constant by which the models differ); if one call raises, so does the other, with the same exception. In particular, for an Ising model without fields, reversing all spins of the initial states reverses all spins of the samples.",
     "every pair of physical models related in this way, every set of variables, all options with an initial state per read, every random generator and acceptance function",
     "quantifies over all models, sets of variables, options and random numbers",
     ["sawatabi/solver/sawatabi_solver.py: SawatabiSolver.solve, annealing, calc_energy_diff"])

prop("C138", "Calls of to_physical in the middle of a history do not matter",
     "Take two programs that make the same calls on a new LogicalModel (variables, append, add/update/remove_interaction, delete_variable, fix_variable, add/remove_constraint, offset, from_pyqubo, to_ising, to_qubo), in the same order and at the same times, and differ only in where they also call to_physical. If all calls return in both, the models have the same variables, constraints, offset and interactions in force, and to_physical returns equal physical models for both.",
     "for every model type, every sequence of calls with any arguments, any placement and number of intermediate to_physical calls, any clocks and ids, any placeholder values",
     "A test fixes one sequence and one placement of the to_physical calls; to_physical deletes rows of the table and clears marks, so that whether it is observable depends on the whole history before and after.",
     ["sawatabi/model/logical_model.py:LogicalModel.to_physical", "sawatabi/model/logical_model.py:LogicalModel._update_interactions_dataframe_from_arrays", "sawatabi/model/logical_model.py:LogicalModel.fix_variable"])

prop("C139", "The class of the exception tells which argument was wrong",
     "When add_interaction, update_interaction, remove_interaction, delete_variable, fix_variable, variables or LocalSolver.solve is called with several wrong arguments, the exception is the one of the first wrong argument in a fixed order (ValueError for a missing or doubled reference, TypeError for a value of a wrong type, KeyError for an unknown interaction, ...), whatever the rest of the model; and add/update/remove_interaction and variables raise in no other case.",
     "for every model reachable with equal column lengths, every target, name, coefficient, scale, attributes and timestamp argument of any type, every value, shape, array, physical model and solver option",
     "A test triggers one exception at a time; that the listed causes are all, that their order is as stated, and that no combination of arguments and model state gives another exception is a statement about all calls.",
     ["sawatabi/model/logical_model.py:LogicalModel.add_interaction", "sawatabi/model/logical_model.py:LogicalModel.update_interaction", "sawatabi/model/logical_model.py:LogicalModel.remove_interaction", "sawatabi/model/logical_model.py:LogicalModel.delete_variable", "sawatabi/model/logical_model.py:LogicalModel.fix_variable", "sawatabi/model/logical_model.py:LogicalModel.variables", "sawatabi/solver/local_solver.py:LocalSolver.solve", "sawatabi/base_mixin.py:BaseMixin"])

prop("C140", "The getters report the history of calls",
     "LogicalModel(t) and PhysicalModel(t) succeed for 'ising' and 'qubo' and raise ValueError for anything else; a new model is empty. merge and from_pyqubo refuse an argument of another kind with TypeError and change nothing. After any sequence of calls, whether each returned or raised, get_mtype() is the type of the last conversion (or the constructor's), get_deleted_array() lists once each the variables given to delete_variable, get_fixed_array() lists once each the variables given to fix_variable with a value allowed at that time, and get_constraints_by_label(x) returns a constraint exactly when one was added under x and not removed since (the last one added, if no variable was deleted), otherwise raises KeyError.",
     "all constructor arguments; all sequences of calls of LogicalModel's methods with all arguments, well- or ill-typed, all clocks and identities, all labels",
     "Ranges over all call histories, including those with failing calls; tests look at a few short ones.",
     ["sawatabi/model/abstract_model.py: __init__, get_mtype", "sawatabi/model/logical_model.py: __init__, merge, from_pyqubo, get_deleted_array, get_fixed_array, get_constraints_by_label", "sawatabi/model/physical_model.py: __init__"])

prop("C141", "Which windows fail as a whole, and with which exception",
     "With the window, delta and incremental algorithms every window that has an element yields exactly one output, whatever map_fn, solve_fn and unmap_fn do or raise. process itself raises (so that the whole window fails and nothing is stored) exactly when the window is not outdated and: the algorithm is partial and no filter_fn is given (KeyError); or filter_fn raises for a previous element (that exception); or no element is left to present although the window before had some (IndexError). With attenuation it raises, after map_fn returned, what to_physical raises, or KeyError for a missing or unknown attenuation.key, TypeError for an interaction whose reference is not a number, ValueError for a model without interactions, KeyError for a missing min_scale, in this order, and otherwise yields exactly one output.",
     "all algorithms, options, filter functions, callbacks, windows and states; for attenuation all models whose attribute table is rectangular",
     "Ranges over all callbacks, filters, windows and states; an exception here stops the whole pipeline.",
     ["sawatabi/algorithm/abstract_algorithm.py: SolveDoFn.process"])

prop("C142", "An edited model is as good as one built from scratch",
     "After any history of edits (declarations, appends, additions, updates, removals, deletions, fixings, constraints, conversions, loads, merges, to_physical calls) the calls that write down the model's present content on an empty model of its type all return: declare each variable by name and shape, delete the deleted ones, add each interaction in force with its name, coefficient, scale and timestamp, set the offset, add the constraints. The new model has the same variables, deleted variables, interactions in force, constraints, offset and energies; whenever the edited model has a physical model the new one has an equal one, and SawatabiSolver gives the same answer on both.",
     "all careful histories (C93) after which interaction names are distinct and not empty, all placeholder values, assignments, solver options, seeds and random worlds",
     "Ranges over all histories of edits; streaming use relies on incremental updates being equivalent to rebuilding.",
     ["sawatabi/model/logical_model.py: LogicalModel", "sawatabi/solver/sawatabi_solver.py: SawatabiSolver.solve"])

prop("C143", "All streaming samples understand their input options alike",
     "Each streaming sample (npp_window, tsp_window, npp_delta, npp_incremental, npp_partial, npp_attenuation) reads from a source that its options name: the file, or with a project the topic or the subscription; numbers of a file are stamped with their index and messages from Pub/Sub are not; without a named source no pipeline is made, and with one the sample starts unless Pub/Sub refuses a name. Two samples started with the same options read from the same place.",
     "all six samples and all combinations of option values",
     "Ranges over all combinations of options and over pairs of programs.",
     ["sample/algorithm/npp_window.py: npp_window", "sample/algorithm/tsp_window.py: tsp_window", "sample/algorithm/npp_delta.py: npp_delta", "sample/algorithm/npp_incremental.py: npp_incremental", "sample/algorithm/npp_partial.py: npp_partial", "sample/algorithm/npp_attenuation.py: npp_attenuation"])

prop("C144", "A streaming sample runs in streaming mode exactly if it reads from Pub/Sub",
     "A sample asks Beam for streaming mode exactly if its input comes from Pub/Sub. Results go to the output file if one is given, otherwise to the output topic where the sample has that option and a project is given, otherwise to the console. The job runs on Dataflow exactly if the sample supports it, it is asked for and a non-empty bucket is given. Algorithm, model type and window of each sample do not depend on the options.",
     "all six samples and all combinations of option values",
     "Ranges over all combinations of options.",
     ["sample/algorithm/npp_window.py: npp_window", "sample/algorithm/tsp_window.py: tsp_window", "sample/algorithm/npp_delta.py: npp_delta", "sample/algorithm/npp_incremental.py: npp_incremental", "sample/algorithm/npp_partial.py: npp_partial", "sample/algorithm/npp_attenuation.py: npp_attenuation"])

prop("C145", "The subscriber acknowledges exactly what it printed",
     "For every sequence of messages the debugging subscriber acknowledges exactly the messages it could decode, in the order of arrival and each once, and prints one line for each of them, with the subscription and the text of the message; a message that cannot be decoded is neither printed nor acknowledged and does not disturb the others.",
     "all message sequences, all decoders, clocks and subscription paths",
     "Ranges over all message histories.",
     ["sample/pubsub/subscribe_pubsub.py: main"])

prop("C146", "The answers of the number partitioning samples can be read back from their output",
     "The text of an answer names on its lines the numbers of the window and their count, the two sets with their sums, and the difference of the sums; with spins +1 and -1 every number of the window is in exactly one of the sets, that of its spin. Reading the digits of the lines gives back the answer and nothing else, and two output files of windows with answers are equal only if all timestamps and answers are. A message about a failure or an outdated window never looks like an answer.",
     "all answers about natural numbers, all windows and samples, all files, all exception texts",
     "Ranges over all answers and over pairs of output files.",
     ["sample/algorithm/npp_window.py: npp_unmapping", "sawatabi/algorithm/abstract_algorithm.py: SolveDoFn.process", "sawatabi/algorithm/abstract_algorithm.py: WithTimestampStrFn", "sawatabi/algorithm/io.py: IO.write_to_text"])

prop("C147", "The route of the TSP sample can be read off its output",
     "The text of an answer shows the input and, on its last line, the names of the cities in the order of the visit, separated by arrows; different routes give different texts.",
     "all elements, all routes, all renderings of the input",
     "Ranges over all pairs of routes and all city names.",
     ["sample/algorithm/tsp_window.py: tsp_unmapping"])

prop("C148", "repr of a model shows all parts in brackets",
     "repr(model) consists of the class name and, in brackets, all parts of the model.",
     "all logical and physical models, all renderings of the parts",
     "The tests only look for some substrings of repr.",
     [LM + ": __repr__", "sawatabi/model/physical_model.py: PhysicalModel.__repr__"])

prop("C149", "From the lines of the input file to the texts of the output",
     "With an exact solver, the number partitioning samples (sliding window, delta and incremental) write exactly one text for each window of the file that holds a number. If the window has two or more numbers and no zero, the text names the numbers of the window and two sets that partition them, and no partition has a smaller difference than the one printed. With fewer than two non-zero numbers it is a message that solving failed, and with a zero besides two non-zero numbers a message that unmapping failed.",
     "all files, window sizes, periods, orders of delivery within the rules of the runner, all exact solvers, all renderings of exceptions and times",
     "Ranges over all files and all deliveries, and over all partitions of the numbers of each window.",
     ["sample/algorithm/npp_window.py: npp_mapping, npp_unmapping", "sample/algorithm/npp_delta.py", "sample/algorithm/npp_incremental.py", "sawatabi/algorithm/io.py: IO.read_from_text_as_number", "sawatabi/algorithm/abstract_algorithm.py: SolveDoFn.process"])

prop("C150", "SawatabiSolver in floating-point arithmetic",
     "Let the coefficients and the offset of a physical model be integers in some power of two as the unit (integers, halves, ...), adding up in absolute value to at most 2^49 of it. Then SawatabiSolver in double precision makes no rounding error on coefficients or energies, whatever the order in which dimod adds up: every reported energy is exactly the energy of the reported sample, and every read is a Metropolis run on the exact energy, at temperatures each of which is the rounded product of the one before and the cooling rate. For coefficients of very different sizes (2^53 and 1) the reported energy can be wrong.",
     "all physical models in scope, all options, seeds and initial states, all roundings that leave the numbers of the double format alone, all orders of addition",
     "Rounding errors accumulate over flips; no finite number of runs shows that none occurs for any model, seed and schedule in scope.",
     ["sawatabi/solver/sawatabi_solver.py: SawatabiSolver.solve, annealing, calc_energy_diff, is_acceptable", "sawatabi/model/physical_model.py: PhysicalModel.to_bqm"])

prop("C151", "Rounding moves a reported energy by a bounded amount",
     "SawatabiSolver computes in floating point. For every model whose coefficients are floating-point numbers, and every order in which dimod adds up, each energy it reports differs from the true energy of the reported sample by at most ((1+u)^m - 1) times the sum of the absolute coefficients (the offset counted three times), where u is the relative error of one operation and m is a number computed from the numbers of sweeps, variables and couplings. So the sample reported as best is, in truth, at most twice that worse than any other sample returned.",
     "every rounding with relative error at most u, every summation order, every model (no pair given in both orders) whose coefficients are representable, every option, seed and initial state, every row of the answer",
     "The error builds up over all flips of all sweeps; tests compare a few energies of small integer models, where nothing is rounded.",
     ["sawatabi/solver/sawatabi_solver.py:37-148", "sawatabi/solver/sawatabi_solver.py:150-257", "sawatabi/model/physical_model.py:56-72"])

prop("C152", "No rounding changes the shape of SawatabiSolver's answer",
     "Whatever the arithmetic does to coefficients, energies and temperatures, an answer of SawatabiSolver has one read per requested read, each with one entry per sweep in its three histories; its rows are samples over exactly the variables of the model, in index order, with legal values, no sample twice, with positive counts that add up to the number of reads. What the call does to the caller's initial states does not depend on the arithmetic either.",
     "every rounding function (also absurd ones) and order of addition, every well-indexed model, every option, seed, generator and initial state for which the call returns",
     "Tests run with one arithmetic, on models where almost nothing is rounded; the claim is about all results an operation may have.",
     ["sawatabi/solver/sawatabi_solver.py: SawatabiSolver.solve, annealing, calc_energy_diff, is_acceptable", "sawatabi/model/physical_model.py: PhysicalModel.to_bqm"])

prop("C153", "A from_pyqubo that raises: why, and what it leaves behind",
     "from_pyqubo takes the terms of the compiled expression in order. It raises KeyError for the first term with a label of an array that is not declared, IndexError for one with an index outside its array, ValueError for one whose default name is in use already, and otherwise nothing; what decides is the first problem of the first term with one. A call that raises leaves the interactions of the terms before that one in the model and the offset as it was. It can therefore not be repeated: once one term was loaded, a second call raises ValueError at the first term, whatever was declared in between, and changes nothing.",
     "every model, compiled expression and clock; every further declaration and added interaction before the second call",
     "The outcome depends on every term, on all names in use and on the arrays declared; a test sees one faulty term.",
     ["sawatabi/model/logical_model.py: LogicalModel.from_pyqubo, add_interaction, get_variables_by_name"])

prop("C154", "A physical model built by hand",
     "After PhysicalModel(t) and any calls of add_interaction the linear and quadratic entries are those of the last call about the same label or ordered pair; a call replaces what the last one about the same entry gave to the energy and changes nothing else. Such a model can be handed to dimod, but has no label indices: to_polynomial raises KeyError, and SawatabiSolver.solve raises KeyError for every argument it does not refuse for another reason.",
     "every type and sequence of calls; every random source and options",
     "All sequences of calls with repeated and reversed pairs; all options of the solver.",
     ["sawatabi/model/physical_model.py: PhysicalModel.__init__, add_interaction, to_bqm, to_polynomial", "sawatabi/solver/sawatabi_solver.py: SawatabiSolver.solve"])

prop("C155", "From a logical model to the answer in floating-point arithmetic",
     "For a model without constraints and placeholders, to_physical in an arithmetic whose results are wrong by at most a relative u gives coefficients that differ from the sum of coefficient * scale over the interactions on the same label (the same pair) by at most (1 + u)^(n + 1) - 1 times the sum of the magnitudes, n being the number of interactions; on every sample its energy differs from the energy of the logical model by at most that factor times the sum of all magnitudes. Every energy SawatabiSolver then reports differs from the energy of the logical model on the reported sample by at most (1 + u)^k - 1 times the sum of the magnitudes of the interactions and three times that of the offset, k being the number of roundings on the way. Without rounding the physical model is the exact one.",
     "every model without constraints and with plain numbers; every rounding with relative error at most u (double precision: u = 2^-53); every sample, order of addition, random source and option of the solver",
     "Errors accumulate over all interactions, sweeps and reads; a test compares one number with a tolerance.",
     ["sawatabi/model/logical_model.py: LogicalModel.to_physical", "sawatabi/solver/sawatabi_solver.py: SawatabiSolver.solve, annealing", "sawatabi/model/physical_model.py: PhysicalModel.to_bqm"])

prop("C156", "Models with integer coefficients are treated exactly",
     "Let a model without constraints and placeholders have interactions whose coefficient * scale, and an offset, that are integers in some power of two as the unit (integers, halves, ...), adding up in absolute value to at most 2^49 of it. Then to_physical in double precision gives exactly the physical model of exact arithmetic, and every energy SawatabiSolver reports for it is the energy of the logical model on the reported sample, to the last bit, whatever the order in which terms are added and the seed, options and initial states.",
     "every such model; every rounding that leaves the numbers of the double format alone, every order of addition, random source, option and initial state",
     "Every partial sum of every model, sweep and read must be a machine number.",
     ["sawatabi/model/logical_model.py: LogicalModel.to_physical", "sawatabi/solver/sawatabi_solver.py: SawatabiSolver.solve", "sawatabi/model/physical_model.py: PhysicalModel.to_bqm"])

prop("C157", "Temperatures in floating-point arithmetic",
     "When every operation is rounded with a relative error of at most u, the temperature SawatabiSolver records for sweep k of a read without reverse annealing differs from initial_temperature * cooling_rate^k by at most ((1+u)^k - 1) of it. With u < 1 and a positive initial temperature and rate no recorded temperature is zero or negative; if the rounding is also monotone, a rate of at most 1 never raises the temperature. With reverse annealing the first temperature is the rounded 1e-9, the temperature after sweep k of the reverse period differs from reverse_temperature * (1 - cooling_rate^(k+1)) by at most ((1+u)^(k+2) - 1) * (|reverse_temperature| + |reverse_temperature * cooling_rate^(k+1)|), and from the end of the period on every i sweeps cool by cooling_rate^i within ((1+u)^i - 1) of the value.",
     "every model, option, random source and initial state, every number of sweeps and every rounding with a relative error bound",
     "The error accumulates over an unbounded number of sweeps.",
     ["sawatabi/solver/sawatabi_solver.py: SawatabiSolver.annealing"])

prop("C158", "The solver sample works for every random source",
     "Each of the eight functions of sample/solver/sawatabi_solver.py builds its model, and its call of SawatabiSolver.solve returns normally whatever numbers the random source draws and whatever the time: all reads asked for (10 in the first two functions, 1 in the others) of 100 sweeps each (one in sawatabi_solver_with_initial_states) are returned and counted, every sample has exactly the variables with an interaction (the inactive a[0][0] or b[0][0] of the 2x2 models is left out), with values of the model's type, and its energy is the sum of the spins (1-body), minus the sum of the products of neighbours (2-body), 6 minus twice the sum of the three variables (2x2), the documented Hamiltonian (ising) or (number of ones - 1)^2 (qubo).",
     "every random source, clock, time and placeholder feed; the eight sample calls, three of them with initial states or reverse annealing",
     "The runs draw thousands of random numbers; a test sees the runs of one seed.",
     ["sample/solver/sawatabi_solver.py: all functions", "sample/solver/_solver_helper.py: the model-building functions", "sawatabi/solver/sawatabi_solver.py: SawatabiSolver.solve"])

prop("C159", "The random model of the profiling sample",
     "create_n_variable_random_model of sample/utils/profile.py never fails for n >= 1, whatever random numbers are drawn: it adds n(n+1)/2 interactions with different names, one per spin and one per pair of spins; the Hamiltonian is minus the sum of draw * spin over the spins and of draw * spin * spin over the pairs i < j, each draw used for exactly one interaction in the order of the loops. The decorator reports the name of the function and the difference of the two clock readings, and does not change what the function does.",
     "every n >= 1, every sequence of random numbers, clock and assignment of the spins",
     "The number of interactions grows without bound with n, and names must differ for all pairs.",
     ["sample/utils/profile.py: create_n_variable_random_model", "sawatabi/utils/profile.py: profile", "sawatabi/model/logical_model.py: LogicalModel.add_interaction"])

prop("C160", "A name stands for the array declared last",
     "After any sequence of variables(name, shape) calls on a new model, whether or not they raise, get_variables_by_name(name) returns the array of the last call about that name that did not raise: its shape, its labels name[i][j]... in order, and the variable type of the model. It raises KeyError if there was no such call. It never changes the model.",
     "every sequence of declarations, every name, shape and model type",
     "Depends on the whole history of declarations, including those that were refused.",
     ["sawatabi/model/logical_model.py: LogicalModel.variables, get_variables_by_name"])


CLAIMS = {}


def claim(id, status, theorems, note=""):
    CLAIMS[id] = dict(property=id, status=status, theorems=theorems, note=note)


exec(open(os.path.join(os.path.dirname(os.path.abspath(__file__)), "status.py")).read())

if __name__ == "__main__":
    with open(os.path.join(ROOT, "properties.jsonl"), "w") as f:
        for p in P:
            f.write(json.dumps(p) + "\n")
    with open(os.path.join(ROOT, "MANIFEST.json"), "w") as f:
        json.dump({"claims": [CLAIMS[p["id"]] for p in P if p["id"] in CLAIMS]}, f, indent=1)
        f.write("\n")
    src = ""
    d = os.path.join(ROOT, "rocq", "theories")
    for n in sorted(os.listdir(d)):
        if n.endswith(".v"):
            src += open(os.path.join(d, n)).read()
    names = set(re.findall(r"^\s*(?:Theorem|Lemma|Corollary|Example|Fact|Proposition|Remark)\s+([\w']+)", src, re.M))
    bad = [(c["property"], t) for c in CLAIMS.values() for t in c["theorems"] if t not in names]
    missing = [p["id"] for p in P if p["id"] not in CLAIMS]
    if bad:
        print("unknown theorems:", bad)
    if missing:
        print("properties without claim:", missing)
    print(len(P), "properties,", len(CLAIMS), "claims")
