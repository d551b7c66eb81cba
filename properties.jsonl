{"id": "C01", "title": "Interaction names stay unique", "statement": "In any logical model obtained from an empty one by any sequence of calls to variables/append/add_interaction/update_interaction/remove_interaction/delete_variable/fix_variable/add_constraint/remove_constraint/offset/from_pyqubo/to_ising/to_qubo/to_physical, whether or not individual calls raise, no two interactions carry the same name, and every interaction's key, body and variables agree.", "quantifier": "every finite history of API calls with arbitrary (well- and ill-typed) arguments, including calls that raise", "why_tests_cant": "Tests run a handful of short histories; uniqueness has to survive every interleaving of successful and failing calls.", "anchors": ["sawatabi/model/logical_model.py: add_interaction, update_interaction, remove_interaction, fix_variable, to_ising, to_qubo, to_physical"]}
{"id": "C02", "title": "A rejected add/update/remove leaves the model as it was", "statement": "If add_interaction, update_interaction or remove_interaction raises, every observable part of the logical model is unchanged (for models whose attribute columns are aligned).", "quantifier": "every model state and every argument combination", "why_tests_cant": "There are unboundedly many argument combinations; tests only check that an exception is raised, not that state is untouched.", "anchors": ["sawatabi/model/logical_model.py: add_interaction, update_interaction, remove_interaction"]}
{"id": "C03", "title": "add_interaction adds exactly one active interaction", "statement": "When add_interaction succeeds, exactly one interaction is added, at the end, active and dirty, with the given coefficient, scale, timestamp (now if omitted) and attributes, under the given name or the default name of its target; all other interactions, their attributes, variables, offset and constraints are unchanged; it succeeds iff the arguments are well-typed and the name is not in use (removed ones count as in use).", "quantifier": "every model state and argument combination", "why_tests_cant": "Needs the frame condition for all other interactions and attribute columns of arbitrary models.", "anchors": ["sawatabi/model/logical_model.py: add_interaction, _get_interaction_info_from_target"]}
{"id": "C04", "title": "update_interaction changes only what was asked", "statement": "When update_interaction succeeds on an existing interaction, the coefficient/scale/attributes that were passed take the new values, the others keep their old ones, the interaction is marked dirty, and no other interaction changes.", "quantifier": "every model state, target/name and subset of updated fields", "why_tests_cant": "Frame condition over arbitrary models.", "anchors": ["sawatabi/model/logical_model.py: update_interaction"]}
{"id": "C05", "title": "update_interaction without a timestamp stamps the time of the call", "statement": "An update that does not pass a timestamp records the time of the update (as add_interaction does).", "quantifier": "every model state, every clock", "why_tests_cant": "Depends on the relation between import time and call time; tests run within milliseconds of import.", "anchors": ["sawatabi/model/logical_model.py: update_interaction (default argument timestamp=current_time())"]}
{"id": "C06", "title": "remove_interaction is logical, idempotent and local", "statement": "remove_interaction marks exactly the named interaction removed; it no longer contributes to the energy; removing again is the same as removing once; adding or updating under that name raises ValueError until to_physical purges it, after which the name can be added again.", "quantifier": "every model state and every target/name", "why_tests_cant": "Universally quantified over models and the pending-removal protocol.", "anchors": ["sawatabi/model/logical_model.py: remove_interaction, add_interaction, update_interaction, to_physical"]}
{"id": "C07", "title": "A pair target is unordered", "statement": "For distinct variables x and y, add/update/remove/get_attributes with target (x, y) and with (y, x) have exactly the same effect and result.", "quantifier": "every model, every pair of variables with different labels", "why_tests_cant": "Lexicographic normalisation must be right for all label pairs.", "anchors": ["sawatabi/model/logical_model.py: _get_interaction_info_from_target"]}
{"id": "C08", "title": "Default names do not confuse different interactions", "statement": "Two targets over variables whose labels contain no '*' get the same default name iff they denote the same interaction (same set of labels).", "quantifier": "all targets over all '*'-free labels", "why_tests_cant": "String-level injectivity over infinitely many labels.", "anchors": ["sawatabi/model/logical_model.py: _get_interaction_info_from_target"]}
{"id": "C09", "title": "to_physical preserves the energy", "statement": "The physical model returned by to_physical has, for every assignment, energy -sum(coefficient*scale*product of variables) over active interactions + offset + the energy of every constraint's own model, with placeholders substituted.", "quantifier": "every logical model, placeholder dictionary and variable assignment", "why_tests_cant": "Requires induction over arbitrary interaction lists and constraint lists; tests compare a few dictionaries.", "anchors": ["sawatabi/model/logical_model.py: to_physical, merge", "sawatabi/model/physical_model.py: PhysicalModel"]}
{"id": "C10", "title": "Physical coefficients are the per-key sums, without zeros", "statement": "In the physical model each linear/quadratic key occurs once, its coefficient is the sum of coefficient*scale over active interactions (including those of the constraints) with that key, it is non-zero, and keys whose sum is zero are absent.", "quantifier": "every logical model and placeholder dictionary", "why_tests_cant": "Aggregation over arbitrarily many interactions.", "anchors": ["sawatabi/model/logical_model.py: to_physical"]}
{"id": "C11", "title": "to_physical does not disturb the logical model", "statement": "After a successful to_physical the logical model has the same type, variables, offset, deleted/fixed sets, constraints and active interactions (same order, same values, same attributes) as before; only removed interactions are purged and dirty flags cleared (provided no pending removal is named like an interaction of a constraint's own model). A second to_physical, whenever it is made, returns an equal physical model and changes nothing more.", "quantifier": "every logical model and placeholder dictionary", "why_tests_cant": "The save/merge/restore dance must be exact on all models with all constraint lists.", "anchors": ["sawatabi/model/logical_model.py: to_physical"]}
{"id": "C12", "title": "to_physical is exception safe", "statement": "If to_physical raises (e.g. a placeholder value is missing) the logical model is unchanged.", "quantifier": "every logical model and placeholder dictionary", "why_tests_cant": "Needs reasoning about every raising point.", "anchors": ["sawatabi/model/logical_model.py: to_physical"]}
{"id": "C13", "title": "Index maps are inverse bijections onto 0..n-1", "statement": "If the declared variable labels are pairwise distinct, label_to_index and index_to_label of a physical model are inverse bijections between the indexed labels and 0..n-1, in declaration order; the indexed labels are exactly the declared, non-deleted labels that occur in a non-zero interaction.", "quantifier": "every logical model whose declared labels are distinct", "why_tests_cant": "Quantifies over all shapes, deletions and interaction sets.", "anchors": ["sawatabi/model/logical_model.py: to_physical"]}
{"id": "C14", "title": "Declared labels are distinct", "statement": "Variables declared by name (names containing no '[') have pairwise distinct labels, within one array and across arrays.", "quantifier": "all sequences of declarations, all shapes", "why_tests_cant": "Injectivity of label rendering over all indices.", "anchors": ["sawatabi/model/logical_model.py: variables, append", "pyqubo.Array.create (external)"]}
{"id": "C15", "title": "delete_variable silences the variable and nothing else", "statement": "After a successful delete_variable(x) no active interaction of the model mentions x, the energy for any assignment equals the previous one with every interaction touching x dropped, interactions not touching x are unchanged, and x has no index in the next physical model.", "quantifier": "every model, variable and assignment", "why_tests_cant": "All interaction lists.", "anchors": ["sawatabi/model/logical_model.py: delete_variable, select_interactions_by_variable"]}
{"id": "C16", "title": "delete_variable works on models with constraints", "statement": "delete_variable(x) succeeds on every model, removing x from the constraints that contain it.", "quantifier": "every model with any set of constraints", "why_tests_cant": "Depends on which constraints mention the variable and on their class.", "anchors": ["sawatabi/model/logical_model.py: delete_variable", "sawatabi/model/constraint/*: remove_variable"]}
{"id": "C17", "title": "fix_variable substitutes the value", "statement": "After a successful fix_variable(x, v) the energy for every assignment equals the previous energy at the assignment with x := v, and no active interaction mentions x.", "quantifier": "every model whose interactions touching x are all active, every legal value and every assignment", "why_tests_cant": "Algebraic identity for all coefficient lists.", "anchors": ["sawatabi/model/logical_model.py: fix_variable"]}
{"id": "C18", "title": "fix_variable ignores removed interactions", "statement": "Interactions that were removed before fix_variable do not influence the energy afterwards.", "quantifier": "every model with pending removals", "why_tests_cant": "Interaction between pending logical removal and fixing is a state-history property.", "anchors": ["sawatabi/model/logical_model.py: fix_variable, select_interactions_by_variable"]}
{"id": "C19", "title": "to_ising/to_qubo preserve energy differences", "statement": "When all scales are 1, converting the model type changes the energy by a constant only, under x = (s+1)/2.", "quantifier": "every unit-scale model with numeric coefficients, every pair of assignments", "why_tests_cant": "Algebraic identity for arbitrary interaction lists, through a loop that mutates the list it converts.", "anchors": ["sawatabi/model/logical_model.py: to_ising, to_qubo, _update_variables_type"]}
{"id": "C20", "title": "to_ising/to_qubo preserve the energy exactly", "statement": "Conversion leaves the energy of corresponding assignments unchanged, offset included, for any scale.", "quantifier": "every model and assignment", "why_tests_cant": "Tests pin the numbers the code produces; only the algebraic identity shows they are not the same Hamiltonian.", "anchors": ["sawatabi/model/logical_model.py: to_ising, to_qubo"]}
{"id": "C21", "title": "Type conversion round trip", "statement": "to_ising followed by to_qubo (or the converse) restores the model type and the exact energy function, offset included, for unit-scale models.", "quantifier": "every unit-scale model with numeric coefficients", "why_tests_cant": "Composition of two list-mutating loops.", "anchors": ["sawatabi/model/logical_model.py: to_ising, to_qubo"]}
{"id": "C22", "title": "merge adds energies", "statement": "After a successful merge of two models of the same type the energy is the sum of the two energies for every assignment, and other is unchanged; if the types differ, other is converted first and the sum is with the converted model.", "quantifier": "every pair of models and every assignment", "why_tests_cant": "All pairs of interaction lists with arbitrary name clashes.", "anchors": ["sawatabi/model/logical_model.py: merge, _convert_mtype"]}
{"id": "C23", "title": "merge takes the union of variables at the elementwise maximum shape", "statement": "After a successful merge every variable of either model is declared with the elementwise maximum shape; models whose shared variable has different dimensions are rejected and self is unchanged.", "quantifier": "every pair of models", "why_tests_cant": "All variable dictionaries and shapes.", "anchors": ["sawatabi/model/logical_model.py: merge, append", "sawatabi/utils/functions.py: elementwise_max, elementwise_sub, elementwise_add"]}
{"id": "C24", "title": "merge keeps names unique", "statement": "If names are unique in both models they are unique in the merged model.", "quantifier": "every pair of models, including merging a model with itself or repeatedly", "why_tests_cant": "Depends on the history of merges.", "anchors": ["sawatabi/model/logical_model.py: merge"]}
{"id": "C25", "title": "A rejected merge changes nothing", "statement": "If merge raises, both models are unchanged.", "quantifier": "every pair of models", "why_tests_cant": "Needs every raising point.", "anchors": ["sawatabi/model/logical_model.py: merge"]}
{"id": "C26", "title": "N-hot constraint energy", "statement": "The model of an NHotConstraint has energy strength*((sum x - n)^2 - n^2): for positive strength, over 0/1 assignments with at least n variables, it is minimal exactly when n variables are hot, whatever the iteration order of the variable set.", "quantifier": "all variable sets, n, strengths, assignments, set iteration orders", "why_tests_cant": "Quadratic expansion over arbitrary finite sets.", "anchors": ["sawatabi/model/constraint/n_hot_constraint.py: to_model"]}
{"id": "C27", "title": "Zero-or-one-hot constraint energy", "statement": "The model of a ZeroOrOneHotConstraint has, on 0/1 assignments, energy strength*(sum x)*(sum x - 1): zero iff at most one variable is hot, positive otherwise (positive strength).", "quantifier": "all variable sets, strengths, assignments, iteration orders", "why_tests_cant": "Quadratic expansion over arbitrary finite sets.", "anchors": ["sawatabi/model/constraint/zero_or_one_hot_constraint.py: to_model"]}
{"id": "C28", "title": "Equality constraint energy", "statement": "For disjoint variable sets the model of an EqualityConstraint has, on 0/1 assignments, energy strength*(sum x - sum y)^2: zero iff both sides have the same number of hot variables. Overlapping sets are rejected with an exception.", "quantifier": "all variable sets, strengths, assignments, iteration orders", "why_tests_cant": "Quadratic expansion over arbitrary finite sets.", "anchors": ["sawatabi/model/constraint/equality_constraint.py: to_model"]}
{"id": "C29", "title": "Constraint variable sets behave as sets", "statement": "add_variable unions, remove_variable subtracts, a removal naming an absent variable raises and changes nothing, and adding twice is adding once.", "quantifier": "all variable sets and argument forms", "why_tests_cant": "Universally quantified set laws with exceptions.", "anchors": ["sawatabi/model/constraint/*: add_variable, remove_variable, _check_variables_and_to_set"]}
{"id": "C30", "title": "Constraint dictionary", "statement": "add_constraint replaces any constraint with the same label and touches no other; remove_constraint undoes it; removing an unknown label raises KeyError and changes nothing.", "quantifier": "every model and constraint", "why_tests_cant": "All dictionaries.", "anchors": ["sawatabi/model/logical_model.py: add_constraint, remove_constraint"]}
{"id": "C31", "title": "from_pyqubo loads the expression's energy", "statement": "Loading a compiled QUBO into a fresh QUBO model with its variables declared gives a model whose energy is the QUBO's energy for every assignment.", "quantifier": "every compiled QUBO (any number of terms, with placeholders) and assignment", "why_tests_cant": "Induction over the term list.", "anchors": ["sawatabi/model/logical_model.py: from_pyqubo"]}
{"id": "C32", "title": "from_pyqubo is additive and does not modify its argument", "statement": "Loading into a model with an existing offset adds the energies, and the passed compiled model is not modified (it can be loaded again into another model with the same result).", "quantifier": "every model and compiled QUBO", "why_tests_cant": "Aliasing and overwrite depend on history.", "anchors": ["sawatabi/model/logical_model.py: from_pyqubo"]}
{"id": "C33", "title": "append grows an array and keeps old labels", "statement": "append with a shape of the same dimension and non-negative entries keeps every existing label, in order of indices, and declares the elementwise sum shape; other variables and interactions are unchanged.", "quantifier": "every model, name, shape", "why_tests_cant": "All shapes and dimensions.", "anchors": ["sawatabi/model/logical_model.py: append"]}
{"id": "C34", "title": "Size accounting", "statement": "get_all_size is the number of declared variables; get_size is the number of declared variables that are neither deleted nor fixed, when deleted/fixed variables are declared, and no variable is both deleted and fixed.", "quantifier": "every model", "why_tests_cant": "All histories of declare/delete/fix.", "anchors": ["sawatabi/model/logical_model.py: get_size, get_all_size"]}
{"id": "C35", "title": "Attributes read back", "statement": "An attribute passed to add_interaction, or a known attribute passed to update_interaction of an existing interaction, is what get_attributes/get_attribute return for that interaction until changed; attributes of other interactions are unaffected; unset ones read NaN.", "quantifier": "every model, attribute dictionary and history", "why_tests_cant": "Column alignment invariant over histories.", "anchors": ["sawatabi/model/logical_model.py: add_interaction, update_interaction, get_attributes, get_attribute"]}
{"id": "C36", "title": "A new attribute introduced by update_interaction is kept", "statement": "An attribute key first introduced by update_interaction is returned by get_attributes and later interactions can be added, selected and converted normally.", "quantifier": "every model and later history", "why_tests_cant": "Fails only after a specific sequence of calls.", "anchors": ["sawatabi/model/logical_model.py: update_interaction (attrs not registered)"]}
{"id": "C37", "title": "to_bqm has the physical energy", "statement": "The BQM produced by to_bqm has, for every assignment, exactly the physical model's energy -sum(h x) - sum(J x y) + offset, the matching vartype, and exactly the variables and pairs of the model; to_bqm fails only for an interaction of a variable with itself, which no logical model produces.", "quantifier": "every physical model and assignment", "why_tests_cant": "All coefficient dictionaries.", "anchors": ["sawatabi/model/physical_model.py: to_bqm"]}
{"id": "C38", "title": "to_polynomial has the physical energy without offset", "statement": "When every interaction label is indexed, to_polynomial succeeds and its value on the index-ordered 0/1 vector equals the physical energy minus the offset; otherwise it raises KeyError.", "quantifier": "every physical model and assignment", "why_tests_cant": "All coefficient dictionaries and index maps.", "anchors": ["sawatabi/model/physical_model.py: to_polynomial"]}
{"id": "C39", "title": "SawatabiSolver reports the true energy of each sample", "statement": "For every model, every random stream, any schedule and pick mode, and any initial states with legal values, the energy reported with each sample equals the physical energy of that sample.", "quantifier": "every physical model with all labels indexed, all options accepted by solve, all RNG outcomes", "why_tests_cant": "Incremental energy tracking must be right along every random walk.", "anchors": ["sawatabi/solver/sawatabi_solver.py: solve, annealing, calc_energy_diff"]}
{"id": "C40", "title": "SawatabiSolver samples are well-formed", "statement": "Each returned sample assigns every indexed variable exactly one value, in {-1,1} for Ising and {0,1} for QUBO; num_reads samples are returned.", "quantifier": "every model, options, RNG outcome", "why_tests_cant": "All random walks.", "anchors": ["sawatabi/solver/sawatabi_solver.py: solve, annealing"]}
{"id": "C41", "title": "SawatabiSolver never runs out of random numbers and keeps full histories", "statement": "Acceptance tests never index outside the pregenerated random array, each sweep visits the picked variables, and with history keeping the three histories have one entry per sweep.", "quantifier": "every model, options, RNG outcome", "why_tests_cant": "Index safety over all walks.", "anchors": ["sawatabi/solver/sawatabi_solver.py: annealing"]}
{"id": "C42", "title": "Acceptance rule", "statement": "A proposed flip that lowers or keeps the energy is always accepted; one that raises it is accepted iff the drawn random is below the Boltzmann factor; a sweep of sequential/random picking in which nothing was accepted ends in a strict local minimum.", "quantifier": "all states, temperatures, random draws", "why_tests_cant": "All states.", "anchors": ["sawatabi/solver/sawatabi_solver.py: is_acceptable, calc_energy_diff, annealing"]}
{"id": "C43", "title": "Cooling schedule", "statement": "In forward annealing the temperature at sweep k is initial_temperature*cooling_rate^k; in reverse annealing it starts at 1e-9, is reverse_temperature*(1-cooling_rate^k) after k sweeps up to reverse_period, and is multiplied by cooling_rate at each later sweep.", "quantifier": "all parameters and sweeps", "why_tests_cant": "All sweep counts.", "anchors": ["sawatabi/solver/sawatabi_solver.py: annealing"]}
{"id": "C44", "title": "SawatabiSolver argument validation", "statement": "An empty model, an invalid pick mode, a wrong number of initial states and reverse options without the required entries are rejected with ValueError or TypeError before anything is sampled or changed; every other combination (non-negative num_sweeps and seed, positive temperatures, complete initial states) returns a sample set.", "quantifier": "all argument combinations", "why_tests_cant": "All combinations.", "anchors": ["sawatabi/solver/sawatabi_solver.py: solve"]}
{"id": "C45", "title": "Determinism under a seed", "statement": "Two runs with the same non-None seed draw the same random numbers.", "quantifier": "all seeds including 0", "why_tests_cant": "Tests use one seed.", "anchors": ["sawatabi/solver/sawatabi_solver.py: solve"]}
{"id": "C46", "title": "NPP dynamic programming is optimal", "statement": "For non-negative integers solve_npp_with_dp returns a split of the input positions into two groups; the flag is true iff an equal-sum split exists; otherwise the difference of the returned split is the minimum possible.", "quantifier": "all lists of non-negative integers", "why_tests_cant": "Exponentially many inputs; correctness is an induction.", "anchors": ["sawatabi/utils/npp.py: solve_npp_with_dp"]}
{"id": "C47", "title": "NPP enumeration is complete and duplicate-free", "statement": "With enumerate_all on two or more positive integers every group of positions that is the lighter (or equal) side of an optimal split is returned exactly once, in ascending order, together with its complement.", "quantifier": "all lists of two or more positive integers", "why_tests_cant": "Completeness over all subsets.", "anchors": ["sawatabi/utils/npp.py: solve_npp_with_dp"]}
{"id": "C48", "title": "Outdated windows are dropped without side effects", "statement": "A window whose timestamp is older than the last processed one yields exactly one message and leaves the stored timestamp, elements, model and sample set unchanged; stored timestamps never decrease.", "quantifier": "all histories of windows in any arrival order", "why_tests_cant": "All schedules.", "anchors": ["sawatabi/algorithm/abstract_algorithm.py: SolveDoFn.process"]}
{"id": "C49", "title": "Exactly one output per window, state bags hold at most one value", "statement": "For every history of non-empty windows with the window, delta and incremental algorithms (and partial with a filter that answers) no exception escapes, whatever the user's functions do; with every algorithm each window that does not raise yields exactly one output (solution, failure or outdated message), and each state bag holds at most one value.", "quantifier": "all histories, all user callbacks including raising ones", "why_tests_cant": "All schedules and failures.", "anchors": ["sawatabi/algorithm/abstract_algorithm.py: SolveDoFn.process"]}
{"id": "C50", "title": "Window/delta/attenuation: incoming and outgoing are exact set differences", "statement": "For sorted in-order windows whose content is determined by a timestamp range, incoming is exactly the new elements, outgoing exactly the dropped ones, so previous - outgoing + incoming = current; over a whole history of sliding or fixed windows every element is incoming exactly once, in chronological order.", "quantifier": "all streams of elements with timestamps, all window sizes and periods", "why_tests_cant": "All streams.", "anchors": ["sawatabi/algorithm/abstract_algorithm.py: SolveDoFn.process resolve_outgoing/resolve_incoming"]}
{"id": "C51", "title": "Incremental accumulates everything", "statement": "After any history of non-outdated windows the incremental algorithm's elements are the sorted multiset of everything received so far, and no element is ever outgoing.", "quantifier": "all histories", "why_tests_cant": "Induction over histories.", "anchors": ["sawatabi/algorithm/abstract_algorithm.py: SolveDoFn.process", "sawatabi/algorithm/incremental.py"]}
{"id": "C52", "title": "Incremental reports every new element as incoming", "statement": "Each received element is reported incoming exactly once.", "quantifier": "all histories including late elements", "why_tests_cant": "Only late or equal timestamps break it.", "anchors": ["sawatabi/algorithm/abstract_algorithm.py: SolveDoFn.process"]}
{"id": "C53", "title": "Partial keeps exactly the filtered previous elements", "statement": "With the partial algorithm the elements of a window are, sorted, the previous elements satisfying filter_fn together with the received ones, and outgoing reports the previous elements that were dropped.", "quantifier": "all histories and filters", "why_tests_cant": "All filters.", "anchors": ["sawatabi/algorithm/abstract_algorithm.py: SolveDoFn.process", "sawatabi/algorithm/partial.py"]}
{"id": "C54", "title": "Attenuation scales", "statement": "With the attenuation algorithm every interaction's scale lies in [min_scale, 1], is a monotone function of its reference timestamp, is min_scale for the oldest and 1 for the newest, and is the point on the line between them (for every min_scale); if all reference timestamps are equal scales are unchanged.", "quantifier": "all models, timestamps and 0<=min_scale<=1", "why_tests_cant": "All timestamp vectors.", "anchors": ["sawatabi/algorithm/abstract_algorithm.py: SolveDoFn.process attenuation"]}
{"id": "C55", "title": "Failure isolation in the stream", "statement": "If map_fn raises, the stored model and sample set are kept; if solve_fn raises, the stored sample set is kept; later windows are processed normally.", "quantifier": "all histories, all failing callbacks", "why_tests_cant": "All crash points.", "anchors": ["sawatabi/algorithm/abstract_algorithm.py: SolveDoFn.process"]}
{"id": "C56", "title": "Global index assignment", "statement": "The n-th element of the input stream gets index n (0-based): indices are unique and consecutive.", "quantifier": "all input streams", "why_tests_cant": "All streams.", "anchors": ["sawatabi/algorithm/abstract_algorithm.py: IndexAssigningStatefulDoFn"]}
{"id": "C57", "title": "Number input filter", "statement": "Reading numbers keeps exactly the lines made of decimal digits (with an optional final newline), in order, with their decimal value, and never raises; numbers written with str() one per line are read back. (An interpreter with a limit on the digits of an int raises exactly when a number is longer.)", "quantifier": "all input lines", "why_tests_cant": "All strings.", "anchors": ["sawatabi/algorithm/io.py: _read_as_number"]}
{"id": "C58", "title": "Output decoration", "statement": "Each output is prefix + '[time] ' + result + suffix with the absent options omitted, one per result, in order.", "quantifier": "all outputs and option sets", "why_tests_cant": "All strings.", "anchors": ["sawatabi/algorithm/abstract_algorithm.py: _create_pipeline output part"]}
{"id": "C59", "title": "Optigan request/response consistency", "statement": "solve rejects Ising models and models without interactions and sends nothing then; otherwise exactly one request is sent, whose polynomial evaluates on every 0/1 vector to the energy minus the offset; each returned vector becomes a sample in which the i-th value goes to the variable of index i, and when the service returns the values of the polynomial, reported energy plus offset is the physical energy; a status other than 200 is an error. The request goes to the endpoint and token given to the constructor if both are given, else to those in the configuration file named there, and only else to those in the home directory's file.", "quantifier": "all physical models and service responses", "why_tests_cant": "All models and responses.", "anchors": ["sawatabi/solver/optigan_solver.py: solve"]}
{"id": "C60", "title": "Model type and vartype are inverse", "statement": "Model type to vartype and back is the identity, and invalid strings raise ValueError.", "quantifier": "all strings", "why_tests_cant": "All strings.", "anchors": ["sawatabi/base_mixin.py: _modeltype_to_vartype, _vartype_to_modeltype"]}
{"id": "C61", "title": "Flattening arrays", "statement": "Flattening a nested list yields its leaves in order, whatever the nesting.", "quantifier": "all nested lists", "why_tests_cant": "Structural induction.", "anchors": ["sawatabi/utils/functions.py: _flatten"]}
{"id": "C62", "title": "Streaming number partitioning keeps the exact Hamiltonian", "statement": "When the number-partitioning sample runs over a stream whose elements carry distinct timestamps and indices in the same order, with the window, delta or incremental algorithm, no window raises, and in every window the solver receives exactly the Ising model sum over pairs of n_i n_j s_i s_j of the elements of that window (of everything received so far for the incremental algorithm), although the model is only updated from the previous window by appending variables, adding the new pairs and deleting the variables that left.", "quantifier": "all streams of numbers, all non-empty windows whose two ends never go back (with or without overlap, skipping elements or not), all clocks and identities, every solver", "why_tests_cant": "End-to-end invariant over histories of additions and deletions; tests run a few fixed windows.", "anchors": ["sample/algorithm/npp_window.py: npp_mapping, npp_solving", "sawatabi/algorithm/abstract_algorithm.py: SolveDoFn.process", "sawatabi/model/logical_model.py"]}
{"id": "C63", "title": "The attribute table stays rectangular", "statement": "In any logical model obtained by any sequence of API calls (merge included), whether or not individual calls raise, every attribute column is registered and holds exactly one entry per interaction.", "quantifier": "every finite history of API calls with arbitrary arguments, including calls that raise, and merges of two such models", "why_tests_cant": "Misalignment needs a specific order of calls; tests run only a few short histories.", "anchors": ["sawatabi/model/logical_model.py: _add_interaction, update_interaction, to_physical, merge, to_ising, to_qubo"]}
{"id": "C64", "title": "Equality of physical models is equality of content", "statement": "Two physical models compare equal exactly when they have the same type, coefficients, offset and index maps, whatever the insertion orders; equal models have the same energy for every assignment.", "quantifier": "all pairs of physical models, all assignments", "why_tests_cant": "All insertion orders.", "anchors": ["sawatabi/model/physical_model.py: __eq__"]}
{"id": "C65", "title": "The energy history reports energies", "statement": "With need_stats the entries of energy_history are the physical energies of the states before each sweep; the first is the energy of the given initial state.", "quantifier": "every model (any offset), options, RNG outcome", "why_tests_cant": "Offsets are rarely non-zero in tests; all runs.", "anchors": ["sawatabi/solver/sawatabi_solver.py: annealing (energy_hist)"]}
{"id": "C66", "title": "solve leaves its arguments alone", "statement": "A call of SawatabiSolver.solve does not change the caller's initial_states; calling it again with the same objects and the same random source gives the same result.", "quantifier": "every model, options, RNG outcome, success or failure", "why_tests_cant": "All argument combinations.", "anchors": ["sawatabi/solver/sawatabi_solver.py: solve (initial_states)"]}
{"id": "C67", "title": "Logical energy is what the solver reports", "statement": "For a logical model built by any history of API calls, to_physical followed by SawatabiSolver.solve succeeds, and reports for each sample the energy of the logical model plus the constraint penalties (and, for an Ising model, plus the constant by which each constraint's model is shifted on conversion).", "quantifier": "every history of API calls, feed dictionary, options and RNG outcome", "why_tests_cant": "Composition over unbounded models and random streams.", "anchors": ["sawatabi/model/logical_model.py: to_physical", "sawatabi/solver/sawatabi_solver.py: solve"]}
{"id": "C68", "title": "The first window is always processed", "statement": "A pipeline that has not processed any window yet does not reject a window as outdated.", "quantifier": "all first windows, any timestamp", "why_tests_cant": "All timestamps, including events before the epoch.", "anchors": ["sawatabi/algorithm/abstract_algorithm.py: SolveDoFn.process (prev_timestamp default)"]}
{"id": "C69", "title": "Attenuation never interrupts the stream", "statement": "With the attenuation algorithm no exception escapes from the processing of a window, whatever model map_fn returns.", "quantifier": "all models returned by map_fn, all callbacks", "why_tests_cant": "All models, including empty ones and ones with placeholders.", "anchors": ["sawatabi/algorithm/abstract_algorithm.py: SolveDoFn.process (attenuation)"]}
{"id": "C70", "title": "A failed mapping loses no element", "statement": "Elements that were incoming in a window whose map_fn raised are incoming again in the next window that still contains them.", "quantifier": "all histories with failing map_fn", "why_tests_cant": "Needs a failure followed by further windows.", "anchors": ["sawatabi/algorithm/abstract_algorithm.py: SolveDoFn.process (elements_state, map_fn)"]}
{"id": "C71", "title": "The outdated message is right", "statement": "The message for an outdated window names the timestamp of that window and the timestamp that has already been processed.", "quantifier": "all states and outdated windows", "why_tests_cant": "All pairs of timestamps.", "anchors": ["sawatabi/algorithm/abstract_algorithm.py: SolveDoFn.process (outdated message)"]}
{"id": "C72", "title": "Validation of initial_mtype", "statement": "create_pipeline accepts exactly the strings 'ising' and 'qubo' as initial_mtype; another string raises ValueError, anything else TypeError.", "quantifier": "all values", "why_tests_cant": "All strings.", "anchors": ["sawatabi/algorithm/abstract_algorithm.py: _create_pipeline"]}
{"id": "C73", "title": "Partial presents no element twice", "statement": "With the partial algorithm a window presented to the user's functions contains every element at most once.", "quantifier": "all streams, window sizes and periods, filters", "why_tests_cant": "Depends on how the windows overlap and what the filter keeps.", "anchors": ["sawatabi/algorithm/abstract_algorithm.py: SolveDoFn.process (partial)", "sawatabi/algorithm/partial.py: create_pipeline"]}
{"id": "C74", "title": "All solvers report the same energy", "statement": "The energy reported with a sample is the physical model's energy of that sample, offset included, whichever solver is used (SawatabiSolver, LocalSolver, DWaveSolver, OptiganSolver), given that the external sampler returns the energies of what it was asked to minimise.", "quantifier": "all physical models, samplers, options and responses", "why_tests_cant": "Needs agreement of four conversions on every model; tests compare single models without offset.", "anchors": ["sawatabi/solver/sawatabi_solver.py: solve", "sawatabi/solver/local_solver.py: solve", "sawatabi/solver/dwave_solver.py: solve", "sawatabi/solver/optigan_solver.py: solve", "sawatabi/model/physical_model.py: to_bqm, to_polynomial"]}
{"id": "C75", "title": "The exact local solver finds a ground state of the logical model", "statement": "LocalSolver(exact=True) succeeds on every non-empty physical model, lists every assignment of its variables exactly once with its energy, and every completion of the lowest sample minimises the logical model's Hamiltonian plus constraint penalties over all legal assignments, for QUBO and Ising models.", "quantifier": "all logical models with constraints, all assignments", "why_tests_cant": "Optimality over all 2^n assignments of any model.", "anchors": ["sawatabi/solver/local_solver.py: solve", "sawatabi/model/logical_model.py: to_physical", "sawatabi/model/physical_model.py: to_bqm"]}
{"id": "C76", "title": "Element-wise operations", "statement": "elementwise_add and elementwise_sub return a container of the same kind whose i-th entry is the sum or difference of the i-th entries, as long as the shorter one; elementwise_max and elementwise_min of equally long ones contain the larger and smaller entry, repeat a sequence of one element and refuse other lengths; mixed or other types raise TypeError.", "quantifier": "all pairs of tuples and lists", "why_tests_cant": "All lengths and values.", "anchors": ["sawatabi/utils/functions.py: elementwise_add, elementwise_sub, elementwise_max, elementwise_min"]}
{"id": "C77", "title": "Unusable models are refused before sampling", "statement": "Every solver raises TypeError for something that is not a PhysicalModel and ValueError for a model without interactions, whatever the other arguments, before the sampler is called or a request is sent; and it passes the BQM of every other model on to the sampler.", "quantifier": "all solvers, arguments and models", "why_tests_cant": "All combinations of arguments, including invalid ones.", "anchors": ["sawatabi/solver/sawatabi_solver.py: solve", "sawatabi/solver/local_solver.py: solve, default_beta_range", "sawatabi/solver/dwave_solver.py: solve", "sawatabi/solver/optigan_solver.py: solve"]}
{"id": "C78", "title": "Every variable gets a value", "statement": "Every declared, not deleted variable of the logical model has a value in every sample of every solver.", "quantifier": "all models and solvers", "why_tests_cant": "Depends on which interactions cancel, are removed or never existed.", "anchors": ["sawatabi/model/logical_model.py: to_physical", "sawatabi/model/physical_model.py: to_bqm", "sawatabi/solver/sawatabi_solver.py: solve", "sawatabi/solver/local_solver.py: solve"]}
{"id": "C79", "title": "Streaming number partitioning answers with a partition, an optimal one with the exact solver", "statement": "In every window of such a run with at least two numbers, none of them zero, the answer of the sample is a partition of the numbers of the window into two sets together with the absolute difference of their sums; with any solver that reports true energies it is at least as good as every sample the solver returned, and with the exact local solver no partition has a smaller difference. In the other windows the exact local solver reports a failure: 'Failed to solve' (ValueError) when fewer than two numbers are not zero, 'Failed to unmap' (KeyError) when two are not zero and one is.", "quantifier": "all streams of non-zero numbers, all windows with at least two elements, all sets of samples of an honest solver, all partitions", "why_tests_cant": "Optimality quantifies over all 2^n partitions in every window of every stream.", "anchors": ["sample/algorithm/npp_window.py: npp_mapping, npp_solving, npp_unmapping", "sawatabi/algorithm/abstract_algorithm.py: SolveDoFn.process", "sawatabi/solver/local_solver.py: solve"]}
{"id": "C80", "title": "Declaring variables", "statement": "variables(name, shape) succeeds exactly when the name contains no '*' and the shape is a non-empty tuple of positive ints; it then declares under that name exactly one variable name[i][j]... of the model's type for every multi-index inside the shape, pairwise distinct, and touches nothing else. Passing a ready array of variables of one type stores it under its name if the type is the model's and raises TypeError otherwise. A rejected variables or append call changes nothing; arguments of the wrong kind raise TypeError.", "quantifier": "all names, shapes (any number of dimensions, any sizes), arrays and models", "why_tests_cant": "Shapes, names and prior declarations are unbounded; tests use a handful of 1- and 2-dimensional shapes.", "anchors": ["sawatabi/model/logical_model.py: variables, append", "sawatabi/base_mixin.py: _check_argument_type, _check_argument_type_in_tuple"]}
{"id": "C81", "title": "Attributes passed to an update that creates the interaction are kept", "statement": "When update_interaction is given a target that has no interaction yet it adds the interaction with the arguments it was given, so the attributes passed to it are what get_attribute returns afterwards.", "quantifier": "every model, target, attribute dictionary and history", "why_tests_cant": "The call succeeds and silently loses one of its arguments; only the combination unknown target plus attributes shows it.", "anchors": ["sawatabi/model/logical_model.py: update_interaction (lines 237-241)"]}
{"id": "C82", "title": "Travelling salesman: the model of a window is the problem of its cities", "statement": "In every window of the travelling-salesman sample the solver is handed a QUBO whose energy, for all 0/1 values, is the sum of the distances (in 100 km) between cities visited one after the other, plus 17.5 for every unit of squared deviation of a time slot from exactly one city and 15 for every such deviation of a city from exactly one time slot, over exactly the cities of that window. The assignments of a tour cost its length and nothing else; every other assignment costs at least twice the smaller penalty. A window without cities gives an empty model.", "quantifier": "all numbers of cities, all non-negative distances, all 0/1 assignments, all placeholder values, all sequences of non-empty windows in time order (window and delta), any compiler meeting the stated contract of PyQUBO", "why_tests_cant": "The energy identity ranges over all sizes, distances and 2^(n*n) assignments; the lower bound needs a parity argument over all of them.", "anchors": ["sample/algorithm/tsp_window.py: tsp_mapping, tsp_solving", "sawatabi/model/logical_model.py: from_pyqubo, to_physical", "sawatabi/algorithm/abstract_algorithm.py: SolveDoFn.process"]}
{"id": "C83", "title": "Travelling salesman: the answer is a shortest tour", "statement": "In every window of the travelling-salesman sample with the exact local solver the answer names each city of the window exactly once, in the order of a shortest closed tour. With any solver that reports true energies, an answer whose energy is below 30 is a tour of 100 times that energy in km.", "quantifier": "all cities and distances, all tours, all sequences of windows, all honest solvers", "why_tests_cant": "Optimality over all n! tours and all infeasible assignments; whether the penalties suffice depends on the distances.", "anchors": ["sample/algorithm/tsp_window.py: tsp_mapping, tsp_solving, tsp_unmapping", "sawatabi/solver/local_solver.py: solve"]}
{"id": "C84", "title": "What one window hands to the next", "statement": "map_fn receives the model as solve_fn left it in the window before (also when that solve_fn raised), the initial model in the first window, and the sample set of the last window that was solved; nothing else is carried over. So the outputs of a history are the ones obtained by calling map_fn, solve_fn and unmap_fn in turn on the elements of each window, threading only the model and the sample set.", "quantifier": "all histories of windows, all user functions including raising ones and ones that modify the model in place, all algorithms without attenuation", "why_tests_cant": "All histories and crash points; tests run a few windows with well-behaved functions.", "anchors": ["sawatabi/algorithm/abstract_algorithm.py: SolveDoFn.process"]}
{"id": "C85", "title": "Delivery order inside a window does not matter", "statement": "If the elements of the windows of a history are delivered in another order, every output and the whole stored state are the same.", "quantifier": "all histories, all permutations of the elements of each window, all algorithms, options and user functions", "why_tests_cant": "n! delivery orders per window; the runner's order is not under a test's control.", "anchors": ["sawatabi/algorithm/abstract_algorithm.py: SolveDoFn.process"]}
{"id": "C86", "title": "Pub/Sub resources", "statement": "read_from_pubsub reads from the topic if one is given, else from the subscription, and raises with neither; an empty project, topic or subscription is refused with ValueError; what write_to_pubsub writes to a project and topic is read back with the same project and topic; different projects or topics are different resources.", "quantifier": "all project, topic and subscription names", "why_tests_cant": "All strings.", "anchors": ["sawatabi/algorithm/io.py: read_from_pubsub, write_to_pubsub"]}
{"id": "C87", "title": "Number partitioning with attenuation", "statement": "When the number-partitioning sample runs over a stream with the attenuation algorithm and the attribute attn_ts, and every window holds at least two numbers, no window raises and the solver receives in every window the sum over the pairs of that window of w n_i n_j s_i s_j, where w depends on the arrival time of the earlier number of the pair only: it runs on a line from min_scale for the oldest number of the window to 1 for the last but one. Scales of earlier windows leave no trace. A window with one number stops the stream.", "quantifier": "all streams of numbers with distinct timestamps and indices in the same order, all windows of two or more numbers whose two ends never go back, every min_scale, all clocks and identities, every solver", "why_tests_cant": "End-to-end invariant over histories of additions, deletions and rescalings; tests run a few fixed windows.", "anchors": ["sample/algorithm/npp_attenuation.py: npp_attenuation", "sample/algorithm/npp_window.py: npp_mapping, npp_solving", "sawatabi/algorithm/abstract_algorithm.py: SolveDoFn.process", "sawatabi/model/logical_model.py"]}
{"id": "C88", "title": "From a text file of numbers to the answers", "statement": "Reading a text file through the number-partitioning sample, with timestamps reassigned, takes exactly the lines that are numbers, and numbers their positions 0, 1, 2... in the order they are handed over. The window from lo to hi (for the incremental variant: everything up to hi) is answered, with the exact local solver, for exactly the integers at the positions in it: by two lists of integers that are together these integers and whose sums differ as little as possible, if there are at least two and none is zero; otherwise by the failure of C79. Earlier failures do not matter. When the size is a multiple of the period (at least 2), every window of a file of non-zero numbers is answered unless the file has one number more than a multiple of the period; then exactly the last window fails.", "quantifier": "all files (lists of lines), all orders in which the numbers are handed over, all window sizes and periods, all orders of the elements in a window, all clocks and identities, all partitions", "why_tests_cant": "Composes parsing, index assignment, windowing, incremental model updates, solving and decoding over files of any length.", "anchors": ["sample/algorithm/npp_window.py: npp_window", "sample/algorithm/npp_delta.py", "sample/algorithm/npp_incremental.py", "sawatabi/algorithm/io.py: read_from_text_as_number", "sawatabi/algorithm/abstract_algorithm.py: _create_pipeline, IndexAssigningStatefulDoFn, SolveDoFn.process"]}
{"id": "C89", "title": "The attenuation sample answers every window of a text file", "statement": "Run on a text file of at least two non-zero numbers, with a window size that is a multiple of the period, the attenuation sample hands the solver in every window the faded model (C87) of exactly the numbers at the positions of the window, and no window raises.", "quantifier": "all files, all window sizes and periods, all min_scale, all solvers", "why_tests_cant": "Whether a window raises depends on the length of the file; tests use one file.", "anchors": ["sample/algorithm/npp_attenuation.py: npp_attenuation", "sawatabi/algorithm/abstract_algorithm.py: SolveDoFn.process"]}
{"id": "C90", "title": "== of logical models and of constraints compares content", "statement": "For models obtained by any history of API calls, m == o holds exactly when both have the same type, arrays, interactions with their attributes in the same order, constraints, deleted and fixed variables and offset, however the arrays and constraints were ordered when declared and whatever to_physical last returned. Two constraints are equal exactly when class, label, parameters and sets of variables are, and then penalise every assignment alike. == is an equivalence and != its negation; nothing that is not a LogicalModel is equal to one.", "quantifier": "all pairs of logical models reachable by any history, all pairs of constraints, all assignments", "why_tests_cant": "Equality ranges over pairs of arbitrary objects; tests compare a few.", "anchors": ["sawatabi/model/logical_model.py: LogicalModel.__eq__, __ne__", "sawatabi/model/constraint/n_hot_constraint.py: __eq__", "sawatabi/model/constraint/equality_constraint.py: __eq__", "sawatabi/model/constraint/zero_or_one_hot_constraint.py: __eq__"]}
{"id": "C91", "title": "Equal logical models are interchangeable", "statement": "If m == o then any call with the same arguments returns on both or raises on both, and after calls that return the models are equal again; the same holds of any sequence of such calls and of merging equal models into them. Their physical models have the same type, coefficients, offset and energy of every assignment.", "quantifier": "all pairs of equal models reachable by any history, all calls and sequences of calls, all feeds, all orders of the underlying dictionaries and sets", "why_tests_cant": "It quantifies over pairs of histories leading to equal models and over every continuation.", "anchors": ["sawatabi/model/logical_model.py: LogicalModel.__eq__, every public method, to_physical"]}
{"id": "C92", "title": "Equal logical models have equal physical models", "statement": "If m == o and both are converted with the same placeholder values, the two physical models are equal.", "quantifier": "all pairs of equal models reachable by any history, all feeds", "why_tests_cant": "It quantifies over pairs of histories leading to equal models.", "anchors": ["sawatabi/model/logical_model.py: LogicalModel.__eq__, to_physical", "sawatabi/model/physical_model.py: PhysicalModel.__eq__"]}
{"id": "C93", "title": "A model consists of variables of its own type", "statement": "In every Ising model all declared variables and all variables of active interactions are Spin variables, in every QUBO Binary variables, whatever calls, conversions and merges led to it.", "quantifier": "all models reachable by any history of calls and merges, including calls that raise", "why_tests_cant": "It is an invariant of all histories; conversions and merges interact with removed interactions and failing calls.", "anchors": ["sawatabi/model/logical_model.py: _update_variables_type, to_ising, to_qubo, merge, fix_variable, add_interaction"]}
{"id": "C94", "title": "The offset is what was set last", "statement": "offset(c) sets the offset to c, whatever it was, changes nothing else and moves the energy of every assignment by the difference. A new model has offset zero. No other method changes the offset, whether it returns or raises, except from_pyqubo, fix_variable, the conversions, merge, and to_physical when it raises.", "quantifier": "all models, all calls with all arguments, all assignments", "why_tests_cant": "It quantifies over all models and calls.", "anchors": ["sawatabi/model/logical_model.py: offset, get_offset"]}
{"id": "C95", "title": "Models are independent of each other", "statement": "In a program with any number of models, constraints and sets, a method called on one model has the effect described for that model alone, on the content it has at that time, and leaves every other model as it is.", "quantifier": "all programs: any sequence of calls on any models, constraint objects and sets, including calls that raise", "why_tests_cant": "It quantifies over all programs; sharing arises from combinations of calls on several objects.", "anchors": ["sawatabi/model/logical_model.py: merge, delete_variable, add_constraint", "sawatabi/model/constraint: add_variable, remove_variable"]}
{"id": "C96", "title": "A constraint object stays connected to the models it was added to", "statement": "add_constraint stores the object itself. A method called on it later has the same effect in every model that holds it and none elsewhere, until the constraint is removed from the model or another of the same label is added.", "quantifier": "all programs as in C95, all constraint objects, all arguments", "why_tests_cant": "It quantifies over all programs and over what happened between add_constraint and the later call.", "anchors": ["sawatabi/model/logical_model.py: add_constraint, remove_constraint, get_constraints", "sawatabi/model/constraint: add_variable, remove_variable, add_variable_to_1, remove_variable_from_2"]}
{"id": "C97", "title": "A constraint has its own variables", "statement": "A constraint's variables change only through its own methods and delete_variable of a model that holds it: not when another constraint changes and not when the program changes a collection it was made of. No call changes a set the program passes.", "quantifier": "all programs as in C95, all constraint objects and sets", "why_tests_cant": "Aliasing shows only for particular sequences of calls on particular objects.", "anchors": ["sawatabi/model/constraint/abstract_constraint.py: _check_variables_and_to_set", "sawatabi/model/constraint/n_hot_constraint.py: add_variable, remove_variable", "sawatabi/model/constraint/equality_constraint.py: add_variable_to_1"]}
{"id": "C98", "title": "SawatabiSolver can return every assignment in random pick-up mode", "statement": "In random pick-up mode, no assignment is excluded by the initial state: with at least twice as many sweeps as variables, for suitable random numbers solve returns any given assignment, in particular one of least energy. Without initial states this holds for both modes and any number of sweeps.", "quantifier": "all models built through the API (and all physical models in which every variable matters), all complete initial states, all schedules of positive temperatures, all target assignments", "why_tests_cant": "Whether an annealer can get from every state to every other one is a statement about all states, all sequences of random numbers and all schedules; a test sees one run.", "anchors": ["sawatabi/solver/sawatabi_solver.py: SawatabiSolver.solve, annealing, is_acceptable, calc_energy_diff"]}
{"id": "C99", "title": "SawatabiSolver can return every assignment in sequential pick-up mode", "statement": "In sequential pick-up mode too, with enough sweeps and suitable random numbers solve returns any given assignment, whatever the initial state.", "quantifier": "all models built through the API, all complete initial states, all schedules of positive temperatures, all target assignments", "why_tests_cant": "As for C98; that a state is never left for any random numbers, temperatures and number of sweeps cannot be seen by running.", "anchors": ["sawatabi/solver/sawatabi_solver.py: SawatabiSolver.annealing, is_acceptable", "sawatabi/constants.py: PICKUP_MODE_SEQUENTIAL"]}
{"id": "C100", "title": "Constraints of sufficient strength are respected by the optimum", "statement": "If every constraint's strength is larger than any difference of energy the model can make without the constraints (for instance larger than the sum of |coefficient * scale|, twice that for an Ising model), the ground states are exactly the assignments that satisfy all constraints and are best among those; and any sample as good as some assignment that satisfies the constraints satisfies them too.", "quantifier": "all models of both types with any constraints that can be satisfied together, all assignments, all solvers that report energies correctly", "why_tests_cant": "It quantifies over all assignments of all models; a test tries a few strengths on a few models.", "anchors": ["sawatabi/model/constraint: NHotConstraint.to_model, ZeroOrOneHotConstraint.to_model, EqualityConstraint.to_model", "sawatabi/model/logical_model.py: to_physical", "sawatabi/solver/local_solver.py: solve"]}
{"id": "C101", "title": "Number partitioning with the partial algorithm answers for the numbers of the window", "statement": "When the number-partitioning sample runs with the partial algorithm and a filter, the model handed to the solver in every window is exactly the one of the numbers of that window (the kept ones and the received ones), so that an exact solver gives a best partition of them.", "quantifier": "every filter that answers, every sequence of windows of increasing numbers, every solver", "why_tests_cant": "Numbers that the filter drops after a kept one linger in the model; whether they matter depends on the numbers of all earlier windows.", "anchors": ["sample/algorithm/npp_partial.py:filter_fn", "sample/algorithm/npp_window.py:npp_mapping", "sawatabi/algorithm/abstract_algorithm.py:resolve_outgoing", "sawatabi/algorithm/partial.py:Partial"]}
{"id": "C102", "title": "A Hamiltonian entered term by term is the model's Hamiltonian", "statement": "When the linear and quadratic terms of a polynomial are entered into a model without interactions by one add_interaction each, all of them are accepted exactly when no variable is squared and no two terms are of the same variables in any order; the energy of the model is then its offset minus the polynomial for every assignment, to_physical gives the entered coefficients, and an exact solver answers with every assignment of the variables of the terms with a nonzero coefficient, each once and with that energy.", "quantifier": "all lists of terms, all models without interactions, both types, all assignments", "why_tests_cant": "It ranges over all polynomials; a test enters a few.", "anchors": ["sawatabi/model/logical_model.py: add_interaction", "sawatabi/model/logical_model.py: to_physical", "sawatabi/solver/local_solver.py: solve"]}
{"id": "C103", "title": "The n-hot Hamiltonian written from scratch is minimised by the n-hot assignments", "statement": "The n-hot models of the sample that are written without a constraint, for QUBO and Ising, are accepted and have as answers of lowest energy of an exact solver exactly the assignments with n ones (all N if n > N), with the energy (k - n)^2 - n^2, resp. 4(k - n)^2 - N - (N - 2n)^2, for k ones.", "quantifier": "every number N > 0 of variables, every n, both types, every clock", "why_tests_cant": "The sample has the ten cases up to N = 4 only; the formula for the coefficients must be right for every size.", "anchors": ["sample/model/constraint/n_hot_from_scratch.py"]}
{"id": "C104", "title": "The models of the solver samples have the documented solutions", "statement": "The models that the solver samples share have the solutions that their comments document: with one-body interactions of coefficient -1 all spins are -1, with two-body interactions along a chain all spins are equal, and the models of fixed size have one solution of lowest energy with the documented values and energy.", "quantifier": "chains and fields of every length, every clock", "why_tests_cant": "The samples have 12 spins; the claim is for every length.", "anchors": ["sample/solver/_solver_helper.py"]}
{"id": "C105", "title": "The energy determines the physical model", "statement": "In a physical model that to_physical returns, a variable occurs exactly when the energy depends on its value; and two such models of the same type whose energies differ by a constant for all legal assignments have the same linear and quadratic coefficients, with offsets that differ by that constant. So what a solver is sent does not depend on the way the same objective was entered, through interactions in any order or through constraints.", "quantifier": "all pairs of models reached by any calls, all legal assignments", "why_tests_cant": "It compares all pairs of ways to enter an objective, and needs that no coefficient can be seen that the energy does not show.", "anchors": ["sawatabi/model/logical_model.py: to_physical", "sawatabi/model/physical_model.py", "sawatabi/model/constraint"]}
{"id": "C106", "title": "Only a missing placeholder makes to_physical raise", "statement": "If the variables of each constraint have distinct labels without * and spaces, the clock's text has no parenthesis, and no removed interaction that is still pending has a name with a parenthesis, then to_physical returns a physical model for every QUBO and Ising model whose placeholders are all given a value: the names that are generated for the interactions of constraints and for their conversion never collide.", "quantifier": "all models with any number of constraints of the three classes, any strengths and labels of the constraints, every feed", "why_tests_cant": "The generated names depend on labels, texts and counters; a collision for some input raises an exception that no tested input raises.", "anchors": ["sawatabi/model/logical_model.py: to_physical", "sawatabi/model/logical_model.py: _convert_mtype", "sawatabi/model/constraint"]}
{"id": "C107", "title": "A model with an n-hot constraint is minimised by the n-hot assignments", "statement": "The sample models with an array of N variables and an NHotConstraint of positive strength over it, QUBO or Ising, with any offset, are accepted and converted; an exact solver answers with every assignment of exactly these N variables, each once, with the energy offset + strength * ((k - n)^2 - n^2) for k ones (for Ising plus a constant that depends on N, n and the strength only); and the answers of lowest energy are exactly those with n ones, or with all N if n > N. The QUBO model of the solver samples has energy 0 there.", "quantifier": "every N > 0 and n > 0, every positive strength, every offset, every array name without * and space, both types", "why_tests_cant": "The samples run s = 4 and 100 only; no variable may drop out of the physical model for any N and n although linear coefficients may be zero.", "anchors": ["sample/model/constraint/n_hot_constraint.py", "sample/solver/_solver_helper.py:_create_qubo_model", "sawatabi/model/constraint/n_hot_constraint.py"]}
{"id": "C108", "title": "Fixing several variables puts in all their values", "statement": "After fix_variable(x, a) and fix_variable(y, b), the energy of every assignment is the energy the model had with x = a and y = b; likewise for any number of variables fixed one after the other.", "quantifier": "all models, all pairs and lists of variables, all values, all assignments", "why_tests_cant": "It depends on which interactions couple the variables and on what happened between the calls; tests fix one variable.", "anchors": ["sawatabi/model/logical_model.py: fix_variable", "sawatabi/model/logical_model.py: to_physical"]}
{"id": "C109", "title": "A fixed variable is out of the model", "statement": "After fix_variable(x, q) the physical model does not mention x, and the best answer for it, extended by x = q, is a best assignment of the model as it was among those with x = q.", "quantifier": "all models, variables, values and exact answers", "why_tests_cant": "It compares all assignments of two models.", "anchors": ["sawatabi/model/logical_model.py: fix_variable", "sawatabi/model/logical_model.py: to_physical", "sawatabi/solver/local_solver.py: LocalSolver.solve"]}
{"id": "C110", "title": "Merging adds the models, in any order and grouping", "statement": "For models of the same type, the physical model of a.merge(b) has, for every assignment, the sum of the energies of the physical models of a and b. a.merge(b) and b.merge(a) give physical models with the same coefficients and offset, and if one is accepted so is the other; likewise (a.merge(b)).merge(c) and a.merge(b.merge(c)). For models of different types with all scales 1, the two ways to merge give objectives that differ by a constant at corresponding assignments.", "quantifier": "all models with any interactions and constraints, all assignments, all clocks and ids", "why_tests_cant": "It compares all pairs and triples of models; renaming of duplicate names, appended arrays and merged constraints must never change a coefficient.", "anchors": ["sawatabi/model/logical_model.py: merge", "sawatabi/model/logical_model.py: to_physical"]}
{"id": "C111", "title": "Adding a constraint is merging its model", "statement": "add_constraint(c), and merging the model c.to_model() returns, give physical models with the same coefficients and offset, for QUBO and Ising models. Doing both, as the sample program does, counts the penalty twice.", "quantifier": "all models, all constraints of the three classes, all clocks and ids", "why_tests_cant": "It compares two ways to build every model.", "anchors": ["sawatabi/model/logical_model.py: add_constraint", "sawatabi/model/logical_model.py: merge", "sawatabi/model/logical_model.py: to_physical", "sawatabi/model/constraint", "sample/model/model.py: model_constraints"]}
{"id": "C112", "title": "Calling to_physical again after it failed gives the same result", "statement": "When to_physical raises because a placeholder has no value, calling it again with the missing values gives the physical model it would have given the first time, however often it failed before.", "quantifier": "all models, all numbers of failed calls with any placeholders, all later calls, all assignments", "why_tests_cant": "The number of failed calls is unbounded and what each leaves behind depends on the constraints of the model; a test shows one model and one retry.", "anchors": ["sawatabi/model/logical_model.py: to_physical, merge"]}
{"id": "C113", "title": "select_interaction returns exactly the interactions that meet the query", "statement": "select_interaction returns the interactions for which the query is true and no others, in the order in which they were added, each with the name, keys, coefficient, scale, timestamp, flags and attributes it has; both formats hold the same rows; and, or and not act as intersection, union and complement; an unknown column (NameError), an order comparison of a number with a string (TypeError) or an unknown format (ValueError) is refused, nothing else is; the model is not changed. What add_interaction was given is what a selection by name shows, a removed interaction is shown as removed, the attributes are those get_attribute reads, and the energy can be recomputed from the rows that are not removed.", "quantifier": "all models whose attribute table is rectangular (C63), all queries built of comparisons (==, !=, <, <=, >, >=) of a column and a literal with and, or, not, both formats, all later calls", "why_tests_cant": "Queries and models are unbounded; tests look at single cells of a few selections.", "anchors": ["sawatabi/model/logical_model.py: select_interaction, select_interactions_by_variable, _update_interactions_dataframe_from_arrays, add_interaction, remove_interaction, get_attribute"]}
{"id": "C114", "title": "A model that one solver accepts is accepted by the others", "statement": "Once a logical model has been converted to a physical one, SawatabiSolver and OptiganSolver accept the physical model whenever the exact local solver does, provided the other arguments are valid. (Violated: add_interaction takes variables that were never declared in the model, and a delete_variable call stopped by a constraint leaves the variable marked deleted with its interactions in place; LocalSolver answers for such models, SawatabiSolver and OptiganSolver raise KeyError.)", "quantifier": "for every reachable logical model, placeholder feed, valid solver arguments, random generator and service configuration", "why_tests_cant": "the failing models pass every check made while they are built, and the index used by one solver is not the list of variables used by the other; tests use models that declare what they use", "anchors": ["sawatabi/model/logical_model.py: to_physical", "sawatabi/model/logical_model.py: delete_variable", "sawatabi/solver/sawatabi_solver.py: solve", "sawatabi/solver/optigan_solver.py: solve", "sawatabi/model/physical_model.py: to_polynomial"]}
{"id": "C115", "title": "Incoming and outgoing are decided by timestamps alone", "statement": "Whatever windows came before, and whatever the user's functions did in them, a window that is not outdated presents its elements (those received, plus the stored ones with incremental, plus those the filter keeps with partial) in chronological order; incoming are exactly the ones later than every stored element and outgoing exactly the stored ones earlier than every presented element, both in order.", "quantifier": "all algorithms, all histories of windows (overlapping, late, out of order), all user functions including failing ones, all total filters", "why_tests_cant": "The two scans stop at the first element that fails a comparison; that this equals the set definition needs the stored list to be sorted after every history.", "anchors": ["sawatabi/algorithm/abstract_algorithm.py: SolveDoFn.process", "sawatabi/algorithm/abstract_algorithm.py: AbstractAlgorithm._resolve_outgoing", "sawatabi/algorithm/abstract_algorithm.py: AbstractAlgorithm._resolve_incoming"]}
{"id": "C116", "title": "The unit of the coefficients does not matter to SawatabiSolver", "statement": "If all coefficients and the offset of a physical model and the initial temperature are multiplied by the same positive number k, SawatabiSolver.solve without reverse_options, with the same random numbers, returns the same samples with the same numbers of occurrences, accepts the same numbers of flips in every sweep, and reports energies and temperatures multiplied by k; if it raises, it raises the same exception.", "quantifier": "every physical model, every choice of options without reverse annealing, every positive factor, every random generator, every acceptance function that depends on the quotient of energy difference and temperature only", "why_tests_cant": "A relation between two runs for all models, factors and random sequences; a test compares two runs.", "anchors": ["sawatabi/solver/sawatabi_solver.py: solve", "sawatabi/solver/sawatabi_solver.py: annealing", "sawatabi/solver/sawatabi_solver.py: calc_energy_diff", "sawatabi/solver/sawatabi_solver.py: is_acceptable", "sawatabi/model/physical_model.py: to_bqm"]}
{"id": "C117", "title": "The offset does not influence SawatabiSolver", "statement": "Adding a constant to the offset of a physical model changes neither the samples SawatabiSolver.solve returns, nor how often each occurs, nor the temperatures and numbers of accepted flips, nor whether it raises; the reported energies change by that constant.", "quantifier": "every physical model, every choice of options (reverse annealing included), every constant, every random generator", "why_tests_cant": "A relation between two runs for all models, constants and random sequences; the offset enters the tracked energy with the wrong sign and is corrected at the end.", "anchors": ["sawatabi/solver/sawatabi_solver.py: solve", "sawatabi/solver/sawatabi_solver.py: annealing", "sawatabi/model/physical_model.py: to_bqm"]}
{"id": "C118", "title": "The labels of the variables do not influence SawatabiSolver", "statement": "If the variables of a physical model (and of the initial states) are given other labels, different ones for different variables, with the same indices, SawatabiSolver.solve with the same random numbers returns the same samples under the new labels, with the same energies, occurrences and histories, leaves the initial states as it would have under the new labels, and raises exactly when it would have raised.", "quantifier": "every physical model, every injective renaming, every choice of options, every random generator", "why_tests_cant": "A relation between two runs for all models, renamings and random sequences.", "anchors": ["sawatabi/solver/sawatabi_solver.py: solve", "sawatabi/solver/sawatabi_solver.py: annealing", "sawatabi/model/physical_model.py: to_bqm"]}
{"id": "C119", "title": "SawatabiSolver's answer depends only on the energies", "statement": "Solving two physical models of the same type with the same variables in the same index order, whose energies differ by one constant for all legal assignments, with the same options and the same random numbers gives the same samples with the same numbers of occurrences, the same temperature and acceptance histories, energies that differ by that constant, and the same exception if there is one; two models that compare equal give identical results; and two logical models that declare the same variables and whose objectives differ by a constant are solved alike, whatever calls built them and in whatever order.", "quantifier": "all pairs of physical (or logical) models with the same landscape, all options, all sources of random numbers, all acceptance functions", "why_tests_cant": "A test compares a few pairs of models; the same trajectory must result from every arrangement of the coefficients, for every sequence of random numbers.", "anchors": ["sawatabi/solver/sawatabi_solver.py: SawatabiSolver.solve, SawatabiSolver.annealing, SawatabiSolver.calc_energy_diff", "sawatabi/model/physical_model.py: PhysicalModel.to_bqm", "sawatabi/model/logical_model.py: to_physical"]}
{"id": "C120", "title": "SawatabiSolver does not distinguish a QUBO from the equivalent Ising model", "statement": "If an Ising model and a QUBO have the same variables in the same index order and the energies of corresponding assignments differ by a constant, solving them with the same options and random numbers (initial states translated) gives corresponding samples with the same numbers of occurrences, the same temperature and acceptance histories, energies that differ by the constant, and the same exception if there is one.", "quantifier": "all such pairs of models, all options and initial states of 0s and 1s, all sources of random numbers, all acceptance functions", "why_tests_cant": "A test runs one pair with one seed.", "anchors": ["sawatabi/solver/sawatabi_solver.py: SawatabiSolver.solve, SawatabiSolver.annealing", "sawatabi/model/physical_model.py: PhysicalModel.to_bqm"]}
{"id": "C121", "title": "Printing a model shows every part in a box, and never changes the model", "statement": "str(model) and repr(model) never change the model; they raise ValueError exactly when a column of the table of interactions has another length than the number of interactions, and succeed otherwise. When no variable name contains a line break, the lines of str(model) are exactly: the upper border, the title, the type, the variable names, then for each variable its name and every line of its array indented, the interactions, the offset, the constraints and the lower border; every line begins with a character of the frame. With a line break in a variable name the frame is broken. repr(model) is a single line that lists the type, the variables, the interactions, the offset and the constraints, and replacing line breaks and indentation loses no visible character. Physical models are printed in the same way.", "quantifier": "all logical models in any state, all physical models, all renderings of the parts", "why_tests_cant": "Tests print a few models; a name with a line break or a table with a short column does not occur in them.", "anchors": ["sawatabi/model/logical_model.py: __str__", "sawatabi/model/logical_model.py: __repr__", "sawatabi/model/physical_model.py: PhysicalModel.__str__", "sawatabi/model/abstract_model.py: append_prefix", "sawatabi/model/abstract_model.py: remove_leading_spaces"]}
{"id": "C122", "title": "The publisher sends one message per round and ends after --incremental-end rounds", "statement": "With --incremental-end=n and n >= 1 the publisher publishes the messages of the rounds 1 to n and ends, whatever kind of message is selected; with n <= 0 it never ends. With --incremental-number the number filter of the pipeline receives exactly 1, 2, ..., n; with --random-number it receives exactly the numbers drawn (also when the incremental options are given as well); with --incremental-text the i-th message consists of the i letters drawn, in order.", "quantifier": "all option values, all random draws and times, any number of observed rounds", "why_tests_cant": "The sample is an endless loop that publishes to a remote service; no test runs it.", "anchors": ["sample/pubsub/publish_pubsub.py: main", "sawatabi/algorithm/io.py: IO.read_as_number"]}
{"id": "C123", "title": "The times in the different units agree and profiling is transparent", "statement": "At the same instant (not before the epoch) the integer time in a coarser unit is the integer time in a finer unit divided by their ratio and rounded down, and the non-integer times differ exactly by the ratio; before the epoch the integer time is that of the opposite instant with the sign changed. A function decorated with profile has the same effect, raises the same exception, and returns the same value together with its name and an execution time that is not negative when the clock does not run backwards.", "quantifier": "all instants, all pairs of units; all functions, arguments, states and clock readings", "why_tests_cant": "Tests compare the types of a few readings.", "anchors": ["sawatabi/utils/time.py: current_time_as_int", "sawatabi/utils/profile.py: profile"]}
{"id": "C124", "title": "The order of additions does not matter", "statement": "If a sequence of add_interaction calls succeeds on a model, the same calls in any other order succeed on it too. The two models have the same interactions up to the order of the table, the same attributes of every interaction, the same variables, offset and constraints, and the same energy of every assignment; whenever both are converted with the same placeholder values, the physical models compare equal.", "quantifier": "all models, all finite sequences of add_interaction calls with any arguments and times, all permutations of them, all placeholder values", "why_tests_cant": "The number of orders grows factorially and the arguments are unbounded; tests fix one order.", "anchors": ["sawatabi/model/logical_model.py: add_interaction", "sawatabi/model/logical_model.py: to_physical"]}
{"id": "C125", "title": "The physical model is decided by the energies", "statement": "Two models of the same type with the same variables (in the same order) and the same deleted variables, whose conversions give every assignment the same energy, have physical models that compare equal. In particular this is so when the constraints are the same and the interactions of the two models give every assignment the same energy with the same placeholder values, in however different a way they were entered.", "quantifier": "all pairs of reachable models, all placeholder values, all histories leading to them", "why_tests_cant": "Equality of energy on all assignments and equality of models reached by arbitrary histories cannot be enumerated.", "anchors": ["sawatabi/model/logical_model.py: to_physical", "sawatabi/model/physical_model.py: PhysicalModel.__eq__"]}
{"id": "C126", "title": "Equivalent ways to enter an interaction", "statement": "A coefficient c with a scale s gives the same energies and equal physical models as coefficient c*s with scale 1 (also when they contain placeholders). An interaction with coefficient c+d gives the same as two interactions of the same variables under different names with coefficients c and d. Adding an interaction and updating its coefficient and scale gives the same as adding it with the final values. Adding an interaction and removing it before a conversion gives the same as not adding it.", "quantifier": "all models, targets, names, coefficients (with placeholders), scales, attributes, timestamps and placeholder values", "why_tests_cant": "The equivalence concerns all coefficient and scale expressions and all other contents of the model; tests compare literals.", "anchors": ["sawatabi/model/logical_model.py: add_interaction", "sawatabi/model/logical_model.py: update_interaction", "sawatabi/model/logical_model.py: remove_interaction", "sawatabi/model/logical_model.py: to_physical"]}
{"id": "C127", "title": "Deleting a variable of a QUBO model sets it to 0", "statement": "When delete_variable succeeds on a QUBO model, the objective of the model (interactions plus penalties of the constraints) afterwards is the objective before with 0 for the variable, for every assignment. So a best answer of the exact solver for the model after the deletion is, with 0 for the variable, a best one before it among those with 0 there. For a model without constraints, deleting the variable and fixing it to 0 give the same energies and physical models that compare equal.", "quantifier": "all QUBO models with any interactions and constraints, all variables, all assignments, all placeholder values", "why_tests_cant": "It relates two operations on every model and every assignment; tests check the list of deleted labels on fixed models.", "anchors": ["sawatabi/model/logical_model.py: delete_variable", "sawatabi/model/logical_model.py: fix_variable", "sawatabi/model/logical_model.py: to_physical", "sawatabi/solver/local_solver.py: LocalSolver.solve"]}
{"id": "C128", "title": "Solving by cases", "statement": "Fixing a variable (that is in no constraint) to each of its two values gives two models; of the best answers of the exact solver for the two, the one with the lower reported energy, completed with the fixed value, is a best assignment of the original model.", "quantifier": "all models of both types with any interactions and constraints on other variables, all variables, all placeholder values", "why_tests_cant": "It is a statement on all assignments of unbounded models and on the relation between three runs.", "anchors": ["sawatabi/model/logical_model.py: fix_variable", "sawatabi/model/logical_model.py: to_physical", "sawatabi/solver/local_solver.py: LocalSolver.solve"]}
{"id": "C129", "title": "Solving after a type conversion", "statement": "The best answer of the exact solver for a QUBO model converted with to_ising, with (s+1)/2 for each spin s, is a best assignment of the QUBO model, constraints included; the best answer for an Ising model converted with to_qubo, with 2x-1 for each x, is a best assignment of the Ising model.", "quantifier": "all models with numeric coefficients and scale 1, any constraints, all assignments", "why_tests_cant": "It is about the minimum over all assignments of two models of unbounded size.", "anchors": ["sawatabi/model/logical_model.py: to_ising", "sawatabi/model/logical_model.py: to_qubo", "sawatabi/model/logical_model.py: to_physical", "sawatabi/solver/local_solver.py: LocalSolver.solve"]}
{"id": "C130", "title": "Placeholder values may be given early or late", "statement": "Take any program of calls on a model that runs through, in which coefficients, scales and the offset are expressions with placeholders. Writing the values of some of the placeholders into the calls from the start gives a program that also runs through, and whose to_physical with the remaining values gives exactly the physical model (or the exception) that the original program's to_physical gives with all the values. The same holds for each call and for merge. Calls that accept placeholders raise in the one program exactly when they raise in the other. Only the values in the feed matter, not their order.", "quantifier": "every sequence of calls, every expression, every split of the values into early and late ones, every model, every clock", "why_tests_cant": "Parameter tuning relies on it; tests substitute one value into one model. The substitution must commute with fixing, deleting, converting, loading from pyqubo, merging and constraints in every order.", "anchors": ["sawatabi/model/logical_model.py: to_physical", "sawatabi/model/logical_model.py: add_interaction", "sawatabi/model/logical_model.py: fix_variable", "sawatabi/model/logical_model.py: merge", "sawatabi/model/logical_model.py: from_pyqubo", "sawatabi/model/logical_model.py: to_ising", "sawatabi/model/logical_model.py: to_qubo"]}
{"id": "C131", "title": "One model for several placeholder values", "statement": "After any number of to_physical calls with any values, to_physical with given values returns exactly the physical model (coefficients in the same order, indices) that it would have returned on the untouched model, and it returns whenever it would have returned there.", "quantifier": "every model with consistent tables and unique names, every sequence of feeds and clocks", "why_tests_cant": "to_physical merges the constraints into the model and takes them out again, and drops removed interactions; that nothing of one value leaks into the next has to hold after any number of calls.", "anchors": ["sawatabi/model/logical_model.py: to_physical"]}
{"id": "C132", "title": "More reads only add reads", "statement": "Calling SawatabiSolver.solve with a larger num_reads (same model, other options and seed; the initial states, if given, continue the same list) makes the same reads first, in the same order with the same samples, energies and histories, and then further ones. So every row of the smaller sample set is in the larger one, at the same place with the same energy and at least as many occurrences, the best energy never gets worse, and if the call with fewer reads raises, the call with more reads raises too.", "quantifier": "every model, options, random generator (any function of the requests made so far), Boltzmann function and number of reads", "why_tests_cant": "It relates two runs of a random process for every generator, model and pair of read counts; a test compares single seeds.", "anchors": ["sawatabi/solver/sawatabi_solver.py: solve", "sawatabi/solver/sawatabi_solver.py: annealing"]}
{"id": "C133", "title": "A read starts from the given state and a cold read does not leave a minimum", "statement": "With num_sweeps=0 the sample of the i-th read is exactly the i-th initial state and its energy is the energy of that state, for both variable types. With Boltzmann factors of 0 (temperature near 0) the i-th read never ends with a higher energy than the i-th initial state, and if that state is a strict local minimum the read returns it and reports no accepted flips in any sweep.", "quantifier": "every model, legal initial states, number of reads and sweeps, schedule, pick-up mode, random generator", "why_tests_cant": "Holds for every model, state and sequence of random numbers and visits.", "anchors": ["sawatabi/solver/sawatabi_solver.py: solve", "sawatabi/solver/sawatabi_solver.py: annealing", "sawatabi/solver/sawatabi_solver.py: is_acceptable"]}
{"id": "C134", "title": "A PyQUBO expression becomes a model with the expression's values and minima", "statement": "Take a QUBO model in which only variables were declared and any PyQUBO expression of degree at most two over these variables, with any placeholders. from_pyqubo of the compiled expression succeeds, to_physical with values for the placeholders succeeds, and the energy of every 0/1 assignment in the physical model is the value of the expression. Unless the expression is constant, the exact local solver accepts the model and its best sample is a minimum of the expression. In particular the models of the two PyQUBO samples are minimised exactly by the assignments with as many x as y set.", "quantifier": "every declaration of variables, expression of degree at most two, placeholder values, clock, 0/1 assignment; every size of the sample", "why_tests_cant": "Ranges over all expressions and assignments, through compiling, loading, resolving placeholders and building the physical model.", "anchors": ["sawatabi/model/logical_model.py: from_pyqubo", "sawatabi/model/logical_model.py: to_physical", "sawatabi/model/logical_model.py: variables", "sample/model/model.py: model_from_pyqubo_expression", "sample/model/model.py: model_from_pyqubo_model"]}
{"id": "C135", "title": "Updates and removals of different interactions are independent", "statement": "Update and remove calls about different existing interactions may be made in any order: they all return exactly when each of them alone would, the interactions, attributes, offset, variables and energies of the resulting model are the same, each interaction ends as its own call alone would leave it, the others stay as they were, and the energy changes by the sum of the changes of the single calls. They may also be swapped with additions of new interactions when no update introduces a new attribute.", "quantifier": "every model whose interaction names are unique and attribute table is complete; every list of update/remove calls (by name or by target, any coefficients, scales, attributes and timestamps) about pairwise different interactions, every permutation of it, every list of additions, every assignment and every placeholder values", "why_tests_cant": "Interleavings of calls from several sources are unboundedly many, and an index computed at the wrong time or a write to the wrong row would show only for particular orders.", "anchors": ["sawatabi/model/logical_model.py: update_interaction", "sawatabi/model/logical_model.py: remove_interaction", "sawatabi/model/logical_model.py: add_interaction"]}
{"id": "C136", "title": "A model without couplings is solved exactly by annealing with a cold last sweep", "statement": "When no two variables interact, every read of SawatabiSolver whose last sweep is cold (uphill moves have Boltzmann factor 0) ends in an assignment of least energy, whatever the earlier temperatures, random numbers, starting states and visiting order; every sample of the sample set then reports the minimum of the model.", "quantifier": "every physical model without couplings and every logical model without constraints whose active interactions are on single variables; all options with at least one sweep, all start states, all random sources", "why_tests_cant": "All models, starts, visiting orders and random numbers; a sweep that skipped or repeated a variable would show only for some of them.", "anchors": ["sawatabi/solver/sawatabi_solver.py: annealing", "sawatabi/solver/sawatabi_solver.py: calc_energy_diff", "sawatabi/solver/sawatabi_solver.py: is_acceptable"]}
{"id": "C137", "title": "Which value of a variable is called which does not matter to SawatabiSolver", "statement": "Describing some variables of a problem by their opposite values (spin s by -s, bit x by 1 - x) with the coefficients adapted, and the initial states as well, makes SawatabiSolver return the same samples in the new description, with the same numbers of occurrences, temperature and acceptance histories and energies (up to the constant by which the models differ); if one call raises, so does the other, with the same exception. In particular, for an Ising model without fields, reversing all spins of the initial states reverses all spins of the samples.", "quantifier": "every pair of physical models related in this way, every set of variables, all options with an initial state per read, every random generator and acceptance function", "why_tests_cant": "quantifies over all models, sets of variables, options and random numbers", "anchors": ["sawatabi/solver/sawatabi_solver.py: SawatabiSolver.solve, annealing, calc_energy_diff"]}
{"id": "C138", "title": "Calls of to_physical in the middle of a history do not matter", "statement": "Take two programs that make the same calls on a new LogicalModel (variables, append, add/update/remove_interaction, delete_variable, fix_variable, add/remove_constraint, offset, from_pyqubo, to_ising, to_qubo), in the same order and at the same times, and differ only in where they also call to_physical. If all calls return in both, the models have the same variables, constraints, offset and interactions in force, and to_physical returns equal physical models for both.", "quantifier": "for every model type, every sequence of calls with any arguments, any placement and number of intermediate to_physical calls, any clocks and ids, any placeholder values", "why_tests_cant": "A test fixes one sequence and one placement of the to_physical calls; to_physical deletes rows of the table and clears marks, so that whether it is observable depends on the whole history before and after.", "anchors": ["sawatabi/model/logical_model.py:LogicalModel.to_physical", "sawatabi/model/logical_model.py:LogicalModel._update_interactions_dataframe_from_arrays", "sawatabi/model/logical_model.py:LogicalModel.fix_variable"]}
{"id": "C139", "title": "The class of the exception tells which argument was wrong", "statement": "When add_interaction, update_interaction, remove_interaction, delete_variable, fix_variable, variables or LocalSolver.solve is called with several wrong arguments, the exception is the one of the first wrong argument in a fixed order (ValueError for a missing or doubled reference, TypeError for a value of a wrong type, KeyError for an unknown interaction, ...), whatever the rest of the model; and add/update/remove_interaction and variables raise in no other case.", "quantifier": "for every model reachable with equal column lengths, every target, name, coefficient, scale, attributes and timestamp argument of any type, every value, shape, array, physical model and solver option", "why_tests_cant": "A test triggers one exception at a time; that the listed causes are all, that their order is as stated, and that no combination of arguments and model state gives another exception is a statement about all calls.", "anchors": ["sawatabi/model/logical_model.py:LogicalModel.add_interaction", "sawatabi/model/logical_model.py:LogicalModel.update_interaction", "sawatabi/model/logical_model.py:LogicalModel.remove_interaction", "sawatabi/model/logical_model.py:LogicalModel.delete_variable", "sawatabi/model/logical_model.py:LogicalModel.fix_variable", "sawatabi/model/logical_model.py:LogicalModel.variables", "sawatabi/solver/local_solver.py:LocalSolver.solve", "sawatabi/base_mixin.py:BaseMixin"]}
{"id": "C140", "title": "The getters report the history of calls", "statement": "LogicalModel(t) and PhysicalModel(t) succeed for 'ising' and 'qubo' and raise ValueError for anything else; a new model is empty. merge and from_pyqubo refuse an argument of another kind with TypeError and change nothing. After any sequence of calls, whether each returned or raised, get_mtype() is the type of the last conversion (or the constructor's), get_deleted_array() lists once each the variables given to delete_variable, get_fixed_array() lists once each the variables given to fix_variable with a value allowed at that time, and get_constraints_by_label(x) returns a constraint exactly when one was added under x and not removed since (the last one added, if no variable was deleted), otherwise raises KeyError.", "quantifier": "all constructor arguments; all sequences of calls of LogicalModel's methods with all arguments, well- or ill-typed, all clocks and identities, all labels", "why_tests_cant": "Ranges over all call histories, including those with failing calls; tests look at a few short ones.", "anchors": ["sawatabi/model/abstract_model.py: __init__, get_mtype", "sawatabi/model/logical_model.py: __init__, merge, from_pyqubo, get_deleted_array, get_fixed_array, get_constraints_by_label", "sawatabi/model/physical_model.py: __init__"]}
{"id": "C141", "title": "Which windows fail as a whole, and with which exception", "statement": "With the window, delta and incremental algorithms every window that has an element yields exactly one output, whatever map_fn, solve_fn and unmap_fn do or raise. process itself raises (so that the whole window fails and nothing is stored) exactly when the window is not outdated and: the algorithm is partial and no filter_fn is given (KeyError); or filter_fn raises for a previous element (that exception); or no element is left to present although the window before had some (IndexError). With attenuation it raises, after map_fn returned, what to_physical raises, or KeyError for a missing or unknown attenuation.key, TypeError for an interaction whose reference is not a number, ValueError for a model without interactions, KeyError for a missing min_scale, in this order, and otherwise yields exactly one output.", "quantifier": "all algorithms, options, filter functions, callbacks, windows and states; for attenuation all models whose attribute table is rectangular", "why_tests_cant": "Ranges over all callbacks, filters, windows and states; an exception here stops the whole pipeline.", "anchors": ["sawatabi/algorithm/abstract_algorithm.py: SolveDoFn.process"]}
{"id": "C142", "title": "An edited model is as good as one built from scratch", "statement": "After any history of edits (declarations, appends, additions, updates, removals, deletions, fixings, constraints, conversions, loads, merges, to_physical calls) the calls that write down the model's present content on an empty model of its type all return: declare each variable by name and shape, delete the deleted ones, add each interaction in force with its name, coefficient, scale and timestamp, set the offset, add the constraints. The new model has the same variables, deleted variables, interactions in force, constraints, offset and energies; whenever the edited model has a physical model the new one has an equal one, and SawatabiSolver gives the same answer on both.", "quantifier": "all careful histories (C93) after which interaction names are distinct and not empty, all placeholder values, assignments, solver options, seeds and random worlds", "why_tests_cant": "Ranges over all histories of edits; streaming use relies on incremental updates being equivalent to rebuilding.", "anchors": ["sawatabi/model/logical_model.py: LogicalModel", "sawatabi/solver/sawatabi_solver.py: SawatabiSolver.solve"]}
{"id": "C143", "title": "All streaming samples understand their input options alike", "statement": "Each streaming sample (npp_window, tsp_window, npp_delta, npp_incremental, npp_partial, npp_attenuation) reads from a source that its options name: the file, or with a project the topic or the subscription; numbers of a file are stamped with their index and messages from Pub/Sub are not; without a named source no pipeline is made, and with one the sample starts unless Pub/Sub refuses a name. Two samples started with the same options read from the same place.", "quantifier": "all six samples and all combinations of option values", "why_tests_cant": "Ranges over all combinations of options and over pairs of programs.", "anchors": ["sample/algorithm/npp_window.py: npp_window", "sample/algorithm/tsp_window.py: tsp_window", "sample/algorithm/npp_delta.py: npp_delta", "sample/algorithm/npp_incremental.py: npp_incremental", "sample/algorithm/npp_partial.py: npp_partial", "sample/algorithm/npp_attenuation.py: npp_attenuation"]}
{"id": "C144", "title": "A streaming sample runs in streaming mode exactly if it reads from Pub/Sub", "statement": "A sample asks Beam for streaming mode exactly if its input comes from Pub/Sub. Results go to the output file if one is given, otherwise to the output topic where the sample has that option and a project is given, otherwise to the console. The job runs on Dataflow exactly if the sample supports it, it is asked for and a non-empty bucket is given. Algorithm, model type and window of each sample do not depend on the options.", "quantifier": "all six samples and all combinations of option values", "why_tests_cant": "Ranges over all combinations of options.", "anchors": ["sample/algorithm/npp_window.py: npp_window", "sample/algorithm/tsp_window.py: tsp_window", "sample/algorithm/npp_delta.py: npp_delta", "sample/algorithm/npp_incremental.py: npp_incremental", "sample/algorithm/npp_partial.py: npp_partial", "sample/algorithm/npp_attenuation.py: npp_attenuation"]}
{"id": "C145", "title": "The subscriber acknowledges exactly what it printed", "statement": "For every sequence of messages the debugging subscriber acknowledges exactly the messages it could decode, in the order of arrival and each once, and prints one line for each of them, with the subscription and the text of the message; a message that cannot be decoded is neither printed nor acknowledged and does not disturb the others.", "quantifier": "all message sequences, all decoders, clocks and subscription paths", "why_tests_cant": "Ranges over all message histories.", "anchors": ["sample/pubsub/subscribe_pubsub.py: main"]}
{"id": "C146", "title": "The answers of the number partitioning samples can be read back from their output", "statement": "The text of an answer names on its lines the numbers of the window and their count, the two sets with their sums, and the difference of the sums; with spins +1 and -1 every number of the window is in exactly one of the sets, that of its spin. Reading the digits of the lines gives back the answer and nothing else, and two output files of windows with answers are equal only if all timestamps and answers are. A message about a failure or an outdated window never looks like an answer.", "quantifier": "all answers about natural numbers, all windows and samples, all files, all exception texts", "why_tests_cant": "Ranges over all answers and over pairs of output files.", "anchors": ["sample/algorithm/npp_window.py: npp_unmapping", "sawatabi/algorithm/abstract_algorithm.py: SolveDoFn.process", "sawatabi/algorithm/abstract_algorithm.py: WithTimestampStrFn", "sawatabi/algorithm/io.py: IO.write_to_text"]}
{"id": "C147", "title": "The route of the TSP sample can be read off its output", "statement": "The text of an answer shows the input and, on its last line, the names of the cities in the order of the visit, separated by arrows; different routes give different texts.", "quantifier": "all elements, all routes, all renderings of the input", "why_tests_cant": "Ranges over all pairs of routes and all city names.", "anchors": ["sample/algorithm/tsp_window.py: tsp_unmapping"]}
{"id": "C148", "title": "repr of a model shows all parts in brackets", "statement": "repr(model) consists of the class name and, in brackets, all parts of the model.", "quantifier": "all logical and physical models, all renderings of the parts", "why_tests_cant": "The tests only look for some substrings of repr.", "anchors": ["sawatabi/model/logical_model.py: __repr__", "sawatabi/model/physical_model.py: PhysicalModel.__repr__"]}
{"id": "C149", "title": "From the lines of the input file to the texts of the output", "statement": "With an exact solver, the number partitioning samples (sliding window, delta and incremental) write exactly one text for each window of the file that holds a number. If the window has two or more numbers and no zero, the text names the numbers of the window and two sets that partition them, and no partition has a smaller difference than the one printed. With fewer than two non-zero numbers it is a message that solving failed, and with a zero besides two non-zero numbers a message that unmapping failed.", "quantifier": "all files, window sizes, periods, orders of delivery within the rules of the runner, all exact solvers, all renderings of exceptions and times", "why_tests_cant": "Ranges over all files and all deliveries, and over all partitions of the numbers of each window.", "anchors": ["sample/algorithm/npp_window.py: npp_mapping, npp_unmapping", "sample/algorithm/npp_delta.py", "sample/algorithm/npp_incremental.py", "sawatabi/algorithm/io.py: IO.read_from_text_as_number", "sawatabi/algorithm/abstract_algorithm.py: SolveDoFn.process"]}
{"id": "C150", "title": "SawatabiSolver in floating-point arithmetic", "statement": "Let the coefficients and the offset of a physical model be integers in some power of two as the unit (integers, halves, ...), adding up in absolute value to at most 2^49 of it. Then SawatabiSolver in double precision makes no rounding error on coefficients or energies, whatever the order in which dimod adds up: every reported energy is exactly the energy of the reported sample, and every read is a Metropolis run on the exact energy, at temperatures each of which is the rounded product of the one before and the cooling rate. For coefficients of very different sizes (2^53 and 1) the reported energy can be wrong.", "quantifier": "all physical models in scope, all options, seeds and initial states, all roundings that leave the numbers of the double format alone, all orders of addition", "why_tests_cant": "Rounding errors accumulate over flips; no finite number of runs shows that none occurs for any model, seed and schedule in scope.", "anchors": ["sawatabi/solver/sawatabi_solver.py: SawatabiSolver.solve, annealing, calc_energy_diff, is_acceptable", "sawatabi/model/physical_model.py: PhysicalModel.to_bqm"]}
{"id": "C151", "title": "Rounding moves a reported energy by a bounded amount", "statement": "SawatabiSolver computes in floating point. For every model whose coefficients are floating-point numbers, and every order in which dimod adds up, each energy it reports differs from the true energy of the reported sample by at most ((1+u)^m - 1) times the sum of the absolute coefficients (the offset counted three times), where u is the relative error of one operation and m is a number computed from the numbers of sweeps, variables and couplings. So the sample reported as best is, in truth, at most twice that worse than any other sample returned.", "quantifier": "every rounding with relative error at most u, every summation order, every model (no pair given in both orders) whose coefficients are representable, every option, seed and initial state, every row of the answer", "why_tests_cant": "The error builds up over all flips of all sweeps; tests compare a few energies of small integer models, where nothing is rounded.", "anchors": ["sawatabi/solver/sawatabi_solver.py:37-148", "sawatabi/solver/sawatabi_solver.py:150-257", "sawatabi/model/physical_model.py:56-72"]}
{"id": "C152", "title": "No rounding changes the shape of SawatabiSolver's answer", "statement": "Whatever the arithmetic does to coefficients, energies and temperatures, an answer of SawatabiSolver has one read per requested read, each with one entry per sweep in its three histories; its rows are samples over exactly the variables of the model, in index order, with legal values, no sample twice, with positive counts that add up to the number of reads. What the call does to the caller's initial states does not depend on the arithmetic either.", "quantifier": "every rounding function (also absurd ones) and order of addition, every well-indexed model, every option, seed, generator and initial state for which the call returns", "why_tests_cant": "Tests run with one arithmetic, on models where almost nothing is rounded; the claim is about all results an operation may have.", "anchors": ["sawatabi/solver/sawatabi_solver.py: SawatabiSolver.solve, annealing, calc_energy_diff, is_acceptable", "sawatabi/model/physical_model.py: PhysicalModel.to_bqm"]}
{"id": "C153", "title": "A from_pyqubo that raises: why, and what it leaves behind", "statement": "from_pyqubo takes the terms of the compiled expression in order. It raises KeyError for the first term with a label of an array that is not declared, IndexError for one with an index outside its array, ValueError for one whose default name is in use already, and otherwise nothing; what decides is the first problem of the first term with one. A call that raises leaves the interactions of the terms before that one in the model and the offset as it was. It can therefore not be repeated: once one term was loaded, a second call raises ValueError at the first term, whatever was declared in between, and changes nothing.", "quantifier": "every model, compiled expression and clock; every further declaration and added interaction before the second call", "why_tests_cant": "The outcome depends on every term, on all names in use and on the arrays declared; a test sees one faulty term.", "anchors": ["sawatabi/model/logical_model.py: LogicalModel.from_pyqubo, add_interaction, get_variables_by_name"]}
{"id": "C154", "title": "A physical model built by hand", "statement": "After PhysicalModel(t) and any calls of add_interaction the linear and quadratic entries are those of the last call about the same label or ordered pair; a call replaces what the last one about the same entry gave to the energy and changes nothing else. Such a model can be handed to dimod, but has no label indices: to_polynomial raises KeyError, and SawatabiSolver.solve raises KeyError for every argument it does not refuse for another reason.", "quantifier": "every type and sequence of calls; every random source and options", "why_tests_cant": "All sequences of calls with repeated and reversed pairs; all options of the solver.", "anchors": ["sawatabi/model/physical_model.py: PhysicalModel.__init__, add_interaction, to_bqm, to_polynomial", "sawatabi/solver/sawatabi_solver.py: SawatabiSolver.solve"]}
{"id": "C155", "title": "From a logical model to the answer in floating-point arithmetic", "statement": "For a model without constraints and placeholders, to_physical in an arithmetic whose results are wrong by at most a relative u gives coefficients that differ from the sum of coefficient * scale over the interactions on the same label (the same pair) by at most (1 + u)^(n + 1) - 1 times the sum of the magnitudes, n being the number of interactions; on every sample its energy differs from the energy of the logical model by at most that factor times the sum of all magnitudes. Every energy SawatabiSolver then reports differs from the energy of the logical model on the reported sample by at most (1 + u)^k - 1 times the sum of the magnitudes of the interactions and three times that of the offset, k being the number of roundings on the way. Without rounding the physical model is the exact one.", "quantifier": "every model without constraints and with plain numbers; every rounding with relative error at most u (double precision: u = 2^-53); every sample, order of addition, random source and option of the solver", "why_tests_cant": "Errors accumulate over all interactions, sweeps and reads; a test compares one number with a tolerance.", "anchors": ["sawatabi/model/logical_model.py: LogicalModel.to_physical", "sawatabi/solver/sawatabi_solver.py: SawatabiSolver.solve, annealing", "sawatabi/model/physical_model.py: PhysicalModel.to_bqm"]}
{"id": "C156", "title": "Models with integer coefficients are treated exactly", "statement": "Let a model without constraints and placeholders have interactions whose coefficient * scale, and an offset, that are integers in some power of two as the unit (integers, halves, ...), adding up in absolute value to at most 2^49 of it. Then to_physical in double precision gives exactly the physical model of exact arithmetic, and every energy SawatabiSolver reports for it is the energy of the logical model on the reported sample, to the last bit, whatever the order in which terms are added and the seed, options and initial states.", "quantifier": "every such model; every rounding that leaves the numbers of the double format alone, every order of addition, random source, option and initial state", "why_tests_cant": "Every partial sum of every model, sweep and read must be a machine number.", "anchors": ["sawatabi/model/logical_model.py: LogicalModel.to_physical", "sawatabi/solver/sawatabi_solver.py: SawatabiSolver.solve", "sawatabi/model/physical_model.py: PhysicalModel.to_bqm"]}
{"id": "C157", "title": "Temperatures in floating-point arithmetic", "statement": "When every operation is rounded with a relative error of at most u, the temperature SawatabiSolver records for sweep k of a read without reverse annealing differs from initial_temperature * cooling_rate^k by at most ((1+u)^k - 1) of it. With u < 1 and a positive initial temperature and rate no recorded temperature is zero or negative; if the rounding is also monotone, a rate of at most 1 never raises the temperature. With reverse annealing the first temperature is the rounded 1e-9, the temperature after sweep k of the reverse period differs from reverse_temperature * (1 - cooling_rate^(k+1)) by at most ((1+u)^(k+2) - 1) * (|reverse_temperature| + |reverse_temperature * cooling_rate^(k+1)|), and from the end of the period on every i sweeps cool by cooling_rate^i within ((1+u)^i - 1) of the value.", "quantifier": "every model, option, random source and initial state, every number of sweeps and every rounding with a relative error bound", "why_tests_cant": "The error accumulates over an unbounded number of sweeps.", "anchors": ["sawatabi/solver/sawatabi_solver.py: SawatabiSolver.annealing"]}
{"id": "C158", "title": "The solver sample works for every random source", "statement": "Each of the eight functions of sample/solver/sawatabi_solver.py builds its model, and its call of SawatabiSolver.solve returns normally whatever numbers the random source draws and whatever the time: all reads asked for (10 in the first two functions, 1 in the others) of 100 sweeps each (one in sawatabi_solver_with_initial_states) are returned and counted, every sample has exactly the variables with an interaction (the inactive a[0][0] or b[0][0] of the 2x2 models is left out), with values of the model's type, and its energy is the sum of the spins (1-body), minus the sum of the products of neighbours (2-body), 6 minus twice the sum of the three variables (2x2), the documented Hamiltonian (ising) or (number of ones - 1)^2 (qubo).", "quantifier": "every random source, clock, time and placeholder feed; the eight sample calls, three of them with initial states or reverse annealing", "why_tests_cant": "The runs draw thousands of random numbers; a test sees the runs of one seed.", "anchors": ["sample/solver/sawatabi_solver.py: all functions", "sample/solver/_solver_helper.py: the model-building functions", "sawatabi/solver/sawatabi_solver.py: SawatabiSolver.solve"]}
{"id": "C159", "title": "The random model of the profiling sample", "statement": "create_n_variable_random_model of sample/utils/profile.py never fails for n >= 1, whatever random numbers are drawn: it adds n(n+1)/2 interactions with different names, one per spin and one per pair of spins; the Hamiltonian is minus the sum of draw * spin over the spins and of draw * spin * spin over the pairs i < j, each draw used for exactly one interaction in the order of the loops. The decorator reports the name of the function and the difference of the two clock readings, and does not change what the function does.", "quantifier": "every n >= 1, every sequence of random numbers, clock and assignment of the spins", "why_tests_cant": "The number of interactions grows without bound with n, and names must differ for all pairs.", "anchors": ["sample/utils/profile.py: create_n_variable_random_model", "sawatabi/utils/profile.py: profile", "sawatabi/model/logical_model.py: LogicalModel.add_interaction"]}
{"id": "C160", "title": "A name stands for the array declared last", "statement": "After any sequence of variables(name, shape) calls on a new model, whether or not they raise, get_variables_by_name(name) returns the array of the last call about that name that did not raise: its shape, its labels name[i][j]... in order, and the variable type of the model. It raises KeyError if there was no such call. It never changes the model.", "quantifier": "every sequence of declarations, every name, shape and model type", "why_tests_cant": "Depends on the whole history of declarations, including those that were refused.", "anchors": ["sawatabi/model/logical_model.py: LogicalModel.variables, get_variables_by_name"]}
