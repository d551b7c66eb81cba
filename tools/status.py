# claim(id, status, theorems, note), executed by claims.py
claim("C09", "proved", ["C09_to_physical_energy", "C09_no_constraints", "C09_qubo", "C09_ising", "C09_to_physical_succeeds"],
      "Success-based, plus a sufficient condition for success. Ising models with constraints: the penalties plus an explicit constant per constraint (the conversion of the constraint's model shifts the offset, see C20), a function of the number of its variables and its strength.")
claim("C10", "proved", ["C10_coefficients"])
claim("C11", "proved", ["C11_frame", "C11_again"])
claim("C12", "partial", ["C12_no_constraints_partial", "C12_exact_effect", "C12_refuted", "C12_clash_refuted"],
      "The code violates it: with a constraint and a missing placeholder the constraint's interactions stay in the model (C12_refuted). Proved for models without constraints. C12_exact_effect: what a PlaceholderError leaves behind in any model (every assignment costs the penalties more, everything else is as before).")
claim("C13", "proved", ["C13_index_bijection"])
claim("C14", "proved", ["C14_labels_distinct", "C14_bracket_names_collide"])
claim("C02", "proved", ["C02_add_atomic", "C02_update_atomic", "C02_remove_atomic"],
      "For models whose attribute columns are aligned (see C36 for how they can get misaligned).")
claim("C03", "proved", ["C03_succeeds_iff", "C03_effect"])
claim("C04", "proved", ["C04_update", "C04_update_succeeds", "C04_update_adds"])
claim("C05", "partial", ["C05_refuted", "C05_import_time_partial", "C05_given_timestamp"],
      "The code violates it: the default timestamp is evaluated when the module is imported (C05_refuted). Proved instead: what is recorded is the import time, and a timestamp that is passed is recorded.")
claim("C06", "proved", ["C06_succeeds_iff", "C06_effect", "C06_idempotent", "C06_pending", "C06_purged"])
claim("C07", "proved", ["C07_pair_unordered"])
claim("C08", "proved", ["C08_default_name_injective", "C08_star_labels_collide"])
claim("C30", "proved", ["C30_add_constraint", "C30_remove_constraint", "C30_add_remove", "C30_unknown", "C30_bad_type"])
claim("C33", "proved", ["C33_append", "C33_append_new", "C33_shorter_tuple_drops", "C33_exact"],
      "C33_shorter_tuple_drops shows the guard on the number of dimensions is needed; C33_exact says exactly when append succeeds and what it declares.")
claim("C34", "proved", ["C34_all_size", "C34_size", "C34_deleted_and_fixed_counts_twice"],
      "C34_deleted_and_fixed_counts_twice shows the guard is needed.")
claim("C35", "proved", ["C35_add", "C35_update", "C35_remove", "C35_to_physical"])
claim("C36", "partial", ["C36_refuted", "C36_known_attributes_partial", "C36_introduced", "C36_not_reported", "C36_next_add", "C36_wrong_interaction", "C36_refuses", "C36_stuck", "C36_merge_forgets"],
      "The code violates it: the new column is not registered (C36_refuted). Proved for attributes that are already known. For every model, what a new attribute does: the value is stored but not reported (C36_introduced, C36_not_reported), the next add leaves the column short (C36_next_add) and writes a value passed for the attribute to another interaction (C36_wrong_interaction); from then on selecting, deleting, fixing and converting raise (C36_refuses), whatever calls other than to_physical follow (C36_stuck); merging drops the column (C36_merge_forgets).")
claim("C15", "proved", ["C15_delete", "C15_deleted_not_indexed", "C15_delete_succeeds"],
      "For models whose interaction names are unique (C01).")
claim("C16", "partial", ["C16_refuted", "C16_delete_succeeds_partial", "C16_succeeds_iff", "C16_exact_effect", "C16_retry"],
      "The code violates it: a constraint that does not contain the variable, or an EqualityConstraint, makes delete_variable raise (C16_refuted). Proved for models whose constraints are all N-hot or zero-or-one-hot constraints that contain the variable, and this condition is necessary (C16_succeeds_iff). C16_exact_effect: the exception and the model that a failed call leaves; C16_retry: further calls raise as well and change nothing.")
claim("C17", "proved", ["C17_fix", "C17_fix_succeeds", "C17_fix_succeeds_plain"])
claim("C18", "partial", ["C18_refuted", "C18_exact_effect", "C18_zero_partial"],
      "The code violates it: a removed interaction that mentions the variable is brought back (C18_refuted). C18_exact_effect says by exactly how much; C18_zero_partial: value 0 in a QUBO is not affected.")
claim("C19", "proved", ["C19_to_ising", "C19_to_qubo", "C19_minima", "C19_same_type", "C19_variables", "C19_succeeds", "C19_succeeds_plain", "C19_iff"],
      "Success-based, with sufficient conditions for success. C19_iff: for scales other than 1 the energy differences are kept exactly if, for every variable, coefficient * (scale - 1) sums to 0 over its pairs.")
claim("C20", "partial", ["C20_refuted", "C20_shift_partial", "C20_exact_effect"],
      "The code violates it: the offset is moved the wrong way and scales other than 1 are ignored (C20_refuted). C20_shift_partial gives the exact shift for unit scales, C20_exact_effect the exact difference for all scales.")
claim("C21", "proved", ["C21_qubo_ising_qubo", "C21_ising_qubo_ising"])
claim("C22", "proved", ["C22_merge_energy", "C22_merge_energy_other_type", "C22_contents"])
claim("C23", "proved", ["C23_variables", "C23_succeeds_iff"])
claim("C24", "partial", ["C24_refuted", "C24_unique_partial", "C24_unique_iff", "C24_names"],
      "The code violates it: merging a model with itself, or merging the same model three times, produces duplicate names (C24_refuted). Proved when the ids differ and no existing name is already of the form 'n (id)' for a shared name n. C24_unique_iff: exactly when the names stay unique. C24_names: what every name of the result is.")
claim("C25", "partial", ["C25_refuted", "C25_rejected_partial", "C25_exact_effect", "C25_clash_effect", "C25_other_type"],
      "The code violates it: a shared constraint label is detected after self has been changed, and other is converted before the dimensions are checked (C25_refuted). Proved for models of the same type without a shared constraint label. C25_exact_effect says exactly when merge raises, C25_clash_effect what self is after a shared label, C25_other_type that other is then the converted model and the rest is as for models of the same type.")
claim("C26", "proved", ["C26_energy", "C26_minimal_iff", "C26_order", "C26_C27_C28_succeeds"])
claim("C27", "proved", ["C27_energy", "C27_zero_iff", "C26_C27_C28_succeeds"])
claim("C28", "proved", ["C28_energy", "C28_zero_iff", "C28_overlap_rejected", "C26_C27_C28_succeeds"])
claim("C29", "proved", ["C29_add", "C29_add_twice", "C29_remove", "C29_equality_add", "C29_equality_remove", "C29_construct", "C29_construct_zero_or_one", "C29_construct_equality", "C29_construct_rejects"])
claim("C31", "proved", ["C31_energy", "C31_fresh", "C31_frame", "C31_succeeds"])
claim("C32", "partial", ["C32_refuted", "C32_additive_partial", "C32_argument_partial", "C32_argument_negated", "C31_energy"],
      "The code violates it: the offset is overwritten and placeholder coefficients of the argument are negated in place (C32_refuted). Proved for a zero offset, and for arguments without placeholder coefficients. C31_energy says what the energy is for every offset: the old offset is what is lost.")
claim("C01", "partial", ["C01_refuted", "C01_names_partial", "C01_keys"],
      "The code violates it: to_physical that raises twice on a model with constraints leaves the constraint's interactions in the model twice under one name (C01_refuted). Names proved unique for histories in which to_physical does not raise while constraints are present (all other calls may raise); that key, body and variables agree is proved for every history, merges included.")
claim("C63", "partial", ["C63_refuted", "C63_aligned_partial", "C63_exactly"],
      "C63_exactly: from a rectangular table, a call of any method leaves a rectangular table if and only if it is not an accepted update of an existing interaction with an unknown attribute. The code violates it: update_interaction with a new attribute does not register the column (C63_refuted, C36). Proved for every history, merges and raising calls included, in which update_interaction sets known attributes only.")
claim("C37", "proved", ["C37_to_bqm", "C37_succeeds_iff", "C37_from_logical"])
claim("C38", "proved", ["C38_value", "C38_succeeds_iff", "C38_order"])
claim("C60", "proved", ["C60_inverse", "C60_rejects_iff", "C60_invalid"])
claim("C64", "proved", ["C64_equal_iff", "C64_equal_energy", "C64_from_logical"])

claim("C39", "proved", ["C39_reported_energy"])
claim("C40", "proved", ["C40_samples", "C40_no_read_lost"])
claim("C41", "proved", ["C41_succeeds", "C41_histories", "C42_metropolis"])
claim("C42", "proved", ["C42_metropolis", "C42_local_minimum", "C42_greedy"],
      "C42_metropolis: every read refines an abstract Metropolis process (SolverSpec.v) that knows only the energy function.")
claim("C43", "proved", ["C43_forward", "C43_reverse"])
claim("C44", "partial", ["C44_refuted", "C44_rejects", "C44_wrong_model", "C44_accepts_partial", "C44_exact"],
      "The code violates it: reverse_options={} passes the checks and raises KeyError in the first sweep (C44_refuted). Everything else proved. C44_exact: a call that works without reverse_options raises with {} (KeyError) or another falsy value (TypeError) exactly if there is a read with a sweep, and otherwise returns the same.")
claim("C45", "partial", ["C45_refuted", "C45_seeded_partial", "C45_exact"],
      "The code violates it: seed=0 is treated as no seed (C45_refuted; C45_exact: in every call). Proved for every non-zero seed.")
claim("C65", "partial", ["C65_refuted", "C65_shift", "C65_first", "C65_exact_partial"],
      "The code violates it: every entry is off by twice the model's offset (C65_refuted, C65_shift). Exact for a zero offset.")
claim("C66", "partial", ["C66_refuted", "C66_exact_effect", "C66_unchanged_partial", "C66_repeatable"],
      "The code violates it: for a QUBO the zeros of the caller's initial states become -1 (C66_refuted, C66_exact_effect). A second call nevertheless gives the same result (C66_repeatable).")
claim("C67", "proved", ["C67_indexed", "C67_energy", "C67_energy_qubo", "C67_energy_ising", "C67_solvable"],
      "Under the condition that every label with a coefficient is declared and not deleted (otherwise C12).")
claim("C46", "proved", ["C46_optimal", "C46_enumerated_optimal", "C46_negative_refuted"],
      "Both modes. int(s2 / 2) is taken as exact (sums below 2^53). C46_negative_refuted: a negative number can make the call raise, so the guard is needed.")
claim("C47", "proved", ["C47_enumerates", "C47_zero_refuted", "C47_single_refuted"],
      "The guards are needed: with a zero in the list some optimal splits are missing (C47_zero_refuted), and for a single number none is returned (C47_single_refuted).")

claim("C48", "proved", ["C48_outdated", "C48_recorded", "C48_monotone", "C48_history"])
claim("C49", "proved", ["C49_state", "C49_one_output", "C49_never_raises"],
      "Attenuation can raise, see C69.")
claim("C50", "proved", ["C50_exact", "C50_history", "C50_sliding", "C53_stored_chronological"],
      "presents/presented (StreamSpec.v) say what map_fn, solve_fn and unmap_fn receive. C50_sliding: Beam's sliding and fixed windows, delivered in order, period at most size.")
claim("C51", "proved", ["C51_history", "C51_accumulates"])
claim("C52", "partial", ["C52_refuted", "C52_in_order_partial", "C52_exact"],
      "The code violates it: an element not later than the newest stored one is never incoming (C52_refuted). Proved when the elements arrive in order. C52_exact: after any history, a received element is incoming exactly if it is later than everything stored.")
claim("C53", "partial", ["C53_refuted", "C53_elements", "C53_outgoing_partial", "C53_stored_chronological", "C53_exact"],
      "The elements are exact and only dropped elements are outgoing (C53_elements), but dropped elements newer than one that stays are not reported (C53_refuted). Exact when the filter drops older elements only. C53_exact: a stored element is outgoing exactly if it is dropped and older than everything kept and received.")
claim("C55", "partial", ["C55_map_refuted", "C55_map_failure_partial", "C55_map_failure_ss", "C55_solve_failure", "C55_isolation"],
      "The code violates it in one case: two windows in one bundle and a map_fn that changes the model in place before raising (C55_map_refuted). Everything else proved; C55_isolation: what later windows present does not depend on which calls failed.")
claim("C56", "proved", ["C56_indices", "C56_total", "C56_distinct"])
claim("C58", "proved", ["C58_decoration"], "For results that are strings.")
claim("C68", "partial", ["C68_refuted", "C68_first_partial", "C68_exact"],
      "The code violates it: a first window before -1 second is dropped (C68_refuted), and only such a window (C68_exact).")
claim("C70", "partial", ["C70_refuted", "C50_history", "C70_exact"],
      "The code violates it (C70_refuted): the elements are stored before map_fn runs, so none of them is ever incoming in the next window (C70_exact). Without failures every element is incoming exactly once (C50_history).")
claim("C71", "partial", ["C71_refuted", "C71_received_partial", "C71_exact", "C71_never"],
      "The code violates it: both timestamps in the message are the window's own (C71_refuted, for every outdated window: C71_exact), so the second one is never the timestamp already processed (C71_never).")
claim("C72", "proved", ["C72_initial_mtype", "C72_errors"])
claim("C73", "partial", ["C73_refuted", "C73_new_partial", "C73_exact"],
      "The code violates it: partial uses sliding windows, and an element kept by the filter and received again is presented twice (C73_refuted). Proved when the received elements are new. C73_exact: the elements are distinct exactly if no element kept by the filter is received again.")
claim("C54", "proved", ["C54_scales", "C54_line", "C54_equal", "C54_frame", "C54_attributes", "C54_succeeds", "C54_solved"],
      "For models of ordinary histories (unique names, aligned attributes, buildable constraints); the reference is the interaction's timestamp or one of its attributes.")
claim("C69", "partial", ["C69_refuted", "C69_placeholder_refuted", "C69_one_output_partial", "C69_exact"],
      "The code violates it: a model without interactions, or with a placeholder, makes process raise (C69_refuted, C69_placeholder_refuted). Proved under the missing conditions on the model; C69_exact: for ordinary models process raises exactly if a placeholder is unresolved, no interaction is left or a reference value is not a number.")

claim("C57", "proved", ["C57_numbers", "C57_unique", "C57_limit", "C57_roundtrip"],
      "Python's re and int() on str are modelled (white space, sign, underscores, newline before the end).")
claim("C59", "proved", ["C59_rejects", "C59_request", "C59_no_credentials", "C59_configuration", "C59_status", "C59_samples", "C59_energy"],
      "The service is an arbitrary function from requests to responses; C59_energy assumes it returns the values of the polynomial it was sent.")
claim("C61", "proved", ["C61_flatten"], "Order is the lexicographic order of positions in the nested list.")
claim("C74", "partial", ["C74_local", "C74_dwave", "C74_sawatabi", "C74_optigan_partial", "C74_refuted", "C59_energy"],
      "False for OptiganSolver when the model has an offset: the offset is neither sent nor added back (C74_refuted). Proved for the other solvers, and for OptiganSolver with offset 0; for every other model its energies are too low by exactly the offset (C59_energy).")
claim("C75", "proved", ["C75_exact", "C75_succeeds", "C75_minimum", "C75_has_lowest", "C75_ground_state"],
      "dimod's ExactSolver is modelled as enumeration of all assignments.")
claim("C76", "proved", ["C76_add_sub", "C76_max_min", "C76_errors", "C76_single"], "")
claim("C77", "proved", ["C77_rejects", "C77_accepts"], "")
claim("C78", "partial", ["C78_values_partial", "C78_refuted", "C78_iff"],
      "False: a variable without a non-zero coefficient is absent from all samples (C78_refuted). Proved for variables with a non-zero total coefficient, and these are exactly the variables of every sample (C78_iff).")

claim("C62", "proved", ["C62_window", "C62_incremental", "C62_square"],
      "Invariant: the active interactions are exactly the pairs of the current elements and the variables x[0..n) exist with n at most every index still to come. C62_square: twice the energy plus the sum of the squares is the squared imbalance. Distinct timestamps are needed: C62_equal_timestamps_refuted shows that a pair with equal timestamps gets no interaction (strict comparison in npp_mapping).")
claim("C79", "proved", ["C79_honest", "C79_optimal", "C79_outcome", "C79_stream", "C79_incremental"],
      "C79_outcome says what comes out of every window (C79_small_refuted has two concrete failures): a single number makes the solver refuse the empty model, a zero number makes the decoding raise KeyError. The printed layout is not modelled.")

claim("C80", "proved", ["C80_succeeds_iff", "C80_effect", "C80_array", "C80_rejected"],
      "pyqubo's Array.create is modelled (labels, '*' and non-positive shapes refused). Only the first variable of a ready array is checked, so an array that mixes the two types is accepted: C80_mixed_array_refuted.")
claim("C81", "partial", ["C81_refuted", "C81_creating_update_ignores_partial", "C35_update"],
      "The code violates it: the attributes are not forwarded to add_interaction (C81_refuted), so such an update behaves exactly as if none had been passed (C81_creating_update_ignores_partial). For an interaction that exists the attributes are kept (C35_update).")

claim("C82", "proved", ["C82_energy", "C82_tour", "C82_not_a_tour", "C82_empty", "C82_stream", "compile_ref_ok"],
      "PyQUBO's compile() is external: assumed to return a model with the energy of the expression (compiled_from in TspSpec.v); compile_ref_ok shows the contract is met by a concrete compiler. geopy's geodesic is an arbitrary function.")
claim("C83", "partial", ["C83_honest", "C83_shortest_partial", "C83_stream_partial", "C83_refuted"],
      "The code violates it for long tours: the penalties 17.5 and 15 are constants, so with two cities 2000 km apart the answer visits one of them twice (C83_refuted). Proved whenever some tour is shorter than 3000 km, which is the exact threshold for two cities; for any honest solver the answer is a tour when the energy is below 30.")

claim("C84", "proved", ["C84_state", "C84_history", "C84_windows", "C84_incremental"],
      "map_fn_safe: either the state is written out between windows, or map_fn leaves a model it fails on unchanged (C55_map_refuted shows why). Attenuation changes the model between map_fn and solve_fn (C69, C70).")
claim("C85", "proved", ["C85_window", "C85_history"], "Elements have distinct indices (C56_distinct).")
claim("C86", "proved", ["C86_source", "C86_names", "C86_roundtrip", "C86_distinct", "C86_subscription"],
      "Pub/Sub, Beam's check of the paths (modelled as the regular expression it uses) and the UTF-8 coding of messages are external. Project names contain no slash.")
claim("C87", "proved", ["C87_window", "C87_one_number", "C87_weights"],
      "Invariant: besides that of C62, every interaction carries the arrival time of the earlier number of its pair, and the scale of the pair of the two newest numbers is 1 (so a window of two numbers, where nothing is rescaled, finds the right scale). C87_not_best: the faded model is another problem, so an exact solver need not return the best partition.")

claim("C88", "proved", ["C88_file", "C88_incremental", "C88_window_sizes", "C88_all_answered", "C88_last_window"],
      "Beam's windows are external (StreamSpec.sliding, delivered): non-empty windows are delivered in order, elements in any order, with the end of the window minus at most 1 as timestamp. ideal_ok shows the hypotheses can be met for every file.")
claim("C89", "partial", ["C89_refuted", "C89_stops", "C89_answers_partial"],
      "The code violates it: with one number more than a multiple of the period, the last window holds a single number and min() of no timestamps raises outside the guarded calls, so the pipeline stops (C89_stops; C89_refuted is the sample's own size 20 and period 5 on six numbers). Proved for all other lengths.")

claim("C90", "proved", ["C90_models", "C90_reachable", "C90_built", "C90_constraints", "C90_sets", "C90_penalty", "C90_equivalence", "C90_other_object", "C90_not_equal"],
      "built: reachable by any history in which the objects given to add_constraint are constraint objects. pyqubo's variables and coefficients are compared by value; an unset attribute is the object np.nan, which a list comparison finds equal to itself.")
claim("C91", "proved", ["C91_operations", "C91_sequences", "C91_merge", "C91_physical", "C91_after_physical"],
      "A congruence over every public method; clock readings and object ids are the same on both sides for the calls, arbitrary for to_physical. The coefficients of the two physical models agree because energies over legal assignments determine them. Hypotheses on constraints as in C09; to_physical leaves the models equal under the conditions of C11.")
claim("C92", "partial", ["C92_refuted", "C92_same_order_partial", "C92_exact"],
      "The code violates it: indices follow the order in which the arrays were declared, which == of logical models does not see but == of physical models does. Proved when the arrays were declared in the same order; C92_exact says that it holds exactly when the variables that have an index were declared in the same order.")

claim("C93", "partial", ["C93_refuted", "C93_any_target", "C93_class_partial", "C93_conversion"],
      "The code violates it: fix_variable revives removed interactions, which conversions do not touch, and add_interaction does not look at the type of its target. Proved for histories in which targets are of the model's type, arrays come from Array.create, fix_variable is not called for a variable of a removed interaction, update_interaction sets known attributes (C63) and to_physical does not raise with constraints (C12).")
claim("C94", "proved", ["C94_offset", "C94_others", "C94_initial"], "")

claim("C95", "partial", ["C95_refuted", "C95_calls", "C95_merge", "C95_merge_itself", "C95_faithful", "C95_others", "C95_isolated_partial"],
      "The code violates it: merge gives self the constraint objects of other, and delete_variable of one of the two then takes the variable out of the constraint of both (C95_refuted). C95_others says exactly what a call does to another model: only delete_variable, only in shared constraints. C95_isolated_partial: a model that shares no constraint object is not changed by anything that mentions neither it nor its constraints nor their sets. C95_calls, C95_merge, C95_merge_itself: the heap of objects refines the value-level model all other properties are about; C95_faithful: every model of every program is reachable in the sense of those properties.")
claim("C96", "proved", ["C96_connected", "C96_methods", "C96_add", "C96_lasts"], "")
claim("C97", "partial", ["C97_refuted", "C97_constraint", "C97_sets", "C97_made", "C97_own", "C97_shares", "C97_methods_own"],
      "The code violates it: a constraint made of a python set keeps that very set (C97_shares), so a later change to the set changes the constraint (C97_refuted). Proved otherwise: C97_constraint names every call that can change a constraint, C97_own and C97_methods_own say when a constraint's set is its own.")

claim("C98", "proved", ["C98_every_assignment", "C98_random_start", "C98_variables_matter", "C98_model"],
      "exp(-d/t) is taken to lie strictly between 0 and 1 (no floating-point underflow). The random numbers are exhibited; rng_ok is all that is assumed about numpy's generator.")
claim("C99", "partial", ["C99_refuted", "C99_sequential_partial"],
      "The code violates it: flips that leave the energy as it is are always accepted, so on a square of equal couplings every sequential sweep flips all four spins and the best assignment is never reached, for any temperatures, sweeps and random numbers (C99_refuted). Proved when no change of one variable leaves the energy as it is, with 2 * 2^n sweeps.")

claim("C100", "proved", ["C100_as_good", "C100_optimum", "C100_strength", "C100_any_solver", "C100_exact_solver", "C100_sharp"],
      "Variable sets as python sets hold them (constr_ok). C100_sharp: a strength equal to the largest difference is not enough.")
claim("C101", "partial", ["C101_refuted", "C101_exact", "C101_answers_partial", "C101_best_partial"],
      "False of the code: with the filter of the sample (numbers over 90 stay) the second window of 95 91 90 90 6 / 4 answers 4 against 95 and 91. C101_exact says which pairs the model has in every window of every stream; the claim holds when the filter drops in each window only numbers older than those it keeps.")
claim("C102", "proved", ["C102_accepted", "C102_rejected", "C102_energy", "C102_physical", "C102_answers"],
      "The labels have no * in them (C80 says when arrays have such labels).")
claim("C103", "proved", ["C103_n_hot_from_scratch"], "")
claim("C104", "proved", ["C104_one_body", "C104_two_body", "C104_helper_ising", "C104_helper_energy", "C104_helper_2x2", "C104_arrays"],
      "_create_qubo_model, which uses a constraint, is C107.")
claim("C105", "proved", ["C105_variables", "C105_coefficients", "C105_objective"], "")
claim("C106", "proved", ["C106_to_physical_succeeds", "C106_only_placeholders"], "")
claim("C107", "proved", ["C107_n_hot", "C107_s_of_n", "C107_helper_qubo"], "")
claim("C108", "partial", ["C108_refuted", "C108_exact_effect", "C108_uncoupled_partial", "C108_apart_partial"],
      "False of the code: fixing y brings the interaction between x and y, removed by fixing x but not yet purged, back as a term on x. C108_exact_effect states what two calls do: the energy misses b * x * (total weight between x and y). It holds when the two are not coupled or b is 0, and for any list of variables when to_physical is called after each fix_variable (models without constraints).")
claim("C109", "partial", ["C109_refuted", "C109_absent_partial", "C109_best_partial", "C109_exact", "C109_exact_effect"],
      "False of the code when a constraint mentions the variable: fix_variable leaves constraints alone, so the variable stays in the physical model and every best assignment may give it the other value (C109_refuted). Both halves hold when no constraint mentions it. C109_exact: the variable stays in the physical model exactly if the penalties of the constraints depend on it; C109_exact_effect: what is minimised after the call in any model.")
claim("C110", "proved", ["C110_objective", "C110_sum", "C110_commutes", "C110_associates", "C110_either_type", "C110_both_accepted"],
      "Variable sets as python sets hold them (constr_ok). Scales other than 1 with different types fall under C19/C20's findings on conversion.")
claim("C111", "proved", ["C111_same", "C111_both"],
      "The model has no constraint with the same label (add_constraint would replace it).")
claim("C112", "partial", ["C112_refuted", "C112_error", "C112_exact_effect", "C112_no_constraints_partial", "C112_best_partial"],
      "False of the code: every failed call leaves the constraints' interactions in the model, so after n failures the penalties count n + 1 times (C112_exact_effect, for every n), and with a weak constraint another assignment becomes the best one (C112_refuted). Without constraints nothing changes (C112_no_constraints_partial); if a best assignment satisfies the constraints it stays best and no other assignment becomes best (C112_best_partial). C112_error: PlaceholderError is raised only when a placeholder is missing.")
claim("C113", "proved", ["C113_succeeds_iff", "C113_refuses", "C113_readonly", "C113_selects", "C113_by_name", "C113_added", "C113_removed", "C113_by_variable", "C113_energy", "C113_attribute", "C113_combines"],
      "The query is its parse tree; comparisons are ==, !=, <, <=, >, >= of a column with a literal (pandas also has arithmetic, chained comparisons and method calls, not modelled). On a model whose table is not rectangular (C63) select_interaction raises ValueError.")
claim("C114", "partial", ["C114_sawatabi", "C114_optigan", "C114_local", "C114_solvers_partial", "C114_declared", "C114_failed_delete", "C114_refuted"],
      "refuted by an interaction on a variable of another model; exact condition (iff) proved: SawatabiSolver and OptiganSolver accept the model exactly when every variable with a coefficient is declared and not deleted, otherwise KeyError and no request; sufficient condition on interactions and constraints in C114_declared; consequence for a failed delete_variable in C114_failed_delete")
claim("C115", "proved", ["C115_differences"],
      "With partial the filter must not raise. This is the exact behaviour behind C50, C52, C53 and C70.")
claim("C116", "proved", ["C116_units", "C116_reverse_refuted"],
      "C116_reverse_refuted: with reverse annealing it is false, because the first temperature is the constant 1e-9; that is why the statement excludes it. Exact arithmetic.")
claim("C117", "proved", ["C117_offset"],
      "The entries of the energy history change by minus the constant (the finding of C65).")
claim("C118", "proved", ["C118_labels"],
      "Samples are dictionaries; the order of the columns of dimod's sample set is not modelled.")
claim("C119", "proved", ["C119_landscape", "C119_equal", "C119_models"],
      "Exact rationals: with floats the order of additions may change the last bits. The models have no interaction of a variable with itself (to_bqm raises for those, C37). The entries of the energy history also shift by twice the difference of the offsets (C65).")
claim("C120", "proved", ["C120_types"],
      "Exact rationals; no interaction of a variable with itself.")
claim("C121", "proved", ["C121_raises", "C121_aligned", "C121_lines", "C121_box", "C121_line_break", "C121_split", "C121_strips", "C121_leading_spaces", "C121_repr", "C121_repr_parts", "C121_physical"],
      "How Python renders a list, an array, a table, a dictionary or a number is an arbitrary function; the theorems assume only that those printed on one line by Python are (record renders).")
claim("C122", "proved", ["C122_rounds", "C122_messages", "C122_incremental_number", "C122_random_number", "C122_incremental_text", "C122_drawn_letters"],
      "The loop is observed for an arbitrary number of rounds; random draws and times are arbitrary functions of the round.")
claim("C123", "proved", ["C123_time", "C123_before_epoch", "C123_units", "C123_profile"],
      "Times are exact rationals.")
claim("C124", "proved", ["C124_order", "C124_physical"],
      "Attributes are python dictionaries (no repeated key). The conversion part assumes distinct labels and penalty terms that mention their variables once each (proper constraints).")
claim("C125", "proved", ["C125_energies", "C125_energies_general", "C125_interactions"],
      "Labels of the model distinct; exact rational coefficients.")
claim("C126", "proved", ["C126_scale", "C126_split", "C126_update", "C126_remove"],
      "Exact rational coefficients; labels of the model distinct.")
claim("C127", "proved", ["C127_objective", "C127_best", "C127_fix"],
      "When delete_variable raises although it should not is C16. Names of interactions unique, labels within a constraint distinct; the comparison with fix_variable assumes that no interaction of the variable is removed and pending (C18).")
claim("C128", "proved", ["C128_cases"],
      "Placeholders resolved by the values given; no interaction of the variable is removed and pending (C18); variables in constraints are C109.")
claim("C129", "proved", ["C129_to_ising", "C129_to_qubo"],
      "Scales 1, as for C19 (C19_iff says exactly for which models the energy differences survive).")
claim("C130", "proved", ["C130_program", "C130_call", "C130_merge", "C130_exceptions", "C130_physical", "C130_feed"],
      "update_interaction and the type conversions reject placeholders with a TypeError, so there a program with the values can run where the one with placeholders raises; C130_exceptions leaves exactly these calls out.")
claim("C131", "proved", ["C131_sweep", "C131_returns"],
      "A removed interaction whose name a constraint generates is excluded (own_names; see C12).")
claim("C132", "proved", ["C132_prefix", "C132_set", "C132_best", "C132_raises"],
      "The generator is an arbitrary function of the requests made so far, so a read that drew its random numbers in another order or before the other reads would break the theorem. dimod's aggregation keeps the first occurrence of a sample in place (modelled).")
claim("C133", "proved", ["C133_no_sweeps", "C133_no_worse", "C133_local_minimum"],
      "Numbers are exact rationals; the Boltzmann function is an oracle, 'cold' means its value is at most 0 at the temperatures of the read.")
claim("C134", "proved", ["C134_expression", "C134_minimum", "C134_sample", "C134_first_sample"],
      "PyQUBO's compile is an external function: the theorems hold for every compiler that meets the contract of TspSpec.v (terms over the variables of the expression, one per pair, same value for all 0/1 assignments), and a reference compiler that meets it is given (compile_ref_ok).")
claim("C135", "proved", ["C135_order", "C135_returns", "C135_each", "C135_energy", "C135_additions"],
      "Swapping with additions requires that the updates use attributes the model already has; C36 describes what a new attribute does to later additions.")
claim("C136", "proved", ["C136_read", "C136_set", "C136_model"],
      "")
claim("C137", "proved", ["C137_opposite", "C137_no_field"],
      "Initial states are given; without them the random numbers decide the start, which the description of the variables does not influence.")
claim("C138", "partial", ["C138_models_partial", "C138_physical_partial", "C138_refuted"],
      "False of the code: fix_variable also processes interactions that have been removed but not yet purged by to_physical (C138_refuted). Proved for all histories in which a variable fixed to a non-zero value is not mentioned by such an interaction, updates set known attributes only, and no pending removed interaction has the name of an interaction of a constraint's model when to_physical is called.")
claim("C139", "proved", ["C139_add", "C139_update", "C139_remove", "C139_delete", "C139_fix", "C139_variables", "C139_array", "C139_solve"],
      "For delete_variable, fix_variable and solve the theorems are about the argument checks; what can be raised after them is C16, C17, C109 and C44.")
claim("C140", "proved", ["C140_construct", "C140_wrong_kind", "C140_type", "C140_deleted", "C140_fixed", "C140_constraints"],
      "Histories of one model without merge; what merge does to these is C22-C25. delete_variable changes the constraints that contain the variable (C16), so that with deletions only the presence of a constraint is claimed.")
claim("C141", "proved", ["C141_escapes", "C141_nothing_stored", "C141_never", "C141_attenuation"],
      "Which models make to_physical raise is C106 and C69. What Beam does with an exception that leaves process is not modelled.")
claim("C142", "proved", ["C142_content", "C142_physical", "C142_solver", "C142_own_labels"],
      "Attributes of interactions are not entered again (they do not enter the physical model). That every constraint is stored under its own label is proved for histories without merge (C142_own_labels) and otherwise assumed.")
claim("C143", "partial", ["C143_refuted", "C143_source", "C143_no_source", "C143_starts", "C143_fails", "C143_exact"],
      "The last sentence is false of the code: npp_window and tsp_window look for Pub/Sub before the file, the other four for the file before Pub/Sub (C143_refuted). C143_exact: two samples read from the same place exactly if the options do not name both a file and a Pub/Sub source or both samples are of the same group. The rest is proved.")
claim("C144", "partial", ["C144_refuted", "C144_streaming_partial", "C144_exact", "C144_sink", "C144_runner", "C144_settings"],
      "The first sentence is false of npp_delta, npp_incremental, npp_partial and npp_attenuation when a file and a Pub/Sub source are both named: they read the file in streaming mode (C144_refuted). Proved for npp_window and tsp_window; C144_exact: streaming mode exactly if a Pub/Sub source is named. The rest is proved.")
claim("C145", "proved", ["C145_acknowledged"],
      "Delivery, redelivery of unacknowledged messages and the reporting of callback exceptions are the client library's and not modelled.")
claim("C146", "proved", ["C146_says", "C146_unambiguous", "C146_window", "C146_file", "C146_failures"],
      "WriteToText is represented as one file in which every element is followed by a line break; sharding and the order of windows are Beam's.")
claim("C147", "partial", ["C147_refuted", "C147_line", "C147_route_partial"],
      "The second half is false of the code: with cities A, B and 'A -> B' two different tours of the same cities have the same text (C147_refuted). Proved for names that do not contain the head of the arrow; the first half for names without a line break.")
claim("C148", "partial", ["C148_refuted", "C148_logical", "C148_physical_exact"],
      "False of the code for physical models: the brackets are closed before the offset (C148_physical_exact says what is printed, C148_refuted that no physical model is enclosed). Proved for logical models.")
claim("C149", "proved", ["C149_file", "C149_incremental"],
      "Composes C57, C88 and C146: the statement mentions only the lines of the file and the texts. The samples as shipped use simulated annealing, for which no optimality is claimed; the theorem holds for the exact local solver.")
claim("C150", "proved", ["C150_exact", "C150_energy", "C150_metropolis", "C150_no_rounding", "C150_integers", "C150_refuted"],
      "Rounded.v is a second model of the solver in which every operation is followed by a rounding, in the order of the code; C150_no_rounding shows that it is Solver.v when nothing is rounded. C150_refuted shows that the restriction on the sizes is needed. math.exp and the comparison with the random number are the oracle w_boltz, as in Solver.v.")
claim("C151", "proved", ["C151_error", "C151_best"],
      "The rounding is any function with relative error at most u (no overflow, no underflow); C150_refuted shows that the error need not be zero. C151_hyps instantiates it with rounding to nearest at u = 2^-53 on the model of C150_refuted.")
claim("C152", "proved", ["C152_answer", "C152_caller"],
      "C152_hyps: an arithmetic in which every result is 7 and every sum is empty.")
claim("C153", "proved", ["C153_verdict", "C153_left", "C153_retry"],
      "For labels used with as many indices as their array has dimensions (fully_indexed): a shorter index selects a sub-array, which the model of from_pyqubo simplifies.")
claim("C154", "proved", ["C154_entries", "C154_energy", "C154_unsolvable"],
      "")
claim("C155", "proved", ["C155_coefficients", "C155_energy", "C155_answer", "C155_no_rounding"],
      "The relative error model leaves out underflow and overflow. C155_answer assumes that rounding twice is rounding once, that the offset is a machine number and that every label of the physical model has an index (see C13).")
claim("C156", "proved", ["C156_physical", "C156_answer", "C156_indexed"],
      "C156_indexed gives the indices C156_answer (and C155_answer) asks for when every variable in use is declared and not deleted. The model m53 of C155_hyps, with a coefficient of 2^53 + 1, shows that without the bound the claim fails.")
claim("C157", "proved", ["C157_cooling", "C157_never_rises", "C157_reverse"],
      "The relative error bound excludes underflow, as in C151: a very long run can reach the temperature 0 in practice. C43 has the exact values.")
claim("C158", "proved", ["C158_one_body", "C158_two_body", "C158_squares", "C158_ising", "C158_qubo", "C158_states"],
      "0.9 is taken as the decimal number. math.exp is assumed not to raise for a positive temperature (boltz_ok), as in C41.")
claim("C159", "proved", ["C159_model", "C159_draws", "C159_profile"],
      "random.seed only selects the sequence of draws, which is arbitrary.")
claim("C160", "proved", ["C160_lookup", "C160_unknown", "C160_total"],
      "Shapes are tuples of integers; other arguments are the subject of C80.")
