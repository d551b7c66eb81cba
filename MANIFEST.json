{
 "claims": [
  {
   "property": "C01",
   "status": "partial",
   "theorems": [
    "C01_refuted",
    "C01_names_partial",
    "C01_keys"
   ],
   "note": "The code violates it: to_physical that raises twice on a model with constraints leaves the constraint's interactions in the model twice under one name (C01_refuted). Names proved unique for histories in which to_physical does not raise while constraints are present (all other calls may raise); that key, body and variables agree is proved for every history, merges included."
  },
  {
   "property": "C02",
   "status": "proved",
   "theorems": [
    "C02_add_atomic",
    "C02_update_atomic",
    "C02_remove_atomic"
   ],
   "note": "For models whose attribute columns are aligned (see C36 for how they can get misaligned)."
  },
  {
   "property": "C03",
   "status": "proved",
   "theorems": [
    "C03_succeeds_iff",
    "C03_effect"
   ],
   "note": ""
  },
  {
   "property": "C04",
   "status": "proved",
   "theorems": [
    "C04_update",
    "C04_update_succeeds",
    "C04_update_adds"
   ],
   "note": ""
  },
  {
   "property": "C05",
   "status": "partial",
   "theorems": [
    "C05_refuted",
    "C05_import_time_partial",
    "C05_given_timestamp"
   ],
   "note": "The code violates it: the default timestamp is evaluated when the module is imported (C05_refuted). Proved instead: what is recorded is the import time, and a timestamp that is passed is recorded."
  },
  {
   "property": "C06",
   "status": "proved",
   "theorems": [
    "C06_succeeds_iff",
    "C06_effect",
    "C06_idempotent",
    "C06_pending",
    "C06_purged"
   ],
   "note": ""
  },
  {
   "property": "C07",
   "status": "proved",
   "theorems": [
    "C07_pair_unordered"
   ],
   "note": ""
  },
  {
   "property": "C08",
   "status": "proved",
   "theorems": [
    "C08_default_name_injective",
    "C08_star_labels_collide"
   ],
   "note": ""
  },
  {
   "property": "C09",
   "status": "proved",
   "theorems": [
    "C09_to_physical_energy",
    "C09_no_constraints",
    "C09_qubo",
    "C09_ising",
    "C09_to_physical_succeeds"
   ],
   "note": "Success-based, plus a sufficient condition for success. Ising models with constraints: the penalties plus an explicit constant per constraint (the conversion of the constraint's model shifts the offset, see C20), a function of the number of its variables and its strength."
  },
  {
   "property": "C10",
   "status": "proved",
   "theorems": [
    "C10_coefficients"
   ],
   "note": ""
  },
  {
   "property": "C11",
   "status": "proved",
   "theorems": [
    "C11_frame",
    "C11_again"
   ],
   "note": ""
  },
  {
   "property": "C12",
   "status": "partial",
   "theorems": [
    "C12_no_constraints_partial",
    "C12_exact_effect",
    "C12_refuted",
    "C12_clash_refuted"
   ],
   "note": "The code violates it: with a constraint and a missing placeholder the constraint's interactions stay in the model (C12_refuted). Proved for models without constraints. C12_exact_effect: what a PlaceholderError leaves behind in any model (every assignment costs the penalties more, everything else is as before)."
  },
  {
   "property": "C13",
   "status": "proved",
   "theorems": [
    "C13_index_bijection"
   ],
   "note": ""
  },
  {
   "property": "C14",
   "status": "proved",
   "theorems": [
    "C14_labels_distinct",
    "C14_bracket_names_collide"
   ],
   "note": ""
  },
  {
   "property": "C15",
   "status": "proved",
   "theorems": [
    "C15_delete",
    "C15_deleted_not_indexed",
    "C15_delete_succeeds"
   ],
   "note": "For models whose interaction names are unique (C01)."
  },
  {
   "property": "C16",
   "status": "partial",
   "theorems": [
    "C16_refuted",
    "C16_delete_succeeds_partial",
    "C16_succeeds_iff",
    "C16_exact_effect",
    "C16_retry"
   ],
   "note": "The code violates it: a constraint that does not contain the variable, or an EqualityConstraint, makes delete_variable raise (C16_refuted). Proved for models whose constraints are all N-hot or zero-or-one-hot constraints that contain the variable, and this condition is necessary (C16_succeeds_iff). C16_exact_effect: the exception and the model that a failed call leaves; C16_retry: further calls raise as well and change nothing."
  },
  {
   "property": "C17",
   "status": "proved",
   "theorems": [
    "C17_fix",
    "C17_fix_succeeds",
    "C17_fix_succeeds_plain"
   ],
   "note": ""
  },
  {
   "property": "C18",
   "status": "partial",
   "theorems": [
    "C18_refuted",
    "C18_exact_effect",
    "C18_zero_partial"
   ],
   "note": "The code violates it: a removed interaction that mentions the variable is brought back (C18_refuted). C18_exact_effect says by exactly how much; C18_zero_partial: value 0 in a QUBO is not affected."
  },
  {
   "property": "C19",
   "status": "proved",
   "theorems": [
    "C19_to_ising",
    "C19_to_qubo",
    "C19_minima",
    "C19_same_type",
    "C19_variables",
    "C19_succeeds",
    "C19_succeeds_plain",
    "C19_iff"
   ],
   "note": "Success-based, with sufficient conditions for success. C19_iff: for scales other than 1 the energy differences are kept exactly if, for every variable, coefficient * (scale - 1) sums to 0 over its pairs."
  },
  {
   "property": "C20",
   "status": "partial",
   "theorems": [
    "C20_refuted",
    "C20_shift_partial",
    "C20_exact_effect"
   ],
   "note": "The code violates it: the offset is moved the wrong way and scales other than 1 are ignored (C20_refuted). C20_shift_partial gives the exact shift for unit scales, C20_exact_effect the exact difference for all scales."
  },
  {
   "property": "C21",
   "status": "proved",
   "theorems": [
    "C21_qubo_ising_qubo",
    "C21_ising_qubo_ising"
   ],
   "note": ""
  },
  {
   "property": "C22",
   "status": "proved",
   "theorems": [
    "C22_merge_energy",
    "C22_merge_energy_other_type",
    "C22_contents"
   ],
   "note": ""
  },
  {
   "property": "C23",
   "status": "proved",
   "theorems": [
    "C23_variables",
    "C23_succeeds_iff"
   ],
   "note": ""
  },
  {
   "property": "C24",
   "status": "partial",
   "theorems": [
    "C24_refuted",
    "C24_unique_partial",
    "C24_unique_iff",
    "C24_names"
   ],
   "note": "The code violates it: merging a model with itself, or merging the same model three times, produces duplicate names (C24_refuted). Proved when the ids differ and no existing name is already of the form 'n (id)' for a shared name n. C24_unique_iff: exactly when the names stay unique. C24_names: what every name of the result is."
  },
  {
   "property": "C25",
   "status": "partial",
   "theorems": [
    "C25_refuted",
    "C25_rejected_partial",
    "C25_exact_effect",
    "C25_clash_effect",
    "C25_other_type"
   ],
   "note": "The code violates it: a shared constraint label is detected after self has been changed, and other is converted before the dimensions are checked (C25_refuted). Proved for models of the same type without a shared constraint label. C25_exact_effect says exactly when merge raises, C25_clash_effect what self is after a shared label, C25_other_type that other is then the converted model and the rest is as for models of the same type."
  },
  {
   "property": "C26",
   "status": "proved",
   "theorems": [
    "C26_energy",
    "C26_minimal_iff",
    "C26_order",
    "C26_C27_C28_succeeds"
   ],
   "note": ""
  },
  {
   "property": "C27",
   "status": "proved",
   "theorems": [
    "C27_energy",
    "C27_zero_iff",
    "C26_C27_C28_succeeds"
   ],
   "note": ""
  },
  {
   "property": "C28",
   "status": "proved",
   "theorems": [
    "C28_energy",
    "C28_zero_iff",
    "C28_overlap_rejected",
    "C26_C27_C28_succeeds"
   ],
   "note": ""
  },
  {
   "property": "C29",
   "status": "proved",
   "theorems": [
    "C29_add",
    "C29_add_twice",
    "C29_remove",
    "C29_equality_add",
    "C29_equality_remove",
    "C29_construct",
    "C29_construct_zero_or_one",
    "C29_construct_equality",
    "C29_construct_rejects"
   ],
   "note": ""
  },
  {
   "property": "C30",
   "status": "proved",
   "theorems": [
    "C30_add_constraint",
    "C30_remove_constraint",
    "C30_add_remove",
    "C30_unknown",
    "C30_bad_type"
   ],
   "note": ""
  },
  {
   "property": "C31",
   "status": "proved",
   "theorems": [
    "C31_energy",
    "C31_fresh",
    "C31_frame",
    "C31_succeeds"
   ],
   "note": ""
  },
  {
   "property": "C32",
   "status": "partial",
   "theorems": [
    "C32_refuted",
    "C32_additive_partial",
    "C32_argument_partial",
    "C32_argument_negated",
    "C31_energy"
   ],
   "note": "The code violates it: the offset is overwritten and placeholder coefficients of the argument are negated in place (C32_refuted). Proved for a zero offset, and for arguments without placeholder coefficients. C31_energy says what the energy is for every offset: the old offset is what is lost."
  },
  {
   "property": "C33",
   "status": "proved",
   "theorems": [
    "C33_append",
    "C33_append_new",
    "C33_shorter_tuple_drops",
    "C33_exact"
   ],
   "note": "C33_shorter_tuple_drops shows the guard on the number of dimensions is needed; C33_exact says exactly when append succeeds and what it declares."
  },
  {
   "property": "C34",
   "status": "proved",
   "theorems": [
    "C34_all_size",
    "C34_size",
    "C34_deleted_and_fixed_counts_twice"
   ],
   "note": "C34_deleted_and_fixed_counts_twice shows the guard is needed."
  },
  {
   "property": "C35",
   "status": "proved",
   "theorems": [
    "C35_add",
    "C35_update",
    "C35_remove",
    "C35_to_physical"
   ],
   "note": ""
  },
  {
   "property": "C36",
   "status": "partial",
   "theorems": [
    "C36_refuted",
    "C36_known_attributes_partial",
    "C36_introduced",
    "C36_not_reported",
    "C36_next_add",
    "C36_wrong_interaction",
    "C36_refuses",
    "C36_stuck",
    "C36_merge_forgets"
   ],
   "note": "The code violates it: the new column is not registered (C36_refuted). Proved for attributes that are already known. For every model, what a new attribute does: the value is stored but not reported (C36_introduced, C36_not_reported), the next add leaves the column short (C36_next_add) and writes a value passed for the attribute to another interaction (C36_wrong_interaction); from then on selecting, deleting, fixing and converting raise (C36_refuses), whatever calls other than to_physical follow (C36_stuck); merging drops the column (C36_merge_forgets)."
  },
  {
   "property": "C37",
   "status": "proved",
   "theorems": [
    "C37_to_bqm",
    "C37_succeeds_iff",
    "C37_from_logical"
   ],
   "note": ""
  },
  {
   "property": "C38",
   "status": "proved",
   "theorems": [
    "C38_value",
    "C38_succeeds_iff",
    "C38_order"
   ],
   "note": ""
  },
  {
   "property": "C39",
   "status": "proved",
   "theorems": [
    "C39_reported_energy"
   ],
   "note": ""
  },
  {
   "property": "C40",
   "status": "proved",
   "theorems": [
    "C40_samples",
    "C40_no_read_lost"
   ],
   "note": ""
  },
  {
   "property": "C41",
   "status": "proved",
   "theorems": [
    "C41_succeeds",
    "C41_histories",
    "C42_metropolis"
   ],
   "note": ""
  },
  {
   "property": "C42",
   "status": "proved",
   "theorems": [
    "C42_metropolis",
    "C42_local_minimum",
    "C42_greedy"
   ],
   "note": "C42_metropolis: every read refines an abstract Metropolis process (SolverSpec.v) that knows only the energy function."
  },
  {
   "property": "C43",
   "status": "proved",
   "theorems": [
    "C43_forward",
    "C43_reverse"
   ],
   "note": ""
  },
  {
   "property": "C44",
   "status": "partial",
   "theorems": [
    "C44_refuted",
    "C44_rejects",
    "C44_wrong_model",
    "C44_accepts_partial",
    "C44_exact"
   ],
   "note": "The code violates it: reverse_options={} passes the checks and raises KeyError in the first sweep (C44_refuted). Everything else proved. C44_exact: a call that works without reverse_options raises with {} (KeyError) or another falsy value (TypeError) exactly if there is a read with a sweep, and otherwise returns the same."
  },
  {
   "property": "C45",
   "status": "partial",
   "theorems": [
    "C45_refuted",
    "C45_seeded_partial",
    "C45_exact"
   ],
   "note": "The code violates it: seed=0 is treated as no seed (C45_refuted; C45_exact: in every call). Proved for every non-zero seed."
  },
  {
   "property": "C46",
   "status": "proved",
   "theorems": [
    "C46_optimal",
    "C46_enumerated_optimal",
    "C46_negative_refuted"
   ],
   "note": "Both modes. int(s2 / 2) is taken as exact (sums below 2^53). C46_negative_refuted: a negative number can make the call raise, so the guard is needed."
  },
  {
   "property": "C47",
   "status": "proved",
   "theorems": [
    "C47_enumerates",
    "C47_zero_refuted",
    "C47_single_refuted"
   ],
   "note": "The guards are needed: with a zero in the list some optimal splits are missing (C47_zero_refuted), and for a single number none is returned (C47_single_refuted)."
  },
  {
   "property": "C48",
   "status": "proved",
   "theorems": [
    "C48_outdated",
    "C48_recorded",
    "C48_monotone",
    "C48_history"
   ],
   "note": ""
  },
  {
   "property": "C49",
   "status": "proved",
   "theorems": [
    "C49_state",
    "C49_one_output",
    "C49_never_raises"
   ],
   "note": "Attenuation can raise, see C69."
  },
  {
   "property": "C50",
   "status": "proved",
   "theorems": [
    "C50_exact",
    "C50_history",
    "C50_sliding",
    "C53_stored_chronological"
   ],
   "note": "presents/presented (StreamSpec.v) say what map_fn, solve_fn and unmap_fn receive. C50_sliding: Beam's sliding and fixed windows, delivered in order, period at most size."
  },
  {
   "property": "C51",
   "status": "proved",
   "theorems": [
    "C51_history",
    "C51_accumulates"
   ],
   "note": ""
  },
  {
   "property": "C52",
   "status": "partial",
   "theorems": [
    "C52_refuted",
    "C52_in_order_partial",
    "C52_exact"
   ],
   "note": "The code violates it: an element not later than the newest stored one is never incoming (C52_refuted). Proved when the elements arrive in order. C52_exact: after any history, a received element is incoming exactly if it is later than everything stored."
  },
  {
   "property": "C53",
   "status": "partial",
   "theorems": [
    "C53_refuted",
    "C53_elements",
    "C53_outgoing_partial",
    "C53_stored_chronological",
    "C53_exact"
   ],
   "note": "The elements are exact and only dropped elements are outgoing (C53_elements), but dropped elements newer than one that stays are not reported (C53_refuted). Exact when the filter drops older elements only. C53_exact: a stored element is outgoing exactly if it is dropped and older than everything kept and received."
  },
  {
   "property": "C54",
   "status": "proved",
   "theorems": [
    "C54_scales",
    "C54_line",
    "C54_equal",
    "C54_frame",
    "C54_attributes",
    "C54_succeeds",
    "C54_solved"
   ],
   "note": "For models of ordinary histories (unique names, aligned attributes, buildable constraints); the reference is the interaction's timestamp or one of its attributes."
  },
  {
   "property": "C55",
   "status": "partial",
   "theorems": [
    "C55_map_refuted",
    "C55_map_failure_partial",
    "C55_map_failure_ss",
    "C55_solve_failure",
    "C55_isolation"
   ],
   "note": "The code violates it in one case: two windows in one bundle and a map_fn that changes the model in place before raising (C55_map_refuted). Everything else proved; C55_isolation: what later windows present does not depend on which calls failed."
  },
  {
   "property": "C56",
   "status": "proved",
   "theorems": [
    "C56_indices",
    "C56_total",
    "C56_distinct"
   ],
   "note": ""
  },
  {
   "property": "C57",
   "status": "proved",
   "theorems": [
    "C57_numbers",
    "C57_unique",
    "C57_limit",
    "C57_roundtrip"
   ],
   "note": "Python's re and int() on str are modelled (white space, sign, underscores, newline before the end)."
  },
  {
   "property": "C58",
   "status": "proved",
   "theorems": [
    "C58_decoration"
   ],
   "note": "For results that are strings."
  },
  {
   "property": "C59",
   "status": "proved",
   "theorems": [
    "C59_rejects",
    "C59_request",
    "C59_no_credentials",
    "C59_configuration",
    "C59_status",
    "C59_samples",
    "C59_energy"
   ],
   "note": "The service is an arbitrary function from requests to responses; C59_energy assumes it returns the values of the polynomial it was sent."
  },
  {
   "property": "C60",
   "status": "proved",
   "theorems": [
    "C60_inverse",
    "C60_rejects_iff",
    "C60_invalid"
   ],
   "note": ""
  },
  {
   "property": "C61",
   "status": "proved",
   "theorems": [
    "C61_flatten"
   ],
   "note": "Order is the lexicographic order of positions in the nested list."
  },
  {
   "property": "C62",
   "status": "proved",
   "theorems": [
    "C62_window",
    "C62_incremental",
    "C62_square"
   ],
   "note": "Invariant: the active interactions are exactly the pairs of the current elements and the variables x[0..n) exist with n at most every index still to come. C62_square: twice the energy plus the sum of the squares is the squared imbalance. Distinct timestamps are needed: C62_equal_timestamps_refuted shows that a pair with equal timestamps gets no interaction (strict comparison in npp_mapping)."
  },
  {
   "property": "C63",
   "status": "partial",
   "theorems": [
    "C63_refuted",
    "C63_aligned_partial",
    "C63_exactly"
   ],
   "note": "C63_exactly: from a rectangular table, a call of any method leaves a rectangular table if and only if it is not an accepted update of an existing interaction with an unknown attribute. The code violates it: update_interaction with a new attribute does not register the column (C63_refuted, C36). Proved for every history, merges and raising calls included, in which update_interaction sets known attributes only."
  },
  {
   "property": "C64",
   "status": "proved",
   "theorems": [
    "C64_equal_iff",
    "C64_equal_energy",
    "C64_from_logical"
   ],
   "note": ""
  },
  {
   "property": "C65",
   "status": "partial",
   "theorems": [
    "C65_refuted",
    "C65_shift",
    "C65_first",
    "C65_exact_partial"
   ],
   "note": "The code violates it: every entry is off by twice the model's offset (C65_refuted, C65_shift). Exact for a zero offset."
  },
  {
   "property": "C66",
   "status": "partial",
   "theorems": [
    "C66_refuted",
    "C66_exact_effect",
    "C66_unchanged_partial",
    "C66_repeatable"
   ],
   "note": "The code violates it: for a QUBO the zeros of the caller's initial states become -1 (C66_refuted, C66_exact_effect). A second call nevertheless gives the same result (C66_repeatable)."
  },
  {
   "property": "C67",
   "status": "proved",
   "theorems": [
    "C67_indexed",
    "C67_energy",
    "C67_energy_qubo",
    "C67_energy_ising",
    "C67_solvable"
   ],
   "note": "Under the condition that every label with a coefficient is declared and not deleted (otherwise C12)."
  },
  {
   "property": "C68",
   "status": "partial",
   "theorems": [
    "C68_refuted",
    "C68_first_partial",
    "C68_exact"
   ],
   "note": "The code violates it: a first window before -1 second is dropped (C68_refuted), and only such a window (C68_exact)."
  },
  {
   "property": "C69",
   "status": "partial",
   "theorems": [
    "C69_refuted",
    "C69_placeholder_refuted",
    "C69_one_output_partial",
    "C69_exact"
   ],
   "note": "The code violates it: a model without interactions, or with a placeholder, makes process raise (C69_refuted, C69_placeholder_refuted). Proved under the missing conditions on the model; C69_exact: for ordinary models process raises exactly if a placeholder is unresolved, no interaction is left or a reference value is not a number."
  },
  {
   "property": "C70",
   "status": "partial",
   "theorems": [
    "C70_refuted",
    "C50_history",
    "C70_exact"
   ],
   "note": "The code violates it (C70_refuted): the elements are stored before map_fn runs, so none of them is ever incoming in the next window (C70_exact). Without failures every element is incoming exactly once (C50_history)."
  },
  {
   "property": "C71",
   "status": "partial",
   "theorems": [
    "C71_refuted",
    "C71_received_partial",
    "C71_exact",
    "C71_never"
   ],
   "note": "The code violates it: both timestamps in the message are the window's own (C71_refuted, for every outdated window: C71_exact), so the second one is never the timestamp already processed (C71_never)."
  },
  {
   "property": "C72",
   "status": "proved",
   "theorems": [
    "C72_initial_mtype",
    "C72_errors"
   ],
   "note": ""
  },
  {
   "property": "C73",
   "status": "partial",
   "theorems": [
    "C73_refuted",
    "C73_new_partial",
    "C73_exact"
   ],
   "note": "The code violates it: partial uses sliding windows, and an element kept by the filter and received again is presented twice (C73_refuted). Proved when the received elements are new. C73_exact: the elements are distinct exactly if no element kept by the filter is received again."
  },
  {
   "property": "C74",
   "status": "partial",
   "theorems": [
    "C74_local",
    "C74_dwave",
    "C74_sawatabi",
    "C74_optigan_partial",
    "C74_refuted",
    "C59_energy"
   ],
   "note": "False for OptiganSolver when the model has an offset: the offset is neither sent nor added back (C74_refuted). Proved for the other solvers, and for OptiganSolver with offset 0; for every other model its energies are too low by exactly the offset (C59_energy)."
  },
  {
   "property": "C75",
   "status": "proved",
   "theorems": [
    "C75_exact",
    "C75_succeeds",
    "C75_minimum",
    "C75_has_lowest",
    "C75_ground_state"
   ],
   "note": "dimod's ExactSolver is modelled as enumeration of all assignments."
  },
  {
   "property": "C76",
   "status": "proved",
   "theorems": [
    "C76_add_sub",
    "C76_max_min",
    "C76_errors",
    "C76_single"
   ],
   "note": ""
  },
  {
   "property": "C77",
   "status": "proved",
   "theorems": [
    "C77_rejects",
    "C77_accepts"
   ],
   "note": ""
  },
  {
   "property": "C78",
   "status": "partial",
   "theorems": [
    "C78_values_partial",
    "C78_refuted",
    "C78_iff"
   ],
   "note": "False: a variable without a non-zero coefficient is absent from all samples (C78_refuted). Proved for variables with a non-zero total coefficient, and these are exactly the variables of every sample (C78_iff)."
  },
  {
   "property": "C79",
   "status": "proved",
   "theorems": [
    "C79_honest",
    "C79_optimal",
    "C79_outcome",
    "C79_stream",
    "C79_incremental"
   ],
   "note": "C79_outcome says what comes out of every window (C79_small_refuted has two concrete failures): a single number makes the solver refuse the empty model, a zero number makes the decoding raise KeyError. The printed layout is not modelled."
  },
  {
   "property": "C80",
   "status": "proved",
   "theorems": [
    "C80_succeeds_iff",
    "C80_effect",
    "C80_array",
    "C80_rejected"
   ],
   "note": "pyqubo's Array.create is modelled (labels, '*' and non-positive shapes refused). Only the first variable of a ready array is checked, so an array that mixes the two types is accepted: C80_mixed_array_refuted."
  },
  {
   "property": "C81",
   "status": "partial",
   "theorems": [
    "C81_refuted",
    "C81_creating_update_ignores_partial",
    "C35_update"
   ],
   "note": "The code violates it: the attributes are not forwarded to add_interaction (C81_refuted), so such an update behaves exactly as if none had been passed (C81_creating_update_ignores_partial). For an interaction that exists the attributes are kept (C35_update)."
  },
  {
   "property": "C82",
   "status": "proved",
   "theorems": [
    "C82_energy",
    "C82_tour",
    "C82_not_a_tour",
    "C82_empty",
    "C82_stream",
    "compile_ref_ok"
   ],
   "note": "PyQUBO's compile() is external: assumed to return a model with the energy of the expression (compiled_from in TspSpec.v); compile_ref_ok shows the contract is met by a concrete compiler. geopy's geodesic is an arbitrary function."
  },
  {
   "property": "C83",
   "status": "partial",
   "theorems": [
    "C83_honest",
    "C83_shortest_partial",
    "C83_stream_partial",
    "C83_refuted"
   ],
   "note": "The code violates it for long tours: the penalties 17.5 and 15 are constants, so with two cities 2000 km apart the answer visits one of them twice (C83_refuted). Proved whenever some tour is shorter than 3000 km, which is the exact threshold for two cities; for any honest solver the answer is a tour when the energy is below 30."
  },
  {
   "property": "C84",
   "status": "proved",
   "theorems": [
    "C84_state",
    "C84_history",
    "C84_windows",
    "C84_incremental"
   ],
   "note": "map_fn_safe: either the state is written out between windows, or map_fn leaves a model it fails on unchanged (C55_map_refuted shows why). Attenuation changes the model between map_fn and solve_fn (C69, C70)."
  },
  {
   "property": "C85",
   "status": "proved",
   "theorems": [
    "C85_window",
    "C85_history"
   ],
   "note": "Elements have distinct indices (C56_distinct)."
  },
  {
   "property": "C86",
   "status": "proved",
   "theorems": [
    "C86_source",
    "C86_names",
    "C86_roundtrip",
    "C86_distinct",
    "C86_subscription"
   ],
   "note": "Pub/Sub, Beam's check of the paths (modelled as the regular expression it uses) and the UTF-8 coding of messages are external. Project names contain no slash."
  },
  {
   "property": "C87",
   "status": "proved",
   "theorems": [
    "C87_window",
    "C87_one_number",
    "C87_weights"
   ],
   "note": "Invariant: besides that of C62, every interaction carries the arrival time of the earlier number of its pair, and the scale of the pair of the two newest numbers is 1 (so a window of two numbers, where nothing is rescaled, finds the right scale). C87_not_best: the faded model is another problem, so an exact solver need not return the best partition."
  },
  {
   "property": "C88",
   "status": "proved",
   "theorems": [
    "C88_file",
    "C88_incremental",
    "C88_window_sizes",
    "C88_all_answered",
    "C88_last_window"
   ],
   "note": "Beam's windows are external (StreamSpec.sliding, delivered): non-empty windows are delivered in order, elements in any order, with the end of the window minus at most 1 as timestamp. ideal_ok shows the hypotheses can be met for every file."
  },
  {
   "property": "C89",
   "status": "partial",
   "theorems": [
    "C89_refuted",
    "C89_stops",
    "C89_answers_partial"
   ],
   "note": "The code violates it: with one number more than a multiple of the period, the last window holds a single number and min() of no timestamps raises outside the guarded calls, so the pipeline stops (C89_stops; C89_refuted is the sample's own size 20 and period 5 on six numbers). Proved for all other lengths."
  },
  {
   "property": "C90",
   "status": "proved",
   "theorems": [
    "C90_models",
    "C90_reachable",
    "C90_built",
    "C90_constraints",
    "C90_sets",
    "C90_penalty",
    "C90_equivalence",
    "C90_other_object",
    "C90_not_equal"
   ],
   "note": "built: reachable by any history in which the objects given to add_constraint are constraint objects. pyqubo's variables and coefficients are compared by value; an unset attribute is the object np.nan, which a list comparison finds equal to itself."
  },
  {
   "property": "C91",
   "status": "proved",
   "theorems": [
    "C91_operations",
    "C91_sequences",
    "C91_merge",
    "C91_physical",
    "C91_after_physical"
   ],
   "note": "A congruence over every public method; clock readings and object ids are the same on both sides for the calls, arbitrary for to_physical. The coefficients of the two physical models agree because energies over legal assignments determine them. Hypotheses on constraints as in C09; to_physical leaves the models equal under the conditions of C11."
  },
  {
   "property": "C92",
   "status": "partial",
   "theorems": [
    "C92_refuted",
    "C92_same_order_partial",
    "C92_exact"
   ],
   "note": "The code violates it: indices follow the order in which the arrays were declared, which == of logical models does not see but == of physical models does. Proved when the arrays were declared in the same order; C92_exact says that it holds exactly when the variables that have an index were declared in the same order."
  },
  {
   "property": "C93",
   "status": "partial",
   "theorems": [
    "C93_refuted",
    "C93_any_target",
    "C93_class_partial",
    "C93_conversion"
   ],
   "note": "The code violates it: fix_variable revives removed interactions, which conversions do not touch, and add_interaction does not look at the type of its target. Proved for histories in which targets are of the model's type, arrays come from Array.create, fix_variable is not called for a variable of a removed interaction, update_interaction sets known attributes (C63) and to_physical does not raise with constraints (C12)."
  },
  {
   "property": "C94",
   "status": "proved",
   "theorems": [
    "C94_offset",
    "C94_others",
    "C94_initial"
   ],
   "note": ""
  },
  {
   "property": "C95",
   "status": "partial",
   "theorems": [
    "C95_refuted",
    "C95_calls",
    "C95_merge",
    "C95_merge_itself",
    "C95_faithful",
    "C95_others",
    "C95_isolated_partial"
   ],
   "note": "The code violates it: merge gives self the constraint objects of other, and delete_variable of one of the two then takes the variable out of the constraint of both (C95_refuted). C95_others says exactly what a call does to another model: only delete_variable, only in shared constraints. C95_isolated_partial: a model that shares no constraint object is not changed by anything that mentions neither it nor its constraints nor their sets. C95_calls, C95_merge, C95_merge_itself: the heap of objects refines the value-level model all other properties are about; C95_faithful: every model of every program is reachable in the sense of those properties."
  },
  {
   "property": "C96",
   "status": "proved",
   "theorems": [
    "C96_connected",
    "C96_methods",
    "C96_add",
    "C96_lasts"
   ],
   "note": ""
  },
  {
   "property": "C97",
   "status": "partial",
   "theorems": [
    "C97_refuted",
    "C97_constraint",
    "C97_sets",
    "C97_made",
    "C97_own",
    "C97_shares",
    "C97_methods_own"
   ],
   "note": "The code violates it: a constraint made of a python set keeps that very set (C97_shares), so a later change to the set changes the constraint (C97_refuted). Proved otherwise: C97_constraint names every call that can change a constraint, C97_own and C97_methods_own say when a constraint's set is its own."
  },
  {
   "property": "C98",
   "status": "proved",
   "theorems": [
    "C98_every_assignment",
    "C98_random_start",
    "C98_variables_matter",
    "C98_model"
   ],
   "note": "exp(-d/t) is taken to lie strictly between 0 and 1 (no floating-point underflow). The random numbers are exhibited; rng_ok is all that is assumed about numpy's generator."
  },
  {
   "property": "C99",
   "status": "partial",
   "theorems": [
    "C99_refuted",
    "C99_sequential_partial"
   ],
   "note": "The code violates it: flips that leave the energy as it is are always accepted, so on a square of equal couplings every sequential sweep flips all four spins and the best assignment is never reached, for any temperatures, sweeps and random numbers (C99_refuted). Proved when no change of one variable leaves the energy as it is, with 2 * 2^n sweeps."
  },
  {
   "property": "C100",
   "status": "proved",
   "theorems": [
    "C100_as_good",
    "C100_optimum",
    "C100_strength",
    "C100_any_solver",
    "C100_exact_solver",
    "C100_sharp"
   ],
   "note": "Variable sets as python sets hold them (constr_ok). C100_sharp: a strength equal to the largest difference is not enough."
  },
  {
   "property": "C101",
   "status": "partial",
   "theorems": [
    "C101_refuted",
    "C101_exact",
    "C101_answers_partial",
    "C101_best_partial"
   ],
   "note": "False of the code: with the filter of the sample (numbers over 90 stay) the second window of 95 91 90 90 6 / 4 answers 4 against 95 and 91. C101_exact says which pairs the model has in every window of every stream; the claim holds when the filter drops in each window only numbers older than those it keeps."
  },
  {
   "property": "C102",
   "status": "proved",
   "theorems": [
    "C102_accepted",
    "C102_rejected",
    "C102_energy",
    "C102_physical",
    "C102_answers"
   ],
   "note": "The labels have no * in them (C80 says when arrays have such labels)."
  },
  {
   "property": "C103",
   "status": "proved",
   "theorems": [
    "C103_n_hot_from_scratch"
   ],
   "note": ""
  },
  {
   "property": "C104",
   "status": "proved",
   "theorems": [
    "C104_one_body",
    "C104_two_body",
    "C104_helper_ising",
    "C104_helper_energy",
    "C104_helper_2x2",
    "C104_arrays"
   ],
   "note": "_create_qubo_model, which uses a constraint, is C107."
  },
  {
   "property": "C105",
   "status": "proved",
   "theorems": [
    "C105_variables",
    "C105_coefficients",
    "C105_objective"
   ],
   "note": ""
  },
  {
   "property": "C106",
   "status": "proved",
   "theorems": [
    "C106_to_physical_succeeds",
    "C106_only_placeholders"
   ],
   "note": ""
  },
  {
   "property": "C107",
   "status": "proved",
   "theorems": [
    "C107_n_hot",
    "C107_s_of_n",
    "C107_helper_qubo"
   ],
   "note": ""
  },
  {
   "property": "C108",
   "status": "partial",
   "theorems": [
    "C108_refuted",
    "C108_exact_effect",
    "C108_uncoupled_partial",
    "C108_apart_partial"
   ],
   "note": "False of the code: fixing y brings the interaction between x and y, removed by fixing x but not yet purged, back as a term on x. C108_exact_effect states what two calls do: the energy misses b * x * (total weight between x and y). It holds when the two are not coupled or b is 0, and for any list of variables when to_physical is called after each fix_variable (models without constraints)."
  },
  {
   "property": "C109",
   "status": "partial",
   "theorems": [
    "C109_refuted",
    "C109_absent_partial",
    "C109_best_partial",
    "C109_exact",
    "C109_exact_effect"
   ],
   "note": "False of the code when a constraint mentions the variable: fix_variable leaves constraints alone, so the variable stays in the physical model and every best assignment may give it the other value (C109_refuted). Both halves hold when no constraint mentions it. C109_exact: the variable stays in the physical model exactly if the penalties of the constraints depend on it; C109_exact_effect: what is minimised after the call in any model."
  },
  {
   "property": "C110",
   "status": "proved",
   "theorems": [
    "C110_objective",
    "C110_sum",
    "C110_commutes",
    "C110_associates",
    "C110_either_type",
    "C110_both_accepted"
   ],
   "note": "Variable sets as python sets hold them (constr_ok). Scales other than 1 with different types fall under C19/C20's findings on conversion."
  },
  {
   "property": "C111",
   "status": "proved",
   "theorems": [
    "C111_same",
    "C111_both"
   ],
   "note": "The model has no constraint with the same label (add_constraint would replace it)."
  },
  {
   "property": "C112",
   "status": "partial",
   "theorems": [
    "C112_refuted",
    "C112_error",
    "C112_exact_effect",
    "C112_no_constraints_partial",
    "C112_best_partial"
   ],
   "note": "False of the code: every failed call leaves the constraints' interactions in the model, so after n failures the penalties count n + 1 times (C112_exact_effect, for every n), and with a weak constraint another assignment becomes the best one (C112_refuted). Without constraints nothing changes (C112_no_constraints_partial); if a best assignment satisfies the constraints it stays best and no other assignment becomes best (C112_best_partial). C112_error: PlaceholderError is raised only when a placeholder is missing."
  },
  {
   "property": "C113",
   "status": "proved",
   "theorems": [
    "C113_succeeds_iff",
    "C113_refuses",
    "C113_readonly",
    "C113_selects",
    "C113_by_name",
    "C113_added",
    "C113_removed",
    "C113_by_variable",
    "C113_energy",
    "C113_attribute",
    "C113_combines"
   ],
   "note": "The query is its parse tree; comparisons are ==, !=, <, <=, >, >= of a column with a literal (pandas also has arithmetic, chained comparisons and method calls, not modelled). On a model whose table is not rectangular (C63) select_interaction raises ValueError."
  },
  {
   "property": "C114",
   "status": "partial",
   "theorems": [
    "C114_sawatabi",
    "C114_optigan",
    "C114_local",
    "C114_solvers_partial",
    "C114_declared",
    "C114_failed_delete",
    "C114_refuted"
   ],
   "note": "refuted by an interaction on a variable of another model; exact condition (iff) proved: SawatabiSolver and OptiganSolver accept the model exactly when every variable with a coefficient is declared and not deleted, otherwise KeyError and no request; sufficient condition on interactions and constraints in C114_declared; consequence for a failed delete_variable in C114_failed_delete"
  },
  {
   "property": "C115",
   "status": "proved",
   "theorems": [
    "C115_differences"
   ],
   "note": "With partial the filter must not raise. This is the exact behaviour behind C50, C52, C53 and C70."
  },
  {
   "property": "C116",
   "status": "proved",
   "theorems": [
    "C116_units",
    "C116_reverse_refuted"
   ],
   "note": "C116_reverse_refuted: with reverse annealing it is false, because the first temperature is the constant 1e-9; that is why the statement excludes it. Exact arithmetic."
  },
  {
   "property": "C117",
   "status": "proved",
   "theorems": [
    "C117_offset"
   ],
   "note": "The entries of the energy history change by minus the constant (the finding of C65)."
  },
  {
   "property": "C118",
   "status": "proved",
   "theorems": [
    "C118_labels"
   ],
   "note": "Samples are dictionaries; the order of the columns of dimod's sample set is not modelled."
  },
  {
   "property": "C119",
   "status": "proved",
   "theorems": [
    "C119_landscape",
    "C119_equal",
    "C119_models"
   ],
   "note": "Exact rationals: with floats the order of additions may change the last bits. The models have no interaction of a variable with itself (to_bqm raises for those, C37). The entries of the energy history also shift by twice the difference of the offsets (C65)."
  },
  {
   "property": "C120",
   "status": "proved",
   "theorems": [
    "C120_types"
   ],
   "note": "Exact rationals; no interaction of a variable with itself."
  },
  {
   "property": "C121",
   "status": "proved",
   "theorems": [
    "C121_raises",
    "C121_aligned",
    "C121_lines",
    "C121_box",
    "C121_line_break",
    "C121_split",
    "C121_strips",
    "C121_leading_spaces",
    "C121_repr",
    "C121_repr_parts",
    "C121_physical"
   ],
   "note": "How Python renders a list, an array, a table, a dictionary or a number is an arbitrary function; the theorems assume only that those printed on one line by Python are (record renders)."
  },
  {
   "property": "C122",
   "status": "proved",
   "theorems": [
    "C122_rounds",
    "C122_messages",
    "C122_incremental_number",
    "C122_random_number",
    "C122_incremental_text",
    "C122_drawn_letters"
   ],
   "note": "The loop is observed for an arbitrary number of rounds; random draws and times are arbitrary functions of the round."
  },
  {
   "property": "C123",
   "status": "proved",
   "theorems": [
    "C123_time",
    "C123_before_epoch",
    "C123_units",
    "C123_profile"
   ],
   "note": "Times are exact rationals."
  },
  {
   "property": "C124",
   "status": "proved",
   "theorems": [
    "C124_order",
    "C124_physical"
   ],
   "note": "Attributes are python dictionaries (no repeated key). The conversion part assumes distinct labels and penalty terms that mention their variables once each (proper constraints)."
  },
  {
   "property": "C125",
   "status": "proved",
   "theorems": [
    "C125_energies",
    "C125_energies_general",
    "C125_interactions"
   ],
   "note": "Labels of the model distinct; exact rational coefficients."
  },
  {
   "property": "C126",
   "status": "proved",
   "theorems": [
    "C126_scale",
    "C126_split",
    "C126_update",
    "C126_remove"
   ],
   "note": "Exact rational coefficients; labels of the model distinct."
  },
  {
   "property": "C127",
   "status": "proved",
   "theorems": [
    "C127_objective",
    "C127_best",
    "C127_fix"
   ],
   "note": "When delete_variable raises although it should not is C16. Names of interactions unique, labels within a constraint distinct; the comparison with fix_variable assumes that no interaction of the variable is removed and pending (C18)."
  },
  {
   "property": "C128",
   "status": "proved",
   "theorems": [
    "C128_cases"
   ],
   "note": "Placeholders resolved by the values given; no interaction of the variable is removed and pending (C18); variables in constraints are C109."
  },
  {
   "property": "C129",
   "status": "proved",
   "theorems": [
    "C129_to_ising",
    "C129_to_qubo"
   ],
   "note": "Scales 1, as for C19 (C19_iff says exactly for which models the energy differences survive)."
  },
  {
   "property": "C130",
   "status": "proved",
   "theorems": [
    "C130_program",
    "C130_call",
    "C130_merge",
    "C130_exceptions",
    "C130_physical",
    "C130_feed"
   ],
   "note": "update_interaction and the type conversions reject placeholders with a TypeError, so there a program with the values can run where the one with placeholders raises; C130_exceptions leaves exactly these calls out."
  },
  {
   "property": "C131",
   "status": "proved",
   "theorems": [
    "C131_sweep",
    "C131_returns"
   ],
   "note": "A removed interaction whose name a constraint generates is excluded (own_names; see C12)."
  },
  {
   "property": "C132",
   "status": "proved",
   "theorems": [
    "C132_prefix",
    "C132_set",
    "C132_best",
    "C132_raises"
   ],
   "note": "The generator is an arbitrary function of the requests made so far, so a read that drew its random numbers in another order or before the other reads would break the theorem. dimod's aggregation keeps the first occurrence of a sample in place (modelled)."
  },
  {
   "property": "C133",
   "status": "proved",
   "theorems": [
    "C133_no_sweeps",
    "C133_no_worse",
    "C133_local_minimum"
   ],
   "note": "Numbers are exact rationals; the Boltzmann function is an oracle, 'cold' means its value is at most 0 at the temperatures of the read."
  },
  {
   "property": "C134",
   "status": "proved",
   "theorems": [
    "C134_expression",
    "C134_minimum",
    "C134_sample",
    "C134_first_sample"
   ],
   "note": "PyQUBO's compile is an external function: the theorems hold for every compiler that meets the contract of TspSpec.v (terms over the variables of the expression, one per pair, same value for all 0/1 assignments), and a reference compiler that meets it is given (compile_ref_ok)."
  },
  {
   "property": "C135",
   "status": "proved",
   "theorems": [
    "C135_order",
    "C135_returns",
    "C135_each",
    "C135_energy",
    "C135_additions"
   ],
   "note": "Swapping with additions requires that the updates use attributes the model already has; C36 describes what a new attribute does to later additions."
  },
  {
   "property": "C136",
   "status": "proved",
   "theorems": [
    "C136_read",
    "C136_set",
    "C136_model"
   ],
   "note": ""
  },
  {
   "property": "C137",
   "status": "proved",
   "theorems": [
    "C137_opposite",
    "C137_no_field"
   ],
   "note": "Initial states are given; without them the random numbers decide the start, which the description of the variables does not influence."
  },
  {
   "property": "C138",
   "status": "partial",
   "theorems": [
    "C138_models_partial",
    "C138_physical_partial",
    "C138_refuted"
   ],
   "note": "False of the code: fix_variable also processes interactions that have been removed but not yet purged by to_physical (C138_refuted). Proved for all histories in which a variable fixed to a non-zero value is not mentioned by such an interaction, updates set known attributes only, and no pending removed interaction has the name of an interaction of a constraint's model when to_physical is called."
  },
  {
   "property": "C139",
   "status": "proved",
   "theorems": [
    "C139_add",
    "C139_update",
    "C139_remove",
    "C139_delete",
    "C139_fix",
    "C139_variables",
    "C139_array",
    "C139_solve"
   ],
   "note": "For delete_variable, fix_variable and solve the theorems are about the argument checks; what can be raised after them is C16, C17, C109 and C44."
  },
  {
   "property": "C140",
   "status": "proved",
   "theorems": [
    "C140_construct",
    "C140_wrong_kind",
    "C140_type",
    "C140_deleted",
    "C140_fixed",
    "C140_constraints"
   ],
   "note": "Histories of one model without merge; what merge does to these is C22-C25. delete_variable changes the constraints that contain the variable (C16), so that with deletions only the presence of a constraint is claimed."
  },
  {
   "property": "C141",
   "status": "proved",
   "theorems": [
    "C141_escapes",
    "C141_nothing_stored",
    "C141_never",
    "C141_attenuation"
   ],
   "note": "Which models make to_physical raise is C106 and C69. What Beam does with an exception that leaves process is not modelled."
  },
  {
   "property": "C142",
   "status": "proved",
   "theorems": [
    "C142_content",
    "C142_physical",
    "C142_solver",
    "C142_own_labels"
   ],
   "note": "Attributes of interactions are not entered again (they do not enter the physical model). That every constraint is stored under its own label is proved for histories without merge (C142_own_labels) and otherwise assumed."
  },
  {
   "property": "C143",
   "status": "partial",
   "theorems": [
    "C143_refuted",
    "C143_source",
    "C143_no_source",
    "C143_starts",
    "C143_fails",
    "C143_exact"
   ],
   "note": "The last sentence is false of the code: npp_window and tsp_window look for Pub/Sub before the file, the other four for the file before Pub/Sub (C143_refuted). C143_exact: two samples read from the same place exactly if the options do not name both a file and a Pub/Sub source or both samples are of the same group. The rest is proved."
  },
  {
   "property": "C144",
   "status": "partial",
   "theorems": [
    "C144_refuted",
    "C144_streaming_partial",
    "C144_exact",
    "C144_sink",
    "C144_runner",
    "C144_settings"
   ],
   "note": "The first sentence is false of npp_delta, npp_incremental, npp_partial and npp_attenuation when a file and a Pub/Sub source are both named: they read the file in streaming mode (C144_refuted). Proved for npp_window and tsp_window; C144_exact: streaming mode exactly if a Pub/Sub source is named. The rest is proved."
  },
  {
   "property": "C145",
   "status": "proved",
   "theorems": [
    "C145_acknowledged"
   ],
   "note": "Delivery, redelivery of unacknowledged messages and the reporting of callback exceptions are the client library's and not modelled."
  },
  {
   "property": "C146",
   "status": "proved",
   "theorems": [
    "C146_says",
    "C146_unambiguous",
    "C146_window",
    "C146_file",
    "C146_failures"
   ],
   "note": "WriteToText is represented as one file in which every element is followed by a line break; sharding and the order of windows are Beam's."
  },
  {
   "property": "C147",
   "status": "partial",
   "theorems": [
    "C147_refuted",
    "C147_line",
    "C147_route_partial"
   ],
   "note": "The second half is false of the code: with cities A, B and 'A -> B' two different tours of the same cities have the same text (C147_refuted). Proved for names that do not contain the head of the arrow; the first half for names without a line break."
  },
  {
   "property": "C148",
   "status": "partial",
   "theorems": [
    "C148_refuted",
    "C148_logical",
    "C148_physical_exact"
   ],
   "note": "False of the code for physical models: the brackets are closed before the offset (C148_physical_exact says what is printed, C148_refuted that no physical model is enclosed). Proved for logical models."
  },
  {
   "property": "C149",
   "status": "proved",
   "theorems": [
    "C149_file",
    "C149_incremental"
   ],
   "note": "Composes C57, C88 and C146: the statement mentions only the lines of the file and the texts. The samples as shipped use simulated annealing, for which no optimality is claimed; the theorem holds for the exact local solver."
  },
  {
   "property": "C150",
   "status": "proved",
   "theorems": [
    "C150_exact",
    "C150_energy",
    "C150_metropolis",
    "C150_no_rounding",
    "C150_integers",
    "C150_refuted"
   ],
   "note": "Rounded.v is a second model of the solver in which every operation is followed by a rounding, in the order of the code; C150_no_rounding shows that it is Solver.v when nothing is rounded. C150_refuted shows that the restriction on the sizes is needed. math.exp and the comparison with the random number are the oracle w_boltz, as in Solver.v."
  },
  {
   "property": "C151",
   "status": "proved",
   "theorems": [
    "C151_error",
    "C151_best"
   ],
   "note": "The rounding is any function with relative error at most u (no overflow, no underflow); C150_refuted shows that the error need not be zero. C151_hyps instantiates it with rounding to nearest at u = 2^-53 on the model of C150_refuted."
  },
  {
   "property": "C152",
   "status": "proved",
   "theorems": [
    "C152_answer",
    "C152_caller"
   ],
   "note": "C152_hyps: an arithmetic in which every result is 7 and every sum is empty."
  },
  {
   "property": "C153",
   "status": "proved",
   "theorems": [
    "C153_verdict",
    "C153_left",
    "C153_retry"
   ],
   "note": "For labels used with as many indices as their array has dimensions (fully_indexed): a shorter index selects a sub-array, which the model of from_pyqubo simplifies."
  },
  {
   "property": "C154",
   "status": "proved",
   "theorems": [
    "C154_entries",
    "C154_energy",
    "C154_unsolvable"
   ],
   "note": ""
  },
  {
   "property": "C155",
   "status": "proved",
   "theorems": [
    "C155_coefficients",
    "C155_energy",
    "C155_answer",
    "C155_no_rounding"
   ],
   "note": "The relative error model leaves out underflow and overflow. C155_answer assumes that rounding twice is rounding once, that the offset is a machine number and that every label of the physical model has an index (see C13)."
  },
  {
   "property": "C156",
   "status": "proved",
   "theorems": [
    "C156_physical",
    "C156_answer",
    "C156_indexed"
   ],
   "note": "C156_indexed gives the indices C156_answer (and C155_answer) asks for when every variable in use is declared and not deleted. The model m53 of C155_hyps, with a coefficient of 2^53 + 1, shows that without the bound the claim fails."
  },
  {
   "property": "C157",
   "status": "proved",
   "theorems": [
    "C157_cooling",
    "C157_never_rises",
    "C157_reverse"
   ],
   "note": "The relative error bound excludes underflow, as in C151: a very long run can reach the temperature 0 in practice. C43 has the exact values."
  },
  {
   "property": "C158",
   "status": "proved",
   "theorems": [
    "C158_one_body",
    "C158_two_body",
    "C158_squares",
    "C158_ising",
    "C158_qubo",
    "C158_states"
   ],
   "note": "0.9 is taken as the decimal number. math.exp is assumed not to raise for a positive temperature (boltz_ok), as in C41."
  },
  {
   "property": "C159",
   "status": "proved",
   "theorems": [
    "C159_model",
    "C159_draws",
    "C159_profile"
   ],
   "note": "random.seed only selects the sequence of draws, which is arbitrary."
  },
  {
   "property": "C160",
   "status": "proved",
   "theorems": [
    "C160_lookup",
    "C160_unknown",
    "C160_total"
   ],
   "note": "Shapes are tuples of integers; other arguments are the subject of C80."
  }
 ]
}
