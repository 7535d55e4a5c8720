{
 "claims": [
  {
   "property": "C01",
   "status": "proved",
   "theorems": [
    "C01_operator_order_strict_total",
    "C01_container_refines_map",
    "C01_refused_insert_no_change"
   ],
   "note": "Operator times are a strict total order and the container behaves as a finite map from times to operators under any insert/erase."
  },
  {
   "property": "C02",
   "status": "partial",
   "theorems": [
    "C02_update_operators_undo",
    "C02_update_operators_success",
    "C02_undo_by_time_only_refuted"
   ],
   "note": "Undo restores the container whenever the erased operators are the stored ones; the erase-by-time-only case (caller's operator differs in flavor/type) is refuted for the undo record as written."
  },
  {
   "property": "C03",
   "status": "proved",
   "theorems": [
    "C03_merge_diff_is_multiset_difference"
   ],
   "note": "merge_diff returns the multiset difference in both directions."
  },
  {
   "property": "C04",
   "status": "proved",
   "theorems": [
    "C04_not_accepted_changes_nothing",
    "C04_exception_leaves_configuration",
    "C04_metropolis_rule"
   ],
   "note": "For every proposal, window and random number; the determinant object enters by its contract (see C32-C34)."
  },
  {
   "property": "C05",
   "status": "proved",
   "theorems": [
    "C05_update_keeps_consistent",
    "C05_bookkeeping_consistent",
    "C05_initial_consistent",
    "C05_changes_inside_window"
   ],
   "note": "Invariant over any history of local updates, from the empty configuration."
  },
  {
   "property": "C06",
   "status": "proved",
   "theorems": [
    "C06_update_counts",
    "C06_counters_exact",
    "C06_tally_ordered"
   ],
   "note": "Counters over any history of updates and reports."
  },
  {
   "property": "C07",
   "status": "proved",
   "theorems": [
    "C07_comb_sort_correct",
    "C07_parity_exists"
   ],
   "note": "For every strict weak order and every shrinking gap schedule."
  },
  {
   "property": "C08",
   "status": "partial",
   "theorems": [
    "C08_permutation_sign_is_reordering_sign",
    "C08_sign_independent_of_storage_order",
    "C08_worm_exchange_flips_sign",
    "C08_incremental_sign_change_refuted"
   ],
   "note": "The sign used by the simulation is the reordering sign (proved). The unused incremental function compute_permutation_sign_change does not compute its change (refuted)."
  },
  {
   "property": "C09",
   "status": "proved",
   "theorems": [
    "C09_count_is_number_of_pairs",
    "C09_prediction_is_exact",
    "C09_error_iff_occupied",
    "C09_prediction_with_worm_refuted",
    "C09_pick_up_pair_spec"
   ],
   "note": "count_num_pairs is the number of admissible pairs; the prediction equals the count after the insertion when operators holds exactly the hybridized operators; error flag iff a time is occupied; pick_up_pair draws among exactly those pairs. Finding: with worm operators in the list the prediction over-counts (C09_prediction_with_worm_refuted)."
  },
  {
   "property": "C10",
   "status": "proved",
   "theorems": [
    "C10_index_range",
    "C10_pickup_distinct",
    "C10_shuffle_bijective",
    "C10_pick_up_operators",
    "C10_pick_bijective",
    "C10_count_operators"
   ],
   "note": "Distinctness for every stream, uniformity as a bijection between streams and selections, per-flavor multiplicities, failure iff too few."
  },
  {
   "property": "C11",
   "status": "proved",
   "theorems": [
    "C11_open_random_inside",
    "C11_open_random_margin",
    "C11_binary64_refuted"
   ],
   "note": "Exact arithmetic as stated, with margin eps/2; in binary64 a few-ulp window violates it (C11_binary64_refuted)."
  },
  {
   "property": "C12",
   "status": "proved",
   "theorems": [
    "C12_correction",
    "C12_density_ratio",
    "C12_detailed_balance"
   ],
   "note": "Times drawn from an arbitrary finite uniform grid standing for the window; density = probability / cell volume."
  },
  {
   "property": "C13",
   "status": "partial",
   "theorems": [
    "C13_corrections_reciprocal",
    "C13_correction_is_factorial_times_exact",
    "C13_rank1_partial",
    "C13_rank_above1_wrong",
    "C13_refuted"
   ],
   "note": "Claim fails for rank > 1: the code's correction is k! times the exact one (proved for every rank); exact for rank 1. The class is not instantiated in the code."
  },
  {
   "property": "C14",
   "status": "proved",
   "theorems": [
    "C14_trace",
    "C14_trace_diagonal",
    "C14_diagonal_branch_closed",
    "C14_hyb",
    "C14_gworm",
    "C14_connector"
   ],
   "note": "trace, diagonal, hybridization, G-worm and connector branches; times on an arbitrary uniform grid"
  },
  {
   "property": "C15",
   "status": "partial",
   "theorems": [
    "C15_symmetric",
    "C15_ratio",
    "C15_pair_flavor",
    "C15_refuted"
   ],
   "note": "Exact proposal probability proved; symmetric for equal step sizes of the two flavors (C15_symmetric) and for the pair flavor updater; the full claim is false for reachable unequal step sizes (C15_refuted), and C15_ratio gives the exact asymmetry."
  },
  {
   "property": "C16",
   "status": "partial",
   "theorems": [
    "C16_ratio",
    "C16_single",
    "C16_equal_failure",
    "C16_flavor",
    "C16_refuted"
   ],
   "note": "Symmetric for worms with one independent time and for equal failure probability; the claim for several times is false because failed tries are repeated (C16_refuted), C16_ratio gives the exact asymmetry. The flavor changer is symmetric."
  },
  {
   "property": "C17",
   "status": "proved",
   "theorems": [
    "C17_range",
    "C17_injective",
    "C17_inverse",
    "C17_surjective",
    "C17_rotation",
    "C17_worm_shift",
    "C17_boundary_collision"
   ],
   "note": "OperatorShift/WormShift; one-to-one up to the identification of the two ends 0 and beta (C17_boundary_collision shows that collision)"
  },
  {
   "property": "C18",
   "status": "proved",
   "theorems": [
    "C18_closed_under_inverse",
    "C18_user_updates",
    "C18_worm_exchange"
   ],
   "note": "swap_vectors reading and closure under inverse; worm and operator transformers agree"
  },
  {
   "property": "C19",
   "status": "proved",
   "theorems": [
    "C19_positions_legal",
    "C19_no_failure"
   ],
   "note": "Any history of initialisation, size changes, moves, confined updates, measurements and restores."
  },
  {
   "property": "C20",
   "status": "proved",
   "theorems": [
    "C20_sweep_up",
    "C20_sweep_down",
    "C20_two_sweeps",
    "C20_coverage",
    "C20_last_half_window_waits"
   ],
   "note": "After two sweeps the stored direction at an end can be LEFT or RIGHT; both give the same next move, which is what C20_two_sweeps states. C20_last_half_window_waits records that one sweep of do_one_sweep performs no update in the last half window."
  },
  {
   "property": "C21",
   "status": "partial",
   "theorems": [
    "C21_partition",
    "C21_refuted"
   ],
   "note": "Proved for operator times between (0,0) and (beta,0); refuted for an operator at time beta with a positive second index, which no window contains."
  },
  {
   "property": "C22",
   "status": "partial",
   "theorems": [
    "C22_kept",
    "C22_nothing_lost",
    "C22_no_truncation",
    "C22_history_independent",
    "C22_update_inside",
    "C22_truncation_refuted",
    "C22_edge_refuted"
   ],
   "note": "Exact when no braket is truncated (in particular with the threshold switched off); in general the trace is the sum over the brakets that were not truncated. Refuted in general: for every positive threshold the truncation can lose the whole trace, and range_check admits an operator at the upper edge with positive second index that the caches do not contain."
  },
  {
   "property": "C23",
   "status": "proved",
   "theorems": [
    "C23_restore"
   ],
   "note": "Same stacks, edges and size; identical window for interior positions, identical next move at the ends where the direction is normalised."
  },
  {
   "property": "C24",
   "status": "partial",
   "theorems": [
    "C24_decision",
    "C24_exact",
    "C24_refuted",
    "C24_bound",
    "C24_full_trace",
    "C24_bound_refuted"
   ],
   "note": "Exact when no positive bound lies below 1e-15 times the sum of bounds; in general the early exit is right and the error is at most (number of sectors)*1e-15 relative. Without that the claim fails (C24_refuted). compute_trace_bound is proved to bound every contribution given submultiplicative norms (C65 provides them for the eigenbasis); the underflow branch of compute_exp breaks this (C24_bound_refuted)."
  },
  {
   "property": "C25",
   "status": "partial",
   "theorems": [
    "C25_in_range",
    "C25_grid",
    "C25_between",
    "C25_antiperiodic",
    "C25_continuous",
    "C25_limit",
    "C25_unconnected_small",
    "C25_unconnected_refuted",
    "C25_edge_refuted"
   ],
   "note": "All parts hold for time differences in (-beta,beta) except that flavors declared unconnected give values up to eps instead of zero (C25_unconnected_refuted); at exactly beta the code reads past the row (C25_edge_refuted)."
  },
  {
   "property": "C26",
   "status": "proved",
   "theorems": [
    "C26_file",
    "C26_refused",
    "C26_involution",
    "C26_command_line",
    "C26_command_line_size"
   ],
   "note": ""
  },
  {
   "property": "C27",
   "status": "proved",
   "theorems": [
    "C27_components"
   ],
   "note": "Vertices outside 0..N-1 are undefined behaviour in the code and excluded."
  },
  {
   "property": "C28",
   "status": "proved",
   "theorems": [
    "C28_anticommutation",
    "C28_entries",
    "C28_number_operator",
    "C28_validation_refuted",
    "C28_validation_last"
   ],
   "note": "The debug validation itself is shown not to see a wrong relation (maxAbsCoeff returns the last entry)."
  },
  {
   "property": "C29",
   "status": "partial",
   "theorems": [
    "C29_partition",
    "C29_block_diagonal",
    "C29_same_sector",
    "C29_block_destination",
    "C29_recorded",
    "C29_destination_partial",
    "C29_destination_refuted"
   ],
   "note": "Partition, block-diagonality and the recorded destination of single blocks are proved; that every state of a sector goes to the recorded destination is proved for sectors labelled by conserved charges and refuted in general (only one merging pass)."
  },
  {
   "property": "C30",
   "status": "proved",
   "theorems": [
    "C30_kept",
    "C30_kept_all",
    "C30_connection",
    "C30_energies",
    "C30_operator",
    "C30_removed_zero",
    "C30_removed_zero_bra",
    "C30_propagation",
    "C30_translationally_invariant"
   ],
   "note": "Order of kept states, restricted tables, operator matrices and propagation factors; the translational-invariance flag. Rounding of eigenvalues is not modelled."
  },
  {
   "property": "C31",
   "status": "partial",
   "theorems": [
    "C31_up",
    "C31_down_last",
    "C31_replace",
    "C31_replace_singular",
    "C31_last_row",
    "C31_last_col",
    "C31_down_ratio",
    "C31_down",
    "C31_replace_refuted"
   ],
   "note": "Exact for adding, removing (listed and last rows/columns) and replacing the last row/column. ReplaceHelper is exact whenever the rows and columns that stay form a regular matrix (C31_replace); otherwise it returns 0 although the true ratio may be nonzero (C31_replace_singular, C31_replace_refuted; the code carries a FIX ME there). Rounding not modelled."
  },
  {
   "property": "C32",
   "status": "partial",
   "theorems": [
    "C32_step",
    "C32_history",
    "C32_progress",
    "C32_refuted_uneven"
   ],
   "note": "Proved for every history of valid calls (removed operators exist, no operator listed twice, times distinct afterwards) in which creation and annihilation operators come in equal numbers, one operator is replaced, or the matrix would not be square; exact arithmetic. Two parts of the claim fail and are refuted: if operators are both removed and added and the remaining part is singular the ratio returned is 0 (C31_replace_refuted), and unequal numbers with equal differences read past the end (C32_refuted_uneven)."
  },
  {
   "property": "C33",
   "status": "partial",
   "theorems": [
    "C33_reject",
    "C33_impossible_insertion",
    "C33_unbalanced",
    "C33_refuted_removal",
    "C33_refuted_remove_add"
   ],
   "note": "Proved for every valid call, for every insertion (also an impossible one) and for unequal numbers. 'Also when the try was impossible' is refuted for removals listing an operator twice and for impossible remove-and-add calls; the application never makes such calls."
  },
  {
   "property": "C34",
   "status": "partial",
   "theorems": [
    "C34_history",
    "C34_ratio",
    "C34_build",
    "C34_inverse",
    "C34_sectors",
    "C34_whole_matrix",
    "C34_refuted_duplicate",
    "C34_step",
    "C34_rebuild",
    "C34_empty"
   ],
   "note": "Over every history of valid, known-flavor, block-wise balanced calls (accepted, rejected, rebuilt) the product of block determinants times the stored sign is the determinant of the whole time-ordered matrix (entries between unconnected flavors counted as 0, as the code does), and the returned value is the exact ratio unless some block is replaced through a singular remaining part, where the code returns 0 (inherited from C31, C32). Refuted detail: after a try with a duplicate time the rejection erases the existing operator (callers check duplicates first). compute_determinant_as_product and sanity_check are not modelled."
  },
  {
   "property": "C35",
   "status": "proved",
   "theorems": [
    "C35_history",
    "C35_reciprocal",
    "C35_multiplicative",
    "C35_beyond",
    "C35_rescale",
    "C35_frozen",
    "C35_synchronized",
    "C35_histogram"
   ],
   "note": "Reals model, no rounding. Weights after any learning history are the (clipped) exponential of the difference of what the values have earned; exact reciprocity even when clipped. The histogram reported after learning is normalised and inversely proportional to the weights."
  },
  {
   "property": "C36",
   "status": "proved",
   "theorems": [
    "C36_factor",
    "C36_flat",
    "C36_reached"
   ],
   "note": "Factor depends only on the number of reductions, converged exactly from the 14th on; also the exact meaning of the flatness test, and that visiting all values in turn converges."
  },
  {
   "property": "C37",
   "status": "proved",
   "theorems": [
    "C37_add_sample",
    "C37_totals",
    "C37_accepted_le_attempted",
    "C37_rebin_blocks",
    "C37_rebin",
    "C37_rebin_total"
   ],
   "note": "Bin updates, totals, accepted <= attempted and rebinning of the histogram; rebinning keeps the total of every bin whose centre lies in the new range."
  },
  {
   "property": "C38",
   "status": "proved",
   "theorems": [
    "C38_bounds",
    "C38_mover",
    "C38_constant"
   ],
   "note": "Step sizes stay in [max/nbins, 1.4 max] and are constant after thermalization."
  },
  {
   "property": "C39",
   "status": "proved",
   "theorems": [
    "C39_monotone",
    "C39_by_max",
    "C39_available",
    "C39_value",
    "C39_needs_samples",
    "C39_recorder"
   ],
   "note": "Monotone status, forced by the maximum time, value of the recorded means."
  },
  {
   "property": "C40",
   "status": "proved",
   "theorems": [
    "C40_position",
    "C40_bookkeeping",
    "C40_weights",
    "C40_visited",
    "C40_flat"
   ],
   "note": "Acceptance of each updater is an input; moves, counters, weights, reports and the final visit check are modelled; every index and map access is shown in range for every event sequence."
  },
  {
   "property": "C41",
   "status": "proved",
   "theorems": [
    "C41_operators",
    "C41_distinct_times",
    "C41_order",
    "C41_set_time",
    "C41_set_flavor",
    "C41_worm_eq",
    "C41_in_range"
   ],
   "note": ""
  },
  {
   "property": "C42",
   "status": "partial",
   "theorems": [
    "C42_field",
    "C42_complex",
    "C42_mixed",
    "C42_abs",
    "C42_equality_partial",
    "C42_equality_refuted"
   ],
   "note": "The field laws, the agreement of all mixed-type operators and the absolute value are proved; equality is refuted: == compares the imaginary part of the left operand with itself (wide_scalar.hpp:245), so it holds exactly when the real parts agree. Components are exact reals: rounding and overflow are not modelled."
  },
  {
   "property": "C43",
   "status": "partial",
   "theorems": [
    "C43_iterate_partial",
    "C43_deref",
    "C43_empty_first_refuted",
    "C43_postfix_refuted",
    "C43_rejected"
   ],
   "note": "Proved for every pair of disjoint sets whose first set is not empty; refuted for an empty first set: set2_ is a copy (util.hpp:375 declares only set1_ a reference), so begin() is not recognised and the first element appears twice, the last never. Dereferencing is proved never to go past the end. Postfix increment does not advance the iterator."
  },
  {
   "property": "C44",
   "status": "proved",
   "theorems": [
    "C44_bra_ket"
   ],
   "note": "With the cutoff eps = 0 (no small component dropped), for every basis built by build_basis from mutually inverse tables."
  },
  {
   "property": "C45",
   "status": "partial",
   "theorems": [
    "C45_order",
    "C45_first_half_partial",
    "C45_density",
    "C45_refuted",
    "C45_collect",
    "C45_collect_density"
   ],
   "note": "Refuted: operator< compares only the first N of the 2N flavors (operator.hpp:350), so for every N > 0 operators differing only in the second half are one element. Proved: it is a strict weak order, operators differing in the first N flavors and the density operators actually used are kept apart, and the positions recorded by MeasCorrelation are right for them."
  },
  {
   "property": "C46",
   "status": "proved",
   "theorems": [
    "C46_normalize",
    "C46_product_error",
    "C46_exp_vector",
    "C46_contract"
   ],
   "note": "Exact numbers; underflow and rounding not modelled. C46_contract: with zero cutoffs the eigenbasis meets the contract used for the sliding window (C22)."
  },
  {
   "property": "C47",
   "status": "proved",
   "theorems": [
    "C47_legendre",
    "C47_vector",
    "C47_properties",
    "C47_tables",
    "C47_zero_refuted"
   ],
   "note": "Against Rodrigues' formula over any numFieldType (exact arithmetic; the table Tnl of spherical Bessel values is not modelled). Constructing a transformer for zero coefficients is undefined (C47_zero_refuted)."
  },
  {
   "property": "C48",
   "status": "proved",
   "theorems": [
    "C48_moment",
    "C48_odd",
    "C48_idempotent",
    "C48_fixed",
    "C48_jump"
   ],
   "note": "for every number of flavors and Legendre coefficients; beyond the statement, the moment condition is tied to the jump of the reconstructed G(tau) (C48_jump)"
  },
  {
   "property": "C49",
   "status": "proved",
   "theorems": [
    "C49_reading",
    "C49_accepted",
    "C49_operators_G1",
    "C49_operators_G2",
    "C49_hybridization",
    "C49_roundtrip_G1",
    "C49_simultaneous",
    "C49_roundtrip_G2"
   ],
   "note": "G1 for every invertible rotation, G2 and the equal-time functions for every unitary one; the rotation read from file is unitary up to the tolerance 1e-8 of the check (C49_reading). A zero column, which becomes NaN and passes every comparison, is excluded"
  },
  {
   "property": "C50",
   "status": "partial",
   "theorems": [
    "C50_worm",
    "C50_corr",
    "C50_fidelity_partial",
    "C50_fidelity_refuted"
   ],
   "note": "holds for the functions measured in worm spaces and for the correlation functions; fails for the fidelity susceptibility, whose two averages are never divided by the average sign (C50_fidelity_refuted), and which is right when all signs are 1. The occupations n are stored as sign-weighted averages without division; dividing is left to the user"
  },
  {
   "property": "C51",
   "status": "partial",
   "theorems": [
    "C51_collectives",
    "C51_measure",
    "C51_prepare",
    "C51_together",
    "C51_progress",
    "C51_every_step_refuted"
   ],
   "note": "all parts hold for measure(), prepare_for_measurement and the collective operations, for any number of processes and any schedule, also without deadlock (C51_progress); 'no process measures before every process is thermalized' fails for measure_every_step, which a process calls as soon as it is thermalized itself, before prepare_for_measurement replaces the weights (C51_every_step_refuted)"
  },
  {
   "property": "C52",
   "status": "partial",
   "theorems": [
    "C52_partial",
    "C52_thermalization_refuted",
    "C52_visited_refuted"
   ],
   "note": "holds when all processes had agreed on being thermalized and each visited all its configuration spaces; fails when the run is stopped between the thermalization of different processes, or when one process misses a configuration space: the others wait for ever in collect_results"
  },
  {
   "property": "C53",
   "status": "partial",
   "theorems": [
    "C53_green",
    "C53_batches_partial",
    "C53_batches_refuted",
    "C53_worm_batches",
    "C53_g1_partial",
    "C53_g1_equal_time_refuted",
    "C53_g1_skipped_refuted",
    "C53_g2_table",
    "C53_two_time"
   ],
   "note": "Z-space measurement: exact for all configurations, including equal times; G2 tables and two-time measurement likewise. Partial: the average over batches depends on the batches when their sizes differ (C53_batches_refuted; equal sizes: C53_batches_partial; worm-space batches have a fixed size: C53_worm_batches); the G1 worm measurement uses argument 0 with sign -1 at equal times (C53_g1_equal_time_refuted) and leaves out pairs whose matrix entry vanishes although their weight does not (C53_g1_skipped_refuted)."
  },
  {
   "property": "C54",
   "status": "partial",
   "theorems": [
    "C54_value",
    "C54_interior_refuted",
    "C54_last_refuted"
   ],
   "note": "Proved when no operator lies exactly on a tau point that the closed segments count twice or the last one misses; refuted otherwise (interior tau point: applied twice; last tau point: missed)."
  },
  {
   "property": "C55",
   "status": "partial",
   "theorems": [
    "C55_ratio_exact",
    "C55_never_zero",
    "C55_refuted",
    "C55_global_update_metropolis"
   ],
   "note": "Exact whenever no factor of the new determinant is discarded (C55_ratio_exact), and then the whole update is a Metropolis step keeping the bookkeeping consistent. The 'zero when singular' half of the claim is false in the code: factors below the relative threshold are skipped, so the ratio is never zero (C55_never_zero, C55_refuted)"
  },
  {
   "property": "C56",
   "status": "proved",
   "theorems": [
    "C56_pairs",
    "C56_exchange"
   ],
   "note": "measure_kLkR counts all operators (creation and annihilation). Proved for fewer than 2^17 operators (the result is a 32-bit unsigned) and every cut; exchange of the halves for cuts in [0,beta/2), the range used by the caller."
  },
  {
   "property": "C57",
   "status": "partial",
   "theorems": [
    "C57_static",
    "C57_refuted"
   ],
   "note": "Proved when no operator lies exactly at the measured time; refuted otherwise."
  },
  {
   "property": "C58",
   "status": "proved",
   "theorems": [
    "C58_hamiltonian"
   ],
   "note": "the hopping list must not repeat an index pair: hopping entries overwrite each other while Coulomb entries add up"
  },
  {
   "property": "C59",
   "status": "partial",
   "theorems": [
    "C59_weight",
    "C59_kept",
    "C59_own",
    "C59_defined",
    "C59_cutoff",
    "C59_green_partial",
    "C59_two_particle",
    "C59_norm",
    "C59_small_maximum_refuted",
    "C59_skipped_refuted",
    "C59_cutoff_refuted"
   ],
   "note": "Weights, kept operators, own weight 1, cutoff, G2 data: proved for every history. Partial because the claim fails in three cases, each with a theorem: rank 1 leaves out pairs whose entry of the inverse matrix vanishes although the weight does not (C59_skipped_refuted), the cutoff 1e-10 drops weights (C59_cutoff_refuted, reachable with the default eps 1e-5), max_num_ops < Rank writes outside of the reduced matrix (C59_small_maximum_refuted). C59_green_partial has these and equal times excluded by hypotheses."
  },
  {
   "property": "C60",
   "status": "partial",
   "theorems": [
    "C60_det_contract",
    "C60_det_vec",
    "C60_update",
    "C60_global",
    "C60_step",
    "C60_run",
    "C60_start",
    "C60_program",
    "C60_invariant",
    "C60_sweep_ordered",
    "C60_global_ordered",
    "C60_legal_exact"
   ],
   "note": "For every run, with the objects of C22, C24 and C34 in place of the contracts of C04 and C05. Partial: nothing may be truncated (cut = 0, C22) and the bounds of the trace may not differ by more than the factor eps (C24; no condition when eps = 0, C60_legal_exact); an update that replaces operators around a singular matrix is rejected whatever its ratio (C34); a global update may not discard a factor of the determinant (C55); proposals are inside the window and paired in every block; exact scalars."
  },
  {
   "property": "C61",
   "status": "partial",
   "theorems": [
    "C61_sweep_positions",
    "C61_global_end",
    "C61_step",
    "C61_steps",
    "C61_last_piece_refuted",
    "C61_two_sweeps",
    "C61_min_window_refuted",
    "C61_window_size",
    "C61_history",
    "C61_window_limits_refuted"
   ],
   "note": "Positions, ends and window sizes are proved. Three parts of the claim fail and are refuted: one sweep leaves out the last position it would reach, so it never covers the piece beyond the grid point 2n-1 (or before 1); only two sweeps in a row of one size cover everything (C61_last_piece_refuted, C61_two_sweeps), and a change of size or the global updates restart at time 0 (C61_global_end). The test of the limits compares sliding_window.max with itself (C61_window_limits_refuted); sliding_window.min = 0 passes and the constructor then fails (C61_min_window_refuted)."
  },
  {
   "property": "C62",
   "status": "partial",
   "theorems": [
    "C62_insertion_removal",
    "C62_diagonal",
    "C62_diagonal_one",
    "C62_diagonal_unbalanced",
    "C62_shift_partial",
    "C62_shift_ratio",
    "C62_shift_unbalanced",
    "C62_pair_flavor"
   ],
   "note": "Insertion/removal of any rank and the flavor change: exact balance for every pair of reachable configurations. Partial because the claim fails in two cases, each with a theorem: pairs of one flavor with rank k > 1 are unbalanced by the factor k! (C62_diagonal, C62_diagonal_unbalanced; the class is not instantiated in the code; rank 1 is exact), and shifts between flavors with different step sizes are unbalanced by the ratio of the step sizes (C62_shift_ratio, C62_shift_unbalanced; such step sizes are reachable, C15_refuted; exact for equal step sizes, C62_shift_partial). Times are drawn from a finite grid; nothing truncated (cut = 0) and no gap in the bounds of the trace as in C60. Worm updates: C63."
  },
  {
   "property": "C63",
   "status": "partial",
   "theorems": [
    "C63_insertion_removal",
    "C63_gworm",
    "C63_flavor_changer",
    "C63_mover_ratio",
    "C63_mover_partial",
    "C63_mover_unbalanced",
    "C63_connector",
    "C63_mover_refuted"
   ],
   "note": "Proved for insertion and removal, line cutting, flavor change and connection: the probabilities of a call and of its reverse exist, are positive when the proposal is possible, and are balanced. The mover is balanced for worms with one time and whenever the chances of a failed try agree; C63_mover_ratio gives the exact ratio, and C63_mover_refuted is a run of the model in which a worm with two times is not balanced, so the claim is false as stated. Assumed: no trace cutoff, extra weights fixed during the call, the drawn times lie strictly inside the window and no worm time lies on its edge."
  },
  {
   "property": "C64",
   "status": "partial",
   "theorems": [
    "C64_random_order",
    "C64_stationary",
    "C64_stationary_mul",
    "C64_exchange",
    "C64_shift",
    "C64_involution",
    "C64_exchanges",
    "C64_cycle",
    "C64_spin_flip",
    "C64_cycle_refuted"
   ],
   "note": "Every flavor exchange is balanced against the exchange with the inverse vector, and the shift with itself, for all reachable pairs of configurations (C64_exchange, C64_shift). When every swap vector is its own inverse - always so without user vectors (C64_spin_flip) - all exchanges in random order are reversible and the weights are stationary (C64_involution, C64_exchanges, C64_stationary, C64_stationary_mul). False in general: with the vector (1,2,0) and its inverse, which the code accepts, the weights of three configurations are not stationary (C64_cycle, C64_cycle_refuted). Assumed: nothing truncated and no factor of the determinant discarded (C55), no operator at time 0, operators at equal times not shifted past beta (not_after)."
  },
  {
   "property": "C65",
   "status": "partial",
   "theorems": [
    "C65_spectral_norm",
    "C65_bounds",
    "C65_anticommuting",
    "C65_min_energy",
    "C65_contract",
    "C65_lazy_trace",
    "C65_cutoff_refuted"
   ],
   "note": "Proved for the cutoff 0 in place of 1E-15 in spectral_norm_diag and in normalize, without the limit of compute_exp and without rounding. With any positive cutoff the computed norm can be too small (C65_cutoff_refuted); the limit of compute_exp breaks the bounds as well (C24_bound_refuted). The eigensolver is an oracle; SpecThm.v shows that one exists."
  },
  {
   "property": "C66",
   "status": "proved",
   "theorems": [
    "C66_trace",
    "C66_uncut",
    "C66_shift",
    "C66_fock",
    "C66_states",
    "C66_hamiltonian",
    "C66_exponential",
    "C66_cyclic"
   ],
   "note": "Exact scalars; the cutoffs for small elements of the brackets are 0 and the test against exp(-60) is off (with them the trace is an approximation: C46). The outer states may be cut in C66_trace; the others need the flag translationally_invariant. C66_fock: the exponential of the Hamiltonian is specified by its action on every eigenvector, existence in C66_exponential. The basis is the one built by the code (C30) from the output of the eigensolver. That the given operators are fermion operators (C28, C29) is not needed."
  },
  {
   "property": "C67",
   "status": "proved",
   "theorems": [
    "C67_any_order",
    "C67_sign_det",
    "C67_no_worm",
    "C67_abs_det",
    "C67_accepted",
    "C67_run",
    "C67_even",
    "C67_pairs",
    "C67_green",
    "C67_model"
   ],
   "note": "The hybridization function is any function of the two flavors and the difference of times that is antiperiodic (C25); one end of the interval [0, beta] is not used by operators (C17); no factor of the new determinant is discarded by the cutoff of lu_product (C55). C67_model: with the trace of the eigenbasis (C66) for configurations with all worms of the code; C67_run: for the assembled program; C67_pairs and C67_green: which worms can change the sign."
  },
  {
   "property": "C68",
   "status": "partial",
   "theorems": [
    "C68_U_file",
    "C68_U_truncated_refuted",
    "C68_hopping_file",
    "C68_hopping_matrix",
    "C68_basis_file",
    "C68_command_line_size",
    "C68_command_line_U",
    "C68_command_line_t",
    "C68_corr_file",
    "C68_delta_file",
    "C68_delta_only",
    "C68_delta_truncated_refuted",
    "C68_hamiltonian",
    "C68_onsite_half"
   ],
   "note": "The full claim fails: a file of the Coulomb tensor that ends early uses numbers that were never read (C68_U_truncated_refuted), and a file of the hybridization function that ends after the indices of its last line is accepted with the value of the line before (C68_delta_truncated_refuted). What holds: complete files are accepted and stored as they are; accepted files are complete up to a last number (Coulomb tensor, hopping, basis, correlation functions) or last line (hybridization function) that could not be read, or a number of elements that could not be read. model.onsite_U enters with half its value (C68_onsite_half). Opening of files and ALPSCore's parameter objects are not modelled."
  },
  {
   "property": "C69",
   "status": "proved",
   "theorems": [
    "C69_fourier_unique",
    "C69_gf",
    "C69_gtau",
    "C69_tail",
    "C69_real_integral",
    "C69_real"
   ],
   "note": "Exact numbers; boost::math::sph_bessel stands for the spherical Bessel functions given by their first two members and the recursion, which C69_real defines from the standard library's sine and cosine."
  },
  {
   "property": "C70",
   "status": "proved",
   "theorems": [
    "C70_coefficients",
    "C70_norm",
    "C70_pythagoras",
    "C70_least",
    "C70_real_coefficients",
    "C70_real_norm",
    "C70_real_least"
   ],
   "note": "Exact numbers. The general theorems hold for every linear functional with I(p') = p(beta) - p(0); C70_real_* are for the Riemann integral over the real numbers of the standard library."
  },
  {
   "property": "C71",
   "status": "partial",
   "theorems": [
    "C71_names",
    "C71_run",
    "C71_samples",
    "C71_finish",
    "C71_solve",
    "C71_pending_refuted",
    "C71_batch_one",
    "C71_file_refuted",
    "C71_size_refuted",
    "C71_sign_refuted"
   ],
   "note": "Creation, filling and the exact numbers of samples are proved, and C71_solve says exactly which runs can be read. The last part of the claim fails: what is pending in a batch of G1 or G2 is dropped, so that a run with fewer regular measurements than max_num_data_accumulated throws in the post-processing (C71_pending_refuted), as does a run without a report in Z, an n_def without a file, and a size of the batches that is not positive."
  },
  {
   "property": "C72",
   "status": "proved",
   "theorems": [
    "C72_data",
    "C72_cutoff",
    "C72_unbiased",
    "C72_window",
    "C72_mean"
   ],
   "note": "C72_data: the run of measure for every configuration whose times are off the window edges, in terms of what the window provides; C72_window: the window of Window.v provides it (no truncation, whole sums instead of lazy_eval_trace, see C24/C25); C72_unbiased and C72_mean: equality of the two means over configurations, draws and flavors, with the cutoff 0; C72_cutoff: the effect of the cutoff. Times exactly on an edge of a window are excluded: there the pair is split, as shown by C21_refuted and C22_edge_refuted."
  },
  {
   "property": "C73",
   "status": "partial",
   "theorems": [
    "C73_two_particle_partial",
    "C73_same_partial",
    "C73_green_partial",
    "C73_possible"
   ],
   "note": "Proved for G2 with nothing dropped by the cutoff of small entries and for draws of the auxiliary lines with a nonzero determinant (otherwise nothing is measured); for G1 also with no zero entry of the inverse where the weight is not zero, and no two operators at equal times (C59_skipped_refuted and C59_cutoff_refuted show that the code is wrong without these). C73_possible shows that the hypotheses of the G2 theorems can be met for every set of operators. std::random_shuffle is taken to be uniform."
  },
  {
   "property": "C74",
   "status": "partial",
   "theorems": [
    "C74_accepts",
    "C74_repairs",
    "C74_consistent",
    "C74_det_refuted"
   ],
   "note": "Proved: which configurations are accepted, that an accepting check repairs the inverse matrices and changes nothing else, that states of a run are accepted. The claim about the determinant is false for the code (det_rat is overwritten in the loop): C74_det_refuted."
  },
  {
   "property": "C75",
   "status": "partial",
   "theorems": [
    "C75_list",
    "C75_faithful",
    "C75_refused",
    "C75_line_refused",
    "C75_flavor_refused",
    "C75_truncated_refuted"
   ],
   "note": "Proved: which files are accepted and what is stored, and that the three kinds of wrong entries are refused. The part about files that end too early is false for the code: C75_truncated_refuted."
  }
 ]
}
