{"id": "C01", "title": "Operator times are strictly totally ordered and the operator container stays sorted and duplicate-free", "statement": "Two operators are ordered by imaginary time and, at equal time, by their small index; this order is irreflexive, transitive and total up to equality, and after any sequence of insertions and erasures the operator container is strictly increasing in that order, contains exactly the operators inserted and not erased since, and an insertion at an occupied time is refused without changing it.", "quantifier": "all pairs/triples of operator times; all sequences of insert/erase calls on the container", "why_tests_cant": "An ordering bug only shows for particular coincidences of time and small index, and a container invariant must hold after every possible call sequence.", "anchors": ["src/operator.hpp:OperatorTimeTemplate", "src/operator.hpp:operator<", "src/operator.hpp:operator_container_t"]}
{"id": "C02", "title": "Recorded insertions/removals are undone exactly by revert_changes", "statement": "After any number of recorded erase and insert steps (including a run that stops midway because an insertion point is occupied), replaying the record backwards gives back exactly the container that existed before, operator by operator including type and flavor.", "quantifier": "all containers, all lists of operators to remove and add, every failure point", "why_tests_cant": "Tests can replay a few records; the claim is about every interleaving and every failing position.", "anchors": ["src/operator.hpp:safe_erase_with_record", "src/operator.hpp:safe_insert_with_record", "src/operator.hpp:revert_changes", "src/moves/moves.ipp:LocalUpdater::update_operators"]}
{"id": "C03", "title": "Difference of old and new operators is exact", "statement": "The lists 'operators to remove' and 'operators to add' that an update derives from its hybridized and worm operators are the multiset differences of the old and new operator lists: an operator that is in both is neither removed nor re-added, the two lists share no operator, and old minus removed plus added is the new list.", "quantifier": "all lists of removed/added hybridized operators and old/new worm operators", "why_tests_cant": "Depends on arbitrary overlaps between the four lists.", "anchors": ["src/moves/moves.ipp:merge_diff_impl", "src/moves/moves.ipp:merge_diff"]}
{"id": "C04", "title": "A local update that is not accepted changes nothing", "statement": "If a local Monte Carlo update returns false (no valid proposal, occupied time, zero trace bound, zero determinant ratio, or Metropolis rejection) the operator container, worm, trace, sign, permutation sign and determinant are the same as before the call.", "quantifier": "all configurations, all proposals, all random numbers, every rejection path", "why_tests_cant": "Rejection paths are chosen by random numbers and rare coincidences; a test covers a few of them.", "anchors": ["src/moves/moves.ipp:LocalUpdater::update", "src/moves/moves.ipp:LocalUpdater::finalize_update", "src/mc_config.hpp:MonteCarloConfiguration"]}
{"id": "C05", "title": "Configuration bookkeeping is consistent after any history of updates", "statement": "Starting from the empty configuration, after any sequence of accepted and rejected local updates the operators in the trace are exactly the creation operators and annihilation operators of the determinant plus the worm operators (no duplicate times), the stored trace is the trace of the stored operators, the stored permutation sign is the one recomputed from scratch, and the stored sign is the sign of permutation sign times determinant times trace.", "quantifier": "all finite histories of update calls with arbitrary proposals and random numbers", "why_tests_cant": "Invariant over unbounded histories; the in-code sanity check is compiled only in debug builds and runs on sampled histories.", "anchors": ["src/moves/moves.ipp:LocalUpdater::update", "src/mc_config.hpp:MonteCarloConfiguration::sanity_check", "src/mc_config.hpp:compute_permutation_sign"]}
{"id": "C06", "title": "Acceptance counters are ordered and reset exactly", "statement": "For each updater, at any time attempted >= valid >= accepted, each call of update raises attempted by exactly one and accepted by one exactly when it returns true, and measuring the acceptance rate reports these numbers and resets them.", "quantifier": "all sequences of update and measurement calls", "why_tests_cant": "Counter drift appears only over particular early-return paths.", "anchors": ["src/moves/moves.ipp:LocalUpdater::finalize_update", "src/moves/moves.hpp:LocalUpdater::measure_acc_rate"]}
{"id": "C07", "title": "comb_sort terminates, sorts and returns the permutation parity", "statement": "For every input range comb_sort terminates, leaves a permutation of the input that is ordered by the comparison, and returns +1/-1 equal to the sign of the permutation it applied; for distinct keys that is the sign of the unique sorting permutation.", "quantifier": "all lists of any length over any strict weak order", "why_tests_cant": "The test compares one random list of 1000 numbers; the gap schedule makes correctness length-dependent.", "anchors": ["include/alps/fastupdate/detail/util.hpp:comb_sort"]}
{"id": "C08", "title": "Permutation sign of a configuration is the fermionic reordering sign and its incremental change formula agrees with recomputation", "statement": "The stored permutation sign equals the parity of the permutation that brings the alternating creation/annihilation list followed by the worm operators into decreasing time order; computing the change caused by removing and adding operators incrementally gives the ratio of the recomputed signs before and after.", "quantifier": "all configurations with distinct operator times, all removals and insertions", "why_tests_cant": "Wrong signs are invisible in a test unless the particular interleaving occurs; the claim is for all interleavings.", "anchors": ["src/mc_config.hpp:compute_permutation_sign", "src/mc_config.hpp:compute_permutation_sign_impl", "src/mc_config.hpp:compute_permutation_sign_change"]}
{"id": "C09", "title": "Counting c-cdagger pairs after a hypothetical insertion equals counting after the insertion", "statement": "The number of creation/annihilation pairs in a window predicted for a configuration with one extra pair of operators equals the number counted on the configuration after that pair is really inserted.", "quantifier": "all operator lists, all windows, all insertion times inside the window and flavors", "why_tests_cant": "Detailed balance of the pair updates relies on this equality for every configuration.", "anchors": ["src/operator_util.cpp:count_num_pairs", "src/operator_util.cpp:count_num_pairs_after_insert"]}
{"id": "C10", "title": "Random selection of operators returns distinct operators with the requested multiplicities", "statement": "Picking k of n indices returns k distinct indices below n for every random stream; picking operators per flavor returns, for each flavor, the requested number of different operators of that flavor, or fails when there are too few.", "quantifier": "all n, k<=n, all random streams, all operator lists", "why_tests_cant": "A repeated pick would need a special random stream.", "anchors": ["src/util.hpp:pickup_a_few_numbers", "src/operator_util.ipp:pick_up_operators"]}
{"id": "C11", "title": "open_random is strictly inside its interval", "statement": "For t1<t2 or t2<t1 and every random number r in [0,1), open_random returns a time strictly between t1 and t2 (in exact arithmetic), so an inserted operator is never on a window edge.", "quantifier": "all real t1<>t2, all r in [0,1), all eps in (0,1)", "why_tests_cant": "Edge values of the random number are practically never generated in tests.", "anchors": ["src/util.hpp:open_random"]}
{"id": "C12", "title": "Insertion and removal of operator pairs are in detailed balance", "statement": "For each rank k and each distribution of the pairs over determinant blocks, the acceptance correction of an insertion equals (probability density of proposing the reverse removal)/(density of proposing the insertion), and it is the reciprocal of the correction of the reverse removal.", "quantifier": "all numbers of blocks, flavors per block, operators in the window, window widths and ranks k", "why_tests_cant": "Detailed balance is a statement about all configurations and probabilities; a run can only show statistical bias.", "anchors": ["src/moves/moves.ipp:InsertionRemovalUpdater::propose_insertion", "src/moves/moves.ipp:InsertionRemovalUpdater::propose_removal"]}
{"id": "C13", "title": "Diagonal insertion/removal is in detailed balance", "statement": "The diagonal insertion/removal update (same flavor for all inserted pairs) has an acceptance correction equal to reverse/forward proposal density for every rank.", "quantifier": "all window occupations, widths and ranks", "why_tests_cant": "Rank>=2 is never instantiated in tests.", "anchors": ["src/moves/moves.ipp:InsertionRemovalDiagonalUpdater::propose"]}
{"id": "C14", "title": "Worm insertion and removal are in detailed balance", "statement": "For every worm type, the acceptance correction of inserting a worm is the reciprocal of that of removing the same worm, includes the config-space weight ratio, and equals reverse/forward proposal density.", "quantifier": "all worm ranks, window sizes, flavors, numbers of operators in the window", "why_tests_cant": "Statistical tests see only an integrated effect.", "anchors": ["src/moves/moves.ipp:WormInsertionRemover", "src/moves/moves.ipp:GWormInsertionRemover", "src/moves/moves.ipp:EqualTimeG1_TwoTimeG2_Connector"]}
{"id": "C15", "title": "Single-operator shift proposals are symmetric", "statement": "The density of proposing the move of an operator from (time t, flavor f) to (t', f') equals the density of proposing the opposite move, so acceptance correction 1 is right.", "quantifier": "all times in the window, all flavors, all step-size settings reachable by optimization", "why_tests_cant": "An asymmetric proposal biases results without any failure.", "anchors": ["src/moves/moves.ipp:SingleOperatorShiftUpdater::propose", "src/moves/moves.ipp:SingleOperatorShiftUpdater::update_parameters", "src/update_histogram.hpp:StepSizeOptimizer"]}
{"id": "C16", "title": "Worm shift proposals are symmetric", "statement": "The density of proposing that the worm moves from times T to T' equals the density of proposing T' to T, for worms with any number of independent times.", "quantifier": "all worm types, all time tuples in the window", "why_tests_cant": "An asymmetric proposal biases results without any failure.", "anchors": ["src/moves/moves.ipp:WormMover::propose", "src/worm.hpp:Worm"]}
{"id": "C17", "title": "Global shift is a bijection of configurations", "statement": "Shifting all operators by dtau modulo beta maps operator times in [0,beta) one-to-one, keeps order up to rotation, and shifting by beta-dtau afterwards is the identity up to the boundary point.", "quantifier": "all dtau in (0,beta), all configurations", "why_tests_cant": "Needs all shifts and configurations, including the wrap-around boundary.", "anchors": ["src/moves/moves.hpp:OperatorShift", "src/moves/moves.ipp:global_update", "src/impurity.ipp:global_updates"]}
{"id": "C18", "title": "Flavor-exchange updates form a set closed under inverse", "statement": "Every accepted user-given exchange vector is a permutation of the flavors, and the list of exchange updates actually used contains the inverse of each of its members and never the identity, so proposals are symmetric.", "quantifier": "all user input vectors", "why_tests_cant": "Over all inputs of any number of flavors.", "anchors": ["src/impurity_init.ipp:resize_vectors", "src/moves/moves.hpp:ExchangeFlavor"]}
{"id": "C19", "title": "Sliding window positions stay legal", "statement": "After any sequence of window moves and size changes the window edges satisfy 0<=right<left<=2n (n>=2: width two), the numbers of cached brakets equal the edge positions plus one, and no braket is popped from an empty stack.", "quantifier": "all n, all sequences of window operations", "why_tests_cant": "Unbounded histories and every window size.", "anchors": ["src/sliding_window/sliding_window.hpp:SlidingWindowManager", "src/sliding_window/sliding_window.ipp:set_window_size", "src/sliding_window/sliding_window.ipp:move_window_to_next_position"]}
{"id": "C20", "title": "A sweep of the sliding window visits every position and returns", "statement": "Starting at one end, 2n-2 forward moves bring the window to the other end, visiting each of the 2n-1 positions exactly once, every imaginary time in [0,beta] is inside some visited window, and two consecutive sweeps restore position and direction.", "quantifier": "all n>=2, all times", "why_tests_cant": "For every window number, not just the ones in test inputs.", "anchors": ["src/sliding_window/sliding_window.ipp:move_window_to_next_position", "src/impurity.ipp:do_one_sweep"]}
{"id": "C21", "title": "Every operator is counted exactly once by the windowed trace", "statement": "The operators right of the window, inside the closed window and left of the window that the trace evaluation applies are a partition of the operators of the configuration in time order.", "quantifier": "all operator sets with times in [0,beta], all window positions, operators exactly on an edge included", "why_tests_cant": "Operators exactly on an edge occur with probability about zero in tests.", "anchors": ["src/sliding_window/sliding_window.ipp:move_forward_right_edge", "src/sliding_window/sliding_window.ipp:move_forward_left_edge", "src/sliding_window/sliding_window.ipp:compute_trace"]}
{"id": "C22", "title": "Windowed trace equals the full trace after any history", "statement": "At any point of any history of window moves and of operator updates confined to the open-closed window, the trace computed from the cached brakets is the trace of the full time-ordered operator product computed from scratch.", "quantifier": "all histories of window moves, size changes and in-window insertions/removals; all operator algebras", "why_tests_cant": "Stale cache entries show only after particular histories.", "anchors": ["src/sliding_window/sliding_window.ipp:compute_trace", "src/sliding_window/sliding_window.ipp:move_forward_left_edge", "src/sliding_window/sliding_window.ipp:restore_state"]}
{"id": "C23", "title": "Saving and restoring the window state is transparent", "statement": "get_state followed by any measurement that moves or resizes the window without changing operators, followed by restore_state, gives a window with the same size and edges, cached brakets equal to those before, and the same future behavior.", "quantifier": "all window states, all intermediate window operations", "why_tests_cant": "Over all states and all intermediate operations.", "anchors": ["src/sliding_window/sliding_window.ipp:restore_state", "src/sliding_window/sliding_window.hpp:get_state"]}
{"id": "C24", "title": "Lazy trace evaluation decides exactly as full evaluation", "statement": "With per-sector bounds that really bound the sector contributions, the early-terminating trace evaluation returns the same accept/reject decision as comparing the full trace with the cutoff, and on acceptance returns the full trace.", "quantifier": "all numbers of sectors, contributions, bounds and cutoffs", "why_tests_cant": "Early termination depends on the ordering and values of bounds.", "anchors": ["src/sliding_window/sliding_window.ipp:lazy_eval_trace", "src/sliding_window/sliding_window.ipp:compute_trace_bound"]}
{"id": "C25", "title": "Hybridization function is an antiperiodic linear interpolation", "statement": "Evaluation of the hybridization function returns the tabulated value at grid points, lies between neighbouring tabulated values elsewhere, is continuous on (0,beta), satisfies F(t-beta)=-F(t), is zero between flavors declared unconnected, and never reads outside the table for time differences in (-beta,beta).", "quantifier": "all tables, grid sizes, flavors and time differences", "why_tests_cant": "Every real time difference; out-of-range reads only at isolated points.", "anchors": ["src/mc_config.hpp:HybridizationFunction"]}
{"id": "C26", "title": "Input hybridization is mapped to the internal one by time reversal and transposition", "statement": "The value read for Delta_ij at grid index k is stored as F_ji at index N-k with opposite sign, each entry exactly once, inconsistent indices are refused, and applying the map twice restores the input.", "quantifier": "all grid sizes, numbers of flavors and input tables", "why_tests_cant": "Off-by-one errors in reversal show only at particular indices.", "anchors": ["src/model/model.ipp:read_hybridization_function"]}
{"id": "C27", "title": "Clustering labels are the connected components", "statement": "After any sequence of connect calls and finalization, two vertices have the same label iff they are joined by a path of connected pairs, labels are 0..k-1 in order of first vertex, and the member lists partition the vertices accordingly.", "quantifier": "all vertex counts, all edge sequences", "why_tests_cant": "The test checks only that connected vertices share a label on one random lattice, not the converse.", "anchors": ["src/model/clustering.cpp:Clustering", "include/alps/fastupdate/detail/clustering.hpp:Clustering"]}
{"id": "C28", "title": "Fermion operator matrices satisfy the canonical anticommutation relations", "statement": "For every number of orbitals the generated matrices satisfy {c_i,c_j}=0, {c_i^+,c_j^+}=0 and {c_i^+,c_j}=delta_ij times identity, with entries 0,+1,-1.", "quantifier": "all numbers of orbitals, all pairs (i,j)", "why_tests_cant": "The debug-only validation handles one orbital number and relies on a max-norm helper that only looks at the last entry.", "anchors": ["src/model/hybfermion.hpp:FermionOperator", "src/util.hpp:maxAbsCoeff"]}
{"id": "C29", "title": "Hilbert space sectors block-diagonalize the Hamiltonian and each creation/annihilation operator maps a sector into one sector", "statement": "The automatically found sectors partition the Fock states, the Hamiltonian has no element between different sectors, and each c or c^+ maps all states of a sector into a single sector, the one recorded as its destination.", "quantifier": "all numbers of flavors, all nonzero patterns of the Hamiltonian", "why_tests_cant": "Depends on the Hamiltonian given by the user; tests use two models.", "anchors": ["src/model/model.ipp:hilbert_space_partioning", "src/model/model.ipp:merge_according_to_c_or_cdag", "src/model/model.ipp:split_op_into_sectors"]}
{"id": "C30", "title": "Energy cutoffs keep exactly the allowed states", "statement": "Removing high-energy states keeps in each sector exactly the eigenstates with energy at most the cutoff, in order, and operators to removed sectors are treated as zero; truncated propagation agrees with the full one on kept states.", "quantifier": "all spectra, cutoffs and sector structures", "why_tests_cant": "All spectra, including sectors that become empty.", "anchors": ["src/model/eigenbasis.ipp:remove_high_energy_states", "src/model/eigenbasis.ipp:build_basis"]}
{"id": "C31", "title": "Fast-update formulas give the exact determinant ratio and inverse", "statement": "For adding, removing and replacing rows and columns, the returned ratio equals det(new)/det(old) and the updated matrix is the exact inverse of the new matrix, whenever the ratio is nonzero.", "quantifier": "all fields, all matrix sizes, all index lists, all entries", "why_tests_cant": "Tests use random matrices of few sizes within a tolerance.", "anchors": ["include/alps/fastupdate/detail/fastupdate_formula.ipp:compute_det_ratio_up", "include/alps/fastupdate/detail/fastupdate_formula.ipp:compute_inverse_matrix_up", "include/alps/fastupdate/detail/fastupdate_formula.ipp:compute_det_ratio_down", "include/alps/fastupdate/detail/fastupdate_formula.ipp:compute_inverse_matrix_down", "include/alps/fastupdate/detail/fastupdate_formula.ipp:ReplaceHelper"]}
{"id": "C32", "title": "DeterminantMatrix returns det(new)/det(old) and keeps its inverse exact over any history", "statement": "After any sequence of try/perform/reject calls the stored matrix is the inverse of the matrix of hybridization values of the current operators, the operator sets are what the performed updates say, and each try returns the ratio of determinants of time-ordered matrices.", "quantifier": "all histories, all operator sets, all hybridization functions", "why_tests_cant": "Unbounded histories and coincidences of removed/added operators.", "anchors": ["include/alps/fastupdate/determinant_matrix.hpp:DeterminantMatrix", "include/alps/fastupdate/detail/determinant_matrix.ipp"]}
{"id": "C33", "title": "Rejecting a determinant update restores the state", "statement": "try_update followed by reject_update leaves operator sets, determinant and sign unchanged, also when the try was impossible (operator to insert present, duplicate removal).", "quantifier": "all states and all update arguments", "why_tests_cant": "Impossible updates are rare coincidences.", "anchors": ["include/alps/fastupdate/detail/determinant_matrix.ipp:reject_update", "include/alps/fastupdate/detail/determinant_matrix_remove.ipp", "include/alps/fastupdate/detail/determinant_matrix_remove_add.ipp"]}
{"id": "C34", "title": "Block-partitioned determinant equals the full determinant", "statement": "Splitting flavors into blocks not connected by the hybridization function, the product of block determinants times the maintained permutation sign equals the determinant of the full time-ordered matrix, and the ratios returned equal ratios of the full determinant.", "quantifier": "all connectivities, all operator sets, all update sequences", "why_tests_cant": "Signs depend on arbitrary interleavings of operators of different blocks.", "anchors": ["include/alps/fastupdate/determinant_matrix_partitioned.hpp:DeterminantMatrixPartitioned", "include/alps/fastupdate/detail/determinant_matrix_partitioned.ipp"]}
{"id": "C35", "title": "Flat-histogram weights are consistent", "statement": "The weight ratio for going from order a to b is the reciprocal of that from b to a within the clipping range, is multiplicative over intermediate orders, is unchanged by rescaling, is zero beyond the maximum order, and weights are frozen once learning is finished.", "quantifier": "all histories of measure/update/rescale calls, all orders", "why_tests_cant": "Over all learning histories.", "anchors": ["src/wang_landau.hpp:FlatHistogramPertOrder::weight_ratio", "src/wang_landau.hpp:FlatHistogramPertOrder::measure", "src/wang_landau.hpp:FlatHistogramPertOrder::rescale_f"]}
{"id": "C36", "title": "Flat-histogram learning factor decreases to its minimum and convergence is reached", "statement": "The modification factor never increases and never goes below its minimum, and after a bounded number of successful flatness checks the learning is reported converged, and stays so.", "quantifier": "all histories of flatness checks", "why_tests_cant": "Termination over unbounded histories.", "anchors": ["src/wang_landau.hpp:FlatHistogramPertOrder::update_lambda", "src/wang_landau.hpp:FlatHistogramPertOrder::converged"]}
{"id": "C37", "title": "Histograms conserve counts and rebinning conserves totals", "statement": "Adding samples to a distance histogram changes exactly the bin of the distance when it is in range, total attempts/accepts equal the number of in-range samples, rebinning preserves the total, and accepted never exceeds attempted in any bin.", "quantifier": "all sample sequences, bin numbers and rebinning sizes", "why_tests_cant": "All sequences and bin counts.", "anchors": ["src/update_histogram.hpp:scalar_histogram", "src/update_histogram.hpp:rebin"]}
{"id": "C38", "title": "Step size stays within its bounds", "statement": "The maximum shift distance chosen by the optimizer stays in its allowed interval and becomes constant after optimization is finished.", "quantifier": "all acceptance histories", "why_tests_cant": "All histories.", "anchors": ["src/update_histogram.hpp:StepSizeOptimizer"]}
{"id": "C39", "title": "Thermalization check is monotone", "statement": "Once thermalization is declared it is never withdrawn, it is declared no later than the maximum number of steps, and the number of actual steps is available exactly from then on.", "quantifier": "all sequences of samples and step numbers", "why_tests_cant": "All sample histories.", "anchors": ["src/update_histogram.hpp:ThermalizationChecker"]}
{"id": "C40", "title": "Configuration-space bookkeeping", "statement": "Every configuration space has exactly one position in the step counters, each Monte Carlo step is counted in exactly one space, counts sum to the number of steps, and reported space volumes are counts divided by weights for any weights.", "quantifier": "all worm-type lists and step histories", "why_tests_cant": "All histories and worm selections.", "anchors": ["src/impurity.hpp:get_config_space_position", "src/impurity.ipp:measure_every_step", "src/impurity.ipp:measure"]}
{"id": "C41", "title": "Worm operators are consistent with the worm's times and flavors", "statement": "For every worm type and rank, the operators a worm contributes have the worm's times and flavors, alternate in type as the correlation function requires, have pairwise different operator times when the independent times differ, and setting times/flavors changes exactly them.", "quantifier": "all ranks, times and flavors", "why_tests_cant": "All ranks (templates) and time coincidences.", "anchors": ["src/worm.hpp:CorrelationWorm", "src/worm.hpp:GWorm", "src/worm.hpp:EqualTimeGWorm"]}
{"id": "C42", "title": "Extended-precision complex arithmetic is field arithmetic", "statement": "Addition, subtraction, multiplication and division of the extended-range complex type satisfy the laws of complex arithmetic, and equality holds exactly when real and imaginary parts agree.", "quantifier": "all operands", "why_tests_cant": "Algebraic identities over all values.", "anchors": ["src/wide_scalar.hpp:wcomplex"]}
{"id": "C43", "title": "TwoSetView iterates the merged sorted union", "statement": "Iterating a view of two disjoint sorted sets with prefix increment yields each element of both sets exactly once in increasing order, and dereferencing never goes past the end.", "quantifier": "all pairs of sets", "why_tests_cant": "The existing unit test is commented out; all interleavings matter.", "anchors": ["src/util.hpp:TwoSetView"]}
{"id": "C44", "title": "Equal-time operators act on bra and ket consistently", "statement": "Applying an equal-time product c^+_{f0} c_{f1} ... to a bra from the right and to a ket from the left give the same matrix element for every number of pairs.", "quantifier": "all ranks, flavors, bras and kets", "why_tests_cant": "All ranks and flavors.", "anchors": ["src/model/model.ipp:apply_op_bra", "src/model/model.ipp:apply_op_ket", "src/operator.hpp:EqualTimeOperator"]}
{"id": "C45", "title": "Different equal-time operators are kept apart", "statement": "In a set of equal-time operators any two operators that differ in some flavor index are different elements.", "quantifier": "all ranks and flavor arrays", "why_tests_cant": "Only operators that agree in the first half of the flavors collide.", "anchors": ["src/operator.hpp:EqualTimeOperator", "src/sliding_window/meas_correlation.ipp"]}
{"id": "C46", "title": "Normalizing brakets keeps their value", "statement": "Normalization changes the stored coefficient and matrix so that their product changes at most by entries below the relative cutoff, and propagation by exp(-tau E) with rescaling equals exact propagation except entries suppressed by more than exp(-60).", "quantifier": "all matrices, coefficients, times and energies", "why_tests_cant": "All magnitudes.", "anchors": ["src/model/model.hpp:Braket", "src/model/model.hpp:compute_exp_vector_safe"]}
{"id": "C47", "title": "Legendre polynomials are computed by a correct recurrence", "statement": "For every x and l the computed values are the Legendre polynomials: P_l(1)=1, P_l(-x)=(-1)^l P_l(x), they satisfy Legendre's differential equation, and vector and scalar versions agree.", "quantifier": "all l and x", "why_tests_cant": "All degrees and arguments.", "anchors": ["src/legendre.cpp:LegendreTransformer::compute_legendre"]}
{"id": "C48", "title": "Tail correction enforces the first moment and changes nothing else", "statement": "After the tail correction the Legendre coefficients satisfy the exact first-moment condition for each flavor pair, coefficients of odd order are unchanged, and repeating the correction changes nothing.", "quantifier": "all numbers of flavors, coefficients and expansion orders >= 1", "why_tests_cant": "All inputs.", "anchors": ["src/postprocess.hpp:correct_G1_tail", "src/postprocess.hpp:tl1"]}
{"id": "C49", "title": "Back-rotation inverts the basis rotation", "statement": "Rotating hybridization into the solver basis and rotating measured one- and two-particle quantities back compose to the identity for every invertible (unitary) rotation, and index-by-index rotation equals the simultaneous four-index rotation.", "quantifier": "all flavor numbers, rotation matrices and tensors", "why_tests_cant": "All matrices.", "anchors": ["src/postprocess.hpp:rotate_back_G2", "src/postprocess.hpp:compute_G1", "src/model/model.ipp:read_rotation"]}
{"id": "C50", "title": "Reported observables are sign-normalized", "statement": "Each reported expectation value is the Monte Carlo average weighted by the sign divided by the average sign.", "quantifier": "all observables and samples", "why_tests_cant": "Visible only in models with a sign problem.", "anchors": ["src/postprocess.hpp:compute_fidelity_susceptibility", "src/postprocess.hpp:load_signed_multi_dimension_data"]}
{"id": "C51", "title": "Measurement starts on all MPI processes together and only after all are thermalized", "statement": "For any number of processes and any thermalization times, no process measures before every process is thermalized, each prepares for measurement exactly once and in the same loop iteration as the others, and every process takes part in the same sequence of collective operations during the run.", "quantifier": "all process numbers, thermalization schedules and stop times", "why_tests_cant": "Depends on schedules across processes.", "anchors": ["src/mc/mympiadapter.hpp:mymcmpiadapter::run"]}
{"id": "C52", "title": "The run ends without a collective mismatch", "statement": "When the run stops, either every process takes part in collecting results or none does.", "quantifier": "all process numbers and schedules", "why_tests_cant": "Needs a stop between the thermalization of different processes.", "anchors": ["src/solver.ipp:MatrixSolver::solve", "src/mc/mympiadapter.hpp:mymcmpiadapter::run"]}
{"id": "C53", "title": "Green's function measurement uses arguments in the right interval with the antiperiodic sign", "statement": "Each pair (c at t1, c^+ at t2) contributes at time difference t1-t2 brought into [0,beta] with sign -1 exactly when beta was added, and the measured coefficients divided by the number of measurements are independent of how measurements are batched.", "quantifier": "all configurations and batch sizes", "why_tests_cant": "All time pairs including equal times.", "anchors": ["src/measurement/measurement.hpp:GreensFunctionLegendreMeasurement::measure", "src/measurement/measurement.ipp:MeasureGHelper"]}
{"id": "C54", "title": "Two-time correlation measurement applies every operator exactly once", "statement": "In the density-density correlation measurement each operator of the configuration acts exactly once in each evaluated product, for every grid of measurement times.", "quantifier": "all operator sets and grids", "why_tests_cant": "Operators exactly on grid points.", "anchors": ["src/sliding_window/meas_correlation.ipp:MeasCorrelation::perform_meas", "src/sliding_window/meas_static_obs.ipp"]}
{"id": "C55", "title": "Global-update determinant ratio is exact", "statement": "The determinant ratio used by global updates equals det(new)/det(old) for every pair of matrices, and is zero when the new matrix is singular.", "quantifier": "all matrices", "why_tests_cant": "Singular matrices are rare.", "anchors": ["src/moves/moves.ipp:compute_det_rat", "src/moves/moves.ipp:global_update"]}
{"id": "C56", "title": "Fidelity-susceptibility estimator counts pairs correctly", "statement": "The estimator equals the number of pairs of operators of which one lies in the half period that begins at the chosen cut and the other one outside of it; it does not change when the two halves are exchanged and is at most n^2/4 for n operators.", "quantifier": "all configurations and cut positions", "why_tests_cant": "All positions.", "anchors": ["src/measurement/measurement.hpp:measure_kLkR"]}
{"id": "C57", "title": "Static observables are evaluated between all operators", "statement": "The static-observable measurement moves both window edges to the middle of the interval; the value it accumulates is the trace with the observable inserted at that time and every operator of the configuration acting exactly once, before or after the observable according to its time.", "quantifier": "all operator sets, window states, observables", "why_tests_cant": "An operator exactly at the measured time has measure zero and is never produced by sampling tests, and each accumulated value is only seen through Monte Carlo averages.", "anchors": ["src/sliding_window/meas_static_obs.ipp:6-39"]}
{"id": "C58", "title": "Local Hamiltonian after the basis rotation", "statement": "The local Hamiltonian assembled from the rotated Coulomb tensor and the rotated hopping matrix is the Hamiltonian that was read in, written in the original operators expressed through the rotated ones.", "quantifier": "for every rotation matrix, every list of Coulomb terms, every list of hopping terms with distinct index pairs, and every algebra of operators, as long as no entry other than zero lies below the cutoff", "why_tests_cant": "A test compares energies for a few matrices, mostly real ones, where a missing complex conjugate or transpose cannot be seen.", "anchors": ["src/model/model.ipp:509-587", "src/model/model.ipp:307-370"]}
{"id": "C59", "title": "Weights of the worm measurement by removal", "statement": "In the G1 and G2 worm spaces the estimator connects the worm to the hybridization function together with auxiliary lines, inverts the extended matrix once, and gives every choice of annihilation and creation operators of the configuration and the worm a weight computed from a small minor of this inverse. That weight is the ratio of the weight (permutation sign times hybridization determinant) of the configuration in which the chosen operators form the worm and all others are hybridized to the weight of the present configuration; it does not depend on the auxiliary lines; the present worm has weight one; the random reduction to max_num_ops operators keeps the worm and changes no weight; and what is added to the data is the sum over all choices of the weight relative to the sum of the moduli times the Legendre functions of the time differences.", "quantifier": "for every history of the determinant matrix, every worm, every auxiliary random numbers, every selection of operators, every number of flavors and blocks", "why_tests_cant": "A wrong sign of a minor or a wrong row of the reduced matrix changes single weights by a sign or mixes operators, visible only as a bias of a stochastic average; the auxiliary lines and the cutoff hide a lost contribution in a few of many thousand samples.", "anchors": ["src/measurement/measurement.ipp:148-310", "src/measurement/measurement.ipp:322-384", "src/measurement/measurement.ipp:386-533"]}
{"id": "C60", "title": "The program keeps its invariants in every run", "statement": "From the constructor on, in every sequence of local updates, window moves, changes of the window size and global updates, with the actual determinant object, sliding window and lazy evaluation of the trace, no step fails; the operators, the determinant, the trace, the permutation sign and the sign kept in the configuration are at all times the ones computed from scratch from the operators hybridized with the bath and the worm; a local or global update is accepted exactly when the random number is below the modulus of the correction factor times the ratio of the full weights (determinant times trace); and the vector of factors read by the global updates represents the present determinant.", "quantifier": "for every run of any length, all proposals inside the window, all random numbers, every number of flavors and blocks, every local model meeting the contract of the bra and ket states", "why_tests_cant": "The parts keep separate copies of the same information (three operator containers, inverse matrices, two stacks of states, cached trace and sign). A mismatch after one particular order of acceptances, rejections and window moves biases all later samples without any visible failure.", "anchors": ["src/impurity.ipp:144-160", "src/impurity.ipp:207-245", "src/impurity.ipp:494-693", "src/moves/moves.ipp:84-213", "src/moves/moves.ipp:793-895", "include/alps/fastupdate/determinant_matrix.hpp:137-157", "include/alps/fastupdate/determinant_matrix_partitioned.hpp:201-215"]}
{"id": "C61", "title": "Sweeps visit all windows", "statement": "At the beginning and end of every sweep the window is at one of the two ends of the imaginary time axis; one sweep makes its updates at all positions of the window, so that every piece of the axis is covered in every sweep; the number of windows is the smallest one with at most one operator pair per flavor and window on average over the last 100 sweeps, between sliding_window.min and sliding_window.max, and it is at least one; inconsistent limits are refused.", "quantifier": "for every run, every number of windows and rank of the insertion updates, every history of expansion orders", "why_tests_cant": "A piece of the axis that is visited less often than the others, or only in every second sweep, gives correct results on average and shows only in autocorrelation times; the limits of the window number are only reached for special parameters.", "anchors": ["src/impurity.ipp:146-152", "src/impurity.ipp:494-547", "src/impurity.ipp:626-722", "src/sliding_window/sliding_window.ipp:38-78"]}
{"id": "C62", "title": "Each call of a local updater satisfies detailed balance", "statement": "In every reachable state of the run, one call of a local updater (random proposal from the operators inside the window, acceptance test with the correction factor and the ratios computed by the determinant object and the lazily evaluated trace) leads from a configuration x to a configuration y with a probability p(x -> y), per unit volume of the inserted times, such that weight(x) p(x -> y) = weight(y) p(y -> x), where the weight is the modulus of the full hybridization determinant times the full trace.", "quantifier": "for the insertion and removal of any number of pairs, pairs of one flavor, the shift of one operator and the change of one flavor; all pairs of reachable configurations with the same window and worm; every number of flavors and blocks and every local model meeting the contract of the bra and ket states", "why_tests_cant": "The proposal, the correction factor, the determinant ratio, the trace ratio and the operator sets are computed in different classes. A factor that is wrong only for some combination of numbers of operators biases the averages by amounts that vanish in the statistical noise of any test run.", "anchors": ["src/moves/moves.ipp:84-213", "src/moves/moves.ipp:266-405", "src/moves/moves.ipp:407-500", "src/moves/moves.ipp:546-689", "include/alps/fastupdate/determinant_matrix_partitioned.hpp:163-182"]}
{"id": "C63", "title": "Each call of a worm updater satisfies detailed balance", "statement": "In every reachable state of the run, one call of a worm updater (random proposal, acceptance test with the correction factor and the ratios computed by the determinant object and the lazily evaluated trace) leads from a configuration x to a configuration y with a probability p(x -> y), per unit volume of the drawn times, such that weight(x) p(x -> y) = weight(y) p(y -> x), where the weight is the modulus of the full hybridization determinant times the full trace with the worm's operators, times the extra weight of the worm space.", "quantifier": "for the insertion and removal of worms of every type (from the trace, on the diagonal, and with operators of the hybridization expansion), the insertion by cutting lines, the move of a worm time, the change of worm flavors and the connection of the one- and two-particle spaces; all pairs of reachable configurations with the same window; every number of flavors and blocks, every list of worm types and extra weights, and every local model meeting the contract of the bra and ket states", "why_tests_cant": "The extra weights are adapted until the spaces are visited equally often, which hides a wrong correction factor; the normalization of the measured correlation functions then is wrong by that factor. The factor depends on the numbers of flavors, worm types, times and operators, so a test at fixed parameters cannot exclude an error.", "anchors": ["src/moves/moves.ipp:84-213", "src/moves/moves.ipp:925-1010", "src/moves/moves.ipp:1013-1298", "src/moves/moves.ipp:1383-1518", "src/impurity.ipp:557-621"]}
{"id": "C64", "title": "The global updates leave the distribution of the configurations invariant", "statement": "One call of the global updates (every flavor exchange once in a random order, then one shift of all operators by a random time, each with its own acceptance test on the ratio of the full determinants and traces) leaves the distribution proportional to the weight, that is the modulus of the full hybridization determinant times the full trace, invariant.", "quantifier": "for every list of swap vectors accepted by the input check, completed by their inverses as in the code, every set of shift times closed under t -> beta - t, all reachable configurations with or without a worm, every number of flavors and blocks, every local model meeting the contract of the bra and ket states", "why_tests_cant": "A violation moves weight between configurations that differ by an exchange of flavors; results of a test stay plausible and are exact in the symmetric phase, where all exchanged configurations have the same weight. The failure needs swap vectors that are not their own inverse and flavors that differ, and then shows only as a small bias.", "anchors": ["src/impurity.ipp:637-691", "src/moves/moves.hpp:22-64", "src/moves/moves.hpp:553-589", "src/impurity_init.ipp:277-345", "src/moves/moves.ipp:794-895"]}
{"id": "C65", "title": "The bounds of the lazily evaluated trace are bounds for the bras and kets of the eigenbasis", "statement": "spectral_norm_diag returns the operator norm of its argument, min_energy the lowest energy of a sector, and creation and annihilation operators restricted to kept eigenstates lengthen no vector; hence every bound made of norms, dimensions and lowest energies is at least the modulus of the contribution it stands for, and the lazy evaluation decides like the full trace.", "quantifier": "for every number of sectors and states, every real or complex matrix, all energies and cutoffs, all operators satisfying the anticommutation relations, all reachable states of the sliding window, and every eigensolver that diagonalizes hermitian matrices by unitary ones", "why_tests_cant": "A norm that is too small rejects moves whose true weight would be accepted; which ones depends on the cancellation between sectors in rare configurations, and the rest of a run is unchanged. The bound is an inequality over all matrices; tests compare single traces.", "anchors": ["src/util.hpp:153-203", "src/model/model.hpp:84-96", "src/model/model.hpp:369-382", "src/model/eigenbasis.ipp:97-114", "src/model/eigenbasis.ipp:199-206", "src/sliding_window/sliding_window.hpp:93-101"]}
{"id": "C66", "title": "The trace of a configuration is the trace of the time-ordered product of operators and propagators", "statement": "The sum over the outer bras and kets of the brackets computed by applying operators and propagating through the sectors is the sum of the diagonal elements, over the outer states, of the time-ordered product of the operator matrices and of the exponentials of the Hamiltonian. When translationally_invariant() returns true it is the full trace over all 2^flavors states, equal (up to the factor for counting energies from the lowest one) to the trace in the basis in which the model was given, and it does not change when all operators are shifted by the same time modulo beta.", "quantifier": "for all configurations, all numbers of flavors, sectors and states, all energies, all unitary eigenvector matrices and operator matrices with matching dimensions, all cutoffs, all beta and all shifts", "why_tests_cant": "Tests compare a few traces of small models. The identity involves every sector, the order of the operators, the choice of the outer states and the transformation to the eigenbasis; a wrong sector in a table or an outer state with the wrong index changes only configurations that pass through it.", "anchors": ["src/model/eigenbasis.ipp:126-281", "src/model/eigenbasis.ipp:299-443", "src/model/model.hpp:84-96", "src/sliding_window/sliding_window.ipp:1-120", "src/moves/moves.hpp:45-61", "src/impurity.ipp:667-690"]}
{"id": "C67", "title": "A shift of all operators changes neither the weight nor, up to the worm, the sign of a configuration", "statement": "When all operators are shifted by the same time modulo beta, the absolute value of the determinant does not change, and the sign of the reordering times the determinant changes by a factor -1 for each operator of the worm that is moved around the end of the interval: an antiperiodic hybridization function and the reordering of the operators compensate each other exactly. Hence, when translationally_invariant() returns true, the global shift is accepted for every random number, the trace and the weight are the same afterwards, and the sign of a configuration without a worm, or with a worm for equal-time or two-point correlation functions, does not change.", "quantifier": "for all configurations with or without worms of any type and rank, all shifts between 0 and beta, all antiperiodic hybridization functions, all numbers of flavors and blocks and all random numbers in [0, 1[", "why_tests_cant": "The code only prints a warning when such a shift is rejected, and a wrong sign is not noticed at all: it needs an odd number of operators moved around the end together with the right parities of the reordering, the determinant and the worm. Tests see a few shifts of a few configurations.", "anchors": ["src/impurity.ipp:667-690", "src/moves/moves.hpp:45-61", "src/moves/moves.hpp:572-586", "src/moves/moves.ipp:691-895", "src/mc_config.hpp:190-219", "src/mc_config.hpp:HybridizationFunction", "src/worm.ipp:3-79"]}
{"id": "C68", "title": "What is read from the input files is what they say", "statement": "The file of the Coulomb tensor, of the hopping matrix, of the single-particle basis, of the hybridization function and of the list of correlation functions is accepted exactly when it lists, in the expected order and with indices in range, the numbers that are then stored; every other file is refused with an error. The local Hamiltonian built from accepted files is 1/2 sum U_abcd c+_a c+_b c_c c_d + sum t_ab c+_a c_b with the numbers of the files, elements given on the command line make the same Hamiltonian as a file, and vectors of the wrong length are refused.", "quantifier": "for all files (any text, any conversion of its pieces to numbers), all numbers of flavors and elements, real and complex solvers", "why_tests_cant": "The tests construct the model from lists in memory or read a few well-formed files. Files that end too early or contain something that is not a number are not tested; the variables that are then used were never set or keep the values of the previous line.", "anchors": ["src/model/model.ipp:101-230", "src/model/model.ipp:234-304", "src/model/model.ipp:326-341", "src/model/model.ipp:513-587", "src/impurity_init.ipp:403-477", "src/util.cpp:5-13"]}
{"id": "C69", "title": "The Green's function at Matsubara frequencies is the Fourier transform of the one in imaginary time", "statement": "The table Tnl times the Legendre coefficients is, at every Matsubara frequency omega_n = (2n+1) pi / beta, the integral over 0 <= tau <= beta of exp(i omega_n tau) G(tau), where G(tau) is the sum over l of sqrt(2l+1)/beta G_l P_l(2 tau/beta - 1); gtau holds the values of the same function G on the mesh. With the corrected coefficients gf is a polynomial in 1/(i omega_n) without constant term whose coefficient of 1/(i omega_n) is exactly 1 on the diagonal and 0 off the diagonal.", "quantifier": "for all beta other than zero, all numbers of frequencies, Legendre coefficients and mesh points, all complex coefficients, all flavors and all frequencies of the mesh", "why_tests_cant": "The tests compare gf with reference results at a few frequencies within the error bars; a wrong sign, phase or index in the table that is small at these frequencies or for these coefficients passes. The identity is for all frequencies and coefficients, and the tail at high frequencies is beyond every finite mesh.", "anchors": ["src/legendre.cpp:3-22", "src/legendre.cpp:39-41", "src/postprocess.hpp:83-110", "src/postprocess.hpp:168-226"]}
{"id": "C70", "title": "Legendre coefficients and G(tau) determine each other, and the tail correction is the smallest possible", "statement": "The integral over 0 <= tau <= beta of the function sqrt(2l+1) P_l(2 tau/beta - 1), with which coefficient l is measured, times the function G(tau) that is put out as gtau is the coefficient G_l, and zero for l beyond the last coefficient; the integral of |G(tau) - G'(tau)|^2 is the sum of |G_l - G'_l|^2 over beta. The coefficients changed by correct_G1_tail give the function that is closest to the measured one, in this distance, among all functions of the same number of coefficients with G(0) + G(beta) = -1 on the diagonal and 0 off it, and they are the only coefficients at this distance.", "quantifier": "for all beta (positive for the comparison of distances), all numbers of coefficients and flavors, all complex coefficients", "why_tests_cant": "A test can check the correction of given coefficients, but not that no other choice is closer, nor the orthogonality of all pairs of basis functions.", "anchors": ["src/postprocess.hpp:83-110", "src/postprocess.hpp:172-198", "src/measurement/measurement.hpp:86-94", "src/legendre.cpp:15-37"]}
{"id": "C71", "title": "Every observable that is filled or read was created, and the results can be read after a run in which everything was measured", "statement": "No name of an accumulator is created twice and nothing is put into a name that was not created, so that neither the constructor nor a run throws; each accumulator gets exactly one sample per measurement of its quantity (Sign per report in Z, the volumes and numbers of steps per report, the expansion histograms per step in Z, the worm observables per step in their space, G1 and G2 per full batch). A run that visited and measured every space that is switched on can be read: every mean that the post-processing asks for exists and has at least one sample.", "quantifier": "for all combinations of switched-on worm spaces, all ranks of insertion moves, all sizes of the batches, all sequences of sweeps, measured steps, reports and calls of prepare_for_measurement", "why_tests_cant": "The names are strings that are put together in several places, and whether a mean exists depends on the order and number of random visits; a test sees one combination of parameters and runs long enough to fill everything.", "anchors": ["src/impurity_init.ipp:3-236", "src/impurity.ipp:262-442", "src/impurity.ipp:473-492", "src/impurity.ipp:798-821", "src/measurement/measurement.ipp:294-323", "src/accumulator.hpp:50-125", "src/moves/moves.hpp:101-118", "src/solver.ipp:49-85", "src/postprocess.hpp:32-43", "src/postprocess.hpp:456-493", "src/impurity_postprocess.ipp:3-46"]}
{"id": "C72", "title": "The two-time measurement averages over times and flavors without a bias and leaves the window as it was", "statement": "TwoTimeG2Measurement::measure removes the worm, draws different times that belong to no operator until there are num_times with the present one, evaluates the trace with the pair at each of them, once with the present flavors and once with flavors drawn anew, and divides by the sum of the moduli of the relative weights. It neither throws nor runs the window past its end, every operator it inserts is erased again, and the sliding window has its former position, size and states afterwards. The data are the stated weighted averages. Their mean over the configurations that differ in the time of the pair and in the flavors, each with the modulus of its weight, and over the draws, equals the mean of the simple measurement that records the sign of the present configuration. The cutoff 1e-30 changes the data by at most 4 * num_times * cutoff * max|Legendre term|.", "quantifier": "for all configurations, numbers of times, sequences of draws, flavors, states of the window reached by any history, ordered fields and complex weights; times on a grid of any size, off the edges of the windows", "why_tests_cant": "The bias of a re-weighted average only shows in a comparison of two means at the level of the statistical error, and a window that is not restored changes later updates far from the measurement.", "anchors": ["src/measurement/measurement.ipp:3-115", "src/measurement/measurement.ipp:118-146", "src/operator.hpp:221-275", "src/sliding_window/sliding_window.ipp:38-78", "src/sliding_window/sliding_window.ipp:448-517"]}
{"id": "C73", "title": "The worm measurement by removal has no bias, also when only a random part of the operators is used", "statement": "For each configuration the program lets every choice of Rank annihilation and Rank creation operators take the part of the worm, weights it with the ratio of the weights times the sign, and divides by the sum of the moduli; with more than max_num_ops operators it keeps the worm and a random part of the others. Take all configurations of the worm space that have the same operators and differ only in which of them form the worm. The mean over these configurations, each with the modulus of its weight, and over the shuffles of what one measurement adds to any entry of G1 or G2, is the mean of the sign times the value of the worm the configuration has. If all operators are kept, all these configurations add the same. For every set of operators there are configurations and random numbers that meet the hypotheses.", "quantifier": "for all sets of annihilation and creation operators at different times, hybridization functions without elements between the blocks, histories of the determinant matrices, random numbers in the auxiliary lines for which the intermediate state has a weight, shuffles, max_num_ops not below Rank, flavors and indices", "why_tests_cant": "The statement is about a weighted mean over all configurations with given operators and over all shuffles. A test run sees a sample of them with a statistical error, and a bias from the random part would be seen only at perturbation orders above max_num_ops.", "anchors": ["src/measurement/measurement.ipp:148-311", "src/measurement/measurement.ipp:313-384", "src/measurement/measurement.ipp:386-533"]}
{"id": "C74", "title": "The debug check of a configuration accepts all that a run reaches, changes nothing but the inverse matrices, and sees all errors", "statement": "In debug builds sanity_check() compares the operators, the determinant, the trace, the permutation sign and the sign of a configuration with recomputed ones. It accepts every state that a run can reach, and the run goes on as without it: operators, worm, determinant, trace, signs, position and size of the window are as before. It accepts a configuration only if its operators are those of the determinant object and of the worm, its trace is the trace of its operators within the tolerance, its permutation sign is that of the present order, and its sign is that of the recomputed weight. It accepts only if the determinant from the maintained inverse matrices agrees with the recomputed one within the tolerance. This last part is false: the loop overwrites the ratio instead of multiplying, so only the last, largest factors are compared. For every factor z between 0 and 1 there is a state with a determinant wrong by z that is accepted with any tolerance. The check also replaces the inverse matrices by new ones, so a debug build goes on with repaired matrices where an optimized build does not.", "quantifier": "for all configurations with any inverse matrices of the right sizes, operators, worms, hybridization functions without elements between the blocks, positions and sizes of the window, orders of the factors by decreasing modulus, tolerances", "why_tests_cant": "The check is itself what the tests rely on to find inconsistent configurations. That it accepts a wrong determinant cannot be seen in a test that trusts it, and the repaired matrices hide the error in debug builds.", "anchors": ["src/mc_config.hpp:117-171", "src/impurity.ipp:855-861", "src/moves/moves.ipp:90", "src/moves/moves.ipp:808", "src/moves/moves.ipp:890"]}
{"id": "C75", "title": "The list of equal-time two-particle functions is read as the file says, and a wrong file is refused", "statement": "read_eq_time_two_particle_greens_meas() accepts a file exactly when it gives the number of elements and for each element its position and four flavors in range; the stored list has these elements in this order and no others. (Two more kinds of files are accepted: the number of elements or the very last flavor is not a number.) A negative number of elements, a wrong position and a flavor out of range end in an exception, the first one only because reserve() throws: the intended exception is made and not thrown. A file that ends too early should be refused as well; this part is false: the program uses a variable that was never set.", "quantifier": "for all contents of the file, numbers of flavors, numbers of elements and positions of the error", "why_tests_cant": "There are infinitely many files, and the value of a variable that was never set depends on the compiler and the stack; a test with a short file may pass by chance.", "anchors": ["src/impurity_init.ipp:354-400", "src/impurity.ipp:160", "src/impurity.hpp:253"]}
