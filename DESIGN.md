# Formal model of ALPSCore/CT-HYB

The C++ source in /repo is read as text. Nothing of it is compiled or run.
This directory contains a model of that source written in Rocq (Coq 8.16.1) and theorems about the model.

* `rocq/theories/X.v`: definitions, each citing the lines it was taken from.
* `rocq/theories/T_X.v`: theorems about `X.v`, each property theorem followed by `Print Assumptions`, and `..._instance`
  examples that meet the hypotheses.
* `properties.jsonl`, `MANIFEST.json`: the properties and the theorems that stand for them.
* `seeded/LOG.jsonl`: wrong programs tried against the theorems.

## 1. What is trusted

* The Coq 8.16.1 kernel, with its `vm_compute` conversion.
* The definitions below `rocq/theories` as a reading of the C++ code. There is no mechanical link from the C++ text to
  the model; every definition cites file and lines, and the header of every file says where it is simpler than the code.
* The statements of the theorems as a reading of the properties.
* Axioms: none of our own. Axioms of Coq's standard library are used by the theorems listed in section 5. No axioms of other
  libraries are used. Libraries used: the standard library, mathcomp and mathcomp.zify.

## 2. General modelling decisions

* `double` is an exact type: `Z`, `Q`, `R` or an arbitrary (ordered, closed) field, according to the part. Rounding, overflow, NaN and
  infinities are not modelled. Where a claim depends on a floating-point coincidence (two equal times, a time exactly on an
  edge), the model has that coincidence. In particular the rounding of the window edges BETA*pos/(2n) is not modelled; the edges
  are any increasing sequence from 0 to BETA.
* Imaginary times are integers (ticks) wherever only their order and differences matter.
* Random numbers are inputs (a list of numbers in [0,1)), or a proposal is a finite probability distribution over a uniform
  time grid of arbitrary fineness (`Dist.v`).
* Parts outside a file are parameters with stated contracts; the contracts are proved in another file where that part is modelled
  (for example: `Updater.v` assumes a determinant object, `DetPartitioned.v` is one).
* `std::set`, `std::map`, `boost::multi_index` ordered containers are sorted lists; `multi_array` is a function of indices.
* Exceptions, undefined behaviour and failed assertions are separate outcomes (`None`, `Throw`, `UB`), not default values. Assertions
  are not relied on as checks, because release builds remove them.
* MPI: asynchronous processes that meet in collective operations, under every schedule (`MpiRun.v`).

## 3. What is modelled

| source | model |
|---|---|
| src/operator.hpp, container updates in src/moves/moves.ipp:52-80, 215-242 | `OpContainer.v`; EqualTimeOperator in `EqualTime.v` |
| src/moves/moves.ipp:84-264 (LocalUpdater), counters in moves.hpp:66-137, src/mc_config.hpp:66-114 | `Updater.v` |
| src/mc_config.hpp:13-63, src/model/model.ipp:232-304 (hybridization function) | `Hyb.v` |
| src/mc_config.hpp:178-297 (permutation sign), include/.../detail/util.hpp:12-35, 152-189 | `PermSign.v`, `CombSort.v` |
| src/util.hpp (random selections, mysign, TwoSetView), src/operator_util.* | `Select.v`, `TwoSetView.v` |
| src/moves/moves.ipp:266-500 (insertion and removal) | `Proposal.v`, `DiagProposal.v` |
| src/moves/moves.ipp:546-689, 933-1010 (shifts, flavor changes, worm moves) | `ShiftProposal.v` |
| src/moves/moves.ipp:691-895 (global updates), moves.hpp:22-64, 553-589, src/impurity_init.ipp:277-345 | `GlobalUpdate.v`, `HybDet.v` |
| src/moves/moves.ipp:1013-1518 (worm insertion, removal, connection) | `WormProposal.v` |
| src/worm.hpp, src/worm.ipp | `Worm.v` |
| src/update_histogram.hpp | `Histogram.v` |
| src/wang_landau.hpp | `FlatHist.v` |
| src/impurity.ipp, impurity.hpp, impurity_init.ipp: configuration spaces, weights, counters | `ConfigSpace.v` |
| src/sliding_window/sliding_window.* | `Window.v`, `LazyTrace.v` |
| src/sliding_window/meas_correlation.ipp, meas_static_obs.ipp | `MeasWindow.v`, `EqualTime.v` |
| src/model/clustering.* and include/.../detail/clustering.hpp | `Clustering.v` |
| src/model/hybfermion.hpp | `Fermion.v` |
| src/model/model.ipp:437-730 (sectors) | `Sectors.v` |
| src/model/model.hpp:42-128, src/model/eigenbasis.ipp | `EigenBasis.v` |
| src/model/model.ipp:306-434, 513-587 (basis rotation, Hamiltonian), src/postprocess.hpp, src/accumulator.hpp, way to the accumulators in src/impurity.ipp:262-490 | `Postprocess.v` |
| include/alps/fastupdate: fastupdate_formula, resizable_matrix, determinant_matrix, determinant_matrix_partitioned | `FastUpdate.v`, `DetMatrix.v`, `DetPartitioned.v` |
| src/wide_scalar.hpp | `WideScalar.v` |
| src/legendre.cpp | `Legendre.v`, `Matsubara.v` (table Tnl) |
| src/postprocess.hpp:200-226 (gf) | `Matsubara.v` |
| src/impurity_init.ipp:3-236, src/impurity.ipp:262-492, 798-821, src/solver.ipp:49-85, src/impurity_postprocess.ipp: names and numbers of samples of the accumulators | `Observables.v` |
| the real numbers of the standard library as a field of mathcomp: no code | `RealField.v` |
| src/measurement/measurement.hpp, measurement.ipp, measure_kLkR in src/impurity.ipp | `Measure.v` |
| TwoTimeG2Measurement::measure, src/measurement/measurement.ipp:3-115, with the ranges of safe_insert and safe_erase, src/operator.hpp:221-275 | `TwoTime.v` |
| GMeasurement::measure_via_hyb and the G2 estimator in src/measurement/measurement.ipp | `MeasureHyb.v` (its mean: `T_RemovalMean.v`) |
| the run as a whole: src/impurity.ipp:144-160, 207-245, 494-722 with the objects above, src/mc_config.hpp | `Assembly.v` |
| one call of a local updater in such a run: src/moves/moves.ipp:84-213 with propose() of the four updaters (266-647), get_cdagg_ops_set in determinant_matrix*.hpp | `LocalChain.v` |
| one call of a worm updater in such a run: src/moves/moves.ipp:84-213 with propose() of the worm updaters (925-1298, 1383-1518), src/impurity.ipp:557-621 | `WormChain.v` |
| norms, dimensions and lowest energies behind the trace bounds: src/util.hpp:153-203, src/model/model.hpp:84-96, 369-382, src/model/eigenbasis.ipp:97-114, 199-206 (`OpNorm.v`, `SpecThm.v` contain the linear algebra, no code) | `SpecNorm.v` |
| the trace of a configuration as a trace of a product of matrices: no code of its own, `T_TraceForm.v` compares the brackets of `EigenBasis.v` with the product | `EigenBasis.v`, `Window.v` |
| a shift of all operators: no code of its own, `ShiftParity.v`, `T_ShiftWeight.v` and `T_ShiftChain.v` compare sign, determinant, trace and acceptance before and after `global_update` with `OperatorShift` | `GlobalUpdate.v`, `PermSign.v`, `HybDet.v`, `Worm.v`, `Assembly.v` |
| the order of the global updates in one call and their transformations: src/impurity.ipp:637-691, src/moves/moves.hpp:22-64, 553-589 | `GlobalChain.v` |
| reading of the input: src/model/model.ipp:101-230, 268-304, 326-341, src/impurity_init.ipp:403-477, src/util.cpp:5-13 | `Input.v` |
| MonteCarloConfiguration::sanity_check, src/mc_config.hpp:117-171 | `SanityCheck.v` |
| reading of the list of equal-time two-particle functions: src/impurity_init.ipp:354-400 (the list is not used by any other code) | `EqTimeList.v` |
| src/mc/mympiadapter.hpp, src/solver.ipp, thermalization in src/impurity.* | `MpiRun.v` |

Not modelled: the parameter objects and the opening of files, HDF5 output (src/hdf5, src/main.cpp, src/solver.hpp), printing, timing, other sanity
checks that only assert, the text printed by src/impurity_postprocess.ipp, the eigensolver, the numerical
evaluation of spherical Bessel functions, allocation of memory, the ALPSCore library (accumulators are their mean or, in Observables.v, their number of samples, stop_callback a
broadcast from rank 0, collect_results one collective operation), and the statistical convergence of the Monte Carlo averages.

## 4. Properties and theorems

Status `proved`: the full claim is proved for the model. Status `partial`: the note in MANIFEST.json says what is missing; where the
claim is false for the code as written, a theorem ending in `_refuted` proves that it fails in the model, beside the part that holds.

| property | title | status | theorems |
|---|---|---|---|
| C01 | Operator times are strictly totally ordered and the operator container stays sorted and duplicate-free | proved | `T_Container.v`: C01_operator_order_strict_total, C01_container_refines_map, C01_refused_insert_no_change |
| C02 | Recorded insertions/removals are undone exactly by revert_changes | partial | `T_Container.v`: C02_update_operators_undo, C02_update_operators_success, C02_undo_by_time_only_refuted |
| C03 | Difference of old and new operators is exact | proved | `T_Container.v`: C03_merge_diff_is_multiset_difference |
| C04 | A local update that is not accepted changes nothing | proved | `T_Updater.v`: C04_not_accepted_changes_nothing, C04_exception_leaves_configuration, C04_metropolis_rule |
| C05 | Configuration bookkeeping is consistent after any history of updates | proved | `T_Updater.v`: C05_update_keeps_consistent, C05_bookkeeping_consistent, C05_initial_consistent, C05_changes_inside_window |
| C06 | Acceptance counters are ordered and reset exactly | proved | `T_Updater.v`: C06_update_counts, C06_counters_exact, C06_tally_ordered |
| C07 | comb_sort terminates, sorts and returns the permutation parity | proved | `T_PermSign.v`: C07_comb_sort_correct, C07_parity_exists |
| C08 | Permutation sign of a configuration is the fermionic reordering sign and its incremental change formula agrees with recomputation | partial | `T_PermSign.v`: C08_permutation_sign_is_reordering_sign, C08_sign_independent_of_storage_order, C08_worm_exchange_flips_sign, C08_incremental_sign_change_refuted |
| C09 | Counting c-cdagger pairs after a hypothetical insertion equals counting after the insertion | proved | `T_Select.v`: C09_count_is_number_of_pairs, C09_prediction_is_exact, C09_error_iff_occupied, C09_prediction_with_worm_refuted, C09_pick_up_pair_spec |
| C10 | Random selection of operators returns distinct operators with the requested multiplicities | proved | `T_Select.v`: C10_index_range, C10_pickup_distinct, C10_shuffle_bijective, C10_pick_up_operators, C10_pick_bijective, C10_count_operators |
| C11 | open_random is strictly inside its interval | proved | `T_Select.v`: C11_open_random_inside, C11_open_random_margin, C11_binary64_refuted |
| C12 | Insertion and removal of operator pairs are in detailed balance | proved | `T_Proposal.v`: C12_correction, C12_density_ratio, C12_detailed_balance |
| C13 | Diagonal insertion/removal is in detailed balance | partial | `T_DiagProposal.v`: C13_corrections_reciprocal, C13_correction_is_factorial_times_exact, C13_rank1_partial, C13_rank_above1_wrong, C13_refuted |
| C14 | Worm insertion and removal are in detailed balance | proved | `T_WormProposal.v`: C14_trace, C14_trace_diagonal, C14_diagonal_branch_closed, C14_hyb, C14_gworm, C14_connector |
| C15 | Single-operator shift proposals are symmetric | partial | `T_ShiftProposal.v`: C15_symmetric, C15_ratio, C15_pair_flavor, C15_refuted |
| C16 | Worm shift proposals are symmetric | partial | `T_ShiftProposal.v`: C16_ratio, C16_single, C16_equal_failure, C16_flavor, C16_refuted |
| C17 | Global shift is a bijection of configurations | proved | `T_GlobalUpdate.v`: C17_range, C17_injective, C17_inverse, C17_surjective, C17_rotation, C17_worm_shift, C17_boundary_collision |
| C18 | Flavor-exchange updates form a set closed under inverse | proved | `T_GlobalUpdate.v`: C18_closed_under_inverse, C18_user_updates, C18_worm_exchange |
| C19 | Sliding window positions stay legal | proved | `T_Window.v`: C19_positions_legal, C19_no_failure |
| C20 | A sweep of the sliding window visits every position and returns | proved | `T_Window.v`: C20_sweep_up, C20_sweep_down, C20_two_sweeps, C20_coverage, C20_last_half_window_waits |
| C21 | Every operator is counted exactly once by the windowed trace | partial | `T_Window.v`: C21_partition, C21_refuted |
| C22 | Windowed trace equals the full trace after any history | partial | `T_WindowTrace.v`: C22_kept, C22_nothing_lost, C22_no_truncation, C22_history_independent, C22_update_inside, C22_truncation_refuted, C22_edge_refuted |
| C23 | Saving and restoring the window state is transparent | proved | `T_Window.v`: C23_restore |
| C24 | Lazy trace evaluation decides exactly as full evaluation | partial | `T_LazyTrace.v`: C24_decision, C24_exact, C24_refuted, C24_bound, C24_full_trace, C24_bound_refuted |
| C25 | Hybridization function is an antiperiodic linear interpolation | partial | `T_Hyb.v`: C25_in_range, C25_grid, C25_between, C25_antiperiodic, C25_continuous, C25_limit, C25_unconnected_small, C25_unconnected_refuted, C25_edge_refuted |
| C26 | Input hybridization is mapped to the internal one by time reversal and transposition | proved | `T_Hyb.v`: C26_file, C26_refused, C26_involution, C26_command_line, C26_command_line_size |
| C27 | Clustering labels are the connected components | proved | `T_Clustering.v`: C27_components |
| C28 | Fermion operator matrices satisfy the canonical anticommutation relations | proved | `T_Fermion.v`: C28_anticommutation, C28_entries, C28_number_operator, C28_validation_refuted, C28_validation_last |
| C29 | Hilbert space sectors block-diagonalize the Hamiltonian and each creation/annihilation operator maps a sector into one sector | partial | `T_Sectors.v`: C29_partition, C29_block_diagonal, C29_same_sector, C29_block_destination, C29_recorded, C29_destination_partial, C29_destination_refuted |
| C30 | Energy cutoffs keep exactly the allowed states | proved | `T_EigenBasis.v`: C30_kept, C30_kept_all, C30_connection, C30_energies, C30_operator, C30_removed_zero, C30_removed_zero_bra, C30_propagation, C30_translationally_invariant |
| C31 | Fast-update formulas give the exact determinant ratio and inverse | partial | `T_FastUpdate.v`: C31_up, C31_down_last, C31_replace, C31_replace_singular, C31_last_row, C31_last_col, C31_down_ratio, C31_down, C31_replace_refuted |
| C32 | DeterminantMatrix returns det(new)/det(old) and keeps its inverse exact over any history | partial | `T_DetHistory.v`: C32_step, C32_history, C32_progress, C32_refuted_uneven |
| C33 | Rejecting a determinant update restores the state | partial | `T_DetHistory.v`: C33_reject, C33_impossible_insertion, C33_unbalanced, C33_refuted_removal, C33_refuted_remove_add |
| C34 | Block-partitioned determinant equals the full determinant | partial | `T_DetPartitioned.v`: C34_history, C34_ratio, C34_build, C34_inverse, C34_sectors, C34_whole_matrix, C34_refuted_duplicate, C34_step, C34_rebuild, C34_empty |
| C35 | Flat-histogram weights are consistent | proved | `T_FlatHist.v`: C35_history, C35_reciprocal, C35_multiplicative, C35_beyond, C35_rescale, C35_frozen, C35_synchronized, C35_histogram |
| C36 | Flat-histogram learning factor decreases to its minimum and convergence is reached | proved | `T_FlatHist.v`: C36_factor, C36_flat, C36_reached |
| C37 | Histograms conserve counts and rebinning conserves totals | proved | `T_Histogram.v`: C37_add_sample, C37_totals, C37_accepted_le_attempted, C37_rebin_blocks, C37_rebin, C37_rebin_total |
| C38 | Step size stays within its bounds | proved | `T_Histogram.v`: C38_bounds, C38_mover, C38_constant |
| C39 | Thermalization check is monotone | proved | `T_Histogram.v`: C39_monotone, C39_by_max, C39_available, C39_value, C39_needs_samples, C39_recorder |
| C40 | Configuration-space bookkeeping | proved | `T_ConfigSpace.v`: C40_position, C40_bookkeeping, C40_weights, C40_visited, C40_flat |
| C41 | Worm operators are consistent with the worm's times and flavors | proved | `T_Worm.v`: C41_operators, C41_distinct_times, C41_order, C41_set_time, C41_set_flavor, C41_worm_eq, C41_in_range |
| C42 | Extended-precision complex arithmetic is field arithmetic | partial | `T_WideScalar.v`: C42_field, C42_complex, C42_mixed, C42_abs, C42_equality_partial, C42_equality_refuted |
| C43 | TwoSetView iterates the merged sorted union | partial | `T_TwoSetView.v`: C43_iterate_partial, C43_deref, C43_empty_first_refuted, C43_postfix_refuted, C43_rejected |
| C44 | Equal-time operators act on bra and ket consistently | proved | `T_EqualTime.v`: C44_bra_ket |
| C45 | Different equal-time operators are kept apart | partial | `T_EqualTime.v`: C45_order, C45_first_half_partial, C45_density, C45_refuted, C45_collect, C45_collect_density |
| C46 | Normalizing brakets keeps their value | proved | `T_EigenBasis.v`: C46_normalize, C46_product_error, C46_exp_vector; `T_Braket.v`: C46_contract |
| C47 | Legendre polynomials are computed by a correct recurrence | proved | `T_Legendre.v`: C47_legendre, C47_vector, C47_properties, C47_tables, C47_zero_refuted |
| C48 | Tail correction enforces the first moment and changes nothing else | proved | `T_Postprocess.v`: C48_moment, C48_odd, C48_idempotent, C48_fixed, C48_jump |
| C49 | Back-rotation inverts the basis rotation | proved | `T_Postprocess.v`: C49_reading, C49_accepted, C49_operators_G1, C49_operators_G2, C49_hybridization, C49_roundtrip_G1, C49_simultaneous, C49_roundtrip_G2 |
| C50 | Reported observables are sign-normalized | partial | `T_Postprocess.v`: C50_worm, C50_corr, C50_fidelity_partial, C50_fidelity_refuted |
| C51 | Measurement starts on all MPI processes together and only after all are thermalized | partial | `T_MpiRun.v`: C51_collectives, C51_measure, C51_prepare, C51_together, C51_progress, C51_every_step_refuted |
| C52 | The run ends without a collective mismatch | partial | `T_MpiRun.v`: C52_partial, C52_thermalization_refuted, C52_visited_refuted |
| C53 | Green's function measurement uses arguments in the right interval with the antiperiodic sign | partial | `T_Measure.v`: C53_green, C53_batches_partial, C53_batches_refuted, C53_worm_batches, C53_g1_partial, C53_g1_equal_time_refuted, C53_g1_skipped_refuted, C53_g2_table, C53_two_time |
| C54 | Two-time correlation measurement applies every operator exactly once | partial | `T_MeasWindow.v`: C54_value, C54_interior_refuted, C54_last_refuted |
| C55 | Global-update determinant ratio is exact | partial | `T_GlobalUpdate.v`: C55_ratio_exact, C55_never_zero, C55_refuted, C55_global_update_metropolis |
| C56 | Fidelity-susceptibility estimator counts pairs correctly | proved | `T_Measure.v`: C56_pairs, C56_exchange |
| C57 | Static observables are evaluated between all operators | partial | `T_MeasWindow.v`: C57_static, C57_refuted |
| C58 | Local Hamiltonian after the basis rotation | proved | `T_Postprocess.v`: C58_hamiltonian |
| C59 | Weights of the worm measurement by removal | partial | `T_MeasureHyb.v`: C59_weight, C59_kept, C59_own, C59_defined, C59_cutoff, C59_green_partial, C59_two_particle, C59_norm, C59_small_maximum_refuted, C59_skipped_refuted, C59_cutoff_refuted |
| C60 | The program keeps its invariants in every run | partial | `T_Assembly.v`: C60_det_contract, C60_det_vec, C60_update, C60_global, C60_step, C60_run, C60_start, C60_program, C60_invariant, C60_sweep_ordered, C60_global_ordered, C60_legal_exact |
| C61 | Sweeps visit all windows | partial | `T_Assembly.v`: C61_sweep_positions, C61_global_end, C61_step, C61_steps, C61_last_piece_refuted, C61_two_sweeps, C61_min_window_refuted, C61_window_size, C61_history, C61_window_limits_refuted |
| C62 | Each call of a local updater satisfies detailed balance | partial | `T_LocalChain.v`: C62_insertion_removal, C62_diagonal, C62_diagonal_one, C62_diagonal_unbalanced, C62_shift_partial, C62_shift_ratio, C62_shift_unbalanced, C62_pair_flavor |
| C63 | Each call of a worm updater satisfies detailed balance | partial | `T_WormChain.v`: C63_insertion_removal, C63_gworm, C63_flavor_changer, C63_mover_ratio, C63_mover_partial, C63_mover_unbalanced, C63_connector; `T_WormChainInst.v`: C63_mover_refuted |
| C64 | The global updates leave the distribution of the configurations invariant | partial | `T_GlobalChain.v`: C64_random_order, C64_stationary, C64_stationary_mul, C64_exchange, C64_shift, C64_involution, C64_exchanges, C64_cycle, C64_spin_flip; `T_GlobalChainInst.v`: C64_cycle_refuted |
| C65 | The bounds of the lazily evaluated trace are bounds for the bras and kets of the eigenbasis | partial | `T_SpecNorm.v`: C65_spectral_norm, C65_bounds, C65_anticommuting, C65_min_energy, C65_contract, C65_lazy_trace, C65_cutoff_refuted |
| C66 | The trace of a configuration is the trace of the time-ordered product of operators and propagators | proved | `T_TraceForm.v`: C66_trace, C66_uncut, C66_shift, C66_fock, C66_states, C66_hamiltonian, C66_exponential, C66_cyclic |
| C67 | A shift of all operators changes neither the weight nor, up to the worm, the sign of a configuration | proved | `T_ShiftWeight.v`: C67_any_order, C67_sign_det, C67_no_worm, C67_abs_det, C67_accepted; `T_ShiftChain.v`: C67_run, C67_even, C67_pairs, C67_green, C67_model |
| C68 | What is read from the input files is what they say | partial | `T_Input.v`: C68_U_file, C68_U_truncated_refuted, C68_hopping_file, C68_hopping_matrix, C68_basis_file, C68_command_line_size, C68_command_line_U, C68_command_line_t, C68_corr_file, C68_delta_file, C68_delta_only, C68_delta_truncated_refuted, C68_hamiltonian, C68_onsite_half |
| C69 | The Green's function at Matsubara frequencies is the Fourier transform of the one in imaginary time | proved | `T_Matsubara.v`: C69_fourier_unique, C69_gf, C69_gtau, C69_tail; `T_MatsubaraReal.v`: C69_real_integral, C69_real |
| C70 | Legendre coefficients and G(tau) determine each other, and the tail correction is the smallest possible | proved | `T_LegendreOrtho.v`: C70_coefficients, C70_norm, C70_pythagoras, C70_least; `T_LegendreReal.v`: C70_real_coefficients, C70_real_norm, C70_real_least |
| C71 | Every observable that is filled or read was created, and the results can be read after a run in which everything was measured | partial | `T_Observables.v`: C71_names, C71_run, C71_samples, C71_finish, C71_solve, C71_pending_refuted, C71_batch_one, C71_file_refuted, C71_size_refuted, C71_sign_refuted |
| C72 | The two-time measurement averages over times and flavors without a bias and leaves the window as it was | proved | `T_TwoTime.v`: C72_data, C72_cutoff, C72_unbiased, C72_window, C72_mean |
| C73 | The worm measurement by removal has no bias, also when only a random part of the operators is used | partial | `T_RemovalMean.v`: C73_two_particle_partial, C73_same_partial, C73_green_partial, C73_possible |
| C74 | The debug check of a configuration accepts all that a run reaches, changes nothing but the inverse matrices, and sees all errors | partial | `T_SanityCheck.v`: C74_accepts, C74_repairs, C74_consistent, C74_det_refuted |
| C75 | The list of equal-time two-particle functions is read as the file says, and a wrong file is refused | partial | `T_EqTimeList.v`: C75_list, C75_faithful, C75_refused, C75_line_refused, C75_flavor_refused, C75_truncated_refuted |

## 5. Print Assumptions

For the 409 theorems of the table:

* "Closed under the global context" for 384 theorems: every theorem in the table of section 4 that is not named below.
* `sig_forall_dec`, `functional_extensionality_dep`: C42_field, C42_complex, C42_mixed, C42_equality_partial, C42_equality_refuted.
* `sig_forall_dec`, `sig_not_dec`, `functional_extensionality_dep`: C35_reciprocal, C35_multiplicative, C35_beyond, C35_rescale, C40_weights, C42_abs.
* `sig_forall_dec`, `sig_not_dec`, `classic`, `functional_extensionality_dep`: C35_history, C35_frozen, C35_synchronized, C35_histogram, C36_factor, C36_flat, C36_reached, C40_bookkeeping, C40_flat.
* `sig_forall_dec`, `sig_not_dec`, `ClassicalEpsilon.constructive_indefinite_description`, `classic`, `functional_extensionality_dep`: C69_real_integral, C69_real, C70_real_coefficients, C70_real_norm, C70_real_least.

These are the axioms of the standard library behind its real numbers and classical logic
(`Coq.Reals.ClassicalDedekindReals`, `Coq.Logic.FunctionalExtensionality`, `Coq.Logic.Classical_Prop`), and the axiom of indefinite
description (`Coq.Logic.ClassicalEpsilon`), from which `RealField.v` takes the choice structure that mathcomp asks of a field.

## 6. How the theorems are tested

A copy of the development outside /verif is changed in one definition at a time, in a way a programmer might get it wrong, and
rebuilt. `seeded/LOG.jsonl` has one line per attempt: the definition, the edit, the claim it breaks, the theorems
that no longer prove, and the theorems that were added or tightened because a wrong program had passed.
