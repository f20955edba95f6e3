{
 "claims": [
  {
   "property": "C01",
   "status": "proved",
   "theorems": [
    "C01_setValue_rule"
   ],
   "note": ""
  },
  {
   "property": "C02",
   "status": "partial",
   "theorems": [
    "C02_constructor_refuted",
    "C02_setBounds_refuted",
    "C02_nan_refuted",
    "C02_inside_partial"
   ],
   "note": "False as stated (constructor value, later setBounds, NaN). Proved for every history constructed without value, without NaN, bounds changed only while unset."
  },
  {
   "property": "C03",
   "status": "partial",
   "theorems": [
    "C03_overflow_refuted",
    "C03_ordered_partial",
    "C03_atomic_partial"
   ],
   "note": "False for int bounds beyond the double range (OverflowError after the lower bound was replaced). Proved for all histories without such bounds."
  },
  {
   "property": "C04",
   "status": "proved",
   "theorems": [
    "C04_linearSweep",
    "C04_first_point_refuted"
   ],
   "note": "First point proved when end-start does not overflow; C04_first_point_refuted shows that condition is needed."
  },
  {
   "property": "C05",
   "status": "partial",
   "theorems": [
    "C05_subnormal_refuted",
    "C05_points_in_bounds_partial"
   ],
   "note": "False in the subnormal range. Proved when end-start is finite, at least (N-1)*2^-1021 wide (or zero) and N <= 2^50."
  },
  {
   "property": "C06",
   "status": "proved",
   "theorems": [
    "C06_registries_in_step",
    "C06_add_existing_changes_nothing",
    "C06_add_new_registers_unset",
    "C06_add_rejected_changes_nothing"
   ],
   "note": ""
  },
  {
   "property": "C07",
   "status": "proved",
   "theorems": [
    "C07_setParameterValue_skips",
    "C07_setParameterValues_skips",
    "C07_skipped_entries"
   ],
   "note": ""
  },
  {
   "property": "C08",
   "status": "proved",
   "theorems": [
    "C08_acyclic_always",
    "C08_cycle_check_exact"
   ],
   "note": "For every history, including rmParameter and clashing symbols."
  },
  {
   "property": "C09",
   "status": "partial",
   "theorems": [
    "C09_terminates_refuted",
    "C09_terminates_partial",
    "C09_fuel_irrelevant"
   ],
   "note": "False: a prefactor containing the parameter's own symbol makes the expansion loop forever. Proved for histories whose prefactors bring in no new symbol and whose symbols do not clash (rmParameter and overwriting allowed)."
  },
  {
   "property": "C10",
   "status": "partial",
   "theorems": [
    "C10_constant_expression_refuted",
    "C10_no_refresh_refuted",
    "C10_values_follow_partial"
   ],
   "note": "False for expressions without symbols and for calls naming a parametric parameter. Proved otherwise, for any expression algebra satisfying the stated laws, in histories without rmParameter and without removal of an overwritten parameterisation."
  },
  {
   "property": "C11",
   "status": "partial",
   "theorems": [
    "C11_order_refuted",
    "C11_order_irrelevant_partial",
    "C11_defined_values_agree_partial"
   ],
   "note": "False with cancellation (0*inf). Proved: identical states without cancellation; identical values wherever the expression has a value."
  },
  {
   "property": "C12",
   "status": "partial",
   "theorems": [
    "C12_missing_input_refuted",
    "C12_missing_input_partial"
   ],
   "note": "False with cancellation (0*x = 0). Proved without."
  },
  {
   "property": "C13",
   "status": "partial",
   "theorems": [
    "C13_stale_cycle_refuted",
    "C13_stale_edge_set_refuted",
    "C13_replaced_partial"
   ],
   "note": "False: old edges stay in the graph. Proved: expression and parameter list are replaced, all else is untouched."
  },
  {
   "property": "C14",
   "status": "partial",
   "theorems": [
    "C14_remove_root_refuted",
    "C14_remove_parametric_partial"
   ],
   "note": "False for a parameter without expression: every later set raises KeyError. Proved for parameters with an expression."
  },
  {
   "property": "C15",
   "status": "partial",
   "theorems": [
    "C15_not_atomic_refuted",
    "C15_last_wins_partial"
   ],
   "note": "Failure atomicity is false; the rest is proved."
  },
  {
   "property": "C16",
   "status": "proved",
   "theorems": [
    "C16_default_symbols_distinct",
    "C16_symbol_roundtrip"
   ],
   "note": ""
  },
  {
   "property": "C17",
   "status": "proved",
   "theorems": [
    "C17_expansion",
    "C17_meaning_unique",
    "C17_expansion_returns"
   ],
   "note": "Value preservation wherever the nested expression has a value; exact equality without cancellation."
  },
  {
   "property": "C18",
   "status": "partial",
   "theorems": [
    "C18_stale_edge_refuted",
    "C18_partition_partial"
   ],
   "note": "False after an overwritten parameterisation (stale edge). Proved for histories without one."
  },
  {
   "property": "C19",
   "status": "proved",
   "theorems": [
    "C19_grid_is_row_major_product"
   ],
   "note": ""
  },
  {
   "property": "C20",
   "status": "proved",
   "theorems": [
    "C20_collapsedIndices_bijection"
   ],
   "note": ""
  },
  {
   "property": "C21",
   "status": "proved",
   "theorems": [
    "C21_computeFuncSweep_each_point_once",
    "C21_result_at_point"
   ],
   "note": ""
  },
  {
   "property": "C22",
   "status": "proved",
   "theorems": [
    "C22_slice"
   ],
   "note": "Requires that no distance |sweep point - requested value| is NaN."
  },
  {
   "property": "C23",
   "status": "partial",
   "theorems": [
    "C23_outermost_missing_refuted",
    "C23_outermost_missing_list_refuted",
    "C23_one_dimensional_refuted",
    "C23_answer_covers_suffix_partial",
    "C23_answer_covers_suffix_list_partial"
   ],
   "note": "False: leaving out the outermost parameters can silently give wrong data; one-dimensional sweeps never check. Proved: otherwise a missing parameter raises."
  },
  {
   "property": "C24",
   "status": "proved",
   "theorems": [
    "C24_submesh",
    "C24_order_irrelevant"
   ],
   "note": "Requires that no distance |sweep point - requested value| is NaN."
  },
  {
   "property": "C25",
   "status": "partial",
   "theorems": [
    "C25_far_value_refuted",
    "C25_nearest_partial",
    "C25_nearest_computed"
   ],
   "note": "False in exact arithmetic when two distances round to the same double; proved in double arithmetic and, up to such ties, in exact arithmetic."
  },
  {
   "property": "C26",
   "status": "partial",
   "theorems": [
    "C26_latexify_total_injective",
    "C26_latexify_greek_partial",
    "C26_latexify_greek_refuted",
    "C26_iota_refuted",
    "C26_latexify_plain"
   ],
   "note": "Totality and injectivity proved; greek-awareness false for names where the symbol occurs again, and for iota."
  },
  {
   "property": "C27",
   "status": "partial",
   "theorems": [
    "C27_prefactors_refreshed_partial",
    "C27_successful_call_refreshes_partial",
    "C27_refuted",
    "C27_zero_refuted"
   ],
   "note": "False as stated: setUnit with a bare SI unit (it calls a method that does not exist after storing the factor) and setUnitPrefactor with 0 leave the prefactors stale. Proved for every interleaved history in which no call on the object raised one of those two errors."
  },
  {
   "property": "C28",
   "status": "partial",
   "theorems": [
    "C28_setUnit_prefixed_partial",
    "C28_setUnit_rejects",
    "C28_setEnergyUnit_partial",
    "C28_setEnergyUnit_rejects",
    "C28_setCurrentUnit_partial",
    "C28_setVoltageUnit_partial",
    "C28_setCurrentVoltage_reject",
    "C28_refuted"
   ],
   "note": "False for setUnit with a bare base unit. Proved for every prefix and base, all strings and all reachable states whose F and H factors are not zero."
  },
  {
   "property": "C29",
   "status": "partial",
   "theorems": [
    "C29_quadratic_energies_partial",
    "C29_tunnelling_energies_partial",
    "C29_refuted"
   ],
   "note": "Charging and inductive energies proved. Josephson and phase-slip energies are right exactly when the flux unit is phi0 and the charge unit 2e."
  },
  {
   "property": "C30",
   "status": "partial",
   "theorems": [
    "C30_oscillator_quantities_partial",
    "C30_impedance_refuted",
    "C30_coupling_refuted"
   ],
   "note": "All prefactors proved consistent in SI; the loaded impedance ignores the impedance unit and the stored coupling depends on the charge unit."
  },
  {
   "property": "C31",
   "status": "partial",
   "theorems": [
    "C31_units_objects_independent_partial",
    "C31_refuted"
   ],
   "note": "False for NumericalSystems built without a unit argument, which share one Units object. Proved for distinct Units objects and all interleavings."
  },
  {
   "property": "C32",
   "status": "proved",
   "theorems": [
    "C32_accepted_branch",
    "C32_wrong_prefix"
   ],
   "note": "For every reachable state, including states after failed calls; the new branch's key is the number of branches between the two nodes in either direction. An empty name raises IndexError."
  },
  {
   "property": "C33",
   "status": "partial",
   "theorems": [
    "C33_refuted",
    "C33_every_duplicate_blocks",
    "C33_wrong_prefix_partial"
   ],
   "note": "False: a duplicate name raises after the branch is stored, and every later addBranch raises (proved for every circuit and every duplicate). Holds for rejections of the first letter."
  },
  {
   "property": "C34",
   "status": "partial",
   "theorems": [
    "C34_one_type",
    "C34_lookup_sound",
    "C34_lookup_missing",
    "C34_lookup_total_partial",
    "C34_listings_partial",
    "C34_refuted"
   ],
   "note": "One type per branch and soundness of getComponentEdge are proved in full; totality and the partition hold unless a non-capacitive branch joins a node to itself on a node without other non-capacitive branches (then getComponentEdge raises KeyError)."
  },
  {
   "property": "C35",
   "status": "partial",
   "theorems": [
    "C35_tree",
    "C35_loop_count",
    "C35_split_exact",
    "C35_split_partial",
    "C35_refuted"
   ],
   "note": "Tree acyclic and spanning in full; exact split for all circuits; the count branches - nodes + parts holds without lone self-loops and is false with one."
  },
  {
   "property": "C36",
   "status": "proved",
   "theorems": [
    "C36_own_branch"
   ],
   "note": "Branches compared up to direction."
  },
  {
   "property": "C37",
   "status": "partial",
   "theorems": [
    "C37_refuted",
    "C37_grown_partial",
    "C37_C38_rooted_partial"
   ],
   "note": "False for circuits whose parts are not built outwards from their first node (stale path reused); proved for circuits grown by attaching nodes and, more generally, rooted parts."
  },
  {
   "property": "C38",
   "status": "partial",
   "theorems": [
    "C38_refuted",
    "C38_key_refuted",
    "C38_grown_partial",
    "C37_C38_rooted_partial"
   ],
   "note": "False: UnboundLocalError and, depending on set iteration order, KeyError. Proved for circuits grown by attaching each new node with a non-capacitive branch, for all set orders, and for rooted parts iterated in insertion order."
  },
  {
   "property": "C39",
   "status": "partial",
   "theorems": [
    "C39_accepts_partial",
    "C39_suffixes_distinct",
    "C39_refuted"
   ],
   "note": "Exact acceptance condition, entry and failure behaviour proved; 'without bias' holds for the branch in its current direction only, and is false for the branch itself after the circuit has grown."
  },
  {
   "property": "C40",
   "status": "proved",
   "theorems": [
    "C40_accepts",
    "C40_suffixes_distinct"
   ],
   "note": "Exact acceptance condition for every circuit; suffixes distinct in every reachable state."
  },
  {
   "property": "C41",
   "status": "partial",
   "theorems": [
    "C41_flux_partial",
    "C41_coupling_partial",
    "C41_refuted"
   ],
   "note": "Entries are kept and designate the branch up to direction; false with direction: after growth the branch is reported reversed and carries no bias."
  },
  {
   "property": "C42",
   "status": "partial",
   "theorems": [
    "C42_accepts_partial",
    "C42_self_refuted",
    "C42_twice_refuted"
   ],
   "note": "Exact acceptance condition proved; false that the inductors are different and not yet coupled."
  },
  {
   "property": "C43",
   "status": "proved",
   "theorems": [
    "C43_accepts",
    "C43_remove_all"
   ],
   "note": ""
  },
  {
   "property": "C44",
   "status": "partial",
   "theorems": [
    "C44_refuted",
    "C44_branches_and_mutuals_partial"
   ],
   "note": "False for bias capacitors; proved for branches and mutual inductances together."
  },
  {
   "property": "C45",
   "status": "partial",
   "theorems": [
    "C45_defined",
    "C45_symmetric",
    "C45_form_exact",
    "C45_energy_partial",
    "C45_energy_refuted"
   ],
   "note": "Symmetry and an exact formula for every circuit; the energy form holds without capacitors from a node to itself and is false with them (they are subtracted)."
  },
  {
   "property": "C46",
   "status": "partial",
   "theorems": [
    "C46_positive_definite_partial",
    "C46_positive_definite_refuted"
   ],
   "note": "Both equivalences proved without capacitors from a node to itself; false with them."
  },
  {
   "property": "C47",
   "status": "proved",
   "theorems": [
    "C47_branch_flux",
    "C47_walk_sum"
   ],
   "note": ""
  },
  {
   "property": "C48",
   "status": "proved",
   "theorems": [
    "C48_defined",
    "C48_symmetric",
    "C48_form",
    "C48_semidefinite"
   ],
   "note": "For every real Moore-Penrose inverse of the inductance matrix (sympy's pinv is taken to return one); existence proved."
  },
  {
   "property": "C49",
   "status": "partial",
   "theorems": [
    "C49_exact",
    "C49_bias_partial",
    "C49_bias_refuted"
   ],
   "note": "Exact formula proved: every inductor sees the biases of all inductors at its nodes. The claim holds for inductors alone at a node to ground and is false otherwise."
  },
  {
   "property": "C50",
   "status": "partial",
   "theorems": [
    "C50_refuted",
    "C50_mutual_fails",
    "C50_no_ground",
    "C50_partial",
    "C50_exact",
    "C50_calls_partial"
   ],
   "note": "False: five kinds of accepted histories raise. Proved: the exact condition for success of a circuit without resonators, couplings included, when no component is named like a matrix entry (C50_exact), assuming of sympy only that the inverse mentions no other symbols; success after branches followed by biases and couplings. With resonators: C88_constructed_partial gives a sufficient condition; an exact one is missing."
  },
  {
   "property": "C51",
   "status": "partial",
   "theorems": [
    "C51_modes_partial",
    "C51_modes_refuted"
   ],
   "note": "One mode per node proved; an oscillator node can be joined to a node added before it."
  },
  {
   "property": "C52",
   "status": "partial",
   "theorems": [
    "C52_distinct_partial",
    "C52_distinct_refuted"
   ],
   "note": "Names are distinct exactly up to 111 nodes other than ground."
  },
  {
   "property": "C53",
   "status": "partial",
   "theorems": [
    "C53_move",
    "C53_conserves_partial",
    "C53_conserves_refuted",
    "C53_rejected"
   ],
   "note": "Exact effect proved: the terms of the target branch are lost."
  },
  {
   "property": "C54",
   "status": "partial",
   "theorems": [
    "C54_size_partial",
    "C54_size_refuted"
   ],
   "note": "False: nodes in the flux bases are not counted. Proved when all nodes are in the charge or oscillator basis."
  },
  {
   "property": "C55",
   "status": "proved",
   "theorems": [
    "C55_commute",
    "C55_product"
   ],
   "note": "For every basis and any operators; products for arbitrary matrices of the node."
  },
  {
   "property": "C56",
   "status": "proved",
   "theorems": [
    "C56_charge"
   ],
   "note": "For every truncation, given a correct eigendecomposition of the flux operator by the numeric library."
  },
  {
   "property": "C57",
   "status": "partial",
   "theorems": [
    "C57_hermitian_partial",
    "C57_total_partial",
    "C57_hermitian_refuted"
   ],
   "note": "Whatever is returned is Hermitian; a junction from a node to itself raises IndexError."
  },
  {
   "property": "C58",
   "status": "partial",
   "theorems": [
    "C58_sweep_partial",
    "C58_in_sync",
    "C58_ready",
    "C58_refuted"
   ],
   "note": "False: when an oscillator impedance depends on a swept parameter the operator vectors stay those of the first values. Otherwise equality of results and errors for all systems whose values are set and up to date and whose expressions are numbers along the sweep."
  },
  {
   "property": "C59",
   "status": "partial",
   "theorems": [
    "C59_two_stage_partial",
    "C59_refuted",
    "C59_order_refuted"
   ],
   "note": "Proved when the non-swept parametric values are up to date and every expression is a number; false when a parametric parameter holds a stale value, or when the expression is undefined."
  },
  {
   "property": "C60",
   "status": "partial",
   "theorems": [
    "C60_own_pairs_partial",
    "C60_refuted"
   ],
   "note": "Proved whenever diagonalize returns pairs; with get_vectors=False two eigenvalues are taken for the pair."
  },
  {
   "property": "C61",
   "status": "partial",
   "theorems": [
    "C61_retrievable_partial",
    "C61_add",
    "C61_distinct",
    "C61_refuted"
   ],
   "note": "Proved for the last evaluation of each evaluable; earlier ones of the same evaluable are overwritten."
  },
  {
   "property": "C62",
   "status": "partial",
   "theorems": [
    "C62_commutator_partial",
    "C62_commutator_refuted"
   ],
   "note": "Proved when no matrix element is below the rounding tolerance 1e-12; false otherwise."
  },
  {
   "property": "C63",
   "status": "partial",
   "theorems": [
    "C63_quantum_partial",
    "C63_classical_partial",
    "C63_classical_refuted"
   ],
   "note": "False: the Josephson cosines of the classical function have the wrong sign. Exact relation to the Hamiltonian proved."
  },
  {
   "property": "C64",
   "status": "partial",
   "theorems": [
    "C64_bare_partial",
    "C64_bare_refuted"
   ],
   "note": "Proved for nonzero charge matrix element of the lowest two levels; otherwise ValueError."
  },
  {
   "property": "C65",
   "status": "proved",
   "theorems": [
    "C65_write_read_roundtrip"
   ],
   "note": "For objects with pairwise different session identifiers, as long as the object is not cleared."
  },
  {
   "property": "C66",
   "status": "partial",
   "theorems": [
    "C66_id_reuse_refuted",
    "C66_after_clear_refuted",
    "C66_clear_exact_partial",
    "C66_others_cannot_touch_partial"
   ],
   "note": "False when a memory address is reused as identifier or after clearing; proved for distinct identifiers."
  },
  {
   "property": "C67",
   "status": "proved",
   "theorems": [
    "C67_getNeighbours_exact",
    "C67_getNeighbours_bad_character"
   ],
   "note": ""
  },
  {
   "property": "C68",
   "status": "proved",
   "theorems": [
    "C68_sequences_sound_complete",
    "C68_sequences_return_to_start"
   ],
   "note": ""
  },
  {
   "property": "C69",
   "status": "partial",
   "theorems": [
    "C69_decomposition_refuted",
    "C69_decomposition_partial"
   ],
   "note": "False for matrix elements with a component below the tolerance, which sanArray drops; otherwise proved for every size. numpy.linalg.inv is any function satisfying the inverse law."
  },
  {
   "property": "C70",
   "status": "partial",
   "theorems": [
    "C70_mdot_refuted",
    "C70_mdot_partial",
    "C70_mdot_mismatch"
   ],
   "note": "False for one argument (returns 0.0). Proved for two or more, including the shape error."
  },
  {
   "property": "C71",
   "status": "proved",
   "theorems": [
    "C71_sorted_and_paired",
    "C71_values_only",
    "C71_no_eigenvalues"
   ],
   "note": "Solver output is arbitrary real numbers and complex columns (no NaN)."
  },
  {
   "property": "C72",
   "status": "proved",
   "theorems": [
    "C72_gap_preserved"
   ],
   "note": "Exact numbers; complex64 rounding is not modelled."
  },
  {
   "property": "C73",
   "status": "proved",
   "theorems": [
    "C73_shift_tables",
    "C73_lamb_shift_narrow_array"
   ],
   "note": ""
  },
  {
   "property": "C74",
   "status": "proved",
   "theorems": [
    "C74_orthonormal_encoding"
   ],
   "note": ""
  },
  {
   "property": "C75",
   "status": "partial",
   "theorems": [
    "C75_sanArray",
    "C75_sanFloat_refuted",
    "C75_sanFloat_partial"
   ],
   "note": "sanArray proved for all doubles. sanFloat is false for complex numbers, NaN and |x| = tol."
  },
  {
   "property": "C76",
   "status": "partial",
   "theorems": [
    "C76_isStoquastic_refuted",
    "C76_isStoquastic_all_orders_partial",
    "C76_isStoquastic_never_false"
   ],
   "note": "False: IndexError for every Hamiltonian of dimension at least 2 with the default orders. The result is characterised for all orders; False is never returned."
  },
  {
   "property": "C77",
   "status": "partial",
   "theorems": [
    "C77_first_system_units_partial",
    "C77_refuted"
   ],
   "note": "False for the second NumericalSystem built on one SymbolicSystem: the prefactors are applied again."
  },
  {
   "property": "C78",
   "status": "partial",
   "theorems": [
    "C78_parameterised_partial",
    "C78_parameterised_refuted"
   ],
   "note": "False: a component named like a matrix entry becomes parameterised. Proved for other names, up to 111 nodes, without couplings and resonators."
  },
  {
   "property": "C79",
   "status": "partial",
   "theorems": [
    "C79_single_partial",
    "C79_dict_lost",
    "C79_refuted"
   ],
   "note": "Proved for results that are not dicts; dict results can never be retrieved."
  },
  {
   "property": "C80",
   "status": "proved",
   "theorems": [
    "C80_split"
   ],
   "note": "For branches all of which end at some circuit node (else both paths fail alike); tidyup is applied by getHamiltonian only."
  },
  {
   "property": "C81",
   "status": "partial",
   "theorems": [
    "C81_voltage_partial",
    "C81_voltage_exact_partial",
    "C81_voltage_refuted",
    "C81_errors"
   ],
   "note": "False for coupled nodes: only the diagonal entry of the inverse capacitance matrix is used. Proved for uncoupled nodes, and the exact operator for all."
  },
  {
   "property": "C82",
   "status": "partial",
   "theorems": [
    "C82_inductive_partial",
    "C82_inductive_exact_partial",
    "C82_inductive_refuted",
    "C82_junction_partial",
    "C82_junction_state_partial",
    "C82_junction_refuted",
    "C82_units"
   ],
   "note": "False for inductors: flux bias and mutual inductance are left out. False in sign for junctions. Proved: the exact operators in both cases, the derivative for unbiased uncoupled inductors, minus the derivative for junctions, and the common unit factor."
  },
  {
   "property": "C83",
   "status": "proved",
   "theorems": [
    "C83_hermitian"
   ],
   "note": "For the operators generated by getOperatorList, all bases and truncations."
  },
  {
   "property": "C84",
   "status": "partial",
   "theorems": [
    "C84_real_part_partial",
    "C84_diagonal_partial",
    "C84_refuted",
    "C84_errors",
    "C84_defined"
   ],
   "note": "False off the diagonal: the imaginary part is dropped. Proved: the real part for all pairs, the element itself on the diagonal."
  },
  {
   "property": "C85",
   "status": "proved",
   "theorems": [
    "C85_energies",
    "C85_errors"
   ],
   "note": ""
  },
  {
   "property": "C86",
   "status": "proved",
   "theorems": [
    "C86_extended",
    "C86_indices",
    "C86_indices_total",
    "C86_loading"
   ],
   "note": "For the extended circuit whenever it can be built (C88), Cc + Cr not zero."
  },
  {
   "property": "C87",
   "status": "proved",
   "theorems": [
    "C87_elements",
    "C87_loaded",
    "C87_design"
   ],
   "note": "No capacitor from a node to itself (such a branch is counted with the wrong weight, C45)."
  },
  {
   "property": "C88",
   "status": "partial",
   "theorems": [
    "C88_constructed_partial",
    "C88_extended_partial",
    "C88_same_coupling_refuted",
    "C88_component_refuted",
    "C88_coupling_refuted"
   ],
   "note": "False: the generated names C<n>r, L<n>r and the coupling names are not checked against each other. Proved that the extended circuit exists for distinct names, circuits built outwards from their first node and sets iterated in the order of addition, and that the whole constructor then succeeds (without mutual inductances and couplings, components not named like matrix entries, given a correct inverse from sympy)."
  },
  {
   "property": "C89",
   "status": "partial",
   "theorems": [
    "C89_symmetric",
    "C89_values_partial",
    "C89_energy_partial",
    "C89_defined_exact",
    "C89_defined_partial",
    "C89_self_refuted",
    "C89_stale_refuted",
    "C89_bias_refuted"
   ],
   "note": "False: coupling an inductor to itself is accepted and replaces its inductance; a branch added after the coupling, or a flux bias with a mutual inductance, makes the matrix raise. Proved without self-couplings; defined exactly when shown."
  },
  {
   "property": "C90",
   "status": "partial",
   "theorems": [
    "C90_classical",
    "C90_quantum_partial",
    "C90_slips_partial",
    "C90_defined_exact",
    "C90_self_refuted"
   ],
   "note": "False: a junction or nanowire from a node to itself makes the quantum functions raise. Proved where defined; the noncommuting products are compared through numbers in place of the operators."
  },
  {
   "property": "C91",
   "status": "partial",
   "theorems": [
    "C91_energies_exact",
    "C91_coefficient_exact",
    "C91_coefficient_refuted",
    "C91_numerical",
    "C91_numerical_slips"
   ],
   "note": "False: the returned energies are Phi0 I / 2 pi, the Hamiltonian has I. The agreement of the symbolic and the numerical operators is proved for nonzero amplitudes and the identity transform."
  },
  {
   "property": "C92",
   "status": "partial",
   "theorems": [
    "C92_charging_exact",
    "C92_flux_exact",
    "C92_charging_partial",
    "C92_flux_partial",
    "C92_charging_refuted",
    "C92_flux_refuted",
    "C92_junctions_partial",
    "C92_junctions_refuted"
   ],
   "note": "False: biases are left as they are and coefficients in the junctions are reduced to their signs. Proved for biases fixed by the transform and coordinates that enter all junctions with one weight."
  },
  {
   "property": "C93",
   "status": "partial",
   "theorems": [
    "C93_modes_partial",
    "C93_modes_refuted"
   ],
   "note": "False: the matrix of eigenvectors is used where its inverse is needed. Proved for symmetric V with V V a multiple of the identity."
  },
  {
   "property": "C94",
   "status": "partial",
   "theorems": [
    "C94_cooper_partial",
    "C94_fluxon_partial",
    "C94_identity",
    "C94_scaling_exact",
    "C94_scaling_refuted",
    "C94_integer_refuted"
   ],
   "note": "False: the rows of R are used, and integer matrices raise TypeError. Proved for the identity and for the values returned."
  },
  {
   "property": "C95",
   "status": "partial",
   "theorems": [
    "C95_charge_partial",
    "C95_oscillator_partial",
    "C95_parallel_refuted"
   ],
   "note": "False for parallel inductors. Proved: charge modes store no energy (no couplings, at most 111 nodes); the converse without parallel inductors."
  },
  {
   "property": "C96",
   "status": "partial",
   "theorems": [
    "C96_all_set",
    "C96_not_parametric",
    "C96_inputs_exact",
    "C96_inputs_partial",
    "C96_cancelled_refuted",
    "C96_prefactor_refuted",
    "C96_removed_refuted"
   ],
   "note": "allParametersSet proved. parameterisationParametersSet looks at the recorded parameters, not at the expression: refuted for a factor 0, for prefactors with new symbols and after rmParameter."
  },
  {
   "property": "C97",
   "status": "partial",
   "theorems": [
    "C97_direct_exact",
    "C97_parametric_empty_partial",
    "C97_unknown_name_partial",
    "C97_nested_refuted",
    "C97_unknown_name_refuted"
   ],
   "note": "False for nested dependencies and for unknown names after a parametric one. Proved for direct dependents."
  },
  {
   "property": "C98",
   "status": "partial",
   "theorems": [
    "C98_symbols",
    "C98_succeeds",
    "C98_too_few_overrides_exact",
    "C98_invalid_name_exact",
    "C98_override_refuted",
    "C98_atomic_refuted"
   ],
   "note": "False for overrides of existing names and for the state after a failing call. The rest is proved."
  },
  {
   "property": "C99",
   "status": "partial",
   "theorems": [
    "C99_values",
    "C99_unknown",
    "C99_values_dict",
    "C99_symbol_values_partial",
    "C99_symbol_values_refuted"
   ],
   "note": "False for getSymbolValuesDict when two names share a symbol; proved otherwise."
  },
  {
   "property": "C100",
   "status": "proved",
   "theorems": [
    "C100_loops_closed"
   ],
   "note": ""
  },
  {
   "property": "C101",
   "status": "proved",
   "theorems": [
    "C101_loops_basis",
    "C101_loops_number"
   ],
   "note": "That networkx.cycle_basis returns a cycle basis of the graph without parallel edges is a hypothesis."
  },
  {
   "property": "C102",
   "status": "partial",
   "theorems": [
    "C102_refuted",
    "C102_sound",
    "C102_partial"
   ],
   "note": "False when the larger of two nodes with parallel branches was added first; proved otherwise. What is listed is always shared."
  },
  {
   "property": "C103",
   "status": "proved",
   "theorems": [
    "C103_shared_branches"
   ],
   "note": ""
  },
  {
   "property": "C104",
   "status": "proved",
   "theorems": [
    "C104_single_particle"
   ],
   "note": "The capacitance matrix and its inverse are arguments; C45 is about the matrix itself."
  },
  {
   "property": "C105",
   "status": "partial",
   "theorems": [
    "C105_flux_partial",
    "C105_flux_refuted"
   ],
   "note": "P and S proved for every truncation; D is the identity except for one entry, for no truncation the identity."
  },
  {
   "property": "C106",
   "status": "partial",
   "theorems": [
    "C106_grid_partial",
    "C106_grid_refuted"
   ],
   "note": "All entries of P, D and S; D has an entry off the diagonal, and S wraps around the grid."
  },
  {
   "property": "C107",
   "status": "partial",
   "theorems": [
    "C107_charge_commutator_refuted"
   ],
   "note": "False for every truncation: the diagonal of the commutator is 0; its entries are given."
  },
  {
   "property": "C108",
   "status": "partial",
   "theorems": [
    "C108_oscillator_partial",
    "C108_charge_refuted"
   ],
   "note": "Holds in the oscillator basis; in the charge basis D is exp(-2 pi i P), for every truncation."
  },
  {
   "property": "C109",
   "status": "proved",
   "theorems": [
    "C109_expr_sweep"
   ],
   "note": ""
  },
  {
   "property": "C110",
   "status": "partial",
   "theorems": [
    "C110_after_partial",
    "C110_restore",
    "C110_refuted"
   ],
   "note": "As stated false: the swept parameters are left at the last grid point. Proved: the swept parameters end at the last point, others keep their values, and setting the old values back restores all."
  },
  {
   "property": "C111",
   "status": "partial",
   "theorems": [
    "C111_asked_partial",
    "C111_refuted"
   ],
   "note": "As stated false after a raising paramSweep, whose specifications and default evaluation stay. Proved after newSweep or a successful paramSweep."
  },
  {
   "property": "C112",
   "status": "partial",
   "theorems": [
    "C112_set_partial",
    "C112_sweep_partial",
    "C112_raise_refuted",
    "C112_shared_refuted",
    "C112_sweep_refuted"
   ],
   "note": "As stated false: a raising setParameterValues, a second NumericalSystem on the same SymbolicSystem and a sweep of an oscillator impedance each leave stale numbers or operators. Proved for setParameterValues that returns and for sweeps in which no impedance depends on a swept parameter."
  },
  {
   "property": "C113",
   "status": "partial",
   "theorems": [
    "C113_coefficients_partial",
    "C113_basis_partial",
    "C113_phases_partial",
    "C113_nan",
    "C113_refuted",
    "C113_lists_refuted"
   ],
   "note": "As stated false: NaN where the operator does not mix the two levels, TypeError for lists. Proved for arrays and operators with a non-zero matrix element between the two levels."
  },
  {
   "property": "C114",
   "status": "proved",
   "theorems": [
    "C114_list",
    "C114_short"
   ],
   "note": "Exact numbers in place of complex64."
  },
  {
   "property": "C115",
   "status": "partial",
   "theorems": [
    "C115_conf_partial",
    "C115_dense",
    "C115_refuted"
   ],
   "note": "As stated false: the default of sparsesolveropts is one dictionary shared by all systems. Proved when options are only changed in dictionaries passed by the caller; always for the dense solver."
  },
  {
   "property": "C116",
   "status": "partial",
   "theorems": [
    "C116_classical_partial",
    "C116_classical_exact",
    "C116_quantum_partial",
    "C116_slip_refuted",
    "C116_defined_exact"
   ],
   "note": "As stated false: getClassicalHamiltonian leaves out phase slip nanowires (C116_slip_refuted), biases of inductors that share a node are added to both (C49), and a junction or nanowire from a node to itself makes getQuantumHamiltonian raise IndexError. Proved otherwise, without mutual inductances."
  },
  {
   "property": "C117",
   "status": "partial",
   "theorems": [
    "C117_voltage_partial",
    "C117_currents_partial",
    "C117_currents_exact",
    "C117_bias_refuted",
    "C117_units_refuted"
   ],
   "note": "As stated false: biased inductors that share a node (C117_bias_refuted) and flux quanta other than 2 pi (C117_units_refuted). Proved otherwise, without mutual inductances; in general the derivative is given exactly."
  },
  {
   "property": "C118",
   "status": "partial",
   "theorems": [
    "C118_shift_partial",
    "C118_inductors_partial",
    "C118_loops_exact",
    "C118_direction_refuted",
    "C118_shared_refuted"
   ],
   "note": "As stated false: moveFluxBias checks neither that both branches are in the same loops (C118_shared_refuted) nor their directions (C118_direction_refuted). Proved for two junctions, the second without bias, exactly when every closed walk passes both equally often; for inductors as well when phases and fluxes are proportional and biased inductors are alone at a node (C49)."
  },
  {
   "property": "C119",
   "status": "partial",
   "theorems": [
    "C119_period_partial",
    "C119_inductor_refuted",
    "C119_defined"
   ],
   "note": "As stated false: the bias of an inductor enters the inductive energy quadratically (C119_inductor_refuted). Proved for biases of junctions: the matrices are equal."
  },
  {
   "property": "C120",
   "status": "proved",
   "theorems": [
    "C120_flux",
    "C119_defined"
   ],
   "note": "C119_defined says when the Hamiltonian is defined. The flux bases are outside the quantifier."
  },
  {
   "property": "C121",
   "status": "proved",
   "theorems": [
    "C121_charge",
    "C119_defined"
   ],
   "note": "C119_defined says when the Hamiltonian is defined. The flux bases are outside the quantifier."
  },
  {
   "property": "C122",
   "status": "partial",
   "theorems": [
    "C122_loops_partial",
    "C122_move_partial",
    "C122_oscillator_refuted"
   ],
   "note": "As stated false in the oscillator basis (C122_oscillator_refuted: a node with two junctions and no inductor). Proved for circuits in which each node is in the charge basis and has no inductor, or is joined to ground by inductors (then in any basis)."
  },
  {
   "property": "C123",
   "status": "partial",
   "theorems": [
    "C123_loaded_partial"
   ],
   "note": "Proved for circuits without mutual inductances and couplings, components not named like matrix entries, at most 111 nodes, biased branches kept by the extended circuit, and sympy's inverse correct with at least two symbols in the elements read."
  },
  {
   "property": "C124",
   "status": "partial",
   "theorems": [
    "C124_inputs_partial",
    "C124_unset",
    "C124_suffix_exact",
    "C124_inductor_exact",
    "C124_refuted"
   ],
   "note": "False as stated: a bias on an inductor, and a bias of a junction whose suffix is the number of a node, make the constructor of the function fail (SyntaxError in lambdify): C124_refuted for an rf-SQUID, C124_suffix_exact and C124_inductor_exact in general. Proved for all other circuits."
  },
  {
   "property": "C125",
   "status": "partial",
   "theorems": [
    "C125_independent_exact",
    "C125_value",
    "C125_refuted"
   ],
   "note": "False as stated: a bias of a junction with the number of a node as suffix and the reduced flux of that node are the same symbol. The exact condition is proved."
  },
  {
   "property": "C126",
   "status": "proved",
   "theorems": [
    "C126_states",
    "C126_levels",
    "C126_oscillator_refuted"
   ],
   "note": "The same is false in the oscillator basis, even for the ground level and an exact eigensolver: C126_oscillator_refuted."
  },
  {
   "property": "C127",
   "status": "proved",
   "theorems": [
    "C127_states",
    "C127_levels",
    "C127_period_refuted"
   ],
   "note": "With the truncation left as it is the levels do change: C127_period_refuted."
  },
  {
   "property": "C128",
   "status": "proved",
   "theorems": [
    "C128_continuous",
    "C128_flux",
    "C128_floor"
   ],
   "note": "Eigenvectors of the displacement operators as numpy's eigh should give them (solved), as in C63."
  },
  {
   "property": "C129",
   "status": "proved",
   "theorems": [
    "C129_levels"
   ],
   "note": "Eigenvectors of the displacement operators as numpy's eigh should give them, as in C63; circuits without mutual inductances (no c_coupled entries), as in C128_floor."
  },
  {
   "property": "C130",
   "status": "proved",
   "theorems": [
    "C130_charge",
    "C130_junction_leaves"
   ],
   "note": "Eigenvectors of the displacement operators as numpy's eigh should give them, as in C63."
  },
  {
   "property": "C131",
   "status": "proved",
   "theorems": [
    "C131_same"
   ],
   "note": "The inverse matrices are given by their defining equations, as in C116; the impedances given to the oscillator basis are the same for both."
  },
  {
   "property": "C132",
   "status": "proved",
   "theorems": [
    "C132_same"
   ],
   "note": "The inverse matrices are given by their defining equations, as in C116; the impedances given to the oscillator basis are the same for both. That only the sum of the biases of parallel inductors enters is the defect of C49."
  },
  {
   "property": "C133",
   "status": "proved",
   "theorems": [
    "C133_same",
    "C133_levels"
   ],
   "note": "The inverse matrices are given by their defining equations, as in C116; the impedances given to the oscillator basis are the same for both."
  },
  {
   "property": "C134",
   "status": "proved",
   "theorems": [
    "C134_current",
    "C134_same",
    "C134_ignored",
    "C134_unset",
    "C134_one_by_one"
   ],
   "note": "In C134_unset the fuel bound only excludes Diverges, which C09 excludes."
  }
 ]
}