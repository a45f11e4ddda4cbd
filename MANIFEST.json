{
 "claims": [
  {
   "property": "C01",
   "status": "proved",
   "theorems": [
    "C01_create_spin_range",
    "C01_create_rational_range"
   ],
   "note": ""
  },
  {
   "property": "C02",
   "status": "proved",
   "theorems": [
    "C02_generate_ls_couplings",
    "C02_generate_ls_couplings_physical"
   ],
   "note": ""
  },
  {
   "property": "C03",
   "status": "partial",
   "theorems": [
    "C03_ls_integrality_partial",
    "C03_ls_integrality_refuted"
   ],
   "note": "REFUTED by the code as it is: for J=s1=s2=1/2 the coupling (L,S)=(1,1) is returned although J-(L+S) is not an integer. The positive statement for physical spin triples is C02_generate_ls_couplings_physical. C03_ls_integrality_partial: a returned coupling conserves angular momentum exactly if J+s1+s2 is an integer."
  },
  {
   "property": "C04",
   "status": "proved",
   "theorems": [
    "C04_filter_parity"
   ],
   "note": ""
  },
  {
   "property": "C05",
   "status": "proved",
   "theorems": [
    "C05_chain_accepted_iff",
    "C05_chain_accessors",
    "C05_chain_ls_couplings",
    "C05_chain_rejections"
   ],
   "note": ""
  },
  {
   "property": "C06",
   "status": "partial",
   "theorems": [
    "C06_non_state_decay_product_refuted",
    "C06_non_state_decay_product_error",
    "C06_non_state_initial_state_partial"
   ],
   "note": "REFUTED for decay products: sorting the final state by .index raises AttributeError before the isinstance check, so the documented TypeError is only reached for the initial state (the proved partial theorem)."
  },
  {
   "property": "C07",
   "status": "proved",
   "theorems": [
    "C07_decay_accepted_iff",
    "C07_chain_states_found"
   ],
   "note": ""
  },
  {
   "property": "C08",
   "status": "proved",
   "theorems": [
    "C08_subsystems_partition",
    "C08_subsystem_ids"
   ],
   "note": ""
  },
  {
   "property": "C09",
   "status": "proved",
   "theorems": [
    "C09_find_chain"
   ],
   "note": ""
  },
  {
   "property": "C10",
   "status": "proved",
   "theorems": [
    "C10_get_decay_product_ids"
   ],
   "note": ""
  },
  {
   "property": "C11",
   "status": "proved",
   "theorems": [
    "C11_scattering_angle_total",
    "C11_theta_hat_angle_total",
    "C11_zeta_angle_total",
    "C11_recursion_ends"
   ],
   "note": ""
  },
  {
   "property": "C12",
   "status": "proved",
   "theorems": [
    "C12_zeta_antisymmetric",
    "C12_zeta_vanishes_on_reference",
    "C12_zeta_default_reference",
    "C12_theta_hat_antisymmetric"
   ],
   "note": ""
  },
  {
   "property": "C13",
   "status": "proved",
   "theorems": [
    "C13_zeta_sum_rule"
   ],
   "note": ""
  },
  {
   "property": "C14",
   "status": "proved",
   "theorems": [
    "C14_theta_hat_full_turn"
   ],
   "note": ""
  },
  {
   "property": "C15",
   "status": "proved",
   "theorems": [
    "C15_scattering_angle_is_helicity_angle"
   ],
   "note": ""
  },
  {
   "property": "C16",
   "status": "proved",
   "theorems": [
    "C16_theta_hat_is_angle_between_momenta",
    "C16_zeta_is_angle_between_momenta"
   ],
   "note": ""
  },
  {
   "property": "C17",
   "status": "proved",
   "theorems": [
    "C17_angles_are_real"
   ],
   "note": ""
  },
  {
   "property": "C18",
   "status": "proved",
   "theorems": [
    "C18_angles_unit_independent"
   ],
   "note": ""
  },
  {
   "property": "C19",
   "status": "partial",
   "theorems": [
    "C19_reversed_angles_accepted_refuted",
    "C19_accepted_partial"
   ],
   "note": "REFUTED by the code as it is: the guard tests a set for membership in a set of tuples and never fires, so the reversed angles are returned (they are correct: C20). C19_accepted_partial: accepted are exactly the pairs of different final states."
  },
  {
   "property": "C20",
   "status": "proved",
   "theorems": [
    "C20_swapped_products_supplementary"
   ],
   "note": ""
  },
  {
   "property": "C21",
   "status": "proved",
   "theorems": [
    "C21_invariants"
   ],
   "note": ""
  },
  {
   "property": "C22",
   "status": "proved",
   "theorems": [
    "C22_amplitudes_defined"
   ],
   "note": ""
  },
  {
   "property": "C23",
   "status": "proved",
   "theorems": [
    "C23_symbols_defined"
   ],
   "note": ""
  },
  {
   "property": "C24",
   "status": "proved",
   "theorems": [
    "C24_dpd_formula"
   ],
   "note": ""
  },
  {
   "property": "C25",
   "status": "proved",
   "theorems": [
    "C25_helicity_conservation"
   ],
   "note": ""
  },
  {
   "property": "C26",
   "status": "proved",
   "theorems": [
    "C26_intensity_real_nonnegative",
    "C26_angles_of_the_intensity"
   ],
   "note": ""
  },
  {
   "property": "C27",
   "status": "proved",
   "theorems": [
    "C27_reference_independence"
   ],
   "note": ""
  },
  {
   "property": "C28",
   "status": "partial",
   "theorems": [
    "C28_reference_independence_refuted",
    "C28_reference_change_partial"
   ],
   "note": "REFUTED by the code as it is: Lb(1/2) -> p(1/2) K pi with chains in three subsystems gives different intensities for reference 1 and 2 at an explicit physical point, because the theta-hat angles of the three subsystems add up to a full turn, under which half-integer spins change sign. C27 is the proved positive part. C28_reference_change_partial says what holds for every decay: the intensity for another reference is the one with the opposite sign of all couplings in the third subsystem if the parent has half-integer spin (and the same intensity otherwise)."
  },
  {
   "property": "C29",
   "status": "proved",
   "theorems": [
    "C29_coefficients_equivalent",
    "C29_coefficients_exist",
    "C29_coefficients_distinct"
   ],
   "note": ""
  },
  {
   "property": "C30",
   "status": "proved",
   "theorems": [
    "C30_best_reference"
   ],
   "note": ""
  },
  {
   "property": "C31",
   "status": "proved",
   "theorems": [
    "C31_last_registered_wins"
   ],
   "note": ""
  },
  {
   "property": "C32",
   "status": "partial",
   "theorems": [
    "C32_registered_builder_used_partial",
    "C32_registered_builder_used_refuted"
   ],
   "note": "True if the resonance names of the chains differ (C32_registered_builder_used_partial). REFUTED in general: formulate() looks up the builder by resonance name, which denotes the first chain of that name."
  },
  {
   "property": "C33",
   "status": "partial",
   "theorems": [
    "C33_counted_once_partial",
    "C33_counted_once_refuted"
   ],
   "note": "True if the resonances of the chains have different labels (C33_counted_once_partial, with C24). REFUTED in general: chains that differ only in LS couplings share their helicity couplings, so the amplitude is multiplied by the number of LS chains."
  },
  {
   "property": "C34",
   "status": "partial",
   "theorems": [
    "C34_cleanup_same_value",
    "C34_cleanup_indices_partial",
    "C34_cleanup_indices_refuted"
   ],
   "note": "Same value, and the primed indices disappear (proved). REFUTED for the unprimed indices: the clean-up of the outer sum is discarded."
  },
  {
   "property": "C35",
   "status": "proved",
   "theorems": [
    "C35_products"
   ],
   "note": ""
  },
  {
   "property": "C36",
   "status": "proved",
   "theorems": [
    "C36_builder_total",
    "C36_builder_defaults",
    "C36_builder_symbols",
    "C36_builder_value",
    "C36_model_closed"
   ],
   "note": ""
  },
  {
   "property": "C37",
   "status": "partial",
   "theorems": [
    "C37_form_factor_at_mass_squared_refuted",
    "C37_unit_independent_partial"
   ],
   "note": "REFUTED by the code as it is: the decay form factor gets s = sigma**2 (mass to the fourth power), so it is not the form factor at the squared mass and its value depends on the unit of mass. Proved: exact values (C36_builder_value) and unit independence without decay form factor or in an S-wave."
  },
  {
   "property": "C38",
   "status": "proved",
   "theorems": [
    "C38_simple",
    "C38_reduces_to_simple",
    "C38_running_width",
    "C38_multichannel",
    "C38_multichannel_simple_channels",
    "C38_on_resonance",
    "C38_min_l",
    "C38_bugg",
    "C38_flatte"
   ],
   "note": ""
  },
  {
   "property": "C39",
   "status": "proved",
   "theorems": [
    "C39_signs"
   ],
   "note": ""
  },
  {
   "property": "C40",
   "status": "proved",
   "theorems": [
    "C40_child_order"
   ],
   "note": ""
  },
  {
   "property": "C41",
   "status": "proved",
   "theorems": [
    "C41_renumbering",
    "C41_idempotent",
    "C41_reaction"
   ],
   "note": ""
  },
  {
   "property": "C42",
   "status": "proved",
   "theorems": [
    "C42_general",
    "C42_three_body",
    "C42_reaction"
   ],
   "note": ""
  },
  {
   "property": "C43",
   "status": "proved",
   "theorems": [
    "C43_one_per_group",
    "C43_empty_rejected"
   ],
   "note": ""
  },
  {
   "property": "C44",
   "status": "partial",
   "theorems": [
    "C44_selects_existing_refuted",
    "C44_decay_refuted",
    "C44_selects_product_partial",
    "C44_selects_single_partial"
   ],
   "note": "REFUTED by the code as it is: the minimum is taken at each node separately, so the result can combine couplings of different transitions. Proved if the couplings occur in all combinations, or if only one node is filtered."
  },
  {
   "property": "C45",
   "status": "partial",
   "theorems": [
    "C45_repeatable_partial",
    "C45_any_iterable_refuted"
   ],
   "note": "REFUTED by the code as it is, for every non-empty input: the iterable is traversed three times, so an iterator gives the empty tuple. C45_repeatable_partial: the result is that of the sequence for all iterables that can be traversed repeatedly."
  },
  {
   "property": "C46",
   "status": "proved",
   "theorems": [
    "C46_order_independent",
    "C46_sorted"
   ],
   "note": ""
  },
  {
   "property": "C47",
   "status": "proved",
   "theorems": [
    "C47_idempotent",
    "C47_conversion"
   ],
   "note": ""
  },
  {
   "property": "C48",
   "status": "partial",
   "theorems": [
    "C48_missing_parity_refuted",
    "C48_only_with_parity"
   ],
   "note": "REFUTED by the code as it is: int(None) raises TypeError for every otherwise convertible reaction with a particle without parity; C48_only_with_parity: a conversion only succeeds if all parities are defined."
  },
  {
   "property": "C49",
   "status": "partial",
   "theorems": [
    "C49_converted_refuted",
    "C49_resonance_id_refuted",
    "C49_relabelled_partial"
   ],
   "note": "Proved for QRules transitions of one reaction with any labels, initial state first and resonance last (C49_relabelled_partial and C67). REFUTED for converted transitions (states keep their index, ValueError) and for resonance IDs below the spectator's."
  },
  {
   "property": "C50",
   "status": "proved",
   "theorems": [
    "C50_function",
    "C50_function_missing",
    "C50_distribution"
   ],
   "note": ""
  },
  {
   "property": "C51",
   "status": "proved",
   "theorems": [
    "C51_decay",
    "C51_order"
   ],
   "note": ""
  },
  {
   "property": "C52",
   "status": "partial",
   "theorems": [
    "C52_parent_helicity_refuted",
    "C52_parent_helicity_ignored_refuted",
    "C52_final_state_helicities_partial",
    "C52_formalism_partial",
    "C52_formalism_elsewhere_partial"
   ],
   "note": "REFUTED by the code as it is: the amplitude does not depend on the helicity of the initial state at all (C52_parent_helicity_ignored_refuted), so it does not vanish when l0 <> lR - lk. Proved instead: which helicities of the final state contribute, and agreement with the helicity formalism at the right helicity of the initial state."
  },
  {
   "property": "C53",
   "status": "partial",
   "theorems": [
    "C53_parity_vertices_refuted",
    "C53_flipped_term_partial"
   ],
   "note": "REFUTED by the code as it is: the flipped term of a parity vertex carries d^j_{lR,li-lj} of the unflipped helicities. Its actual value is C53_flipped_term_partial; it agrees with the formalism when li = lj (C52_formalism_partial)."
  },
  {
   "property": "C54",
   "status": "partial",
   "theorems": [
    "C54_ls_refuted"
   ],
   "note": "REFUTED by the code as it is: for every definition with an 'ls' vertex formulate raises (the theorem excludes any result); concrete definition: TypeError."
  },
  {
   "property": "C55",
   "status": "partial",
   "theorems": [
    "C55_Lc2ppiK",
    "C55_Lc2ppiK_lineshapes",
    "C55_Lc2ppiK_form_factors",
    "C55_own_values_refuted",
    "C55_last_chain_partial",
    "C55_agreement_partial"
   ],
   "note": "REFUTED by the code as it is: all BreitWigner functions share one radius symbol, so the value of the last chain wins. Proved: exact description of the parameter values (last chain), and own values if all chains with the symbol agree. In docs/Lc2ppiK.json every value other than the masses of states is kept (C55_Lc2ppiK, C55_Lc2ppiK_lineshapes, C55_Lc2ppiK_form_factors)."
  },
  {
   "property": "C56",
   "status": "partial",
   "theorems": [
    "C56_Lc2ppiK",
    "C56_own_weight_refuted",
    "C56_agreement_partial"
   ],
   "note": "REFUTED by the code as it is: chains with equal resonance name and helicities in different subsystems share their weight symbol. Proved: the weight is kept if no other chain writes another value to the symbol. In docs/Lc2ppiK.json every chain keeps its weight (C56_Lc2ppiK)."
  },
  {
   "property": "C57",
   "status": "partial",
   "theorems": [
    "C57_production_refuted",
    "C57_decay_partial",
    "C57_decay_value_partial",
    "C57_production_value_partial"
   ],
   "note": "REFUTED by the code as it is for the production vertex: m0 is used as squared mass and sigma as mass, so the value changes with the units. Proved for the decay vertex, with explicit values of both."
  },
  {
   "property": "C58",
   "status": "proved",
   "theorems": [
    "C58_sign_blanks",
    "C58_helicity",
    "C58_parity",
    "C58_parity_symmetry",
    "C58_ls",
    "C58_sign"
   ],
   "note": ""
  },
  {
   "property": "C59",
   "status": "proved",
   "theorems": [
    "C59_spectator",
    "C59_spectator_error",
    "C59_mass_symbol",
    "C59_mass_symbol_pair",
    "C59_mandelstam",
    "C59_mandelstam_production"
   ],
   "note": ""
  },
  {
   "property": "C60",
   "status": "partial",
   "theorems": [
    "C60_decay_refuted",
    "C60_particles_partial",
    "C60_decay_partial",
    "C60_chains_partial"
   ],
   "note": "REFUTED by the code as it is: a decay in which only some chains have LS couplings gives rows that are shorter than the header. Proved: rectangular for particles, and for chains exactly if they all agree on having couplings (texts without bars and newlines)."
  },
  {
   "property": "C61",
   "status": "proved",
   "theorems": [
    "C61_single",
    "C61_type",
    "C61_error"
   ],
   "note": ""
  },
  {
   "property": "C62",
   "status": "partial",
   "theorems": [
    "C62_update_refuted",
    "C62_types_refuted",
    "C62_positional_partial",
    "C62_unmodified_partial",
    "C62_updated_partial",
    "C62_fresh_partial"
   ],
   "note": "REFUTED by the code as it is: update_parameters changes the cached object that later equal requests get, and requests that differ only in the number types (1, 1.0) share an object. Proved for all histories: positional functions are right; parameters are the requested numbers overridden by the successful updates of the object; the first request of its kind in a process gets exactly what it wants."
  },
  {
   "property": "C63",
   "status": "proved",
   "theorems": [
    "C63_formulate_total",
    "C63_formulate_needs_ls"
   ],
   "note": ""
  },
  {
   "property": "C64",
   "status": "proved",
   "theorems": [
    "C64_parameter_defaults"
   ],
   "note": ""
  },
  {
   "property": "C65",
   "status": "partial",
   "theorems": [
    "C65_ascending_partial",
    "C65_insertion_order_partial",
    "C65_node_order_refuted"
   ],
   "note": "REFUTED by the code as it is: interactions.values() is unpacked in insertion order, so equal transitions give different decays. For mappings in ascending order it holds: C67_decay_of_the_reaction. C65_ascending_partial and C65_insertion_order_partial: what the order of the items means."
  },
  {
   "property": "C66",
   "status": "proved",
   "theorems": [
    "C66_pairs"
   ],
   "note": ""
  },
  {
   "property": "C67",
   "status": "proved",
   "theorems": [
    "C67_decay_of_the_reaction"
   ],
   "note": ""
  },
  {
   "property": "C68",
   "status": "proved",
   "theorems": [
    "C68_min_ls"
   ],
   "note": ""
  },
  {
   "property": "C69",
   "status": "partial",
   "theorems": [
    "C69_first_labels_partial",
    "C69_mixed_labels_refuted"
   ],
   "note": "REFUTED by the code as it is: only the labels of the first transition are checked; one order gives a decay, the other raises ValueError. C69_first_labels_partial: the order does not matter if both first transitions carry standard labels or both do not."
  },
  {
   "property": "C70",
   "status": "proved",
   "theorems": [
    "C70_dynamics",
    "C70_amplitudes",
    "C70_keys"
   ],
   "note": ""
  },
  {
   "property": "C71",
   "status": "proved",
   "theorems": [
    "C71_intensity",
    "C71_order"
   ],
   "note": ""
  },
  {
   "property": "C72",
   "status": "proved",
   "theorems": [
    "C72_total"
   ],
   "note": ""
  },
  {
   "property": "C73",
   "status": "proved",
   "theorems": [
    "C73_closed"
   ],
   "note": ""
  },
  {
   "property": "C74",
   "status": "proved",
   "theorems": [
    "C74_breit_wigner",
    "C74_multichannel"
   ],
   "note": ""
  },
  {
   "property": "C75",
   "status": "partial",
   "theorems": [
    "C75_mass_refuted",
    "C75_mass_partial"
   ],
   "note": "REFUTED by the code as it is: 1.001 GeV is shown as 1,000 MeV since int() truncates the rounded product. Proved: the shown number is the whole number of MeV up to 2^-23 MeV for floats up to 10^6 GeV, with digits in groups of three."
  },
  {
   "property": "C76",
   "status": "proved",
   "theorems": [
    "C76_particles",
    "C76_chains",
    "C76_decay",
    "C76_only",
    "C76_empty",
    "C76_single",
    "C76_mixed",
    "C76_other",
    "C76_particle_rows",
    "C76_decay_rows",
    "C76_chain_rows"
   ],
   "note": ""
  },
  {
   "property": "C77",
   "status": "proved",
   "theorems": [
    "C77_jp"
   ],
   "note": ""
  },
  {
   "property": "C78",
   "status": "proved",
   "theorems": [
    "C78_shared",
    "C78_isolated",
    "C78_update",
    "C78_total"
   ],
   "note": ""
  },
  {
   "property": "C79",
   "status": "proved",
   "theorems": [
    "C79_text",
    "C79_x64"
   ],
   "note": ""
  },
  {
   "property": "C80",
   "status": "proved",
   "theorems": [
    "C80_orthonormal_basis",
    "C80_change_of_basis",
    "C80_max_L"
   ],
   "note": ""
  },
  {
   "property": "C81",
   "status": "proved",
   "theorems": [
    "C81_helicity_reversal",
    "C81_count",
    "C81_all_parity_conserving"
   ],
   "note": ""
  },
  {
   "property": "C82",
   "status": "proved",
   "theorems": [
    "C82_product",
    "C82_outcome"
   ],
   "note": ""
  },
  {
   "property": "C83",
   "status": "proved",
   "theorems": [
    "C83_additive",
    "C83_switched_off"
   ],
   "note": ""
  },
  {
   "property": "C84",
   "status": "proved",
   "theorems": [
    "C84_basis_equivalence"
   ],
   "note": ""
  },
  {
   "property": "C85",
   "status": "proved",
   "theorems": [
    "C85_parity_conservation"
   ],
   "note": ""
  },
  {
   "property": "C86",
   "status": "proved",
   "theorems": [
    "C86_cyclic_relabelling"
   ],
   "note": ""
  },
  {
   "property": "C87",
   "status": "proved",
   "theorems": [
    "C87_exchanged_labels"
   ],
   "note": ""
  },
  {
   "property": "C88",
   "status": "partial",
   "theorems": [
    "C88_identical_particles_partial",
    "C88_identical_particles_refuted"
   ],
   "note": "REFUTED by the code as it is: the couplings of a resonance have the same symbols in both subsystems, but the sign (-1)^(J+J_R+J_k) of the exchange is missing; for D -> pi pi K with a spin-1 and a spin-0 pi K resonance, all couplings 1, the intensity is not symmetric. Proved for all decays in which this sign is the same for all chains (LS couplings at the decay node or spinless final states, reference subsystem not exchanged)."
  },
  {
   "property": "C89",
   "status": "proved",
   "theorems": [
    "C89_relabelled_lineshape",
    "C89_relabelled_breit_wigner_model",
    "C89_identical_particles_breit_wigner"
   ],
   "note": ""
  },
  {
   "property": "C90",
   "status": "proved",
   "theorems": [
    "C90_words",
    "C90_couplings",
    "C90_chain"
   ],
   "note": ""
  },
  {
   "property": "C91",
   "status": "proved",
   "theorems": [
    "C91_particle",
    "C91_coupling",
    "C91_node"
   ],
   "note": ""
  },
  {
   "property": "C92",
   "status": "proved",
   "theorems": [
    "C92_one_subsystem"
   ],
   "note": ""
  },
  {
   "property": "C93",
   "status": "proved",
   "theorems": [
    "C93_spinless"
   ],
   "note": ""
  },
  {
   "property": "C94",
   "status": "proved",
   "theorems": [
    "C94_projection",
    "C94_range",
    "C94_breit_wigner"
   ],
   "note": ""
  },
  {
   "property": "C95",
   "status": "proved",
   "theorems": [
    "C95_linear",
    "C95_interference",
    "C95_common_factor",
    "C95_parallelogram"
   ],
   "note": ""
  },
  {
   "property": "C96",
   "status": "partial",
   "theorems": [
    "C96_divisions",
    "C96_no_poles_partial",
    "C96_no_poles_refuted"
   ],
   "note": "False in general: with decay form factors (evaluated at sigma^2, cf. C37) there are poles at physical points (C96_no_poles_refuted). Proved for decay form factors in S waves or with sigma^2 above the squared threshold, and for all models without decay form factors."
  },
  {
   "property": "C97",
   "status": "proved",
   "theorems": [
    "C97_spherical_waves",
    "C97_threshold",
    "C97_s_wave",
    "C97_increasing",
    "C97_normalised"
   ],
   "note": ""
  },
  {
   "property": "C98",
   "status": "proved",
   "theorems": [
    "C98_units"
   ],
   "note": ""
  },
  {
   "property": "C99",
   "status": "proved",
   "theorems": [
    "C99_decay_of_reaction",
    "C99_workflow"
   ],
   "note": ""
  },
  {
   "property": "C100",
   "status": "proved",
   "theorems": [
    "C100_order_of_chains"
   ],
   "note": ""
  },
  {
   "property": "C101",
   "status": "proved",
   "theorems": [
    "C101_no_interference"
   ],
   "note": ""
  },
  {
   "property": "C102",
   "status": "proved",
   "theorems": [
    "C102_polynomial_angle",
    "C102_polynomial_line"
   ],
   "note": ""
  },
  {
   "property": "C103",
   "status": "proved",
   "theorems": [
    "C103_amplitude",
    "C103_symmetric",
    "C103_line",
    "C103_no_interference"
   ],
   "note": ""
  },
  {
   "property": "C104",
   "status": "proved",
   "theorems": [
    "C104_spin",
    "C104_forward",
    "C104_backward",
    "C104_ends"
   ],
   "note": ""
  },
  {
   "property": "C105",
   "status": "partial",
   "theorems": [
    "C105_relativistic_partial",
    "C105_min_l_partial",
    "C105_bugg_partial",
    "C105_flatte_partial",
    "C105_multichannel_partial",
    "C105_breit_wigner_partial",
    "C105_simple_partial",
    "C105_indexed_partial",
    "C105_balanced_partial",
    "C105_total_partial",
    "C105_channel_refuted"
   ],
   "note": "False of the code for ChannelArguments: the braces of its _latex_repr_ template are the wrong way round, so printing raises KeyError for every object (C105_channel_refuted). Proved for all other lineshapes and for indexed symbols."
  },
  {
   "property": "C106",
   "status": "proved",
   "theorems": [
    "C106_rows",
    "C106_balanced"
   ],
   "note": ""
  },
  {
   "property": "C107",
   "status": "proved",
   "theorems": [
    "C107_lists",
    "C107_get_subsystem",
    "C107_reference",
    "C107_formulate",
    "C107_no_subsystems"
   ],
   "note": ""
  },
  {
   "property": "C108",
   "status": "proved",
   "theorems": [
    "C108_lineshape",
    "C108_order_of_products",
    "C108_helicity_basis"
   ],
   "note": ""
  },
  {
   "property": "C109",
   "status": "proved",
   "theorems": [
    "C109_exchanged_labels",
    "C109_identical_particles",
    "C109_breit_wigner"
   ],
   "note": ""
  },
  {
   "property": "C110",
   "status": "proved",
   "theorems": [
    "C110_permuted_reaction",
    "C110_closed_decay",
    "C110_symmetric_intensity"
   ],
   "note": ""
  },
  {
   "property": "C111",
   "status": "proved",
   "theorems": [
    "C111_accepted",
    "C111_missing_helicities",
    "C111_weight"
   ],
   "note": ""
  },
  {
   "property": "C112",
   "status": "partial",
   "theorems": [
    "C112_contradictory_topology_refuted",
    "C112_topology_partial"
   ],
   "note": "False of the code: spectators in vertices and topology are not compared, and the chain contributes to the subsystem named by the topology (C112_contradictory_topology_refuted). Proved: subsystems are those in the topologies."
  },
  {
   "property": "C113",
   "status": "proved",
   "theorems": [
    "C113_expressions",
    "C113_continuous",
    "C113_breit_wigner"
   ],
   "note": ""
  },
  {
   "property": "C114",
   "status": "proved",
   "theorems": [
    "C114_phase_and_conjugation",
    "C114_conjugate_couplings",
    "C114_opposite_widths"
   ],
   "note": ""
  },
  {
   "property": "C115",
   "status": "proved",
   "theorems": [
    "C115_spins_only",
    "C115_same_labels"
   ],
   "note": ""
  },
  {
   "property": "C116",
   "status": "proved",
   "theorems": [
    "C116_agreement",
    "C116_variables",
    "C116_breit_wigner"
   ],
   "note": ""
  },
  {
   "property": "C117",
   "status": "proved",
   "theorems": [
    "C117_nonnegative",
    "C117_linear",
    "C117_interference",
    "C117_common_factor",
    "C117_additive",
    "C117_builtin"
   ],
   "note": ""
  },
  {
   "property": "C118",
   "status": "proved",
   "theorems": [
    "C118_reference_change",
    "C118_reference_independence"
   ],
   "note": ""
  },
  {
   "property": "C119",
   "status": "proved",
   "theorems": [
    "C119_same_success",
    "C119_all_subsystems"
   ],
   "note": ""
  },
  {
   "property": "C120",
   "status": "proved",
   "theorems": [
    "C120_any_basis",
    "C120_two_bases"
   ],
   "note": ""
  },
  {
   "property": "C121",
   "status": "proved",
   "theorems": [
    "C121_parity_any_basis"
   ],
   "note": ""
  },
  {
   "property": "C122",
   "status": "proved",
   "theorems": [
    "C122_couplings",
    "C122_parts"
   ],
   "note": ""
  },
  {
   "property": "C123",
   "status": "proved",
   "theorems": [
    "C123_text",
    "C123_order"
   ],
   "note": ""
  },
  {
   "property": "C124",
   "status": "proved",
   "theorems": [
    "C124_part",
    "C124_parts",
    "C124_switched_off",
    "C124_weights"
   ],
   "note": ""
  },
  {
   "property": "C125",
   "status": "proved",
   "theorems": [
    "C125_value",
    "C125_expanded",
    "C125_defined",
    "C125_inputs",
    "C125_serial_value",
    "C125_serial_defined",
    "C125_serial_inputs"
   ],
   "note": ""
  },
  {
   "property": "C126",
   "status": "proved",
   "theorems": [
    "C126_common_factor",
    "C126_units",
    "C126_opposite_widths"
   ],
   "note": ""
  },
  {
   "property": "C127",
   "status": "proved",
   "theorems": [
    "C127_divisions",
    "C127_no_poles",
    "C127_continuous",
    "C127_builtin_continuous",
    "C127_production_pole"
   ],
   "note": ""
  },
  {
   "property": "C128",
   "status": "proved",
   "theorems": [
    "C128_multichannel",
    "C128_flatte",
    "C128_breit_wigner",
    "C128_widths",
    "C128_bugg",
    "C128_half_maximum",
    "C128_normalised"
   ],
   "note": ""
  },
  {
   "property": "C129",
   "status": "partial",
   "theorems": [
    "C129_nominal_width_partial",
    "C129_nominal_width_refuted",
    "C129_threshold_partial",
    "C129_s_wave",
    "C129_threshold_refuted",
    "C129_second_channel_partial",
    "C129_first_channel_partial",
    "C129_first_channel_refuted"
   ],
   "note": "False of the code. ChannelArguments has no phase-space factor and its form factor is not normalised at the mass of the resonance: P and higher waves do not have the given width (C129_nominal_width_refuted), S waves have a width at their threshold (C129_threshold_refuted). Flatt\u00e9SWave normalises its first channel to the break-up momentum of the second one (C129_first_channel_refuted). Proved: the exact conditions under which the widths are the given ones, and that P and higher waves have no width at the threshold."
  },
  {
   "property": "C130",
   "status": "proved",
   "theorems": [
    "C130_definition",
    "C130_labels",
    "C130_builtin"
   ],
   "note": ""
  },
  {
   "property": "C131",
   "status": "proved",
   "theorems": [
    "C131_transform",
    "C131_frames",
    "C131_spinor",
    "C131_momenta",
    "C131_unique"
   ],
   "note": ""
  },
  {
   "property": "C132",
   "status": "proved",
   "theorems": [
    "C132_spin_matrix",
    "C132_exists",
    "C132_coherent_sum",
    "C132_sign",
    "C132_intensity"
   ],
   "note": ""
  },
  {
   "property": "C133",
   "status": "proved",
   "theorems": [
    "C133_coherent_sum",
    "C133_intensity"
   ],
   "note": ""
  },
  {
   "property": "C134",
   "status": "proved",
   "theorems": [
    "C134_coupling",
    "C134_turn",
    "C134_vertex",
    "C134_spinless",
    "C134_chains",
    "C134_frames",
    "C134_rest_frames"
   ],
   "note": ""
  },
  {
   "property": "C135",
   "status": "proved",
   "theorems": [
    "C135_angles",
    "C135_helicities",
    "C135_couplings"
   ],
   "note": ""
  },
  {
   "property": "C136",
   "status": "proved",
   "theorems": [
    "C136_defined",
    "C136_sum",
    "C136_boundary",
    "C136_conserved",
    "C136_intensity"
   ],
   "note": ""
  },
  {
   "property": "C137",
   "status": "proved",
   "theorems": [
    "C137_envelope",
    "C137_LS",
    "C137_attained",
    "C137_serial"
   ],
   "note": ""
  },
  {
   "property": "C138",
   "status": "proved",
   "theorems": [
    "C138_projection",
    "C138_different"
   ],
   "note": ""
  },
  {
   "property": "C139",
   "status": "proved",
   "theorems": [
    "C139_serial",
    "C139_serial_lineshapes",
    "C139_expressions",
    "C139_derivative",
    "C139_breit_wigner"
   ],
   "note": ""
  },
  {
   "property": "C140",
   "status": "proved",
   "theorems": [
    "C140_trace",
    "C140_hermitian",
    "C140_positive",
    "C140_bound",
    "C140_reference",
    "C140_parity",
    "C140_parity_any_basis"
   ],
   "note": ""
  },
  {
   "property": "C141",
   "status": "proved",
   "theorems": [
    "C141_limits",
    "C141_bounded",
    "C141_breit_wigner",
    "C141_serial",
    "C141_serial_lineshapes"
   ],
   "note": ""
  },
  {
   "property": "C142",
   "status": "proved",
   "theorems": [
    "C142_unique",
    "C142_rate",
    "C142_breit_wigner",
    "C142_serial",
    "C142_serial_lineshapes"
   ],
   "note": ""
  },
  {
   "property": "C143",
   "status": "proved",
   "theorems": [
    "C143_order",
    "C143_breit_wigner",
    "C143_serial",
    "C143_serial_lineshapes"
   ],
   "note": ""
  },
  {
   "property": "C144",
   "status": "proved",
   "theorems": [
    "C144_couplings",
    "C144_parts",
    "C144_waves"
   ],
   "note": ""
  },
  {
   "property": "C145",
   "status": "proved",
   "theorems": [
    "C145_phase",
    "C145_d_wave",
    "C145_threshold",
    "C145_constant_width"
   ],
   "note": ""
  },
  {
   "property": "C146",
   "status": "proved",
   "theorems": [
    "C146_parts",
    "C146_weights",
    "C146_fractions",
    "C146_builtin"
   ],
   "note": ""
  },
  {
   "property": "C147",
   "status": "proved",
   "theorems": [
    "C147_units",
    "C147_cyclic_labels",
    "C147_exchanged_labels",
    "C147_breit_wigner",
    "C147_identical_particles",
    "C147_reference",
    "C147_serial_units",
    "C147_serial_labels",
    "C147_serial_reference",
    "C147_fractions"
   ],
   "note": ""
  },
  {
   "property": "C148",
   "status": "proved",
   "theorems": [
    "C148_constant_width",
    "C148_running_width"
   ],
   "note": ""
  },
  {
   "property": "C149",
   "status": "partial",
   "theorems": [
    "C149_flatte",
    "C149_flatte_closed",
    "C149_flatte_continuous",
    "C149_breit_wigner",
    "C149_multichannel_refuted",
    "C149_negative_width_refuted",
    "C149_pole_refuted"
   ],
   "note": "False of the code for MultichannelBreitWigner: ChannelArguments has no phase-space factor, so a closed S wave absorbs like an open one (C149_multichannel_refuted), a closed P wave has a negative width (C149_negative_width_refuted), and the two can cancel so that the amplitude has a pole at a real value of s (C149_pole_refuted). Proved in full for Flatt\u00e9SWave, BreitWigner and RelativisticBreitWigner."
  },
  {
   "property": "C150",
   "status": "partial",
   "theorems": [
    "C150_constant_width_partial",
    "C150_flatte_partial",
    "C150_real_refuted",
    "C150_s_wave",
    "C150_pole_refuted"
   ],
   "note": "False of the code for energy-dependent widths: for every mass below the threshold and every angular momentum, BreitWigner and RelativisticBreitWigner are real above the threshold (C150_real_refuted), because the width is normalised to the imaginary phase-space factor at the mass; a P wave can have a pole at any value of s above the threshold (C150_pole_refuted). Proved for constant widths and for Flatt\u00e9SWave; S waves have no pole above the threshold."
  },
  {
   "property": "C151",
   "status": "partial",
   "theorems": [
    "C151_LS",
    "C151_breit_wigner",
    "C151_term",
    "C151_helicity_partial",
    "C151_all_parameters_refuted"
   ],
   "note": "Proved for the LS basis and for all couplings of the helicity basis with |li - lj| <= J. False of the code otherwise: formulate only skips resonance helicities that do not match the parent, so decay couplings (and coefficients) with |li - lj| > J are parameters of the model without any effect on the intensity (C151_helicity_partial, C151_all_parameters_refuted)."
  },
  {
   "property": "C152",
   "status": "proved",
   "theorems": [
    "C152_rescaled",
    "C152_fixed_to_one",
    "C152_products_determined",
    "C152_one_factor",
    "C152_LS_determined"
   ],
   "note": ""
  },
  {
   "property": "C153",
   "status": "proved",
   "theorems": [
    "C153_weights",
    "C153_effect",
    "C153_no_effect",
    "C153_Lc2ppiK"
   ],
   "note": ""
  },
  {
   "property": "C154",
   "status": "proved",
   "theorems": [
    "C154_parts",
    "C154_no_interference"
   ],
   "note": ""
  },
  {
   "property": "C155",
   "status": "proved",
   "theorems": [
    "C155_projection",
    "C155_lineshapes",
    "C155_Lc2ppiK"
   ],
   "note": ""
  },
  {
   "property": "C156",
   "status": "partial",
   "theorems": [
    "C156_incoherent_partial",
    "C156_refuted",
    "C156_cancel"
   ],
   "note": "Proved for groups of chains without a common combination of helicities of the final states (C156_incoherent_partial). Refuted for groups that only differ in the helicity of the resonance (C156_refuted, C156_cancel): amplitudes of model files do not conserve the helicity of the initial state, see C52."
  },
  {
   "property": "C157",
   "status": "proved",
   "theorems": [
    "C157_spins",
    "C157_lineshapes",
    "C157_Lc2ppiK",
    "C157_rate",
    "C157_Lc2ppiK_rate"
   ],
   "note": ""
  },
  {
   "property": "C158",
   "status": "proved",
   "theorems": [
    "C158_opposite",
    "C158_Lc2ppiK",
    "C158_rate",
    "C158_Lc2ppiK_rate"
   ],
   "note": ""
  },
  {
   "property": "C159",
   "status": "proved",
   "theorems": [
    "C159_narrow"
   ],
   "note": ""
  }
 ]
}