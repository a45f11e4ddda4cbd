{"id": "C01", "title": "Spin ranges are exactly the allowed projections", "statement": "create_spin_range(j) returns exactly -j, -j+1, ..., +j in ascending order (2j+1 values, step 1, every value an allowed projection and no other); a negative spin gives an empty list; create_rational_range(a,b) returns exactly the values a+n (n natural) that are below b+1/2.", "quantifier": "every (half-)integer spin j / every pair of bounds", "why_tests_cant": "spins are unbounded; tests try 1/2 and 3/2", "anchors": ["src/ampform_dpd/spin.py:create_spin_range", "src/ampform_dpd/spin.py:create_rational_range", "src/ampform_dpd/spin.py:arange"]}
{"id": "C02", "title": "LS couplings are sound and complete", "statement": "generate_ls_couplings(J,s1,s2,max_L) returns, sorted and without repetition, exactly the pairs (L,S) with 0<=L<=max_L, |s1-s2|<=S<=s1+s2 in integer steps and |L-S|<=J<=L+S; when J+s1+s2 is an integer these are exactly the couplings allowed by angular-momentum addition.", "quantifier": "all spins J,s1,s2 and all max_L", "why_tests_cant": "infinite set of spin triples", "anchors": ["src/ampform_dpd/spin.py:generate_ls_couplings"]}
{"id": "C03", "title": "LS couplings conserve angular momentum for every spin triple", "statement": "generate_ls_couplings only returns couplings (L,S) that can be added to the parent spin J, i.e. J-(L+S) is an integer, for every spin triple the function accepts.", "quantifier": "all spins J,s1,s2", "why_tests_cant": "the doctest only uses a physical triple", "anchors": ["src/ampform_dpd/spin.py:generate_ls_couplings"]}
{"id": "C04", "title": "Parity filter keeps exactly the parity-conserving couplings", "statement": "filter_parity_violating_ls keeps exactly the couplings with eta0 = eta1*eta2*(-1)^L, in their original order, and is idempotent.", "quantifier": "every list of couplings and all parities", "why_tests_cant": "lists are unbounded", "anchors": ["src/ampform_dpd/spin.py:filter_parity_violating_ls"]}
{"id": "C05", "title": "Decay chains are accepted exactly when they are three-body chains", "statement": "ThreeBodyDecayChain(decay) succeeds exactly if the production node has a resonance child and a spectator State, the initial state and the three outgoing particles are States, and the four IDs are pairwise distinct; an accepted chain's final_state is sorted by ID and is exactly {spectator} + decay_products.", "quantifier": "every isobar tree", "why_tests_cant": "tests only build valid chains", "anchors": ["src/ampform_dpd/decay.py:ThreeBodyDecayChain", "src/ampform_dpd/decay.py:IsobarNode"]}
{"id": "C06", "title": "A decay product that is not a State is reported as a TypeError", "statement": "Constructing a chain whose initial or final state contains a particle that is not a State raises the documented TypeError.", "quantifier": "every isobar tree with a non-State outer particle", "why_tests_cant": "error branches are not exercised by the test-suite", "anchors": ["src/ampform_dpd/decay.py:ThreeBodyDecayChain.__attrs_post_init__"]}
{"id": "C07", "title": "A ThreeBodyDecay only contains chains with its own initial and final state", "statement": "ThreeBodyDecay(states, chains) succeeds exactly if every chain starts at states[0] and ends in exactly the non-zero-index states; otherwise a ValueError is raised; so in an accepted decay every chain can be looked up against decay.final_state without a KeyError.", "quantifier": "every states dict and every sequence of chains", "why_tests_cant": "unbounded number of chains", "anchors": ["src/ampform_dpd/decay.py:ThreeBodyDecay"]}
{"id": "C08", "title": "Subsystems partition the chains", "statement": "get_subsystem(k) never fails on a valid decay, keeps exactly the chains with spectator k in their original order, is idempotent, and the subsystems of all spectators together contain every chain exactly once; a UserWarning is emitted exactly when the subsystem is empty.", "quantifier": "every valid decay and every k", "why_tests_cant": "unbounded number of chains", "anchors": ["src/ampform_dpd/decay.py:ThreeBodyDecay.get_subsystem", "src/ampform_dpd/decay.py:_get_subsystem_ids"]}
{"id": "C09", "title": "find_chain returns the first chain of a resonance", "statement": "find_chain(name) returns the first chain (in tuple order) whose resonance has that name, and raises KeyError exactly if there is none.", "quantifier": "every decay and every name", "why_tests_cant": "unbounded number of chains", "anchors": ["src/ampform_dpd/decay.py:ThreeBodyDecay.find_chain"]}
{"id": "C10", "title": "Decay product IDs are the cyclic complement of the spectator", "statement": "get_decay_product_ids(k) returns (i,j) such that (k,i,j) is a cyclic permutation of (1,2,3), and raises ValueError for any other integer.", "quantifier": "every integer", "why_tests_cant": "argument is any int", "anchors": ["src/ampform_dpd/decay.py:get_decay_product_ids"]}
{"id": "C11", "title": "Angle functions are total, terminate and reject exactly the invalid IDs", "statement": "formulate_scattering_angle, formulate_theta_hat_angle and formulate_zeta_angle terminate for every integer argument and return an expression exactly for the documented ID combinations: scattering angle iff both IDs in 1..3 and different; theta-hat iff both in 1..3; zeta for every rotated state 0..3, aligned 1..3 and reference 1..3 (and 0 for a final state); otherwise ValueError/NotImplementedError, except that an alignment angle of a subsystem with itself is 0 whatever the IDs.", "quantifier": "all integer IDs", "why_tests_cant": "the functions are recursive over an infinite argument domain", "anchors": ["src/ampform_dpd/angles.py:formulate_scattering_angle", "src/ampform_dpd/angles.py:formulate_theta_hat_angle", "src/ampform_dpd/angles.py:formulate_zeta_angle"]}
{"id": "C12", "title": "Alignment angles are antisymmetric and vanish on the reference", "statement": "For every rotated state, zeta^i_{j(k)} = -zeta^i_{k(j)}, zeta^i_{j(j)} = 0 and zeta^i_{k(0)} = zeta^i_{k(i)}; same for theta-hat.", "quantifier": "all IDs and all kinematic points", "why_tests_cant": "must hold for each kinematic point", "anchors": ["src/ampform_dpd/angles.py:formulate_zeta_angle", "src/ampform_dpd/angles.py:formulate_theta_hat_angle"]}
{"id": "C13", "title": "Alignment angles of the final states add up", "statement": "zeta^i_{j(k)} = zeta^i_{j(l)} + zeta^i_{l(k)} for every final state i and all subsystems j,k,l, at every physical phase-space point (Eq. A9 and its permutations).", "quantifier": "all masses and Mandelstam variables in the physical region", "why_tests_cant": "the test checks one kinematic point to 14 digits", "anchors": ["src/ampform_dpd/angles.py:formulate_zeta_angle"]}
{"id": "C14", "title": "The three theta-hat angles close to a full turn", "statement": "theta-hat_{3(1)} + theta-hat_{1(2)} + theta-hat_{2(3)} = 2*pi at every physical point (they are the angles between three momenta that sum to zero).", "quantifier": "all masses and Mandelstam variables in the physical region", "why_tests_cant": "continuum of kinematic points", "anchors": ["src/ampform_dpd/angles.py:formulate_theta_hat_angle"]}
{"id": "C15", "title": "The scattering angle is the helicity angle of the momenta", "statement": "For any momenta of the three final-state particles in the rest frame of the isobar (ij), the expression of formulate_scattering_angle(i,j), evaluated at the invariant masses of those momenta, is the angle between particle i and the direction opposite to the spectator.", "quantifier": "all momenta and masses", "why_tests_cant": "continuum of kinematic points", "anchors": ["src/ampform_dpd/angles.py:formulate_scattering_angle"]}
{"id": "C16", "title": "Theta-hat and zeta angles are the angles between momenta", "statement": "Evaluated at the invariants of any momentum configuration, theta-hat_{i(j)} is the angle between the momenta of i and j in the rest frame of the decaying particle, and each zeta^i_{j(k)} is the angle between the momenta of the corresponding two particles in the rest frame of particle i.", "quantifier": "all momenta and masses", "why_tests_cant": "continuum of kinematic points", "anchors": ["src/ampform_dpd/angles.py:formulate_theta_hat_angle", "src/ampform_dpd/angles.py:formulate_zeta_angle"]}
{"id": "C17", "title": "All angles are real in the physical region", "statement": "At every physical phase-space point with non-vanishing break-up momenta the argument of every arccosine lies in [-1,1], so every variable of an amplitude model is a real angle.", "quantifier": "all masses and Mandelstam variables in the physical region", "why_tests_cant": "continuum of kinematic points", "anchors": ["src/ampform_dpd/angles.py"]}
{"id": "C18", "title": "Angles do not depend on the unit of mass", "statement": "Scaling all masses by c and all Mandelstam variables by c^2 leaves every angle unchanged.", "quantifier": "all c>0 and all kinematic points, all ID combinations", "why_tests_cant": "continuum", "anchors": ["src/ampform_dpd/angles.py"]}
{"id": "C19", "title": "Reversed scattering angles are rejected", "statement": "formulate_scattering_angle(2,1), (3,2) and (1,3) raise NotImplementedError, as announced by the guard in the code.", "quantifier": "all ID pairs", "why_tests_cant": "the branch is not exercised by any test", "anchors": ["src/ampform_dpd/angles.py:formulate_scattering_angle"]}
{"id": "C20", "title": "Swapping the decay products gives the supplementary scattering angle", "statement": "theta_ji = pi - theta_ij at every physical point whose invariants satisfy the Mandelstam relation.", "quantifier": "all masses and Mandelstam variables", "why_tests_cant": "continuum", "anchors": ["src/ampform_dpd/angles.py:formulate_scattering_angle"]}
{"id": "C21", "title": "Invariants express four-momentum conservation", "statement": "formulate_invariants(decay) expresses each Mandelstam variable by the two others such that for any three momenta the relation holds with the actual invariant masses; substituting one definition in another is an identity; the mass symbols are m0..m3 in this order whatever the order of decay.states.", "quantifier": "all decays, all momenta", "why_tests_cant": "continuum / all dict orders", "anchors": ["src/ampform_dpd/__init__.py:formulate_invariants", "src/ampform_dpd/__init__.py:formulate_third_mandelstam", "src/ampform_dpd/__init__.py:create_mass_symbol_mapping"]}
{"id": "C22", "title": "Every amplitude in the intensity is defined", "statement": "Each amplitude symbol A^k[l0,l1,l2,l3] that appears when the sums of the intensity are expanded is a key of model.amplitudes, and the keys are exactly the subsystems times all helicity combinations.", "quantifier": "every valid decay, any spins, any options", "why_tests_cant": "number of helicity combinations and chains is unbounded", "anchors": ["src/ampform_dpd/__init__.py:DalitzPlotDecompositionBuilder.formulate", "src/ampform_dpd/__init__.py:DalitzPlotDecompositionBuilder.formulate_aligned_amplitude"]}
{"id": "C23", "title": "Every coupling and angle in the model has a definition", "statement": "After expansion (terms with vanishing Kronecker delta dropped), every coupling/coefficient symbol in model.amplitudes and every symbol of its dynamics has an entry in model.parameter_defaults and every angle in amplitudes and intensity has an entry in model.variables.", "quantifier": "every valid decay, options and builder configuration", "why_tests_cant": "unbounded helicity combinations", "anchors": ["src/ampform_dpd/__init__.py:DalitzPlotDecompositionBuilder.formulate_subsystem_amplitude", "src/ampform_dpd/__init__.py:_AlignmentWignerGenerator"]}
{"id": "C24", "title": "Subsystem amplitudes equal the DPD formula", "statement": "The value of A^k[l0..l3] is sum over chains of the subsystem and resonance helicities of delta(l0,lR-lk) (-1)^(jk-lk) X d^jR_{lR,li-lj}(theta_ij) Hprod Hdec (-1)^(jj-lj), with H expanded in LS couplings and Clebsch-Gordan coefficients if the LS basis is chosen (DPD paper, docs/index.ipynb).", "quantifier": "all decays, helicities and parameter values", "why_tests_cant": "unbounded", "anchors": ["src/ampform_dpd/__init__.py:DalitzPlotDecompositionBuilder.formulate_subsystem_amplitude", "src/ampform_dpd/__init__.py:_formulate_clebsch_gordan_factors"]}
{"id": "C25", "title": "Helicity conservation", "statement": "A^k[l0..l3] is zero unless some chain of subsystem k has a resonance with |l0+lk| <= jR and |li-lj| <= jR.", "quantifier": "all decays, helicities and parameter values", "why_tests_cant": "unbounded", "anchors": ["src/ampform_dpd/__init__.py:DalitzPlotDecompositionBuilder.formulate_subsystem_amplitude"]}
{"id": "C26", "title": "The intensity is real and non-negative", "statement": "model.intensity evaluates to a sum of squared moduli over all helicities: a real, non-negative number at every kinematic point and for all parameter values.", "quantifier": "all decays, parameters and kinematic points", "why_tests_cant": "continuum", "anchors": ["src/ampform_dpd/__init__.py:DalitzPlotDecompositionBuilder.formulate"]}
{"id": "C27", "title": "The reference subsystem does not matter (integer spin or at most two subsystems)", "statement": "formulate(reference_subsystem=r) gives the same intensity for every r at every physical point, if the decaying particle has integer spin, or with a single subsystem for any spin.", "quantifier": "all decays with integer initial spin, all physical points, all parameters", "why_tests_cant": "continuum and unbounded spins", "anchors": ["src/ampform_dpd/__init__.py:DalitzPlotDecompositionBuilder.formulate_aligned_amplitude", "src/ampform_dpd/__init__.py:_AlignmentWignerGenerator"]}
{"id": "C28", "title": "The reference subsystem does not matter (any initial spin)", "statement": "formulate(reference_subsystem=r) gives the same intensity for every r at every physical point, also for a decaying particle of half-integer spin with chains in all three subsystems.", "quantifier": "all decays, all physical points", "why_tests_cant": "needs all three subsystems interfering", "anchors": ["src/ampform_dpd/__init__.py:DalitzPlotDecompositionBuilder.formulate_aligned_amplitude", "src/ampform_dpd/angles.py:formulate_theta_hat_angle"]}
{"id": "C29", "title": "One coefficient per chain is equivalent to products of couplings", "statement": "For any values of the couplings, the model formulated with use_coefficients=True takes the same amplitudes and intensity when each coefficient is set to the product of the two couplings it replaces, and different coupling pairs of one resonance never share a coefficient.", "quantifier": "all decays, bases and coupling values", "why_tests_cant": "unbounded", "anchors": ["src/ampform_dpd/__init__.py:_create_scaling_factors", "src/ampform_dpd/__init__.py:_create_coupling_symbol"]}
{"id": "C30", "title": "The automatic reference subsystem has the most chains", "statement": "With reference_subsystem=None the reference is a subsystem of the decay that has a maximal number of chains (the smallest ID on a tie); ValueError iff the decay has no chains; an explicit reference outside the decay warns and nothing else.", "quantifier": "all decays", "why_tests_cant": "unbounded number of chains", "anchors": ["src/ampform_dpd/__init__.py:_get_best_reference_subsystems", "src/ampform_dpd/__init__.py:_check_reference_subsystems"]}
{"id": "C31", "title": "Dynamics registry: the last registered builder wins", "statement": "After any sequence of register_builder calls, get_builder(identifier) returns the builder of the last successful registration for that chain, or a builder of the constant 1; registration for one chain does not affect other chains; unknown identifiers raise and change nothing.", "quantifier": "all histories of register_builder calls", "why_tests_cant": "unbounded histories", "anchors": ["src/ampform_dpd/__init__.py:DynamicsConfigurator"]}
{"id": "C32", "title": "A builder registered for a chain is used for that chain", "statement": "formulate() uses for each chain the dynamics builder that was registered for that very chain.", "quantifier": "all decays and registration histories", "why_tests_cant": "tests register the same builder for every chain", "anchors": ["src/ampform_dpd/__init__.py:DynamicsConfigurator", "src/ampform_dpd/__init__.py:DalitzPlotDecompositionBuilder.formulate_subsystem_amplitude"]}
{"id": "C33", "title": "In the helicity basis each helicity amplitude is counted once", "statement": "In the helicity basis a coupling product H^prod[R,..] H^dec[R,..] of a resonance enters the subsystem amplitude once.", "quantifier": "all decays", "why_tests_cant": "tests apply min_ls filter consistently", "anchors": ["src/ampform_dpd/__init__.py:DalitzPlotDecompositionBuilder.formulate_subsystem_amplitude", "src/ampform_dpd/__init__.py:_create_coupling_symbol"]}
{"id": "C34", "title": "cleanup_summations removes the sums over spinless helicities without changing the value", "statement": "With cleanup_summations=True the helicity indices of spinless states disappear from the summations of the intensity and the value of the intensity stays the same.", "quantifier": "all decays", "why_tests_cant": "all combinations of spins", "anchors": ["src/ampform_dpd/__init__.py:DalitzPlotDecompositionBuilder.formulate"]}
{"id": "C35", "title": "Products of DefinedExpressions", "statement": "Multiplying DefinedExpressions multiplies the values, has DefinedExpression() as unit, is associative in value and parameters, keeps every parameter of both operands and prefers the right operand's default; operands are not modified.", "quantifier": "all expressions and parameter dicts", "why_tests_cant": "unbounded", "anchors": ["src/ampform_dpd/__init__.py:DefinedExpression"]}
{"id": "C36", "title": "BreitWignerBuilder defines every parameter it uses", "statement": "For each setting of the three switches, every symbol in the built expression is either the Mandelstam variable of the subsystem, an outer mass m0..m3 or a key of the returned parameters, whose default is the mass/width of the corresponding particle or meson radius 1; without LS couplings ValueError is raised exactly if the energy-dependent width or a form factor is requested.", "quantifier": "all chains and all switch settings", "why_tests_cant": "all chains", "anchors": ["src/ampform_dpd/dynamics/builder.py:BreitWignerBuilder", "src/ampform_dpd/dynamics/builder.py:_create_form_factor", "src/ampform_dpd/dynamics/builder.py:_create_breit_wigner", "src/ampform_dpd/dynamics/builder.py:_create_simple_breit_wigner"]}
{"id": "C37", "title": "Form factors of the Breit-Wigner builder are evaluated at the mass squared", "statement": "The form factor of a node is evaluated at the squared invariant mass of the decaying system, so that it is dimensionless and independent of the unit of mass.", "quantifier": "all chains, all kinematic points and units", "why_tests_cant": "tests only compare hashes", "anchors": ["src/ampform_dpd/dynamics/builder.py:_create_form_factor"]}
{"id": "C38", "title": "Breit-Wigner lineshapes", "statement": "SimpleBreitWigner(s,m,G) equals 1/(m^2-s-i m G): its imaginary part is m G |BW|^2, its modulus is maximal at s=m^2 where it equals i/(m G); MultichannelBreitWigner equals the simple Breit-Wigner with the summed channel widths; BreitWigner with L=m1=m2=0 reduces to the simple one; BuggBreitWigner has its Adler zero width at s_A.", "quantifier": "all s, m>0, G>0", "why_tests_cant": "continuum", "anchors": ["src/ampform_dpd/dynamics/__init__.py:SimpleBreitWigner", "src/ampform_dpd/dynamics/__init__.py:BreitWigner", "src/ampform_dpd/dynamics/__init__.py:MultichannelBreitWigner", "src/ampform_dpd/dynamics/__init__.py:BuggBreitWigner"]}
{"id": "C39", "title": "Sign factors are signs", "statement": "The exponents of the (-1)^(j-l) factors are integers for all generated helicities, so the factors are +1 or -1 and never complex.", "quantifier": "all spins", "why_tests_cant": "infinite family of spins", "anchors": ["src/ampform_dpd/__init__.py:DalitzPlotDecompositionBuilder.formulate_subsystem_amplitude"]}
{"id": "C40", "title": "Order of the decay products in a node only changes a sign in the LS basis", "statement": "Exchanging child1 and child2 of a decay node multiplies its Clebsch-Gordan factor by the helicity-independent sign (-1)^(L+S-J), so the squared moduli of single-coupling amplitudes do not depend on the order in which the adapter lists the children.", "quantifier": "all spins and helicities", "why_tests_cant": "infinite family", "anchors": ["src/ampform_dpd/__init__.py:_formulate_clebsch_gordan_factors", "src/ampform_dpd/adapter/qrules.py:_to_decay_chain"]}
{"id": "C41", "title": "State IDs are normalised by an order-preserving renumbering", "statement": "normalize_state_ids maps the IDs of a transition to 0..N-1 preserving their order, renames topology edges and states by the same map, keeps all states attached to the same graph position, and is idempotent.", "quantifier": "all transitions / topologies", "why_tests_cant": "unbounded", "anchors": ["src/ampform_dpd/adapter/qrules.py:normalize_state_ids", "src/ampform_dpd/adapter/qrules.py:_impl_normalize_state_ids"]}
{"id": "C42", "title": "Permuting equal final states covers every assignment once", "statement": "permute_equal_final_states(t) contains t, contains no duplicates, never changes the states, only exchanges final-state edges with equal particle names, and for a three-body transition yields every distinct choice of spectator among the equal particles exactly once; with no equal particles it returns [t].", "quantifier": "all transitions", "why_tests_cant": "all particle contents", "anchors": ["src/ampform_dpd/adapter/qrules.py:permute_equal_final_states", "src/ampform_dpd/adapter/qrules.py:_get_equal_final_state_ids"]}
{"id": "C43", "title": "Minimal-LS filter", "statement": "filter_min_ls returns exactly one transition per (resonance, decay products, unfiltered couplings) group, whose filtered couplings are the minimum over the group; every coupling in the result occurs in the input; the result is empty only for empty input.", "quantifier": "all tuples of transitions", "why_tests_cant": "unbounded", "anchors": ["src/ampform_dpd/adapter/qrules.py:filter_min_ls"]}
{"id": "C44", "title": "Minimal-LS filter selects existing transitions", "statement": "Every transition returned by filter_min_ls is one of its input transitions.", "quantifier": "all tuples of transitions", "why_tests_cant": "test inputs have product structure", "anchors": ["src/ampform_dpd/adapter/qrules.py:filter_min_ls"]}
{"id": "C45", "title": "Minimal-LS filter accepts any iterable", "statement": "filter_min_ls gives the same result for any iterable with the same items (its argument is typed Iterable).", "quantifier": "all iterables, including one-shot iterators", "why_tests_cant": "tests pass tuples", "anchors": ["src/ampform_dpd/adapter/qrules.py:filter_min_ls"]}
{"id": "C46", "title": "to_three_body_decay does not depend on order and multiplicity of the transitions", "statement": "The resulting decay has its chains sorted without duplicates and is the same for any reordering or duplication of the input transitions.", "quantifier": "all permutations of transitions that carry the same labels (see C69 for mixed labels)", "why_tests_cant": "factorially many orders", "anchors": ["src/ampform_dpd/adapter/qrules.py:to_three_body_decay", "src/ampform_dpd/adapter/qrules.py:convert_transitions"]}
{"id": "C47", "title": "convert_transitions is idempotent and keeps quantum numbers", "statement": "Converting already converted transitions changes nothing; names, masses, widths, spins and parities are copied; a missing LaTeX is replaced by the name; couplings without L or S become None.", "quantifier": "all transitions with parities", "why_tests_cant": "unbounded", "anchors": ["src/ampform_dpd/adapter/qrules.py:convert_transitions", "src/ampform_dpd/adapter/qrules.py:_to_particle", "src/ampform_dpd/adapter/qrules.py:_to_state", "src/ampform_dpd/adapter/qrules.py:_to_ls_coupling"]}
{"id": "C48", "title": "Particles without parity can be converted", "statement": "Particles with undefined parity (parity=None is allowed by Particle) are converted by the QRules adapter.", "quantifier": "all particles", "why_tests_cant": "test particles have parity", "anchors": ["src/ampform_dpd/adapter/qrules.py:_to_particle", "src/ampform_dpd/adapter/qrules.py:_to_state"]}
{"id": "C49", "title": "to_three_body_decay relabels to 0..3", "statement": "to_three_body_decay relabels the states of any set of transitions to 0 and 1,2,3, also for transitions that have been passed through convert_transitions before.", "quantifier": "all transitions", "why_tests_cant": "tests normalise before converting", "anchors": ["src/ampform_dpd/adapter/qrules.py:to_three_body_decay", "src/ampform_dpd/adapter/qrules.py:_to_state"]}
{"id": "C50", "title": "Function and distribution lookup", "statement": "get_function_definition returns the first function with the given name and raises KeyError exactly if none exists; get_distribution_def returns the first distribution, warns iff there is more than one and raises ValueError iff there is none.", "quantifier": "all model definitions", "why_tests_cant": "unbounded", "anchors": ["src/ampform_dpd/io/serialization/format.py:get_function_definition", "src/ampform_dpd/io/serialization/format.py:get_distribution_def"]}
{"id": "C51", "title": "Deserialised decays", "statement": "to_decay returns a sorted, duplicate-free chain list that contains exactly the chains of the definition, independent of their order and multiplicity, with the definition's states.", "quantifier": "all well-formed model definitions", "why_tests_cant": "unbounded", "anchors": ["src/ampform_dpd/io/serialization/decay.py:to_decay", "src/ampform_dpd/io/serialization/decay.py:to_decay_chain"]}
{"id": "C52", "title": "Deserialised amplitudes conserve helicity", "statement": "In the model formulated from a serialised definition, the contribution of a chain to A^k[l0..l3] vanishes unless l0 = lR - lk.", "quantifier": "all model definitions and helicities", "why_tests_cant": "needs a theorem over all helicities", "anchors": ["src/ampform_dpd/io/serialization/amplitude.py:formulate_chain_amplitude"]}
{"id": "C53", "title": "Deserialised parity vertices follow the helicity formalism", "statement": "For a parity vertex, the flipped-helicity term of a chain amplitude carries d^j_{lR,-(li-lj)}.", "quantifier": "all parity vertices and angles", "why_tests_cant": "continuum", "anchors": ["src/ampform_dpd/io/serialization/amplitude.py:formulate_chain_amplitude", "src/ampform_dpd/io/serialization/amplitude.py:ParityRecoupling"]}
{"id": "C54", "title": "LS vertices can be formulated", "statement": "A model definition whose vertices have type 'ls' can be formulated.", "quantifier": "all definitions with LS vertices", "why_tests_cant": "no LS vertex in the test model", "anchors": ["src/ampform_dpd/io/serialization/amplitude.py:formulate_recoupling", "src/ampform_dpd/io/serialization/amplitude.py:_get_child_spins", "src/ampform_dpd/io/serialization/amplitude.py:_get_decay_product_helicities"]}
{"id": "C55", "title": "Deserialised parameters keep each function's own values", "statement": "For each function of the definition the parameter defaults of the model assign to its symbols the values written in that function.", "quantifier": "all model definitions", "why_tests_cant": "needs more than one resonance with different values", "anchors": ["src/ampform_dpd/io/serialization/dynamics.py:formulate_breit_wigner", "src/ampform_dpd/io/serialization/dynamics.py:formulate_multichannel_breit_wigner", "src/ampform_dpd/io/serialization/dynamics.py:formulate_form_factor"]}
{"id": "C56", "title": "Deserialised chains keep their own weight", "statement": "The weight symbol of a chain has, in the model's parameter defaults, the value of that chain's weight.", "quantifier": "all model definitions", "why_tests_cant": "needs chains with equal name and helicities", "anchors": ["src/ampform_dpd/io/serialization/amplitude.py:_get_weight"]}
{"id": "C57", "title": "Deserialised form factors have consistent dimensions", "statement": "The form factor of a vertex is evaluated at a squared mass and two masses.", "quantifier": "all vertices", "why_tests_cant": "no numerical check in the tests", "anchors": ["src/ampform_dpd/io/serialization/dynamics.py:formulate_form_factor", "src/ampform_dpd/io/serialization/dynamics.py:to_mass_symbol"]}
{"id": "C58", "title": "Recouplings", "statement": "HelicityRecoupling is 1 at exactly the given helicities and 0 elsewhere; ParityRecoupling has the symmetry H(-a,-b) = f H(a,b) for f=+-1; parity_factor '+','-','' map to 1,-1,0 and anything else raises.", "quantifier": "all helicities and factors", "why_tests_cant": "infinite", "anchors": ["src/ampform_dpd/io/serialization/amplitude.py:HelicityRecoupling", "src/ampform_dpd/io/serialization/amplitude.py:ParityRecoupling", "src/ampform_dpd/io/serialization/amplitude.py:_sign_to_value"]}
{"id": "C59", "title": "Mass and Mandelstam symbols of nodes", "statement": "to_mass_symbol maps an ID i to m_i and a pair of IDs to the Mandelstam variable of the third particle regardless of order; get_spectator_id returns the unique ID of a topology and raises ValueError exactly if it is not unique.", "quantifier": "all nodes / topologies", "why_tests_cant": "infinite", "anchors": ["src/ampform_dpd/io/serialization/dynamics.py:to_mass_symbol", "src/ampform_dpd/io/serialization/dynamics.py:to_mandelstam_symbol", "src/ampform_dpd/io/serialization/decay.py:get_spectator_id"]}
{"id": "C60", "title": "Markdown tables are rectangular", "statement": "Every row of a table made by as_markdown_table has as many cells as its header.", "quantifier": "all sequences of particles/chains", "why_tests_cant": "mixed LS content is not tested", "anchors": ["src/ampform_dpd/io/__init__.py:_as_decay_markdown_table", "src/ampform_dpd/io/__init__.py:_as_resonance_markdown_table"]}
{"id": "C61", "title": "Item type of a sequence", "statement": "_determine_item_type returns the single most general type present iff there is exactly one, and raises ValueError for empty or mixed sequences.", "quantifier": "all sequences", "why_tests_cant": "unbounded", "anchors": ["src/ampform_dpd/io/__init__.py:_determine_item_type"]}
{"id": "C62", "title": "lambdify returns a function with the requested parameters", "statement": "For any history of lambdify calls and parameter updates on the returned functions, lambdify(expr, parameters) returns a function of expr whose parameters are the requested ones.", "quantifier": "all call histories", "why_tests_cant": "needs histories with mutation of cached objects", "anchors": ["src/ampform_dpd/io/cached.py:lambdify", "src/ampform_dpd/io/cached.py:_lambdify_impl"]}
{"id": "C63", "title": "formulate succeeds for every valid decay", "statement": "formulate() returns a model for every decay with states 0..3 whose chains have the LS couplings required by the chosen basis, any spins, and any reference 1..3 (or the automatic one if there is a chain); if a required LS coupling is missing it raises.", "quantifier": "all decays, bases and options", "why_tests_cant": "unbounded decays", "anchors": ["src/ampform_dpd/__init__.py:DalitzPlotDecompositionBuilder.formulate"]}
{"id": "C64", "title": "Parameter defaults are exactly the couplings, the lineshape parameters and the masses", "statement": "model.parameter_defaults has an entry for exactly the couplings in the amplitudes, each 1; m0..m3 have the masses of the states, whatever a lineshape builder returns for them; every other entry comes from a dynamics builder of a chain of the decay.", "quantifier": "all decays, bases, options and dynamics builders", "why_tests_cant": "unbounded", "anchors": ["src/ampform_dpd/__init__.py:DalitzPlotDecompositionBuilder.formulate", "src/ampform_dpd/__init__.py:DalitzPlotDecompositionBuilder.formulate_subsystem_amplitude"]}
{"id": "C65", "title": "Couplings are attached by node", "statement": "In the decay made by to_three_body_decay the production coupling is the one of node 0 and the decay coupling the one of node 1, whatever the order of the items in the interactions mapping (two equal transitions give the same decay).", "quantifier": "all transitions", "why_tests_cant": "tests use sorted dictionaries", "anchors": ["src/ampform_dpd/adapter/qrules.py:_to_decay_chain"]}
{"id": "C66", "title": "min_ls as a pair", "statement": "to_three_body_decay with min_ls=(False, False) gives the decay of min_ls=False and (True, True) that of True.", "quantifier": "all reactions", "why_tests_cant": "unbounded", "anchors": ["src/ampform_dpd/adapter/qrules.py:to_three_body_decay"]}
{"id": "C67", "title": "The decay describes the reaction", "statement": "For QRules transitions of one three-body reaction, with any labels, to_three_body_decay(min_ls=False) succeeds; its states are those of the reaction labelled 0 to 3 in order of their IDs, its chains are exactly the chains described by the transitions (resonance, subsystem, spectator and the couplings of the nodes), in ascending order, each once.", "quantifier": "all reactions", "why_tests_cant": "unbounded", "anchors": ["src/ampform_dpd/adapter/qrules.py:to_three_body_decay", "src/ampform_dpd/adapter/qrules.py:_to_decay_chain"]}
{"id": "C68", "title": "min_ls keeps one chain with minimal couplings per resonance and subsystem", "statement": "to_three_body_decay with any min_ls keeps the states, keeps exactly one chain for each resonance, subsystem and couplings at the unselected nodes, and its coupling at a selected node is the least among the alike chains of the decay made with min_ls=False.", "quantifier": "all reactions and values of min_ls", "why_tests_cant": "unbounded", "anchors": ["src/ampform_dpd/adapter/qrules.py:to_three_body_decay", "src/ampform_dpd/adapter/qrules.py:filter_min_ls"]}
{"id": "C69", "title": "All transitions are relabelled", "statement": "to_three_body_decay gives the same decay for any order of the transitions also if only some of them carry the labels 0 to 3.", "quantifier": "all sets of transitions, labels mixed", "why_tests_cant": "tests use one labelling", "anchors": ["src/ampform_dpd/adapter/qrules.py:to_three_body_decay"]}
{"id": "C70", "title": "Amplitudes of a deserialised model", "statement": "In the model formulated from a serialised definition with helicity or parity vertices, the amplitude A^k[l0..l3] exists for exactly the subsystems with a chain and the helicities of the states, and is the sum over the chains of subsystem k of weight x production coupling(lR, lk) x decay coupling(li, lj) x d^j_{lR,li-lj}(theta_ij) x lineshape x form factors, each written down explicitly.", "quantifier": "all definitions with helicity/parity vertices, all helicities, all values of the symbols", "why_tests_cant": "continuum and unbounded definitions", "anchors": ["src/ampform_dpd/io/serialization/amplitude.py:formulate_chain_amplitude", "src/ampform_dpd/io/serialization/amplitude.py:formulate"]}
{"id": "C71", "title": "Intensity of a deserialised model", "statement": "The intensity of the model formulated from a serialised definition is the aligned, helicity-summed square of its amplitudes with the alignment angles for the reference subsystem of the definition, and does not depend on the order of the chains in the definition.", "quantifier": "all definitions with helicity/parity vertices, all orders of the chains", "why_tests_cant": "continuum", "anchors": ["src/ampform_dpd/io/serialization/amplitude.py:formulate", "src/ampform_dpd/io/serialization/amplitude.py:formulate_aligned_amplitude"]}
{"id": "C72", "title": "Complete definitions can be formulated", "statement": "formulate returns a model for every definition of a three-body decay whose chains have one propagator, two helicity or parity vertices, and functions of the supported types with all their parameters.", "quantifier": "all complete definitions", "why_tests_cant": "unbounded", "anchors": ["src/ampform_dpd/io/serialization/amplitude.py:formulate", "src/ampform_dpd/io/serialization/dynamics.py:formulate_dynamics"]}
{"id": "C73", "title": "Deserialised models are closed", "statement": "Every symbol in the amplitudes of a deserialised model has a parameter default or is a Mandelstam variable of the model's invariants; every angle has a definition in its variables, which are only the scattering and alignment angles needed; every amplitude in the intensity is defined.", "quantifier": "all definitions with helicity/parity vertices and closed dynamics", "why_tests_cant": "unbounded", "anchors": ["src/ampform_dpd/io/serialization/amplitude.py:formulate"]}
{"id": "C74", "title": "Deserialised lineshapes", "statement": "A BreitWigner function becomes the relativistic Breit-Wigner with energy-dependent width of the named mass, width and radius symbols with the values of the function; a MultichannelBreitWigner with two or more channels has the sum of the widths of all its channels, with the masses and couplings of each channel as parameter values.", "quantifier": "all functions and values of the symbols", "why_tests_cant": "continuum", "anchors": ["src/ampform_dpd/io/serialization/dynamics.py:formulate_breit_wigner", "src/ampform_dpd/io/serialization/dynamics.py:formulate_multichannel_breit_wigner"]}
{"id": "C75", "title": "The mass column shows the mass in MeV", "statement": "In the table of as_markdown_table a particle with a mass of n MeV (given in GeV as the nearest floating point number) is shown with mass n.", "quantifier": "all particles", "why_tests_cant": "the error occurs for few numbers only", "anchors": ["src/ampform_dpd/io/__init__.py:_as_resonance_markdown_table", "src/ampform_dpd/io/__init__.py:_as_decay_markdown_table"]}
{"id": "C76", "title": "Outcomes and rows of as_markdown_table", "statement": "as_markdown_table returns a table exactly for non-empty sequences that consist of particles and states or of chains (and for decays); the i-th row below the header describes the i-th item: index, name, LaTeX, J^P, mass and width, or the decay of the resonance, J^P, mass, width and angular momenta. Empty and mixed sequences raise ValueError, single objects TypeError and items of other types NotImplementedError.", "quantifier": "all sequences and objects", "why_tests_cant": "unbounded", "anchors": ["src/ampform_dpd/io/__init__.py:as_markdown_table", "src/ampform_dpd/io/__init__.py:_determine_item_type"]}
{"id": "C77", "title": "J^P text determines spin and parity", "statement": "Particles with equal J^P text have equal spin and equal parity (also none).", "quantifier": "all pairs of particles", "why_tests_cant": "infinitely many spins", "anchors": ["src/ampform_dpd/io/__init__.py:aslatex", "src/ampform_dpd/io/__init__.py:_render_jp"]}
{"id": "C78", "title": "Functions returned by lambdify are shared by equal requests only", "statement": "Within a process two calls of lambdify return the same object exactly if expression, backend and parameters are equal; an object changes only by its own update_parameters, which succeeds exactly if all names are parameters of the function; lambdify raises for unknown backends only.", "quantifier": "all call histories with restarts of the process", "why_tests_cant": "histories", "anchors": ["src/ampform_dpd/io/cached.py:lambdify", "src/ampform_dpd/io/cached.py:_lambdify_impl"]}
{"id": "C79", "title": "Backend of lambdify", "statement": "lambdify(expr, \"name\") is lambdify(expr, backend=\"name\"), and jax runs in double precision exactly from the first call with the jax backend in the process on.", "quantifier": "all call histories", "why_tests_cant": "histories", "anchors": ["src/ampform_dpd/io/cached.py:lambdify"]}
{"id": "C80", "title": "LS couplings are an orthonormal basis of the helicity couplings", "statement": "For a vertex with spins J, j1, j2 whose LS couplings are those of generate_ls_couplings with max_L >= J + j1 + j2, the Clebsch-Gordan factors of the LS basis are an orthonormal basis of the space of helicity couplings: every set of helicity couplings is a combination of LS couplings in exactly one way, with the same sum of squares. For smaller max_L there are fewer LS couplings than helicity couplings.", "quantifier": "all vertices, spins and helicity couplings", "why_tests_cant": "infinitely many spins, continuum of couplings", "anchors": ["src/ampform_dpd/spin.py:generate_ls_couplings", "src/ampform_dpd/__init__.py:_formulate_clebsch_gordan_factors"]}
{"id": "C81", "title": "The parity filter keeps exactly the parity-conserving couplings", "statement": "After filter_parity_violating_ls all vertex factors satisfy H(-l1,-l2) = P P1 P2 (-1)^(J-j1-j2) H(l1,l2), every set of helicity couplings with this symmetry is a combination of the couplings that are left, and the number of the couplings left is half of the number N of the helicity couplings, or (N +- 1)/2 if both helicities can vanish).", "quantifier": "all vertices, spins, parities", "why_tests_cant": "infinitely many spins", "anchors": ["src/ampform_dpd/spin.py:filter_parity_violating_ls", "src/ampform_dpd/__init__.py:_formulate_clebsch_gordan_factors"]}
{"id": "C82", "title": "Lineshapes of a serialised chain, built-in and user-defined", "statement": "The dynamics of a serialised chain is the product over all its propagators of the lineshapes made by the builder for the type of the propagator's function: the user's in additional_definitions if there is one for the type, otherwise the built-in BreitWigner or MultichannelBreitWigner; a parameter defined by several lineshapes has the value of the last one. It raises exactly if a propagator has no lineshape: KeyError for an unknown function, NotImplementedError for a type without builder, or what the builder raises, for the first such propagator.", "quantifier": "all chains, model definitions and user-defined builders", "why_tests_cant": "arbitrary callables", "anchors": ["src/ampform_dpd/io/serialization/dynamics.py:formulate_dynamics"]}
{"id": "C83", "title": "Amplitudes are additive over the chains", "statement": "The amplitudes of a model are the sums of the amplitudes of the models of any two parts of its chains; chains whose couplings are zero do not contribute: with them switched off the full intensity is that of the model formulated without them, whose variables are a part of those of the full model with the same definitions.", "quantifier": "all decays, parts of its chains, options, values of the symbols", "why_tests_cant": "unbounded decays and continuum", "anchors": ["src/ampform_dpd/__init__.py:DalitzPlotDecompositionBuilder.formulate"]}
{"id": "C84", "title": "Models with LS couplings and models with helicity couplings are equivalent", "statement": "If a decay has every chain of another one with all LS couplings, the LS model of the former and the helicity model of the latter (use_coefficients=False) describe the same intensities: they have the same variables, and for all values of the couplings of either model there are values of the couplings of the other one such that all amplitudes and the intensity are equal at all points.", "quantifier": "all decays, spins, lineshapes and values of the couplings", "why_tests_cant": "continuum of couplings, infinitely many spins", "anchors": ["src/ampform_dpd/__init__.py:DalitzPlotDecompositionBuilder.formulate", "src/ampform_dpd/__init__.py:_formulate_clebsch_gordan_factors", "src/ampform_dpd/spin.py:generate_ls_couplings"]}
{"id": "C85", "title": "Reversing all helicities in a parity-conserving model", "statement": "If every LS coupling conserves parity, reversing all helicities multiplies the amplitude of every subsystem, and the aligned amplitude, by the product of the parities of the four states and of (-1)^(spin + helicity); squared moduli do not change.", "quantifier": "all decays with parity-conserving couplings, helicities, values of the symbols", "why_tests_cant": "infinitely many spins, continuum", "anchors": ["src/ampform_dpd/__init__.py:DalitzPlotDecompositionBuilder.formulate", "src/ampform_dpd/__init__.py:_formulate_clebsch_gordan_factors"]}
{"id": "C86", "title": "Cyclic change of the labels of the final state", "statement": "Giving the final states new labels in the same cyclic order (with the reference subsystem, the masses, the Mandelstam variables and the lineshapes relabelled accordingly, and the same couplings) gives a model with the same amplitudes for the relabelled helicities and the same intensity.", "quantifier": "all decays, spins, bases, references, values of the symbols", "why_tests_cant": "infinitely many spins, continuum", "anchors": ["src/ampform_dpd/__init__.py:DalitzPlotDecompositionBuilder.formulate", "src/ampform_dpd/angles.py:formulate_scattering_angle", "src/ampform_dpd/angles.py:formulate_zeta_angle"]}
{"id": "C87", "title": "Exchange of two labels of the final state", "statement": "Exchanging the labels of two final states gives the same intensity at every physical point if the couplings of each chain (with exchanged helicities) are multiplied by (-1)^(J + J_R + J_k), with the spins of the initial state, the resonance and the spectator; the amplitudes are then multiplied by the product of (-1)^(spin - helicity) of the four states.", "quantifier": "all decays, spins, bases, references, physical points", "why_tests_cant": "infinitely many spins, continuum", "anchors": ["src/ampform_dpd/__init__.py:DalitzPlotDecompositionBuilder.formulate", "src/ampform_dpd/angles.py:formulate_scattering_angle", "src/ampform_dpd/angles.py:formulate_zeta_angle"]}
{"id": "C88", "title": "Intensities are symmetric in identical final-state particles", "statement": "If two final states are the same particle and the decay has with every chain the chain with the two exchanged (as permute_equal_final_states generates them), the intensity does not change if the two are exchanged in the phase-space point.", "quantifier": "all decays with identical particles, all physical points and values of the couplings", "why_tests_cant": "continuum; no test model with identical particles and resonances of different spins", "anchors": ["src/ampform_dpd/__init__.py:DalitzPlotDecompositionBuilder.formulate", "src/ampform_dpd/adapter/qrules.py:permute_equal_final_states"]}
{"id": "C89", "title": "Breit-Wigner lineshapes with new labels", "statement": "With new labels of the final state BreitWignerBuilder raises for the same chains, its lineshape has the same value at the relabelled point, and its parameter defaults are those of the relabelled states. So models whose chains have lineshapes of BreitWignerBuilder with the same settings have the same intensity in both labellings, for cyclic changes of the labels and (with equal signs (-1)^(J + J_R + J_k)) for identical particles.", "quantifier": "all settings of the builder, chains, decays, values of the symbols", "why_tests_cant": "continuum", "anchors": ["src/ampform_dpd/dynamics/builder.py:BreitWignerBuilder", "src/ampform_dpd/__init__.py:DalitzPlotDecompositionBuilder.formulate"]}
{"id": "C90", "title": "LaTeX of decay chains", "statement": "aslatex of a chain reads: initial state, arrow, then the decay of the resonance in parentheses and the spectator, in the order of the node's children; each arrow shows L and S of its node (or none). Chains (with particle names that are single words) have the same LaTeX only if all their couplings, the LaTeX of all their particles and the order of the children are the same; nodes of any depth that differ in their couplings only have different LaTeX.", "quantifier": "all chains, nodes, couplings and options", "why_tests_cant": "infinitely many couplings", "anchors": ["src/ampform_dpd/io/__init__.py:aslatex", "src/ampform_dpd/io/__init__.py:render_arrow"]}
{"id": "C91", "title": "Construction of particles, couplings and nodes", "statement": "Particle and LSCoupling accept exactly integer and half-integer spins (ValueError otherwise) and keep their arguments; IsobarNode accepts as interaction exactly None, an LSCoupling and a pair (L, S) with an allowed S, which becomes the LSCoupling with these values, and raises ValueError for other tuples and TypeError for other objects.", "quantifier": "all arguments", "why_tests_cant": "infinitely many numbers", "anchors": ["src/ampform_dpd/decay.py:Particle", "src/ampform_dpd/decay.py:LSCoupling", "src/ampform_dpd/decay.py:IsobarNode", "src/ampform_dpd/_attrs.py:to_ls", "src/ampform_dpd/_attrs.py:assert_spin_value"]}
{"id": "C92", "title": "One subsystem needs no alignment", "statement": "If all chains have the same spectator, the intensity is the sum over the helicities of the squared moduli of the amplitudes of that subsystem, for any reference subsystem and any values of the alignment angles.", "quantifier": "all decays with one subsystem, all values of the symbols", "why_tests_cant": "continuum, infinitely many spins", "anchors": ["src/ampform_dpd/__init__.py:DalitzPlotDecompositionBuilder.formulate", "src/ampform_dpd/__init__.py:DalitzPlotDecompositionBuilder.formulate_aligned_amplitude"]}
{"id": "C93", "title": "Spinless particles give Legendre polynomials", "statement": "If the initial and all final states have spin 0, the intensity is the squared modulus of the sum over all chains of lineshape, coupling and the Legendre polynomial of degree J in the cosine of the scattering angle of the chain, where J is the spin of the resonance.", "quantifier": "all decays with spinless external particles, all integer spins of resonances, all values of the symbols", "why_tests_cant": "infinitely many spins, continuum", "anchors": ["src/ampform_dpd/__init__.py:DalitzPlotDecompositionBuilder.formulate", "src/ampform_dpd/__init__.py:DalitzPlotDecompositionBuilder.formulate_subsystem_amplitude"]}
{"id": "C94", "title": "Resonances of different spin do not interfere in the projection", "statement": "In a decay with one subsystem, the intensity integrated along a line of constant invariant mass of the subsystem over the physical region is (length of the region) times the sum over helicities and spins J of |partial wave|^2/(2J+1): resonances of different spins do not interfere. This holds for lineshapes that do not depend on the other two Mandelstam variables, in particular for those of BreitWignerBuilder.", "quantifier": "all decays with one subsystem, spins, lineshapes, couplings, and all invariant masses between the thresholds", "why_tests_cant": "an integral over a continuum", "anchors": ["src/ampform_dpd/__init__.py:DalitzPlotDecompositionBuilder.formulate", "src/ampform_dpd/angles.py:formulate_scattering_angle", "src/ampform_dpd/dynamics/builder.py:BreitWignerBuilder"]}
{"id": "C95", "title": "The intensity is a Hermitian form of the couplings", "statement": "Amplitudes are linear in the coefficients of the chains (with use_coefficients), and otherwise linear in the production couplings at fixed decay couplings and vice versa. So the intensity of the couplings x c1 + y c2 is |x|^2 I1 + |y|^2 I2 + 2 Re(x y* H) with one interference term H, |H|^2 <= I1 I2, for all x and y; a common factor z of the couplings multiplies the intensity by |z|^2; the intensities of c1 + c2 and c1 - c2 add up to 2 I1 + 2 I2.", "quantifier": "all decays, spins, lineshapes, points and couplings", "why_tests_cant": "continuum of couplings", "anchors": ["src/ampform_dpd/__init__.py:DalitzPlotDecompositionBuilder.formulate", "src/ampform_dpd/__init__.py:DalitzPlotDecompositionBuilder.formulate_subsystem_amplitude"]}
{"id": "C96", "title": "Breit-Wigner models have no poles in the physical region", "statement": "All divisions in the amplitudes of a model are those of the lineshapes of its chains, and the intensity has none. If all lineshapes come from BreitWignerBuilder with real parameters, and every resonance has positive width and radius and a mass between the thresholds of its decay and production, then at every physical point with non-zero break-up momenta all angles are real and no amplitude divides by zero.", "quantifier": "all decays, spins, settings of the builder, parameters, couplings and physical points", "why_tests_cant": "a continuum of points; poles are isolated", "anchors": ["src/ampform_dpd/dynamics/builder.py:BreitWignerBuilder", "src/ampform_dpd/__init__.py:DalitzPlotDecompositionBuilder.formulate"]}
{"id": "C97", "title": "Form factors are barrier factors of spherical waves", "statement": "A form factor with angular momentum L and radius R in a lineshape, evaluated above the threshold, is |h_L(1)|/(qR |h_L(qR)|) with the spherical Hankel function h_L and the break-up momentum q. It vanishes at the threshold for L > 0, is 1 in S waves and at q = 1/R, and increases with the invariant mass.", "quantifier": "all angular momenta, masses, radii", "why_tests_cant": "infinitely many L; a wrong coefficient of a high wave shows in no example with low waves", "anchors": ["src/ampform_dpd/dynamics/builder.py:BreitWignerBuilder", "src/ampform_dpd/dynamics/builder.py:FormFactor"]}
{"id": "C98", "title": "Models do not depend on the unit of mass", "statement": "If all lineshapes come from BreitWignerBuilder with energy-dependent widths and without decay form factors (except in S waves), expressing all masses, widths, Mandelstam variables and radii in another unit leaves the intensity unchanged. With constant widths in all chains it scales as mass^-4.", "quantifier": "all decays, builders, points and units", "why_tests_cant": "a continuum of points and units", "anchors": ["src/ampform_dpd/dynamics/builder.py:BreitWignerBuilder", "src/ampform_dpd/__init__.py:DalitzPlotDecompositionBuilder.formulate", "src/ampform_dpd/angles.py:formulate_zeta_angle"]}
{"id": "C99", "title": "From a reaction to a model", "statement": "For every reaction (three-body transitions as generated by QRules, with non-negative spins and LS couplings where the chosen basis and lineshapes need them), the documented workflow succeeds: to_three_body_decay, a DalitzPlotDecompositionBuilder, register_builder of a BreitWignerBuilder for every chain of the decay, formulate. The model has a real non-negative intensity, every symbol in its amplitudes has a default value or is a Mandelstam variable, and its amplitudes are the Dalitz-plot decomposition with the Breit-Wigner functions of the particles of each chain.", "quantifier": "all reactions, min_ls arguments, bases, lineshape settings, references, points", "why_tests_cant": "unbounded reactions, continuum", "anchors": ["src/ampform_dpd/adapter/qrules.py:to_three_body_decay", "src/ampform_dpd/__init__.py:DalitzPlotDecompositionBuilder.formulate", "src/ampform_dpd/__init__.py:DynamicsConfigurator.register_builder", "src/ampform_dpd/dynamics/builder.py:BreitWignerBuilder"]}
{"id": "C100", "title": "The order of the chains does not matter", "statement": "Decays with the same chains in another order (and the same dynamics of each chain) have models with the same amplitudes, the same variables and the same intensity, also with the automatic choice of the reference subsystem.", "quantifier": "all decays, permutations of the chains, options, values of the symbols", "why_tests_cant": "all permutations", "anchors": ["src/ampform_dpd/__init__.py:DalitzPlotDecompositionBuilder.formulate", "src/ampform_dpd/__init__.py:_get_best_reference_subsystems", "src/ampform_dpd/decay.py:ThreeBodyDecay"]}
{"id": "C101", "title": "Waves of different parity do not interfere", "statement": "In an LS model, chains for which the sum of the orbital angular momenta of production and decay is even do not interfere with chains for which it is odd: the intensity is the sum of the intensities of the models of the two groups, at all points and for all couplings. (An unpolarised Dalitz plot has no parity-odd observables.)", "quantifier": "all decays, spins, lineshapes, couplings, points", "why_tests_cant": "continuum, infinitely many spins", "anchors": ["src/ampform_dpd/__init__.py:DalitzPlotDecompositionBuilder.formulate", "src/ampform_dpd/__init__.py:_formulate_clebsch_gordan_factors"]}
{"id": "C102", "title": "Complexity of angular distributions", "statement": "In a decay with one subsystem, the intensity at a fixed invariant mass of the subsystem is a polynomial in the cosine of the scattering angle of degree at most twice the largest spin of its resonances; so it is along the line of this invariant mass through the Dalitz plot, as a function of another Mandelstam variable, for lineshapes that depend on the mass of the subsystem only.", "quantifier": "all decays with one subsystem, spins, bases, couplings, lineshapes, invariant masses", "why_tests_cant": "continuum, infinitely many spins", "anchors": ["src/ampform_dpd/__init__.py:DalitzPlotDecompositionBuilder.formulate", "src/ampform_dpd/__init__.py:DalitzPlotDecompositionBuilder.formulate_subsystem_amplitude", "src/ampform_dpd/angles.py:formulate_scattering_angle"]}
{"id": "C103", "title": "Forward-backward symmetry", "statement": "If all resonances of a subsystem decay with even orbital angular momentum (or all with odd), with LS couplings in the decay, the amplitude at the opposite scattering angle is, up to a sign, the amplitude with the helicities of the two decay products reversed. So in a decay with one subsystem the intensity is then symmetric under theta -> pi - theta, and along each line of constant invariant mass through the Dalitz plot; in general even and odd waves do not interfere in the sum of forward and backward intensities.", "quantifier": "all decays, spins, lineshapes, couplings, points", "why_tests_cant": "continuum, infinitely many spins", "anchors": ["src/ampform_dpd/__init__.py:DalitzPlotDecompositionBuilder.formulate", "src/ampform_dpd/__init__.py:_formulate_clebsch_gordan_factors"]}
{"id": "C104", "title": "Helicity selection rules", "statement": "An amplitude vanishes if no resonance of its subsystem has a spin as large as |l0 + lk| and |li - lj|; and on the boundary of the Dalitz plot, where all momenta are on one axis, it vanishes unless the helicities conserve angular momentum along this axis (l0 + lk = li - lj at scattering angle 0, lj - li at pi).", "quantifier": "all decays, spins, helicities, lineshapes, couplings, points", "why_tests_cant": "continuum, infinitely many spins", "anchors": ["src/ampform_dpd/__init__.py:DalitzPlotDecompositionBuilder.formulate", "src/ampform_dpd/__init__.py:DalitzPlotDecompositionBuilder.formulate_subsystem_amplitude", "src/ampform_dpd/angles.py:formulate_scattering_angle"]}
{"id": "C105", "title": "LaTeX of lineshapes and indexed symbols", "statement": "Every lineshape has a LaTeX text, made of its own symbol and of the LaTeX of some of its arguments in a fixed order, in which all groups are closed; with simplify_latex_rendering the indices of an indexed symbol are in one subscript.", "quantifier": "all lineshapes, arguments and printers of SymPy objects", "why_tests_cant": "arbitrary expressions as arguments", "anchors": ["src/ampform_dpd/dynamics/__init__.py:_latex_repr_", "src/ampform_dpd/io/__init__.py:simplify_latex_rendering"]}
{"id": "C106", "title": "LaTeX of defined expressions", "statement": "aslatex of a DefinedExpression is an array with three columns: first the expression and what it is unfolded to (or the expression alone, if there is nothing to unfold), then one row for each parameter with its value, in the order of the parameters. All groups are closed.", "quantifier": "all expressions and parameters", "why_tests_cant": "arbitrary expressions", "anchors": ["src/ampform_dpd/io/__init__.py:aslatex"]}
{"id": "C107", "title": "Warnings about subsystems", "statement": "get_subsystem and formulate warn exactly if the decay has no chain in the requested (reference) subsystem, or, in builders with all_subsystems, in some subsystem; the text names the decay with all its states, all its subsystems in ascending order, and the requested one. Without any chain the text of the ValueError names the decay.", "quantifier": "all decays and subsystems", "why_tests_cant": "all decays", "anchors": ["src/ampform_dpd/decay.py:ThreeBodyDecay.get_subsystem", "src/ampform_dpd/__init__.py:_check_reference_subsystems", "src/ampform_dpd/__init__.py:_get_best_reference_subsystems"]}
{"id": "C108", "title": "The order of the decay products of a node", "statement": "Exchanging the two children of a node of a chain does not change its lineshape (for phase-space factors that are symmetric in the masses), nor, with helicity couplings, the amplitudes and the intensity. With LS couplings it is the same as multiplying the coupling by (-1)^(L + S - J): if all couplings are multiplied by these signs (up to a common sign), the intensity does not change.", "quantifier": "all decays, spins, bases, lineshapes, couplings, points, and choices of the nodes", "why_tests_cant": "infinitely many spins, continuum", "anchors": ["src/ampform_dpd/__init__.py:DalitzPlotDecompositionBuilder.formulate", "src/ampform_dpd/__init__.py:_formulate_clebsch_gordan_factors", "src/ampform_dpd/dynamics/builder.py:BreitWignerBuilder"]}
{"id": "C109", "title": "Exchanged and identical particles, up to the order of decay products", "statement": "If two final states are the same particle and the decay has with every chain the chain with the two exchanged, up to the order of the children of its nodes (so that resonances may decay into the two identical particles), and the product of (-1)^(J + J_R + J_k) and of (-1)^(L + S - J) for each reordered LS node is the same sign for all chains, the intensity does not change if the two are exchanged in the phase-space point; so for all lineshapes of BreitWignerBuilder. In general the exchange of two labels is the same as multiplying the couplings by these signs.", "quantifier": "all decays, spins, bases, references, lineshapes, physical points and values of the couplings", "why_tests_cant": "infinitely many spins, continuum", "anchors": ["src/ampform_dpd/__init__.py:DalitzPlotDecompositionBuilder.formulate", "src/ampform_dpd/adapter/qrules.py:permute_equal_final_states", "src/ampform_dpd/dynamics/builder.py:BreitWignerBuilder"]}
{"id": "C110", "title": "Reactions with identical particles give symmetric intensities", "statement": "permute_equal_final_states gives, for a reaction generated by QRules, a reaction whose decay contains, with every chain, the chain with two identical final-state particles exchanged (up to the order of the decay products of the resonance), for every min_ls argument. With BreitWignerBuilder lineshapes the intensity of the model does not change if the two particles are exchanged in the phase-space point, provided that the signs of the exchange of all chains agree (C109).", "quantifier": "all reactions, pairs of identical particles, min_ls arguments, bases, lineshape settings, physical points and couplings", "why_tests_cant": "unbounded reactions, continuum", "anchors": ["src/ampform_dpd/adapter/qrules.py:permute_equal_final_states", "src/ampform_dpd/adapter/qrules.py:to_three_body_decay", "src/ampform_dpd/__init__.py:DalitzPlotDecompositionBuilder.formulate"]}
{"id": "C111", "title": "Incomplete model definitions are rejected", "statement": "A serialised model definition can only be formulated if every chain has two vertices, one with two final states and one with a pair and the third state, each of type helicity or parity and with as many helicities as items, a half-integer spin of the resonance, lineshapes and form factors that are defined completely, and a topology that names one state. All other definitions raise; in particular those with missing or surplus helicities.", "quantifier": "all model definitions with non-negative spins, all custom lineshape builders", "why_tests_cant": "all malformed inputs", "anchors": ["src/ampform_dpd/io/serialization/amplitude.py:formulate", "src/ampform_dpd/io/serialization/amplitude.py:formulate_chain_amplitude", "src/ampform_dpd/io/serialization/amplitude.py:_get_weight", "src/ampform_dpd/io/serialization/amplitude.py:_get_final_state_helicities", "src/ampform_dpd/io/serialization/amplitude.py:_get_resonance_helicity", "src/ampform_dpd/io/serialization/amplitude.py:formulate_recoupling"]}
{"id": "C112", "title": "Contradictory model definitions are rejected", "statement": "A serialised model definition in which the topology of a chain names another spectator than its vertices is rejected.", "quantifier": "all model definitions", "why_tests_cant": "all malformed inputs", "anchors": ["src/ampform_dpd/io/serialization/amplitude.py:formulate", "src/ampform_dpd/io/serialization/amplitude.py:formulate_chain_amplitude", "src/ampform_dpd/io/serialization/decay.py:get_spectator_id"]}
{"id": "C113", "title": "The intensity is continuous", "statement": "The intensity depends continuously on the point in phase space, the parameters and the couplings together, at every point inside phase space at which the lineshapes are continuous; so do models with lineshapes of BreitWignerBuilder, for real parameters, positive widths and radii and masses between the thresholds of decay and production (where decay form factors have no poles). Any expression of the model is continuous where it neither divides by zero nor takes the root of a negative number.", "quantifier": "all decays, spins, bases, lineshapes, couplings, points, ways to approach them", "why_tests_cant": "continuum; jumps at isolated points or lines", "anchors": ["src/ampform_dpd/__init__.py:DalitzPlotDecompositionBuilder.formulate", "src/ampform_dpd/angles.py:formulate_scattering_angle", "src/ampform_dpd/angles.py:formulate_zeta_angle", "src/ampform_dpd/dynamics/builder.py:BreitWignerBuilder"]}
{"id": "C114", "title": "Phase and conjugation ambiguities of the intensity", "statement": "Two sets of parameter values of a model for which the product of couplings and lineshape of every chain differs by one common phase, or by complex conjugation and one common phase, give the same intensity. In particular the conjugation of all couplings without dynamics, and of all couplings with the opposite widths for Breit-Wigners with constant widths.", "quantifier": "all decays, reference subsystems, helicity or LS couplings and coefficients, all values of couplings and parameters, all points", "why_tests_cant": "all parameter values and points", "anchors": ["src/ampform_dpd/__init__.py:DalitzPlotDecompositionBuilder.formulate", "src/ampform_dpd/__init__.py:AmplitudeModel", "src/ampform_dpd/dynamics/builder.py:BreitWignerBuilder"]}
{"id": "C115", "title": "Only spins, couplings and lineshapes matter", "statement": "If the particles of a decay are replaced by others with the same spins, the model can be formulated as before and has the same amplitudes and intensity for corresponding values of couplings and lineshapes. If the LaTeX of the initial state and of the resonances is kept, names, parities, masses, widths and the order of the chains only influence the suggested values of the parameters, also with Breit-Wigner lineshapes.", "quantifier": "all decays, replacements of particles, orders of chains, settings of BreitWignerBuilder, all parameter values and points", "why_tests_cant": "all decays and replacements", "anchors": ["src/ampform_dpd/__init__.py:DalitzPlotDecompositionBuilder.formulate", "src/ampform_dpd/__init__.py:DalitzPlotDecompositionBuilder.formulate_subsystem_amplitude", "src/ampform_dpd/dynamics/builder.py:BreitWignerBuilder", "src/ampform_dpd/decay.py:Particle"]}
{"id": "C116", "title": "Built and serialised models of spinless parents agree", "statement": "For an initial state of spin 0, a serialised model definition that has one chain with helicity vertices for each chain of a decay and each allowed combination of helicities gives the same amplitudes and the same intensity as the model built from the decay with the same reference subsystem, if weight times lineshape equals the product of couplings (and factors of the LS basis), the signs (-1)^(spin - helicity) of the spectator and of the second decay product, and lineshape of the chain. All angles have the same definitions. The Breit-Wigner functions of the two differ by the product of mass and width.", "quantifier": "all decays with spinless parents, serialised definitions with helicity vertices, reference subsystems, couplings or coefficients, all parameter values and points", "why_tests_cant": "two implementations of the same amplitude; agreement at all points and for all spins", "anchors": ["src/ampform_dpd/__init__.py:DalitzPlotDecompositionBuilder.formulate", "src/ampform_dpd/io/serialization/amplitude.py:formulate", "src/ampform_dpd/io/serialization/amplitude.py:formulate_chain_amplitude", "src/ampform_dpd/io/serialization/dynamics.py:formulate_breit_wigner", "src/ampform_dpd/dynamics/builder.py:BreitWignerBuilder"]}
{"id": "C117", "title": "The intensity of a serialised model is a Hermitian form of its weights", "statement": "Amplitudes of a serialised model are linear in the weights of its chains, and those of a definition that joins the chains of two others are the sums of the amplitudes of the two. The intensity is real and not negative; for the weights x w1 + y w2 it is |x|^2 I1 + |y|^2 I2 + 2 Re(x y* H) with one interference term H, |H|^2 <= I1 I2, and a common factor z of all weights multiplies it by |z|^2. No lineshape or form factor of the serialisation module depends on a weight.", "quantifier": "all serialised helicity definitions, values of weights and parameters, points", "why_tests_cant": "continuum of weights", "anchors": ["src/ampform_dpd/io/serialization/amplitude.py:formulate", "src/ampform_dpd/io/serialization/amplitude.py:formulate_chain_amplitude", "src/ampform_dpd/io/serialization/amplitude.py:_get_weight"]}
{"id": "C118", "title": "The reference subsystem of serialised models", "statement": "Two serialised definitions with the same states and chains (in any order) but different reference subsystems have the same intensity at every physical point with non-zero break-up momenta, if the initial state has integer spin, or the chains are all in the two reference subsystems or all in one subsystem. In general the change of the reference is the same as multiplying the weights of the chains of the third subsystem by -1 for half-integer spin of the initial state.", "quantifier": "all serialised helicity definitions, reference subsystems, weights, lineshapes, physical points", "why_tests_cant": "continuum", "anchors": ["src/ampform_dpd/io/serialization/amplitude.py:formulate", "src/ampform_dpd/io/serialization/amplitude.py:formulate_aligned_amplitude", "src/ampform_dpd/io/serialization/decay.py:get_spectator_id", "src/ampform_dpd/angles.py:formulate_zeta_angle"]}
{"id": "C119", "title": "all_subsystems only adds subsystems without chains", "statement": "Setting all_subsystems on a builder does not change whether formulate succeeds. It leaves the decay, the intensity expression, the parameter defaults, the masses and the invariants of the model as they are. The dictionaries of amplitudes and of variables keep all their entries. What is added are amplitudes that are identically zero and scattering angles, both of subsystems without chains. The intensity has the same value everywhere.", "quantifier": "All valid decays, builders that differ only in all_subsystems, reference subsystems, cleanup_summations and use_coefficients, and all values of the symbols.", "why_tests_cant": "Tests only formulate a handful of decays with the option on or off and never compare the two models for all decays and values.", "anchors": ["src/ampform_dpd/__init__.py:DalitzPlotDecompositionBuilder.formulate", "src/ampform_dpd/__init__.py:DalitzPlotDecompositionBuilder.formulate_subsystem_amplitude"]}
{"id": "C120", "title": "Models in any choice of LS and helicity bases are equivalent", "statement": "LS couplings or helicity couplings can be chosen independently for the production and for the decay of the resonances. Take models with any of the four choices that have all LS couplings of each vertex in the LS basis. They have the same variables, and for every set of couplings of one there are couplings of the other for which all amplitudes and the intensity are equal at every point of phase space.", "quantifier": "All valid decays, all spins, all four choices of bases (and any pair of them), all couplings and all values of the other symbols, with the same lineshapes and the same resolved reference subsystem.", "why_tests_cant": "It is a statement about all spins and all coupling values, and about the completeness of the LS couplings; tests evaluate single models.", "anchors": ["src/ampform_dpd/__init__.py:DalitzPlotDecompositionBuilder.formulate_subsystem_amplitude", "src/ampform_dpd/__init__.py:_formulate_clebsch_gordan_factors", "src/ampform_dpd/__init__.py:_create_coupling_symbol"]}
{"id": "C121", "title": "Parity conservation of helicity couplings reverses all helicities", "statement": "In a model with helicity couplings, LS couplings or a mixture: if the LS couplings conserve parity and the helicity couplings (or coefficients) obey H(-l1,-l2) = P P1 P2 (-1)^(J-j1-j2) H(l1,l2), then reversing all helicities multiplies every amplitude and every aligned amplitude by one sign that only depends on the outer particles and their helicities. Their moduli are unchanged.", "quantifier": "All valid decays with known parities, all spins, all four choices of bases, couplings or coefficients, all helicities, all angles and all values of the symbols that obey the relation.", "why_tests_cant": "It must hold for all spins, couplings, angles and helicity combinations, and combines phase conventions of several functions; tests use single points.", "anchors": ["src/ampform_dpd/__init__.py:DalitzPlotDecompositionBuilder.formulate_subsystem_amplitude", "src/ampform_dpd/__init__.py:DalitzPlotDecompositionBuilder.formulate_aligned_amplitude"]}
{"id": "C122", "title": "Fit fractions: the intensity is a sum over parts and pairs of parts", "statement": "For any number of sets of couplings there is one Hermitian matrix, with the single intensities on its diagonal and bounded by them, that gives the intensity of every linear combination of these couplings as a quadratic form. If the chains of a decay are divided over any number of smaller decays, the intensity of the full model is the sum of the intensities of the parts plus one real interference term per pair of parts, and it is at most the number of parts times the sum of their intensities.", "quantifier": "All valid decays, spins, bases, lineshapes, divisions of the chains into any number of parts, numbers of coupling sets, couplings and values of the other symbols, with the same resolved reference subsystem.", "why_tests_cant": "The number of parts and the values of couplings and angles are unbounded; tests evaluate a few models at single points.", "anchors": ["src/ampform_dpd/__init__.py:DalitzPlotDecompositionBuilder.formulate", "src/ampform_dpd/__init__.py:DalitzPlotDecompositionBuilder.formulate_subsystem_amplitude", "src/ampform_dpd/__init__.py:DalitzPlotDecompositionBuilder.formulate_aligned_amplitude"]}
{"id": "C123", "title": "A missing function is reported with helpful suggestions that do not depend on the hash seed", "statement": "When a serialised model refers to a function that is not among its functions, the error names that function, as a literal that Python reads as the same text, and suggests at most three names, in alphabetical order. Every suggestion is the name of a function of the model and shares at least 60 % of the characters of both names in the same order with the missing name. No function that is left out is more similar than a suggested one. A name of which the missing name is a part (or that is a part of the missing name) and that is not more than 7/3 times as long (or 3/7 times as short) is suggested, unless there are three other suggestions. The text does not depend on the order of the functions in the file, nor on the order in which Python iterates over the set of their names.", "quantifier": "all model definitions, all missing names, with any characters, all iteration orders of a set of names", "why_tests_cant": "The order of a set of texts changes with the hash seed of the Python process; a test sees one order and one file.", "anchors": ["src/ampform_dpd/io/serialization/format.py:get_function_definition"]}
{"id": "C124", "title": "Serialised models: parts, weights set to zero and linear combinations of weights", "statement": "Any selection of the chains of a serialised model can be formulated with the same functions, states and reference. If the chains are divided into any number of parts, the intensity of the whole is the sum of the intensities of the parts plus one real interference term per pair of parts, and it is at most the number of parts times the sum of their intensities. Setting the weights of some chains to zero gives the intensity of the model without these chains. One Hermitian matrix, with the single intensities on its diagonal and bounded by them, gives the intensity of every linear combination of weights.", "quantifier": "All helicity-coupled serialised models with any lineshape builders of the user that do not look at the chains (for the matrix: lineshapes that do not use the weights), all divisions of the chains into any number of parts, all values of all symbols.", "why_tests_cant": "The number of parts, the lineshapes and the values are unbounded; tests compare one file at single points.", "anchors": ["src/ampform_dpd/io/serialization/amplitude.py:formulate", "src/ampform_dpd/io/serialization/amplitude.py:formulate_aligned_amplitude", "src/ampform_dpd/io/serialization/dynamics.py:formulate_dynamics", "src/ampform_dpd/io/serialization/decay.py:get_initial_state"]}
{"id": "C125", "title": "The full expression of a model is closed, expanded and has the value of the model", "statement": "full_expression is the intensity with all sums over helicities written out and all amplitude symbols replaced by their definitions. Its value is the value of the intensity with the amplitudes inserted, it contains no sums, Kronecker deltas or helicity symbols any more, and no amplitude symbols. Every symbol that is left has a parameter default, or the definition of an angle in variables, or is a Mandelstam variable, if the lineshapes give defaults for their own parameters. Hence the intensity, with the angles computed from their definitions, depends on nothing but the parameters and the Mandelstam variables. The same holds for models that are formulated from serialised definitions.", "quantifier": "All decays, spins, bases, lineshapes of the user, reference subsystems and flags of formulate; all helicity-coupled serialised models; all values of all symbols.", "why_tests_cant": "The number of chains, spins and lineshapes is unbounded, and the claim is on all values of all symbols; tests count the free symbols of single models.", "anchors": ["src/ampform_dpd/__init__.py:AmplitudeModel.full_expression", "src/ampform_dpd/__init__.py:DalitzPlotDecompositionBuilder.formulate", "src/ampform_dpd/io/serialization/amplitude.py:formulate"]}
{"id": "C126", "title": "The intensity of a serialised model scales with the units of mass and does not see the sign of all widths", "statement": "A serialised model with built-in lineshapes gives the same physics in all units: with all masses, widths and channel couplings multiplied by t, the Mandelstam variables by t^2 and the radii by 1/t, the intensity is multiplied by 1/t^4, whatever the number of chains and channels, unless a production vertex has a form factor with orbital angular momentum (C57). The intensity is the same with opposite widths and complex conjugate weights, at all points in phase space, if the resonances with energy-dependent Breit-Wigner lie above their threshold. In general a common factor q, a common phase and a complex conjugation of weight times lineshape of all chains changes all amplitudes accordingly and the intensity by q^2.", "quantifier": "All serialised models with helicity or parity vertices; all numbers of chains and channels; all positive t; all values of the parameters; all points in phase space (for the widths: inside the physical region).", "why_tests_cant": "The claim is on all values of all parameters and all points; a numeric test compares two points of one model.", "anchors": ["src/ampform_dpd/io/serialization/amplitude.py:formulate", "src/ampform_dpd/io/serialization/dynamics.py:formulate_breit_wigner", "src/ampform_dpd/io/serialization/dynamics.py:formulate_multichannel_breit_wigner", "src/ampform_dpd/io/serialization/dynamics.py:formulate_form_factor"]}
{"id": "C127", "title": "Serialised models have no poles in the physical region and are continuous", "statement": "The intensity of a serialised model never divides, and its amplitudes divide by exactly the quantities that the lineshapes of their chains divide by. With the built-in lineshapes, no divisor is zero at a point in phase space off its boundary, for any number of chains and channels, if resonances lie above their threshold, the second and further channels are S waves or open, and no production vertex has a form factor with orbital angular momentum. The last condition is needed: such a form factor (C57) can be infinite at a point in phase space. Under the same conditions the intensity depends continuously on the point and on all parameters.", "quantifier": "All serialised models with helicity or parity vertices; all numbers of chains and channels; all values of the parameters; all points in phase space off its boundary; all ways in which points and parameters converge.", "why_tests_cant": "A pole is a single point of a continuum of points and parameters; tests evaluate at a few of them.", "anchors": ["src/ampform_dpd/io/serialization/amplitude.py:formulate", "src/ampform_dpd/io/serialization/dynamics.py:formulate_breit_wigner", "src/ampform_dpd/io/serialization/dynamics.py:formulate_multichannel_breit_wigner", "src/ampform_dpd/io/serialization/dynamics.py:formulate_form_factor", "src/ampform_dpd/dynamics/__init__.py:BreitWigner", "src/ampform_dpd/dynamics/__init__.py:MultichannelBreitWigner"]}
{"id": "C128", "title": "Breit-Wigner lineshapes are unitary and normalised", "statement": "A multichannel Breit-Wigner with any number of channels, real masses and non-negative widths, each an S wave or open, gives a unitary scattering matrix: it lies on the unitarity circle of the total width and no probability is lost between channels. So do the lineshape of Flatte above both thresholds, the Breit-Wigner with energy-dependent width above its threshold, and that of Bugg. The energy-dependent width is zero at the threshold, strictly increasing and equal to the given width at the mass of the resonance; the relativistic Breit-Wigner is m times Gamma times the Breit-Wigner. The squared modulus of a simple Breit-Wigner is half of its maximum exactly at m^2 - m Gamma and m^2 + m Gamma, and times m Gamma / pi its integral over all s is 1.", "quantifier": "All numbers of channels; all angular momenta; all real masses, widths, radii and values of s in the stated ranges.", "why_tests_cant": "Unitarity is an identity between functions of continuous parameters for any number of channels; the tests compare some formulas at numbers.", "anchors": ["src/ampform_dpd/dynamics/__init__.py:MultichannelBreitWigner", "src/ampform_dpd/dynamics/__init__.py:ChannelArguments", "src/ampform_dpd/dynamics/__init__.py:FlattéSWave", "src/ampform_dpd/dynamics/__init__.py:BreitWigner", "src/ampform_dpd/dynamics/__init__.py:BuggBreitWigner", "src/ampform_dpd/dynamics/__init__.py:RelativisticBreitWigner", "src/ampform_dpd/dynamics/__init__.py:SimpleBreitWigner"]}
{"id": "C129", "title": "Each channel of a multichannel lineshape has the given partial width at the mass of the resonance and none at its threshold", "statement": "At the mass of the resonance, the partial width of each channel of a multichannel Breit-Wigner or Flatte lineshape is the given width; at the threshold of a channel its partial width is zero.", "quantifier": "All channels, angular momenta, masses, widths and radii.", "why_tests_cant": "The tests have channels with a few numbers, for which the widths are not compared with the given ones.", "anchors": ["src/ampform_dpd/dynamics/__init__.py:MultichannelBreitWigner", "src/ampform_dpd/dynamics/__init__.py:ChannelArguments", "src/ampform_dpd/dynamics/__init__.py:FlattéSWave"]}
{"id": "C130", "title": "Serialised models: new labels of the final state and the order of decay products", "statement": "If the final states of a serialised model with helicity vertices get new labels, the described states and chains get these labels and a complete definition stays complete. At the same point of phase space and with the same values of the parameters, each amplitude is the same up to a sign that depends on the helicities only, and the intensity is the same, whatever the order in which final states and chains are listed. For labels in cyclic order nothing else is needed. If the cyclic order of the labels changes, parity factors of vertices with an odd number of fermions in the final state change sign and weights get the product of (-1)^(spin - helicity). Listing the decay products of a resonance with spin J and helicity r in the other order gives its weight the sign (-1)^(J + r). This holds for parents with any spin.", "quantifier": "All serialised models with helicity vertices; all permutations of the labels of the final state; all sets of chains whose decay products are listed in the other order; all lineshapes; all values of the parameters and physical points.", "why_tests_cant": "The tests read one file with one labelling and do not compare it with another labelling.", "anchors": ["src/ampform_dpd/io/serialization/amplitude.py:formulate", "src/ampform_dpd/io/serialization/amplitude.py:formulate_aligned_amplitude", "src/ampform_dpd/io/serialization/decay.py:get_final_state", "src/ampform_dpd/io/serialization/decay.py:to_decay", "src/ampform_dpd/io/serialization/dynamics.py:formulate_dynamics"]}
{"id": "C131", "title": "The alignment angles are the Wigner rotations between the chains", "statement": "At every physical point where all angles are defined, the helicity frame of a massive final state i in the chain with spectator r, reached from the rest frame of the decaying particle by the boosts and rotations along that chain with its scattering angle, is its helicity frame in the chain with spectator k, preceded by a rotation by the alignment angle zeta^i_k(r) and followed by a rotation by theta-hat_k(r). For spinors the relation holds with the sign - if i, k and r are all different and + otherwise. Hence all scattering and alignment angles of a point describe one and the same event: the momenta that the frames of a chain give to particles at rest have the masses and invariant masses of the point, sum to the decaying particle at rest, lie in the xz plane with the spectator along -z, and are the only ones with that orientation; those of another chain differ by one rotation by theta-hat.", "quantifier": "All physical points of phase space where no break-up momentum vanishes; all final states i with positive mass; all pairs k, r of chains; all four-vectors.", "why_tests_cant": "The tests compare expressions for some labels with literature formulas; that the angles with their signs are the rotations between the frames is a statement about all points and all labels.", "anchors": ["src/ampform_dpd/angles.py:formulate_scattering_angle", "src/ampform_dpd/angles.py:formulate_theta_hat_angle", "src/ampform_dpd/angles.py:formulate_zeta_angle"]}
{"id": "C132", "title": "The amplitudes of all chains are added in one frame", "statement": "At every physical point where all angles are defined and the final states are massive, the helicity amplitudes of a chain are the components of exactly one amplitude in the rest frame of the decaying particle, with the spin of each final state referred to its helicity frame in that chain by the representation of the spinor matrix of the frame. The intensity of the model is the sum over spins of one amplitude: the sum of the amplitudes of the chains, each turned as a whole, with all its four spins, by the angle theta-hat between the orientations of that chain and the reference chain. It is the contraction of this sum and its conjugate with the representations of the momenta (p divided by m) of the final states, so it depends on the frames only through the momenta. Each chain other than the reference enters with the sign (-1)^2j of the final state that is the spectator in neither of the two: + for integer spin, - for half-integer spin.", "quantifier": "All decays, reference subsystems, spins, couplings and lineshapes for which a model is formulated; all physical points where no break-up momentum vanishes and the masses of the final states are positive; all spins j for the representation.", "why_tests_cant": "The tests compare values of whole models at some points for integer or low spins; that the alignment transforms the amplitudes as one covariant amplitude is a statement about all spins and all points.", "anchors": ["src/ampform_dpd/angles.py:formulate_zeta_angle", "src/ampform_dpd/angles.py:formulate_theta_hat_angle", "src/ampform_dpd/__init__.py:DalitzPlotDecompositionBuilder.formulate_aligned_amplitude", "src/ampform_dpd/__init__.py:DalitzPlotDecompositionBuilder.formulate"]}
{"id": "C133", "title": "Serialised models: the amplitudes of all chains are added in one frame", "statement": "For a serialised model with helicity or parity vertices, at every physical point where all angles are defined and the final states are massive, the intensity is the sum over spins of one amplitude in the rest frame of the decaying particle: the amplitudes of the subsystems, each the one whose components in the helicity frames of the subsystem are the helicity amplitudes of the model, each turned as a whole by the angle theta-hat between that subsystem and the reference subsystem, with the sign (-1)^2j of the final state that is the spectator in neither of the two. It depends on the frames only through the momenta of the final states.", "quantifier": "All model definitions with complete helicity or parity vertices and lineshapes that can be formulated; all orders of the chains, with or without cleanup of the summations; all parameters; all physical points where no break-up momentum vanishes and the masses of the final states are positive.", "why_tests_cant": "The tests compare one documentation model at one checksum point; that the alignment combines the chains as one covariant amplitude is a statement about all models and all points.", "anchors": ["src/ampform_dpd/io/serialization/amplitude.py:formulate", "src/ampform_dpd/io/serialization/amplitude.py:formulate_aligned_amplitude", "src/ampform_dpd/angles.py:formulate_zeta_angle", "src/ampform_dpd/angles.py:formulate_theta_hat_angle"]}
{"id": "C134", "title": "Models with LS couplings are sums of rotation-covariant partial waves", "statement": "In a model with LS couplings at both nodes, the amplitude of a subsystem is a sum over its chains of the coupling times the lineshape times the partial waves of the two nodes: the orbital wave (spherical harmonic) of the direction of the first product in the rest frame of the decaying particle, coupled with the spins of the products by Clebsch-Gordan coefficients, first the spins to S, then L and S to J. Products listed in the other order contribute (-1)^(L+S-J). The spins of the final state are then quantised along the momenta by turning them only; the helicity frames are these turns followed by boosts without rotation. A partial wave turns with the event, so nothing depends on the choice of axes, and L is the orbital angular momentum.", "quantifier": "All decays of a particle to three particles with any spins and resonances with any LS couplings, all lineshape builders, all reference subsystems and options; all values of the parameters and all points; all spins and all spinor matrices for the coupling of representations.", "why_tests_cant": "The tests compare single matrix elements of example models; that the products of Wigner functions and Clebsch-Gordan factors are the helicity components of covariant partial waves is an identity for all spins, couplings and angles.", "anchors": ["src/ampform_dpd/__init__.py:DalitzPlotDecompositionBuilder.formulate_subsystem_amplitude", "src/ampform_dpd/__init__.py:_formulate_clebsch_gordan_factors", "src/ampform_dpd/__init__.py:DalitzPlotDecompositionBuilder.formulate"]}
{"id": "C135", "title": "Helicities of massless final states need no alignment", "statement": "If a final state has mass 0, all of its alignment angles are 0 wherever the Dalitz variables are those of three momenta, whatever the subsystem and the reference subsystem. The intensity is then a sum of non-negative parts, one for each helicity of this final state, that do not interfere: removing the amplitudes of some of its helicities, for example helicity 0 of a photon by setting the helicity couplings to 0, removes just the parts of these helicities. No other helicity and no other part is touched, in any subsystem.", "quantifier": "All decays of a particle to three particles with any spins, chains, couplings and lineshapes, all reference subsystems and options; all physical points that are not at a threshold, with mass 0 of any of the final states; all sets of helicities.", "why_tests_cant": "The tests have no massless particles; that the alignment angles vanish follows from the formulas of all index combinations at mass 0, and that helicities do not mix must hold for all couplings at once.", "anchors": ["src/ampform_dpd/angles.py:formulate_zeta_angle", "src/ampform_dpd/__init__.py:DalitzPlotDecompositionBuilder.formulate_aligned_amplitude", "src/ampform_dpd/__init__.py:DalitzPlotDecompositionBuilder.formulate"]}
{"id": "C136", "title": "Angular momentum along the line is conserved at the boundary of the Dalitz plot", "statement": "The intensity is the sum over all helicities of the squared aligned amplitudes, which can be formulated for given helicities and have no other angles than the model. At the boundary of the Dalitz plot, where a scattering angle is 0 or pi, all momenta are on a line. There the aligned amplitude, which adds up the chains of all subsystems, vanishes for all helicities for which the spin projections of the three final states on the line do not add up to that of the decaying particle, so only helicities that conserve angular momentum contribute to the intensity.", "quantifier": "All decays of a particle to three particles with any spins, chains, couplings, lineshapes and options, all reference subsystems; all values of the parameters and all events on a line that are not at a threshold, with massive or massless particles.", "why_tests_cant": "The aligned amplitude sums over helicities and subsystems with rotations by up to nine alignment angles; only with the right signs and orders of all of them do the selection rules of the subsystems agree, for all events on the boundary.", "anchors": ["src/ampform_dpd/__init__.py:DalitzPlotDecompositionBuilder.formulate_aligned_amplitude", "src/ampform_dpd/__init__.py:DalitzPlotDecompositionBuilder.formulate", "src/ampform_dpd/angles.py:formulate_zeta_angle", "src/ampform_dpd/angles.py:formulate_theta_hat_angle", "src/ampform_dpd/angles.py:formulate_scattering_angle"]}
{"id": "C137", "title": "The intensity has an envelope that depends on couplings and lineshapes only", "statement": "At every point the intensity is at most the square of the sum over all chains of the modulus of the lineshape times the norm of the helicity couplings of the chain. If both vertices have LS couplings, this is the square of the sum of the moduli of coupling times lineshape; a single chain of spinless particles attains it where its angle is 0. For a model from a model file the bound is (2j+1) times the square of the sum of |weight times lineshape| (1 + |f|)(1 + |f'|), with the spin j of the decaying particle and the factors f and f' of flipped helicities of the two vertices. An event generator can use it as an upper limit for the rejection of events.", "quantifier": "All decays of a particle to three particles with any spins, chains, couplings, lineshapes and options; all model files with one distribution; all values of all symbols, angles included.", "why_tests_cant": "A sampled maximum of the intensity is a lower limit of the true one, so it says nothing about the points and parameters between the samples.", "anchors": ["src/ampform_dpd/__init__.py:DalitzPlotDecompositionBuilder.formulate", "src/ampform_dpd/__init__.py:DalitzPlotDecompositionBuilder.formulate_subsystem_amplitude", "src/ampform_dpd/__init__.py:DalitzPlotDecompositionBuilder.formulate_aligned_amplitude", "src/ampform_dpd/io/serialization/amplitude.py:formulate"]}
{"id": "C138", "title": "Different partial waves do not interfere in the projection onto the invariant mass", "statement": "In a model with LS couplings and one subsystem, whose lineshapes only depend on the invariant mass of the subsystem, the integral of the intensity over the physical range at fixed invariant mass is the length of the range times a sum over the partial waves: each wave, given by the spin J of the resonance and the LS couplings of production and decay, contributes |sum of coupling times lineshape|^2 / (2J + 1), where the sum is over the chains of this wave, with a sign for the order of the children of the nodes. Chains with different spins or different LS couplings do not interfere, so their fit fractions add up to one.", "quantifier": "All decays of a particle to three particles with any spins, and any chains of one subsystem with allowed LS couplings; all lineshapes that only depend on the invariant mass of the subsystem, all couplings and options; all invariant masses between the thresholds.", "why_tests_cant": "The statement is about an integral over angles and a sum over all helicities, for all spins; a numerical integration of examples has errors, and cannot exclude interference for other spins and couplings.", "anchors": ["src/ampform_dpd/__init__.py:DalitzPlotDecompositionBuilder.formulate", "src/ampform_dpd/__init__.py:DalitzPlotDecompositionBuilder.formulate_subsystem_amplitude", "src/ampform_dpd/__init__.py:_formulate_clebsch_gordan_factors"]}
{"id": "C139", "title": "The intensity has gradients", "statement": "Inside the Dalitz plot (the momenta in the rest frame of the decaying particle are not along one line, and no break-up momentum vanishes) the intensity of a formulated model has a derivative with respect to everything it depends on: along every curve of points, parameters and couplings that has a derivative, the intensity has one, provided that the lineshapes have. The Breit-Wigner lineshapes of the builder have derivatives above the threshold of the pair, with a resonance between the thresholds of its decay and its production; form factors in partial waves other than S need to be strictly above their threshold. Final states with spin must have a mass or stay massless along the curve. In general, any expression of a model has a derivative where it does not divide by zero and takes no root of zero or of a negative number. The same holds for models formulated from serialised definitions, where further channels of a multichannel lineshape must be S waves or open and not at their threshold.", "quantifier": "every decay, builder, choice of reference subsystem and flags, or serialised model definition, every differentiable curve of points, parameters and couplings, every point inside the Dalitz plot", "why_tests_cant": "A test can compare a gradient with finite differences at some points; that fits and automatic differentiation never meet a point inside phase space without a gradient is a statement about all points and all curves.", "anchors": ["src/ampform_dpd/__init__.py:DalitzPlotDecompositionBuilder.formulate", "src/ampform_dpd/angles.py:formulate_scattering_angle", "src/ampform_dpd/angles.py:formulate_zeta_angle", "src/ampform_dpd/dynamics/builder.py:BreitWignerBuilder", "src/ampform_dpd/dynamics/__init__.py:RelativisticBreitWigner", "src/ampform_dpd/io/serialization/amplitude.py:formulate", "src/ampform_dpd/io/serialization/dynamics.py:formulate_multichannel_breit_wigner"]}
{"id": "C140", "title": "Polarisation observables turn with the reference subsystem", "statement": "The spin density matrix of the decaying particle or of a final state, made of the aligned amplitudes by summing A_x conj(A_y) over the helicities of the other states, has the intensity as its trace and is Hermitian and positive, so that the polarisation vector of a particle with spin 1/2 (the polarimeter vector for the decaying particle) has at most length 1. Another choice of the reference subsystem turns the density matrix by the alignment angle between the two references, as formulate_zeta_angle gives it: for spin 1/2 the component normal to the decay plane is the same and the other two are rotated by this angle (positive for the decaying particle, negative for final states). This needs that a full turn does not matter: integer spin of the decaying particle, or chains in only one subsystem or only the two reference subsystems (C28 is the counterexample otherwise). In a model that conserves parity the density matrix is unchanged by reversing helicities up to (-1)^(x-y), so that the polarisation of a particle with spin 1/2 is normal to the decay plane.", "quantifier": "every decay, builder, pair of reference subsystems, flags, state with spin, values of couplings and parameters, and nonsingular physical points", "why_tests_cant": "A test compares polarisations for some references at some points; that the polarimeter field does not depend on the reference beyond a rotation, and is bounded and normal to the plane, holds for all points, spins and couplings.", "anchors": ["src/ampform_dpd/__init__.py:DalitzPlotDecompositionBuilder.formulate_aligned_amplitude", "src/ampform_dpd/__init__.py:DalitzPlotDecompositionBuilder.formulate", "src/ampform_dpd/angles.py:formulate_zeta_angle"]}
{"id": "C141", "title": "The intensity is bounded on the Dalitz plot", "statement": "At every point in phase space each invariant mass squared lies between (m_i + m_j)^2 and (m_0 - m_k)^2. If each lineshape is a continuous function of the invariant mass of its own pair on this closed range, the intensity of the formulated model has a finite upper bound on the whole Dalitz plot, for given masses, parameters and couplings, so that hit-and-miss generation has a maximum and normalisation integrals are finite. This is the case for the Breit-Wigners of the builder if each resonance lies between the thresholds of its decay and of its production and decays into a pair with positive mass, with decay form factors in S waves or with a mass sum of at least 1 (C37): the denominator vanishes nowhere on the range, not even at the threshold, where the energy-dependent width is zero. The same holds for models formulated from serialised definitions, with the lineshapes of the module if further channels of a multichannel lineshape are S waves or open on the whole Dalitz plot.", "quantifier": "every decay, builder, reference, flags, or serialised model definition; values of masses, parameters and couplings, and all points of the Dalitz plot at once", "why_tests_cant": "A test evaluates the intensity on a grid; that no spike hides between the grid points or near the edge, for any model and couplings, is a statement about all points.", "anchors": ["src/ampform_dpd/__init__.py:DalitzPlotDecompositionBuilder.formulate", "src/ampform_dpd/dynamics/builder.py:BreitWignerBuilder", "src/ampform_dpd/dynamics/__init__.py:RelativisticBreitWigner", "src/ampform_dpd/io/serialization/amplitude.py:formulate", "src/ampform_dpd/io/serialization/dynamics.py:formulate_multichannel_breit_wigner"]}
{"id": "C142", "title": "Projections and the total rate exist", "statement": "If the decay is allowed and each lineshape is a continuous function of the invariant mass of its own pair between the kinematic limits, the intensity of the formulated model can be integrated: over each line of constant sigma_k on the Dalitz plot, which gives the projection on that invariant mass, and the projection over the range of sigma_k, which gives the integral over the Dalitz plot. Projection and integral are unique. The integral is not negative, and it is positive as soon as the intensity is positive at one point inside the Dalitz plot, so that the model can be normalised to a probability density. This is the case for the Breit-Wigners of the builder under the conditions of C141, and for serialised models.", "quantifier": "every decay, builder, reference, flags, serialised model, choice of the projected invariant mass, values of masses, parameters and couplings", "why_tests_cant": "A test integrates numerically on a grid or over a phase space sample, which yields a number whether or not the integral exists.", "anchors": ["src/ampform_dpd/__init__.py:DalitzPlotDecompositionBuilder.formulate", "src/ampform_dpd/dynamics/builder.py:BreitWignerBuilder", "src/ampform_dpd/io/serialization/amplitude.py:formulate"]}
{"id": "C143", "title": "The total rate does not depend on the projection", "statement": "The integral of the intensity over the Dalitz plot is the same number whichever invariant mass is integrated last: the integrals of the three projections agree. This holds under the conditions of C142: lineshapes that are continuous functions of the invariant mass of their own pair, the Breit-Wigners of the builder, and serialised models.", "quantifier": "every decay, builder, reference, flags, serialised model, pair of projected invariant masses, values of masses, parameters and couplings", "why_tests_cant": "Numerical integrals over different grids differ by their errors, so a test can only compare them up to a tolerance, for single models.", "anchors": ["src/ampform_dpd/__init__.py:DalitzPlotDecompositionBuilder.formulate", "src/ampform_dpd/dynamics/builder.py:BreitWignerBuilder", "src/ampform_dpd/io/serialization/amplitude.py:formulate"]}
{"id": "C144", "title": "Rates and the rates of parts of a model", "statement": "The rate (the integral of the intensity over the Dalitz plot) is a Hermitian form of the couplings: two rates and one complex number, bounded by them, give the rates of all linear combinations. The rate of a model differs from the sum of the rates of its parts by at most twice the geometric mean of the rates of each pair of parts, and is at most the number of parts times the sum. For a model in one subsystem with LS couplings whose parts have no partial wave in common, the rates add up, so that the fit fractions sum to 1.", "quantifier": "every decay, builder, reference, flags, splitting of the chains into parts, projected invariant mass, values of masses, parameters and couplings", "why_tests_cant": "Fit fractions are numerical integrals: a test can compare them for single models and up to the error of the integration, but cannot show that interference stays within its bound for all couplings.", "anchors": ["src/ampform_dpd/__init__.py:DalitzPlotDecompositionBuilder.formulate", "src/ampform_dpd/__init__.py:AmplitudeModel", "src/ampform_dpd/dynamics/builder.py:BreitWignerBuilder"]}
{"id": "C145", "title": "Phase motion and threshold behaviour of Breit-Wigner lineshapes", "statement": "The phase of a Breit-Wigner lineshape with energy-dependent width starts with 0 at the threshold of its decay, increases to 90 degrees at the mass of the resonance, stays above 90 degrees beyond it and ends with 180 degrees at high energies; in S waves, and with a constant width, it increases everywhere (in higher waves it need not increase above the mass). At the threshold the width rises with the power 2L+1 of the momentum of the decay products.", "quantifier": "every mass, width, radius, masses of the decay products below the mass of the resonance, angular momentum and invariant mass above the threshold", "why_tests_cant": "The phase is a function on a continuum of masses and parameters; limits at the threshold and at high energies are not values a test can evaluate.", "anchors": ["src/ampform_dpd/dynamics/__init__.py:BreitWigner", "src/ampform_dpd/dynamics/__init__.py:RelativisticBreitWigner", "src/ampform_dpd/dynamics/__init__.py:SimpleBreitWigner"]}
{"id": "C146", "title": "Fit fractions of serialised models", "statement": "The total rate of a serialised model is a Hermitian form of the weights of its chains that is never negative: one matrix with an entry for each pair of chains gives the rates for all weights, its diagonal gives the rates of the models with one chain alone (so fit fractions can be computed from it), and each entry is bounded by the diagonal. The rate of the whole differs from the sum of the rates of its parts by at most twice the geometric means of the pairs of rates, so fit fractions need not sum to 1.", "quantifier": "every model definition, every division of its chains in parts, all values of masses, parameters and weights, and every choice of the variables of integration", "why_tests_cant": "A statement about integrals of distributions over the whole phase space, for a continuum of complex weights.", "anchors": ["src/ampform_dpd/io/serialization/amplitude.py:formulate", "src/ampform_dpd/io/serialization/amplitude.py:formulate_aligned_amplitude", "src/ampform_dpd/io/serialization/amplitude.py:_get_weight"]}
{"id": "C147", "title": "Rates and fit fractions do not depend on conventions", "statement": "The projections of a model on invariant masses, its total rate and fit fractions do not depend on the unit of mass, on the labels of the final state and on the reference subsystem, whenever the intensity at each point does not (up to a power of the unit). In a unit that is smaller by a factor t, the rate is multiplied with t^4, or with 1 if the lineshapes have constant widths or come from a serialised model; projections are rescaled accordingly. With exchanged labels, the projection on an invariant mass is the one on the invariant mass with the new label. For two identical particles, the projections on the two invariant masses that they exchange are the same. Ratios of rates are the same in all conventions.", "quantifier": "every decay and every model definition, every change of unit, every permutation of the labels and every choice of reference subsystem under which the intensity is invariant, every values of masses, parameters and couplings, and every choice of the variables of integration", "why_tests_cant": "A statement about integrals of distributions over the whole phase space in two conventions, with lineshapes and angles that differ in form.", "anchors": ["src/ampform_dpd/__init__.py:DalitzPlotDecompositionBuilder", "src/ampform_dpd/__init__.py:formulate", "src/ampform_dpd/io/serialization/amplitude.py:formulate", "src/ampform_dpd/io/serialization/amplitude.py:formulate_aligned_amplitude"]}
{"id": "C148", "title": "A narrow resonance gives the rate of a two-step decay", "statement": "For a model with one resonance, with LS couplings of different waves and a Breit-Wigner function of the builder without decay form factor, the rate (the integral of the intensity over the Dalitz plot) exists for every positive value of the width parameter. As the width goes to zero, mass times width times the rate (constant width), or the rate divided by mass times width (energy-dependent width, whose lineshape carries that numerator), tends to pi times the length of the line 'invariant mass = resonance mass' through the Dalitz plot times the sum over the waves of |coupling times production form factor|^2 / (2J+1). The limit does not depend on the angular momenta of the decay, the meson radius of the resonance or the energy dependence of the width.", "quantifier": "All decays with one resonance in one subsystem, all spins and LS couplings, all masses with the resonance inside the allowed range, both widths of the builder, both coupling schemes, all coupling values, all reference subsystems", "why_tests_cant": "It is a statement about a limit of integrals over all Dalitz plots; numerical integration fails exactly where the peak is narrow.", "anchors": ["src/ampform_dpd/__init__.py:formulate", "src/ampform_dpd/dynamics/builder.py:BreitWignerBuilder", "src/ampform_dpd/dynamics/__init__.py:RelativisticBreitWigner", "src/ampform_dpd/dynamics/__init__.py:SimpleBreitWigner", "src/ampform_dpd/dynamics/builder.py:_create_breit_wigner"]}
{"id": "C149", "title": "A closed channel does not absorb", "statement": "A decay channel takes part in a resonance only above its threshold. Below it, between |m1-m2| and m1+m2, the channel contributes no width: scattering in the remaining channels conserves probability by itself, and if no channel is open the amplitude is real. FlattéSWave obeys this for each of its two channels, a closed channel only shifts the resonance upwards, and the amplitude is continuous across the thresholds. BreitWigner and RelativisticBreitWigner are real below the threshold for all angular momenta. MultichannelBreitWigner should obey it as well.", "quantifier": "All masses, widths, meson radii, angular momenta and values of s with real parameters; for FlattéSWave with the second channel open at the mass of the resonance", "why_tests_cant": "Fits evaluate lineshapes inside the physical region of one channel, where the other channels may be open or closed; a numerical test of one amplitude value does not show where a channel starts to absorb.", "anchors": ["src/ampform_dpd/dynamics/__init__.py:FlattéSWave", "src/ampform_dpd/dynamics/__init__.py:BreitWigner", "src/ampform_dpd/dynamics/__init__.py:RelativisticBreitWigner", "src/ampform_dpd/dynamics/__init__.py:MultichannelBreitWigner", "src/ampform_dpd/dynamics/__init__.py:ChannelArguments"]}
{"id": "C150", "title": "A resonance absorbs above the threshold of its decay products, also if its mass is below it", "statement": "A resonance can have a mass below the threshold of its decay products. Above the threshold it then decays to them, so its amplitude has a positive imaginary part there, and it has no pole at real energies. This holds with a constant width and for the channels of FlattéSWave. It should hold for the energy-dependent width of BreitWigner and RelativisticBreitWigner, which BreitWignerBuilder uses.", "quantifier": "All masses, widths, meson radii, angular momenta and values of s above the threshold with real parameters", "why_tests_cant": "A resonance below the threshold needs a special choice of masses; the value of a lineshape at one point does not show that it is real everywhere.", "anchors": ["src/ampform_dpd/dynamics/__init__.py:BreitWigner", "src/ampform_dpd/dynamics/__init__.py:RelativisticBreitWigner", "src/ampform_dpd/dynamics/__init__.py:SimpleBreitWigner", "src/ampform_dpd/dynamics/__init__.py:FlattéSWave", "src/ampform_dpd/dynamics/__init__.py:EnergyDependentWidth", "src/ampform_dpd/dynamics/builder.py:BreitWignerBuilder"]}
{"id": "C151", "title": "Every coupling of a model has an effect on the intensity", "statement": "The parameters of a model are fitted, so each of its couplings should change the intensity: for some values of the other couplings and some point of the Dalitz plot, the intensity depends on it. This holds for all couplings of models in the LS basis with allowed LS couplings, whatever the number of subsystems and chains, and for the couplings of the helicity basis whose helicities the resonance can have.", "quantifier": "All decays with any spins and chains that have different couplings, all bases, options and lineshapes that depend on the invariant mass of their subsystem and are not zero, all couplings of the model", "why_tests_cant": "A parameter without an effect does not change any value that a test compares; whether a coupling has an effect at some point is not visible at a few points.", "anchors": ["src/ampform_dpd/__init__.py:formulate", "src/ampform_dpd/__init__.py:formulate_subsystem_amplitude", "src/ampform_dpd/__init__.py:_create_scaling_factors", "src/ampform_dpd/__init__.py:_create_coupling_symbol", "src/ampform_dpd/__init__.py:_formulate_clebsch_gordan_factors", "src/ampform_dpd/__init__.py:_get_coefficient_base"]}
{"id": "C152", "title": "Couplings are determined by the amplitudes up to one complex factor per resonance", "statement": "Only the product of a production and a decay coupling enters an amplitude. Multiplying the production couplings of each resonance by a non-zero number and dividing its decay couplings by it changes no amplitude and no intensity, so one production coupling per resonance can be fixed to 1. This is the only freedom: the amplitudes on one line of constant mass of a subsystem determine the product of couplings (or the coefficient) of each chain, if the resonances of the subsystem have different spins; in the helicity basis two sets of non-zero couplings with equal amplitudes differ by one factor for each resonance. In the LS basis, with one subsystem, the products are determined if the chains have different partial waves.", "quantifier": "All decays with any spins and chains, all bases, coupling values and non-zero factors; for the converse, lineshapes that depend on the mass of their subsystem only and are not zero, all lines of constant mass between the thresholds", "why_tests_cant": "Whether two sets of parameters give the same function is a statement about all points of the Dalitz plot and all values of the parameters.", "anchors": ["src/ampform_dpd/__init__.py:formulate", "src/ampform_dpd/__init__.py:formulate_subsystem_amplitude", "src/ampform_dpd/__init__.py:_create_scaling_factors", "src/ampform_dpd/__init__.py:_create_coupling_symbol", "src/ampform_dpd/__init__.py:_formulate_clebsch_gordan_factors"]}
{"id": "C153", "title": "A weight of a model file has an effect on the intensity exactly if the helicities of its chain are possible", "statement": "Let the chains of a file with helicity or parity vertices have different weight symbols, and let the helicities of a resonance and of its decay be possible for its spin. The weight of this chain has an effect - other values of it change the intensity at some point of the Dalitz plot - if the helicities that the chain gives to the final state are possible for the spins of the final state, and no vertex with parity factor -1 has two helicities equal to zero. Otherwise the weight never has an effect, whatever the values of all parameters: formulate accepts such a chain without an error, and a fit cannot determine its weight.", "quantifier": "All model files of three-body decays with helicity or parity vertices and complete Breit-Wigner, multichannel and form factor definitions, or with any other lineshapes that are not identically zero; all parameter values and, for the absence of an effect, all points", "why_tests_cant": "That no point of the Dalitz plot is sensitive to a parameter is a statement about all points and parameter values; that one is, for every file, needs a proof that no d function and no lineshape vanishes everywhere.", "anchors": ["src/ampform_dpd/io/serialization/amplitude.py:formulate", "src/ampform_dpd/io/serialization/amplitude.py:formulate_chain_amplitude", "src/ampform_dpd/io/serialization/amplitude.py:formulate_recoupling", "src/ampform_dpd/io/serialization/amplitude.py:_get_weight", "src/ampform_dpd/io/serialization/amplitude.py:_sign_to_value"]}
{"id": "C154", "title": "Model files: chains with different helicities of a massless final state do not interfere", "statement": "If a final state of a model file has mass 0, the intensity is a sum of non-negative parts, one for each helicity of this final state, that do not interfere, in whatever subsystems the chains are: setting the weights of the chains that give it other helicities to zero leaves exactly the parts of the remaining helicities. Chains that give different helicities to a massless final state add incoherently: the intensity is the intensity of the first group of chains plus that of the others. A chain gives the helicity in the file and, if the vertex is a parity vertex with factor 1 or -1, the opposite helicity.", "quantifier": "All model files of three-body decays with helicity or parity vertices, any spins and lineshapes that do not use the weights, all reference subsystems; all physical points that are not at a threshold with mass 0 of any of the final states; all groups of chains", "why_tests_cant": "That alignment angles vanish and interference terms cancel for all points, spins and groups of chains is a statement about a continuum of points; tests evaluate files without massless particles.", "anchors": ["src/ampform_dpd/io/serialization/amplitude.py:formulate", "src/ampform_dpd/io/serialization/amplitude.py:formulate_aligned_amplitude", "src/ampform_dpd/io/serialization/amplitude.py:formulate_recoupling", "src/ampform_dpd/angles.py:formulate_zeta_angle"]}
{"id": "C155", "title": "Model files: the mass distribution of a single chain", "statement": "If the weights of all other chains of a model file are zero, the intensity integrated over the Dalitz plot at a fixed mass of the pair of a chain is (length of the range) x (2 J0 + 1)/(2 J + 1) x (number of helicity combinations) x |weight|^2 x |lineshape|^2, where J0 and J are the spins of the initial state and of the resonance and the lineshape includes the form factors. It does not depend on the order of the pair in the file, nor on the reference subsystem. A decay vertex of type parity counts as two combinations, and as four if its two decay products have helicity 0 and the factor is +1; a helicity vertex counts as one. In docs/Lc2ppiK.json the resonances of the two spinless particles therefore have twice the factor of the others: 8/(2 J + 1) instead of 4/(2 J + 1).", "quantifier": "All model files of three-body decays with helicity or parity vertices, any spins with possible helicities, all lineshapes that do not depend on the other two Mandelstam variables (those of the package do not), all masses between the thresholds, all weights, reference subsystems and orders of the pair; all 26 chains of docs/Lc2ppiK.json", "why_tests_cant": "An integral over a range of points, for all spins; tests compare the model of one file at single points.", "anchors": ["src/ampform_dpd/io/serialization/amplitude.py:formulate", "src/ampform_dpd/io/serialization/amplitude.py:formulate_chain_amplitude", "src/ampform_dpd/io/serialization/amplitude.py:formulate_recoupling", "src/ampform_dpd/angles.py:formulate_scattering_angle"]}
{"id": "C156", "title": "Model files: chains of one subsystem with different helicities add incoherently", "statement": "In a model file whose chains all have the same spectator, two groups of chains with different helicities do not interfere in the mass distribution: it is the sum of the distributions of the two groups. If the groups have no common combination of helicities of the final states, this is so even at every point of the Dalitz plot. It should also hold if only the helicity of the resonance differs, because helicities of the initial state then differ: this is false, since the code adds the chains in every amplitude; two chains with helicities 1 and -1 of a vector resonance that decays to two spinless particles cancel at every point if their weights are equal.", "quantifier": "All model files of three-body decays with one spectator and helicity or parity vertices, any spins and lineshapes that do not use the weights; all points, weights and groups of chains", "why_tests_cant": "The absence of interference is a statement about all points, weights and groups; tests compare one file at single points.", "anchors": ["src/ampform_dpd/io/serialization/amplitude.py:formulate", "src/ampform_dpd/io/serialization/amplitude.py:formulate_chain_amplitude", "src/ampform_dpd/io/serialization/amplitude.py:formulate_recoupling"]}
{"id": "C157", "title": "Model files: resonances with different spins do not interfere in the mass distribution", "statement": "In a model formulated from a model file, chains of one subsystem with the same helicities (or with all helicities opposite) and different spins of the resonance do not interfere in the mass distribution of that subsystem: for every value of its mass the intensity integrated over the other Dalitz variable is the sum of the integrals with only the first and with only the second group of chains. The rates of the two groups add. In docs/Lc2ppiK.json this holds for all chains of a subsystem that have the same helicity of the resonance.", "quantifier": "All model files of three-body decays with helicity or parity vertices, any spins, any lineshapes of the package or lineshapes that are constant on lines of constant mass; all weights, masses and groups of chains", "why_tests_cant": "The absence of interference is a statement about an integral over the Dalitz plot for all weights and values of the mass; tests compare one file at single points.", "anchors": ["src/ampform_dpd/io/serialization/amplitude.py:formulate", "src/ampform_dpd/io/serialization/amplitude.py:formulate_chain_amplitude", "src/ampform_dpd/io/serialization/amplitude.py:formulate_recoupling"]}
{"id": "C158", "title": "Model files: resonances of opposite parity in one subsystem do not interfere", "statement": "In a model formulated from a model file, chains of one subsystem whose decay vertices have the same helicities (not both 0) and the parity factors 1 and -1 do not interfere: at every point of the Dalitz plot the intensity is the sum of the intensities of the two groups of chains. Hence their rates add. In docs/Lc2ppiK.json this holds for the L resonances and for the D resonances. (In the helicity formalism there is such an interference, which is odd in the cosine of the decay angle; it is absent because the flipped term of a parity vertex has the Wigner function of the unflipped helicities, see C53.)", "quantifier": "All model files of three-body decays with helicity or parity vertices, any spins and lineshapes that do not use the weights; all points, weights and groups of chains", "why_tests_cant": "The absence of interference is a statement about all points, weights and groups of chains; tests compare one file at single points.", "anchors": ["src/ampform_dpd/io/serialization/amplitude.py:formulate", "src/ampform_dpd/io/serialization/amplitude.py:formulate_chain_amplitude", "src/ampform_dpd/io/serialization/amplitude.py:ParityRecoupling"]}
{"id": "C159", "title": "Model files: the rate of a narrow resonance", "statement": "In a model formulated from a model file, let one chain with a Breit-Wigner lineshape have a non-zero weight, with a Blatt-Weisskopf form factor in its decay vertex or none and no form factor in its production vertex, and let the mass M of the resonance lie between the limits of its invariant mass. Then the rate exists for every width G, and M G times the rate tends, for G to 0, to pi times the length of the line sigma = M^2 through the Dalitz plot times |weight|^2 times the squared form factor at M^2, times (2j + 1)/(2J + 1) and the number of pairs of helicities of the vertices. So the weights of narrow resonances in a file are comparable with branching fractions.", "quantifier": "All model files of three-body decays with helicity or parity vertices and lineshapes of the package; all spins, angular momenta, weights, masses and radii with M inside the Dalitz plot and decay products that are not both massless", "why_tests_cant": "A limit is a statement about infinitely many widths; a numerical integral of a narrow peak is least reliable exactly there.", "anchors": ["src/ampform_dpd/io/serialization/amplitude.py:formulate", "src/ampform_dpd/io/serialization/amplitude.py:formulate_chain_amplitude", "src/ampform_dpd/io/serialization/decay.py:formulate_breit_wigner", "src/ampform_dpd/io/serialization/decay.py:formulate_form_factor"]}
