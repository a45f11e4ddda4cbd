{
 "C03": [
  "partial",
  "REFUTED by the code as it is: for J=s1=s2=1/2 the coupling (L,S)=(1,1) is returned although J-(L+S) is not an integer. The positive statement for physical spin triples is C02_generate_ls_couplings_physical. C03_ls_integrality_partial: a returned coupling conserves angular momentum exactly if J+s1+s2 is an integer."
 ],
 "C06": [
  "partial",
  "REFUTED for decay products: sorting the final state by .index raises AttributeError before the isinstance check, so the documented TypeError is only reached for the initial state (the proved partial theorem)."
 ],
 "C19": [
  "partial",
  "REFUTED by the code as it is: the guard tests a set for membership in a set of tuples and never fires, so the reversed angles are returned (they are correct: C20). C19_accepted_partial: accepted are exactly the pairs of different final states."
 ],
 "C28": [
  "partial",
  "REFUTED by the code as it is: Lb(1/2) -> p(1/2) K pi with chains in three subsystems gives different intensities for reference 1 and 2 at an explicit physical point, because the theta-hat angles of the three subsystems add up to a full turn, under which half-integer spins change sign. C27 is the proved positive part. C28_reference_change_partial says what holds for every decay: the intensity for another reference is the one with the opposite sign of all couplings in the third subsystem if the parent has half-integer spin (and the same intensity otherwise)."
 ],
 "C32": [
  "partial",
  "True if the resonance names of the chains differ (C32_registered_builder_used_partial). REFUTED in general: formulate() looks up the builder by resonance name, which denotes the first chain of that name."
 ],
 "C33": [
  "partial",
  "True if the resonances of the chains have different labels (C33_counted_once_partial, with C24). REFUTED in general: chains that differ only in LS couplings share their helicity couplings, so the amplitude is multiplied by the number of LS chains."
 ],
 "C34": [
  "partial",
  "Same value, and the primed indices disappear (proved). REFUTED for the unprimed indices: the clean-up of the outer sum is discarded."
 ],
 "C37": [
  "partial",
  "REFUTED by the code as it is: the decay form factor gets s = sigma**2 (mass to the fourth power), so it is not the form factor at the squared mass and its value depends on the unit of mass. Proved: exact values (C36_builder_value) and unit independence without decay form factor or in an S-wave."
 ],
 "C44": [
  "partial",
  "REFUTED by the code as it is: the minimum is taken at each node separately, so the result can combine couplings of different transitions. Proved if the couplings occur in all combinations, or if only one node is filtered."
 ],
 "C45": [
  "partial",
  "REFUTED by the code as it is, for every non-empty input: the iterable is traversed three times, so an iterator gives the empty tuple. C45_repeatable_partial: the result is that of the sequence for all iterables that can be traversed repeatedly."
 ],
 "C48": [
  "partial",
  "REFUTED by the code as it is: int(None) raises TypeError for every otherwise convertible reaction with a particle without parity; C48_only_with_parity: a conversion only succeeds if all parities are defined."
 ],
 "C49": [
  "partial",
  "Proved for QRules transitions of one reaction with any labels, initial state first and resonance last (C49_relabelled_partial and C67). REFUTED for converted transitions (states keep their index, ValueError) and for resonance IDs below the spectator's."
 ],
 "C65": [
  "partial",
  "REFUTED by the code as it is: interactions.values() is unpacked in insertion order, so equal transitions give different decays. For mappings in ascending order it holds: C67_decay_of_the_reaction. C65_ascending_partial and C65_insertion_order_partial: what the order of the items means."
 ],
 "C69": [
  "partial",
  "REFUTED by the code as it is: only the labels of the first transition are checked; one order gives a decay, the other raises ValueError. C69_first_labels_partial: the order does not matter if both first transitions carry standard labels or both do not."
 ],
 "C52": [
  "partial",
  "REFUTED by the code as it is: the amplitude does not depend on the helicity of the initial state at all (C52_parent_helicity_ignored_refuted), so it does not vanish when l0 <> lR - lk. Proved instead: which helicities of the final state contribute, and agreement with the helicity formalism at the right helicity of the initial state."
 ],
 "C53": [
  "partial",
  "REFUTED by the code as it is: the flipped term of a parity vertex carries d^j_{lR,li-lj} of the unflipped helicities. Its actual value is C53_flipped_term_partial; it agrees with the formalism when li = lj (C52_formalism_partial)."
 ],
 "C54": [
  "partial",
  "REFUTED by the code as it is: for every definition with an 'ls' vertex formulate raises (the theorem excludes any result); concrete definition: TypeError."
 ],
 "C55": [
  "partial",
  "REFUTED by the code as it is: all BreitWigner functions share one radius symbol, so the value of the last chain wins. Proved: exact description of the parameter values (last chain), and own values if all chains with the symbol agree. In docs/Lc2ppiK.json every value other than the masses of states is kept (C55_Lc2ppiK, C55_Lc2ppiK_lineshapes, C55_Lc2ppiK_form_factors)."
 ],
 "C56": [
  "partial",
  "REFUTED by the code as it is: chains with equal resonance name and helicities in different subsystems share their weight symbol. Proved: the weight is kept if no other chain writes another value to the symbol. In docs/Lc2ppiK.json every chain keeps its weight (C56_Lc2ppiK)."
 ],
 "C57": [
  "partial",
  "REFUTED by the code as it is for the production vertex: m0 is used as squared mass and sigma as mass, so the value changes with the units. Proved for the decay vertex, with explicit values of both."
 ],
 "C60": [
  "partial",
  "REFUTED by the code as it is: a decay in which only some chains have LS couplings gives rows that are shorter than the header. Proved: rectangular for particles, and for chains exactly if they all agree on having couplings (texts without bars and newlines)."
 ],
 "C62": [
  "partial",
  "REFUTED by the code as it is: update_parameters changes the cached object that later equal requests get, and requests that differ only in the number types (1, 1.0) share an object. Proved for all histories: positional functions are right; parameters are the requested numbers overridden by the successful updates of the object; the first request of its kind in a process gets exactly what it wants."
 ],
 "C75": [
  "partial",
  "REFUTED by the code as it is: 1.001 GeV is shown as 1,000 MeV since int() truncates the rounded product. Proved: the shown number is the whole number of MeV up to 2^-23 MeV for floats up to 10^6 GeV, with digits in groups of three."
 ],
 "C88": [
  "partial",
  "REFUTED by the code as it is: the couplings of a resonance have the same symbols in both subsystems, but the sign (-1)^(J+J_R+J_k) of the exchange is missing; for D -> pi pi K with a spin-1 and a spin-0 pi K resonance, all couplings 1, the intensity is not symmetric. Proved for all decays in which this sign is the same for all chains (LS couplings at the decay node or spinless final states, reference subsystem not exchanged)."
 ],
 "C96": [
  "partial",
  "False in general: with decay form factors (evaluated at sigma^2, cf. C37) there are poles at physical points (C96_no_poles_refuted). Proved for decay form factors in S waves or with sigma^2 above the squared threshold, and for all models without decay form factors."
 ],
 "C105": [
  "partial",
  "False of the code for ChannelArguments: the braces of its _latex_repr_ template are the wrong way round, so printing raises KeyError for every object (C105_channel_refuted). Proved for all other lineshapes and for indexed symbols."
 ],
 "C112": [
  "partial",
  "False of the code: spectators in vertices and topology are not compared, and the chain contributes to the subsystem named by the topology (C112_contradictory_topology_refuted). Proved: subsystems are those in the topologies."
 ],
 "C129": [
  "partial",
  "False of the code. ChannelArguments has no phase-space factor and its form factor is not normalised at the mass of the resonance: P and higher waves do not have the given width (C129_nominal_width_refuted), S waves have a width at their threshold (C129_threshold_refuted). FlattéSWave normalises its first channel to the break-up momentum of the second one (C129_first_channel_refuted). Proved: the exact conditions under which the widths are the given ones, and that P and higher waves have no width at the threshold."
 ],
 "C149": [
  "partial",
  "False of the code for MultichannelBreitWigner: ChannelArguments has no phase-space factor, so a closed S wave absorbs like an open one (C149_multichannel_refuted), a closed P wave has a negative width (C149_negative_width_refuted), and the two can cancel so that the amplitude has a pole at a real value of s (C149_pole_refuted). Proved in full for FlattéSWave, BreitWigner and RelativisticBreitWigner."
 ],
 "C150": [
  "partial",
  "False of the code for energy-dependent widths: for every mass below the threshold and every angular momentum, BreitWigner and RelativisticBreitWigner are real above the threshold (C150_real_refuted), because the width is normalised to the imaginary phase-space factor at the mass; a P wave can have a pole at any value of s above the threshold (C150_pole_refuted). Proved for constant widths and for FlattéSWave; S waves have no pole above the threshold."
 ],
 "C151": [
  "partial",
  "Proved for the LS basis and for all couplings of the helicity basis with |li - lj| <= J. False of the code otherwise: formulate only skips resonance helicities that do not match the parent, so decay couplings (and coefficients) with |li - lj| > J are parameters of the model without any effect on the intensity (C151_helicity_partial, C151_all_parameters_refuted)."
 ],
 "C156": [
  "partial",
  "Proved for groups of chains without a common combination of helicities of the final states (C156_incoherent_partial). Refuted for groups that only differ in the helicity of the resonance (C156_refuted, C156_cancel): amplitudes of model files do not conserve the helicity of the initial state, see C52."
 ]
}