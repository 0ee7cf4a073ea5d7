{
 "claims": [
  {
   "property": "C01",
   "status": "proved",
   "theorems": [
    "C01_S_from_Z",
    "C01_S_from_Z_fails",
    "C01_S_unique",
    "C01_Z_from_S",
    "C01_Z_from_S_fails",
    "C01_Y_from_S",
    "C01_Y_from_S_fails",
    "C01_round_trip",
    "C01_Z_Y_inverse"
   ],
   "note": "S/Z/Y of one matrix characterised by the wave relations, raise exactly when none exists, round trip; slices in C06"
  },
  {
   "property": "C02",
   "status": "proved",
   "theorems": [
    "C02_same_multiport",
    "C02_same_multiport_scalar",
    "C02_fails",
    "C02_unique",
    "C02_stack",
    "C02_any_impedance",
    "C02_any_impedance_matrix",
    "C02_any_impedance_scalar"
   ],
   "note": "per-port and scalar impedances, frequency stacks, failure iff no such matrix; wave type/impedance admissible (non-zero; Re>0 for P) is the documented domain"
  },
  {
   "property": "C03",
   "status": "proved",
   "theorems": [
    "C03_identity",
    "C03_identity_any",
    "C03_round_trip",
    "C03_composition"
   ],
   "note": "identity, round trip, composition"
  },
  {
   "property": "C04",
   "status": "proved",
   "theorems": [
    "C04_impedance_route",
    "C04_admittance_route"
   ],
   "note": "via the impedance matrix and via the admittance matrix"
  },
  {
   "property": "C05",
   "status": "proved",
   "theorems": [
    "C05_reciprocity",
    "C05_lossless",
    "C05_passive",
    "C05_passive_meaning",
    "C05_reciprocity_mixed_V_refuted"
   ],
   "note": "symmetric/unitary/passive preserved under recip_ok/power_ok; refuted for V waves with unequal impedances"
  },
  {
   "property": "C06",
   "status": "proved",
   "theorems": [
    "C06_shape_S_from_Z",
    "C06_shape_Z_from_S",
    "C06_shape_Y_from_S",
    "C06_slices",
    "C06_list",
    "C06_slices_Z_from_S",
    "C06_slices_Y_from_S",
    "C06_list_Z_from_S",
    "C06_list_Y_from_S",
    "C06_shape_ConvertGeneral",
    "C06_shape_ConvertGeneral_list",
    "C06_shape_ConvertGeneral_refuted"
   ],
   "note": "shape preserved by S_from_Z/Z_from_S/Y_from_S; ConvertGeneral of a 1-D list returns one element only: refuted by a theorem, the rest is proved"
  },
  {
   "property": "C07",
   "status": "proved",
   "theorems": [
    "C07_bad_shape_exception",
    "C07_ConvertGeneral_bad_shape",
    "C07_ConvertGeneral_bad_impedance",
    "C07_ValueError_refuted",
    "C07_ValueError_cases"
   ],
   "note": "the code raises TypeError instead of ValueError for bad shapes (the %-format of the message fails): the documented exception is refuted, the actual one is proved"
  },
  {
   "property": "C08",
   "status": "proved",
   "theorems": [
    "C08_S_from_VI",
    "C08_fails",
    "C08_unique",
    "C08_bad_shape"
   ],
   "note": "full"
  },
  {
   "property": "C09",
   "status": "proved",
   "theorems": [
    "C09_S_from_Y_refuted",
    "C09_S_from_Y_formula",
    "C09_bindings",
    "C09_good_bindings"
   ],
   "note": "refuted: S_from_Y, rfBase Z/Y and rfGTL arc bind modules; proved for the others by the import interpreter"
  },
  {
   "property": "C10",
   "status": "proved",
   "theorems": [
    "C10_bookkeeping"
   ],
   "note": "all histories of building calls (and getS); counting claim before the first getS, which is when it holds"
  },
  {
   "property": "C11",
   "status": "proved",
   "theorems": [
    "C11_connect_kirchhoff"
   ],
   "note": "equations added by connect <-> Kirchhoff, any number of ports"
  },
  {
   "property": "C12",
   "status": "proved",
   "theorems": [
    "C12_getS_network",
    "C12_returns_iff",
    "C12_matrix_unique"
   ],
   "note": "result characterised by the network, uniqueness, and returns iff well posed; Raise causes listed (causes)"
  },
  {
   "property": "C13",
   "status": "proved",
   "theorems": [
    "C13_same_network",
    "C13_independent_calls_commute",
    "C13_same_outcome"
   ],
   "note": "same solutions -> same matrix by port name; reordered independent calls; same outcome"
  },
  {
   "property": "C14",
   "status": "proved",
   "theorems": [
    "C14_portnames_order",
    "C14_bad_portnames"
   ],
   "note": "order and rejection"
  },
  {
   "property": "C15",
   "status": "proved",
   "theorems": [
    "C15_Z_as_RC",
    "C15_Z_as_Y",
    "C15_default_matched",
    "C15_rejected",
    "C15_load_law",
    "C15_accepted"
   ],
   "note": "equivalences, law, acceptance, rejection"
  },
  {
   "property": "C16",
   "status": "proved",
   "theorems": [
    "C16_terminate_after_getS"
   ],
   "note": "full"
  },
  {
   "property": "C17",
   "status": "proved",
   "theorems": [
    "C17_stale",
    "C17_other_frequency",
    "C17_new_load_seen_refuted"
   ],
   "note": "refuted: for the frequency and flags asked for last the old matrix is returned (C17_stale, C17_new_load_seen_refuted); true for the other frequencies"
  },
  {
   "property": "C18",
   "status": "proved",
   "theorems": [
    "C18_history_free",
    "C18_same_outcome",
    "C18_sets_and_params",
    "C18_params",
    "C18_params_ignored",
    "C18_stored"
   ],
   "note": "histories of building calls, getS, successful set and getS(params=...); params= is ignored at the stored frequency and flags (C18_params_ignored, C18_stored)"
  },
  {
   "property": "C19",
   "status": "proved",
   "theorems": [
    "C19_replace_block",
    "C19_wrong_size"
   ],
   "note": "replacement proved; the rejection is a KeyError, not the ValueError of the claim (C19_wrong_size), and nothing but the cache changes"
  },
  {
   "property": "C20",
   "status": "proved",
   "theorems": [
    "C20_terminate",
    "C20_addblock",
    "C20_forgetting",
    "C20_connect_names",
    "C20_connect_refuted",
    "C20_deembed_refuted"
   ],
   "note": "refuted for connect and deembed (ports are lost / stay); proved for terminate, addblock and the name checks of connect"
  },
  {
   "property": "C21",
   "status": "proved",
   "theorems": [
    "C21_addblock_after_getS_refuted",
    "C21_connect_after_getS_refuted",
    "C21_grow_after_getS_refuted"
   ],
   "note": "refuted: after a returning getS, addblock of a new block or connect makes every later getS raise"
  },
  {
   "property": "C22",
   "status": "proved",
   "theorems": [
    "C22_solution",
    "C22_superposition"
   ],
   "note": "order_known: no Portnames, or a getS returned before (else C23 is violated); nodes of the circuit itself, not of sub-circuits"
  },
  {
   "property": "C23",
   "status": "proved",
   "theorems": [
    "C23_repeatable",
    "C23_repeatable_refuted"
   ],
   "note": "refuted when Portnames reorders the ports and getS was not called before; proved otherwise"
  },
  {
   "property": "C24",
   "status": "proved",
   "theorems": [
    "C24_flattened",
    "C24_same_solutions",
    "C24_circuit_as_block",
    "C24_portnames_refuted"
   ],
   "note": "any depth; conditions full_ok (sub-circuits without RC loads on another reference impedance, distinct names); refuted for a sub-circuit whose Portnames order is not settled yet"
  },
  {
   "property": "C25",
   "status": "proved",
   "theorems": [
    "C25_deembed_undoes_embedding"
   ],
   "note": "one block whose relation is an embedding of O by D, deembedded by a block with the relation of D"
  },
  {
   "property": "C26",
   "status": "proved",
   "theorems": [
    "C26_set_path",
    "C26_set_tuple",
    "C26_set_keywords",
    "C26_set_dotted",
    "C26_unknown_block",
    "C26_unknown_attr",
    "C26_no_attr",
    "C26_dict_argument_refuted",
    "C26_stale_after_raise_refuted",
    "C26_many_attributes",
    "C26_many_keywords",
    "C26_first_positional",
    "C26_keyword_first"
   ],
   "note": "all four call forms; refuted: set({...}) raises, a raising set can leave stale results"
  },
  {
   "property": "C27",
   "status": "proved",
   "theorems": [
    "C27_port_names",
    "C27_default_names",
    "C27_renamed",
    "C27_unknown_port_rejected",
    "C27_list",
    "C27_numbers",
    "C27_mapping_kept_refuted"
   ],
   "note": "naming and rejection proved; the caller's mapping is emptied (refuted)"
  },
  {
   "property": "C28",
   "status": "proved",
   "theorems": [
    "C28_maxV",
    "C28_maxV_returns",
    "C28_missing_excitation",
    "C28_used_port_refuted"
   ],
   "note": "bounds and attainment proved; raises when a named port was used later (refuted)"
  },
  {
   "property": "C29",
   "status": "proved",
   "theorems": [
    "C29_tabulated",
    "C29_same_unit",
    "C29_list",
    "C29_interpolated",
    "C29_increasing",
    "C29_setS_defined",
    "C29_sorted_refuted",
    "C29_unsorted_refuted",
    "C29_stale_refuted",
    "C29_convert",
    "C29_out_of_order_refuted"
   ],
   "note": "tabulated, interpolated and increasing-order claims for every history of setS/getS; refuted: the sorted flag only looks at the last two entries, decreasing data make off-table getS raise IndexError, convert2newZbase leaves a stale interpolation. scipy's interp1d is an argument of the model."
  },
  {
   "property": "C30",
   "status": "proved",
   "theorems": [
    "C30_sortports",
    "C30_getS",
    "C30_defined",
    "C30_default_defined",
    "C30_stale_refuted",
    "C30_unnamed_refuted"
   ],
   "note": "sortports and getS by port name; refuted: stale interpolation after sortports, an object named by setS raises IndexError."
  },
  {
   "property": "C31",
   "status": "proved",
   "theorems": [
    "C31_deembed",
    "C31_defined",
    "C31_scalar_refuted",
    "C31_unknown",
    "C31_rfTRL"
   ],
   "note": "any number of ports and frequencies, pairs (length, Z) and any line law; with rfTRL lines C31_rfTRL. Lengths alone and dicts raise TypeError (C31_scalar_refuted). Returning needs the partially deembedded n-ports to have matrices."
  },
  {
   "property": "C32",
   "status": "proved",
   "theorems": [
    "C32_base",
    "C32_base_unknown",
    "C32_base_answers",
    "C32_rlc",
    "C32_excitation",
    "C32_object_refuted"
   ],
   "note": "rfBase and rfRLC proved (largest |V|, first port attaining it, all values); rfObject takes the maximum of complex numbers: refuted"
  },
  {
   "property": "C33",
   "status": "proved",
   "theorems": [
    "C33_write_read",
    "C33_write_read_exact",
    "C33_write_read_error",
    "C33_tsf2str_read",
    "C33_tsf2str_exact",
    "C33_tsf2str_frequency_refuted",
    "C33_write_read_witness",
    "C33_tsf2str_two_ports_refuted",
    "C33_tsf2str_frequency_witness"
   ],
   "note": "any number of ports and frequencies, RI/MA/DB, text or file; option line 'U S fm R z'. tsf2str: two-ports come back transposed and frequencies lose their decimals when a step is an integer (both refuted)."
  },
  {
   "property": "C34",
   "status": "proved",
   "theorems": [
    "C34_records",
    "C34_impedance_data",
    "C34_admittance_refuted",
    "C34_port_names",
    "C34_comments",
    "C34_trailing_comment",
    "C34_second_option_line",
    "C34_default_impedance_refuted",
    "C34_records_witness",
    "C34_comments_refuted"
   ],
   "note": "records, option line in any order (units, formats, types, 1 or N impedances), port names, plain comments, blank lines, trailing comments and second option line; refuted: comments about gammas/port impedances change the result, an option line without R or with Y is never accepted. Z data with several reference impedances are not modelled."
  },
  {
   "property": "C35",
   "status": "proved",
   "theorems": [
    "C35_text",
    "C35_same",
    "C35_newline_refuted",
    "C35_again_refuted",
    "C35_again",
    "C35_list_refuted",
    "C35_cr_refuted"
   ],
   "note": "equal for texts without carriage return not ending in a newline; refuted: trailing newline gives an extra line, \\r stays, an open file can be read once, a list raises AttributeError."
  },
  {
   "property": "C36",
   "status": "proved",
   "theorems": [
    "C36_two_port",
    "C36_params",
    "C36_two_port_exact",
    "C36_raises",
    "C36_zero_values",
    "C36_reciprocal",
    "C36_passive",
    "C36_lossless",
    "C36_defined",
    "C36_reference",
    "C36_list",
    "C36_dc_one_ohm",
    "C36_dc_refuted",
    "C36_params_stick"
   ],
   "note": "two-port characterisation, reciprocity, passivity, losslessness, definedness, change of reference impedance; refuted at f=0 with neither series capacitor nor shunt inductor (the matrix is on 1 Ohm)"
  },
  {
   "property": "C37",
   "status": "proved",
   "theorems": [
    "C37_gamma_Zc",
    "C37_line",
    "C37_params",
    "C37_reciprocal",
    "C37_lossless",
    "C37_passive",
    "C37_through",
    "C37_matched",
    "C37_cascade",
    "C37_reference",
    "C37_list",
    "C37_defined",
    "C37_dc_refuted"
   ],
   "note": "rfTRL with constant line parameters; the resolved parameters z(w), y(w) and np.exp are arguments, the functional equation of exp is a hypothesis only at the values used. A lossless line at f = 0 (gamma = 0) raises instead of being a direct connection (C37_dc_refuted). sNp data and position-dependent parameters (odeint) not modelled."
  },
  {
   "property": "C38",
   "status": "proved",
   "theorems": [
    "C38_profile",
    "C38_excitation",
    "C38_history",
    "C38_stale_refuted",
    "C38_nodes_linspace"
   ],
   "note": "Profile proved for every history of calls without a failing set; after a failing set the old profile is still returned (C38_stale_refuted). The telegrapher equations are stated in integrated form (two waves exp(+-gamma x))."
  },
  {
   "property": "C39",
   "status": "proved",
   "theorems": [
    "C39_lossless",
    "C39_defined",
    "C39_centre",
    "C39_coupling",
    "C39_kc0_refuted",
    "C39_rejects"
   ],
   "note": "cos/sin abstract (real, c^2+s^2=1 at the angle used); kc=0 gives 3 dB: refuted"
  },
  {
   "property": "C40",
   "status": "proved",
   "theorems": [
    "C40_inductance",
    "C40_unit",
    "C40_unit_any",
    "C40_list",
    "C40_list_refuted"
   ],
   "note": "one frequency complete; a list on another Zbase returns one value: refuted; the default Larc=inf (nan) is not modelled"
  },
  {
   "property": "C41",
   "status": "proved",
   "theorems": [
    "C41_increasing",
    "C41_decreasing_refuted"
   ],
   "note": "increasing abscissae: full; decreasing: refuted (abscissa returned as the value). Real arithmetic, exact polyfit (hypothesis good_polyfit, met by Lagrange's formula)."
  },
  {
   "property": "C42",
   "status": "proved",
   "theorems": [
    "C42_terminates",
    "C42_unknown",
    "C42_kept",
    "C42_assumed",
    "C42_computed",
    "C42_line",
    "C42_constants",
    "C42_solved",
    "C42_returns",
    "C42_gTL_lost",
    "C42_RsO_raises",
    "C42_rTLO_wrong",
    "C42_Rs_unsolved"
   ],
   "note": "termination, ValueError for unknown keywords, given values kept, computed values from known ones only, solved criterion; refuted: a given gTL is thrown away when neither sigma nor tand is given, RsO needs RsI, Rs alone is never used."
  },
  {
   "property": "C43",
   "status": "proved",
   "theorems": [
    "C43_sound",
    "C43_recover",
    "C43_recover_coax",
    "C43_mur_wrong",
    "C43_epsr_wrong",
    "C43_AdB_wrong",
    "C43_A_wrong"
   ],
   "note": "every equation is checked against a separate description of a lossy line (record physical); refuted: mur/epsr from vr, A from AdB, rTLO from RsO."
  },
  {
   "property": "C44",
   "status": "proved",
   "theorems": [
    "C44_found",
    "C44_not_found",
    "C44_existspath"
   ],
   "note": "file system, environment and sorted() are arguments of the model; statement made exact for missingOK=False."
  },
  {
   "property": "C45",
   "status": "proved",
   "theorems": [
    "C45_unique",
    "C45_threads_refuted"
   ],
   "note": "proved for constructions one after the other; refuted for threads (C45_threads_refuted): += is not atomic."
  },
  {
   "property": "C46",
   "status": "proved",
   "theorems": [
    "C46_resolved",
    "C46_order",
    "C46_precedence",
    "C46_reported",
    "C46_raises",
    "C46_self_refuted",
    "C46_mutual_refuted",
    "C46_unreported_refuted",
    "C46_product_refuted",
    "C46_sum_refuted"
   ],
   "note": "resolution, termination and order independence for acyclic definitions without sums/products of text variables; refuted otherwise (loops for ever, joins texts, cycles not reported). python's parser and number operations are arguments."
  },
  {
   "property": "C47",
   "status": "proved",
   "theorems": [
    "C47_first",
    "C47_accumulates",
    "C47_refuted",
    "C47_error_refuted"
   ],
   "note": "first call proved; every later call returns the texts of all calls so far (C47_accumulates): refuted."
  },
  {
   "property": "C48",
   "status": "proved",
   "theorems": [
    "C48_scales",
    "C48_compose",
    "C48_refused",
    "C48_shared_refuted",
    "C48_tuple_refuted"
   ],
   "note": "scaling and composition for structures that store each sequence once; refuted when a sequence is shared or a (pos, V) tuple occurs."
  },
  {
   "property": "C49",
   "status": "proved",
   "theorems": [
    "C49_tabulated",
    "C49_refused",
    "C49_list"
   ],
   "note": "tables of frequencies and matrices, one reference impedance Zbase; frequencies are compared for equality (python float ==)."
  },
  {
   "property": "C50",
   "status": "proved",
   "theorems": [
    "C50_solution",
    "C50_every_solution",
    "C50_returns",
    "C50_renamed"
   ],
   "note": "all nesting depths; hypotheses: the history's Portnames order is settled (as C22) and sub-circuits keep their port names, else C50_renamed. What a later call on the circuit does after such a Solution is not part of the claim."
  },
  {
   "property": "C51",
   "status": "proved",
   "theorems": [
    "C51_relates",
    "C51_unique",
    "C51_fewer",
    "C51_more",
    "C51_outcomes",
    "C51_ports",
    "C51_fewer_refuted"
   ],
   "note": "nodes of the circuit itself (nodes inside sub-circuits are modelled, not covered); exact Moore-Penrose inverse. C22_superposition is in the same file."
  },
  {
   "property": "C52",
   "status": "proved",
   "theorems": [
    "C52_network",
    "C52_touchstone",
    "C52_accepted",
    "C52_only",
    "C52_relpos_refused",
    "C52_answers"
   ],
   "note": "getS of one frequency and without params; the objects of the blocks are arbitrary good block objects (which keyword gives which object is not modelled). C52_network: what is returned; C52_accepted/C52_only: what is accepted; C52_answers: when it answers."
  },
  {
   "property": "C53",
   "status": "proved",
   "theorems": [
    "C53_blocks",
    "C53_ports",
    "C53_layout",
    "C53_given",
    "C53_ends"
   ],
   "note": "consistent data (a layout exists); names [oc], [sc], [**] are not positions. Inconsistent positions are only reported by the code and nothing is claimed about them."
  },
  {
   "property": "C54",
   "status": "proved",
   "theorems": [
    "C54_same",
    "C54_law",
    "C54_before",
    "C54_terminated_refuted"
   ],
   "note": "getS and top-level Solution of the copy; the claim about later edits holds only for copies made before the first getS (C54_before) and fails afterwards (C54_terminated_refuted)."
  },
  {
   "property": "C55",
   "status": "proved",
   "theorems": [
    "C55_replaces",
    "C55_accepted",
    "C55_refused",
    "C55_new_refuted"
   ],
   "note": "params of addblock not modelled; C55_new_refuted is about a new name in a sub-circuit of the circuit itself (one dot). Hypothesis of C55_replaces: no load was changed in place since the last getS (C17)."
  },
  {
   "property": "C56",
   "status": "proved",
   "theorems": [
    "C56_constant",
    "C56_list",
    "C56_accepted",
    "C56_refused",
    "C56_ports",
    "C56_setS_refuted"
   ],
   "note": "default interpkws (kind 3, extrapolate); numpy angle/exp/log as functions with the stated identities; np.array of ragged lists raises ValueError."
  },
  {
   "property": "C57",
   "status": "proved",
   "theorems": [
    "C57_same",
    "C57_interpolates",
    "C57_sortports_refuted"
   ],
   "note": "one rfObject with at least one port; pickle itself as __getstate__ followed by __setstate__ on a new object."
  },
  {
   "property": "C58",
   "status": "proved",
   "theorems": [
    "C58_found",
    "C58_agree",
    "C58_dots",
    "C58_only",
    "C58_unknown",
    "C58_listed",
    "C58_once",
    "C58_listed_object",
    "C58_set"
   ],
   "note": "the tree of objects as in C26; the messages are not modelled."
  },
  {
   "property": "C59",
   "status": "proved",
   "theorems": [
    "C59_line",
    "C59_reciprocal",
    "C59_lossless",
    "C59_passive",
    "C59_defined",
    "C59_reference",
    "C59_list",
    "C59_through",
    "C59_profile",
    "C59_history",
    "C59_fixed",
    "C59_nodes_refuted",
    "C59_zero_refuted"
   ],
   "note": "odeint is assumed to solve the equations exactly; the calculus is abstract, with polynomials as an instance; findings: C59_nodes_refuted, C59_zero_refuted."
  },
  {
   "property": "C60",
   "status": "proved",
   "theorems": [
    "C60_values",
    "C60_object",
    "C60_accepts",
    "C60_refused",
    "C60_synonyms",
    "C60_rlc",
    "C60_arc_refuted",
    "C60_arc_all"
   ],
   "note": "the evaluation of texts is any function; arrays as values are not modelled; finding: C60_arc_refuted, C60_arc_all."
  },
  {
   "property": "C61",
   "status": "proved",
   "theorems": [
    "C61_no_oscillation",
    "C61_answers",
    "C61_reciprocal",
    "C61_passive",
    "C61_lossless",
    "C61_element"
   ],
   "note": "histories without deembed (which takes a network away, leaving possibly an active one)."
  },
  {
   "property": "C62",
   "status": "proved",
   "theorems": [
    "C62_tied",
    "C62_no_oscillation",
    "C62_total",
    "C62_network",
    "C62_laws",
    "C62_reciprocal",
    "C62_passive",
    "C62_lossless",
    "C62_answers",
    "C62_len_new",
    "C62_len_getS",
    "C62_len_refuted",
    "C62_len_set",
    "C62_set_rlc",
    "C62_set_modified",
    "C62_set_rlc_accepts",
    "C62_set_rlc_unknown",
    "C62_set_trl",
    "C62_set_trl_accepts",
    "C62_set_none",
    "C62_set"
   ],
   "note": "one class with the four kinds of objects; addblock without params (with: C63), f != 0 (C36_dc_refuted), constant line parameters; passive/lossless/reciprocal: histories without deembed, as C61. set: of a line only L and Zbase (not 0). finding: C62_len_refuted."
  },
  {
   "property": "C63",
   "status": "proved",
   "theorems": [
    "C63_law_rlc",
    "C63_law_line",
    "C63_law_other",
    "C63_law_none",
    "C63_eff_rlc",
    "C63_eff_line",
    "C63_eff_other",
    "C63_set_line",
    "C63_set_rlc_before",
    "C63_set_rlc_after",
    "C63_network",
    "C63_refused",
    "C63_reciprocal",
    "C63_passive",
    "C63_lossless",
    "C63_answers",
    "C63_set",
    "C63_set_line_ignored"
   ],
   "note": "params dicts with finite Rs, Ls, Cp and Zbase not 0; f != 0 and constant line parameters as C62; not params of a block that is a circuit. findings: C63_set_line_ignored, C63_set_rlc_before / C63_set_rlc_after, C63_order_witness."
  },
  {
   "property": "C64",
   "status": "proved",
   "theorems": [
    "C64_accepts",
    "C64_result",
    "C64_raises",
    "C64_refuted"
   ],
   "note": "relpos a number (a list is not modelled). finding: C64_refuted."
  }
 ]
}