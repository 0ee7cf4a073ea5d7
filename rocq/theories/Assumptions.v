(** What the theorems of properties.jsonl rest on: for each file of theorems all of them are
    put into one tuple; the commands print "Closed under the global context". *)
From Verif Require PropsCirc PropsCircC PropsCircI PropsCircN PropsCircP PropsCircS PropsCircW PropsConv PropsDev PropsDiss PropsElem PropsElemS PropsFind PropsGtl PropsGtlK PropsGtlN PropsObj PropsObjA PropsParm PropsPow PropsSet PropsTl PropsTlW PropsTrl PropsTrlV PropsTsf PropsTsfW PropsUtil PropsXpos.
Definition of_PropsCirc :=
  (@PropsCirc.C10_bookkeeping,
   @PropsCirc.C11_connect_kirchhoff,
   @PropsCirc.C12_getS_network,
   @PropsCirc.C12_returns_iff,
   @PropsCirc.C12_matrix_unique,
   @PropsCirc.C13_same_network,
   @PropsCirc.C13_independent_calls_commute,
   @PropsCirc.C13_same_outcome,
   @PropsCirc.C14_portnames_order,
   @PropsCirc.C14_bad_portnames,
   @PropsCirc.C15_Z_as_RC,
   @PropsCirc.C15_Z_as_Y,
   @PropsCirc.C15_default_matched,
   @PropsCirc.C15_rejected,
   @PropsCirc.C15_load_law,
   @PropsCirc.C15_accepted,
   @PropsCirc.C16_terminate_after_getS,
   @PropsCirc.C17_stale,
   @PropsCirc.C17_other_frequency,
   @PropsCirc.C18_history_free,
   @PropsCirc.C18_same_outcome,
   @PropsCirc.C19_replace_block,
   @PropsCirc.C19_wrong_size,
   @PropsCirc.C20_terminate,
   @PropsCirc.C20_addblock,
   @PropsCirc.C20_forgetting,
   @PropsCirc.C20_connect_names,
   @PropsCirc.C20_connect_refuted,
   @PropsCirc.C20_deembed_refuted,
   @PropsCirc.C21_addblock_after_getS_refuted,
   @PropsCirc.C21_connect_after_getS_refuted,
   @PropsCirc.C22_solution,
   @PropsCirc.C23_repeatable,
   @PropsCirc.C25_deembed_undoes_embedding,
   @PropsCirc.C27_port_names,
   @PropsCirc.C28_maxV,
   @PropsCirc.C28_maxV_returns,
   @PropsCirc.C28_missing_excitation,
   @PropsCirc.C28_used_port_refuted,
   @PropsCirc.C27_default_names,
   @PropsCirc.C27_renamed,
   @PropsCirc.C27_unknown_port_rejected,
   @PropsCirc.C27_list,
   @PropsCirc.C27_numbers,
   @PropsCirc.C27_mapping_kept_refuted,
   @PropsCirc.C24_flattened,
   @PropsCirc.C24_same_solutions,
   @PropsCirc.C24_circuit_as_block).
Print Assumptions of_PropsCirc.
Definition of_PropsCircC :=
  (@PropsCircC.C54_same,
   @PropsCircC.C54_law,
   @PropsCircC.C54_before,
   @PropsCircC.C54_terminated_refuted).
Print Assumptions of_PropsCircC.
Definition of_PropsCircI :=
  (@PropsCircI.C51_relates,
   @PropsCircI.C51_unique,
   @PropsCircI.C51_fewer,
   @PropsCircI.C51_more,
   @PropsCircI.C51_outcomes,
   @PropsCircI.C51_ports,
   @PropsCircI.C22_superposition,
   @PropsCircI.C51_fewer_refuted).
Print Assumptions of_PropsCircI.
Definition of_PropsCircN :=
  (@PropsCircN.C50_solution,
   @PropsCircN.C50_every_solution,
   @PropsCircN.C50_returns,
   @PropsCircN.C50_renamed).
Print Assumptions of_PropsCircN.
Definition of_PropsCircP :=
  (@PropsCircP.C55_replaces,
   @PropsCircP.C55_accepted,
   @PropsCircP.C55_refused,
   @PropsCircP.C55_new_refuted).
Print Assumptions of_PropsCircP.
Definition of_PropsCircS :=
  (@PropsCircS.C18_sets_and_params,
   @PropsCircS.C18_params,
   @PropsCircS.C18_params_ignored,
   @PropsCircS.C18_stored).
Print Assumptions of_PropsCircS.
Definition of_PropsCircW :=
  (@PropsCircW.C17_new_load_seen_refuted,
   @PropsCircW.C21_grow_after_getS_refuted,
   @PropsCircW.C23_repeatable_refuted,
   @PropsCircW.C24_portnames_refuted).
Print Assumptions of_PropsCircW.
Definition of_PropsConv :=
  (@PropsConv.C01_S_from_Z,
   @PropsConv.C01_S_from_Z_fails,
   @PropsConv.C01_S_unique,
   @PropsConv.C01_Z_from_S,
   @PropsConv.C01_Z_from_S_fails,
   @PropsConv.C01_Y_from_S,
   @PropsConv.C01_Y_from_S_fails,
   @PropsConv.C01_round_trip,
   @PropsConv.C01_Z_Y_inverse,
   @PropsConv.C02_same_multiport,
   @PropsConv.C02_same_multiport_scalar,
   @PropsConv.C02_fails,
   @PropsConv.C02_unique,
   @PropsConv.C02_stack,
   @PropsConv.C02_any_impedance,
   @PropsConv.C02_any_impedance_matrix,
   @PropsConv.C02_any_impedance_scalar,
   @PropsConv.C03_identity,
   @PropsConv.C03_identity_any,
   @PropsConv.C03_round_trip,
   @PropsConv.C03_composition,
   @PropsConv.C04_impedance_route,
   @PropsConv.C04_admittance_route,
   @PropsConv.C05_reciprocity,
   @PropsConv.C05_lossless,
   @PropsConv.C05_passive,
   @PropsConv.C05_passive_meaning,
   @PropsConv.C05_reciprocity_mixed_V_refuted,
   @PropsConv.C06_shape_S_from_Z,
   @PropsConv.C06_shape_Z_from_S,
   @PropsConv.C06_shape_Y_from_S,
   @PropsConv.C06_slices,
   @PropsConv.C06_list,
   @PropsConv.C06_slices_Z_from_S,
   @PropsConv.C06_slices_Y_from_S,
   @PropsConv.C06_list_Z_from_S,
   @PropsConv.C06_list_Y_from_S,
   @PropsConv.C06_shape_ConvertGeneral,
   @PropsConv.C06_shape_ConvertGeneral_list,
   @PropsConv.C06_shape_ConvertGeneral_refuted,
   @PropsConv.C07_bad_shape_exception,
   @PropsConv.C07_ConvertGeneral_bad_shape,
   @PropsConv.C07_ConvertGeneral_bad_impedance,
   @PropsConv.C07_ValueError_refuted,
   @PropsConv.C07_ValueError_cases,
   @PropsConv.C08_S_from_VI,
   @PropsConv.C08_fails,
   @PropsConv.C08_unique,
   @PropsConv.C08_bad_shape,
   @PropsConv.C09_S_from_Y_refuted,
   @PropsConv.C09_S_from_Y_formula,
   @PropsConv.C09_bindings,
   @PropsConv.C09_good_bindings).
Print Assumptions of_PropsConv.
Definition of_PropsDev :=
  (@PropsDev.C36_two_port,
   @PropsDev.C36_params,
   @PropsDev.C36_two_port_exact,
   @PropsDev.C36_raises,
   @PropsDev.C36_zero_values,
   @PropsDev.C36_reciprocal,
   @PropsDev.C36_passive,
   @PropsDev.C36_lossless,
   @PropsDev.C36_defined,
   @PropsDev.C36_reference,
   @PropsDev.C36_list,
   @PropsDev.C36_dc_one_ohm,
   @PropsDev.C36_dc_refuted,
   @PropsDev.C36_params_stick,
   @PropsDev.C39_lossless,
   @PropsDev.C39_defined,
   @PropsDev.C39_centre,
   @PropsDev.C39_coupling,
   @PropsDev.C39_kc0_refuted,
   @PropsDev.C39_rejects,
   @PropsDev.C40_inductance,
   @PropsDev.C40_unit,
   @PropsDev.C40_unit_any,
   @PropsDev.C40_list,
   @PropsDev.C40_list_refuted,
   @PropsDev.C49_tabulated,
   @PropsDev.C49_refused,
   @PropsDev.C49_list,
   @PropsDev.C32_base,
   @PropsDev.C32_base_unknown,
   @PropsDev.C32_base_answers,
   @PropsDev.C32_rlc,
   @PropsDev.C32_excitation,
   @PropsDev.C32_object_refuted).
Print Assumptions of_PropsDev.
Definition of_PropsDiss :=
  (@PropsDiss.C61_no_oscillation,
   @PropsDiss.C61_answers,
   @PropsDiss.C62_tied,
   @PropsDiss.C62_no_oscillation,
   @PropsDiss.C62_total).
Print Assumptions of_PropsDiss.
Definition of_PropsElem :=
  (@PropsElem.C62_network,
   @PropsElem.C62_laws,
   @PropsElem.C62_reciprocal,
   @PropsElem.C62_passive,
   @PropsElem.C62_lossless,
   @PropsElem.C62_answers,
   @PropsElem.C62_len_new,
   @PropsElem.C62_len_getS,
   @PropsElem.C62_len_refuted,
   @PropsElem.C62_len_set).
Print Assumptions of_PropsElem.
Definition of_PropsElemS :=
  (@PropsElemS.C62_set_rlc,
   @PropsElemS.C62_set_modified,
   @PropsElemS.C62_set_rlc_accepts,
   @PropsElemS.C62_set_rlc_unknown,
   @PropsElemS.C62_set_trl,
   @PropsElemS.C62_set_trl_accepts,
   @PropsElemS.C62_set_none,
   @PropsElemS.C62_set).
Print Assumptions of_PropsElemS.
Definition of_PropsFind :=
  (@PropsFind.C58_found,
   @PropsFind.C58_agree,
   @PropsFind.C58_dots,
   @PropsFind.C58_only,
   @PropsFind.C58_unknown,
   @PropsFind.C58_listed,
   @PropsFind.C58_once,
   @PropsFind.C58_listed_object,
   @PropsFind.C58_set).
Print Assumptions of_PropsFind.
Definition of_PropsGtl :=
  (@PropsGtl.C46_resolved,
   @PropsGtl.C46_order,
   @PropsGtl.C46_precedence,
   @PropsGtl.C46_reported,
   @PropsGtl.C46_raises,
   @PropsGtl.C46_self_refuted,
   @PropsGtl.C46_mutual_refuted,
   @PropsGtl.C46_unreported_refuted,
   @PropsGtl.C46_product_refuted,
   @PropsGtl.C46_sum_refuted).
Print Assumptions of_PropsGtl.
Definition of_PropsGtlK :=
  (@PropsGtlK.C60_values,
   @PropsGtlK.C60_object,
   @PropsGtlK.C60_accepts,
   @PropsGtlK.C60_refused,
   @PropsGtlK.C60_synonyms,
   @PropsGtlK.C60_rlc,
   @PropsGtlK.C60_arc_refuted,
   @PropsGtlK.C60_arc_all).
Print Assumptions of_PropsGtlK.
Definition of_PropsGtlN :=
  (@PropsGtlN.C52_network,
   @PropsGtlN.C52_touchstone,
   @PropsGtlN.C52_accepted,
   @PropsGtlN.C52_only,
   @PropsGtlN.C52_relpos_refused,
   @PropsGtlN.C52_answers,
   @PropsGtlN.C53_blocks,
   @PropsGtlN.C53_ports,
   @PropsGtlN.C53_layout,
   @PropsGtlN.C53_given,
   @PropsGtlN.C53_ends).
Print Assumptions of_PropsGtlN.
Definition of_PropsObj :=
  (@PropsObj.C29_tabulated,
   @PropsObj.C29_same_unit,
   @PropsObj.C29_list,
   @PropsObj.C29_interpolated,
   @PropsObj.C29_increasing,
   @PropsObj.C29_setS_defined,
   @PropsObj.C29_sorted_refuted,
   @PropsObj.C29_unsorted_refuted,
   @PropsObj.C29_stale_refuted,
   @PropsObj.C29_convert,
   @PropsObj.C29_out_of_order_refuted,
   @PropsObj.C30_sortports,
   @PropsObj.C30_getS,
   @PropsObj.C30_defined,
   @PropsObj.C30_default_defined,
   @PropsObj.C30_stale_refuted,
   @PropsObj.C30_unnamed_refuted,
   @PropsObj.C31_deembed,
   @PropsObj.C31_defined,
   @PropsObj.C31_scalar_refuted,
   @PropsObj.C31_unknown,
   @PropsObj.C31_rfTRL).
Print Assumptions of_PropsObj.
Definition of_PropsObjA :=
  (@PropsObjA.C56_constant,
   @PropsObjA.C56_list,
   @PropsObjA.C56_accepted,
   @PropsObjA.C56_refused,
   @PropsObjA.C56_ports,
   @PropsObjA.C56_setS_refuted,
   @PropsObjA.C57_same,
   @PropsObjA.C57_interpolates,
   @PropsObjA.C57_sortports_refuted).
Print Assumptions of_PropsObjA.
Definition of_PropsParm :=
  (@PropsParm.C63_law_rlc,
   @PropsParm.C63_law_line,
   @PropsParm.C63_law_other,
   @PropsParm.C63_law_none,
   @PropsParm.C63_eff_rlc,
   @PropsParm.C63_eff_line,
   @PropsParm.C63_eff_other,
   @PropsParm.C63_set_line,
   @PropsParm.C63_set_rlc_before,
   @PropsParm.C63_set_rlc_after,
   @PropsParm.C63_network,
   @PropsParm.C63_refused,
   @PropsParm.C63_reciprocal,
   @PropsParm.C63_passive,
   @PropsParm.C63_lossless,
   @PropsParm.C63_answers,
   @PropsParm.C63_set,
   @PropsParm.C63_set_line_ignored).
Print Assumptions of_PropsParm.
Definition of_PropsPow :=
  (@PropsPow.C61_reciprocal,
   @PropsPow.C61_passive,
   @PropsPow.C61_lossless,
   @PropsPow.C61_element).
Print Assumptions of_PropsPow.
Definition of_PropsSet :=
  (@PropsSet.C26_set_path,
   @PropsSet.C26_set_tuple,
   @PropsSet.C26_set_keywords,
   @PropsSet.C26_set_dotted,
   @PropsSet.C26_unknown_block,
   @PropsSet.C26_unknown_attr,
   @PropsSet.C26_no_attr,
   @PropsSet.C26_dict_argument_refuted,
   @PropsSet.C26_stale_after_raise_refuted,
   @PropsSet.C26_many_attributes,
   @PropsSet.C26_many_keywords,
   @PropsSet.C26_first_positional,
   @PropsSet.C26_keyword_first).
Print Assumptions of_PropsSet.
Definition of_PropsTl :=
  (@PropsTl.C42_terminates,
   @PropsTl.C42_unknown,
   @PropsTl.C42_kept,
   @PropsTl.C42_assumed,
   @PropsTl.C42_computed,
   @PropsTl.C42_line,
   @PropsTl.C42_constants,
   @PropsTl.C42_solved,
   @PropsTl.C42_returns,
   @PropsTl.C43_sound,
   @PropsTl.C43_recover,
   @PropsTl.C43_recover_coax).
Print Assumptions of_PropsTl.
Definition of_PropsTlW :=
  (@PropsTlW.C42_gTL_lost,
   @PropsTlW.C42_RsO_raises,
   @PropsTlW.C42_rTLO_wrong,
   @PropsTlW.C42_Rs_unsolved,
   @PropsTlW.C43_mur_wrong,
   @PropsTlW.C43_epsr_wrong,
   @PropsTlW.C43_AdB_wrong,
   @PropsTlW.C43_A_wrong).
Print Assumptions of_PropsTlW.
Definition of_PropsTrl :=
  (@PropsTrl.C37_gamma_Zc,
   @PropsTrl.C37_line,
   @PropsTrl.C37_params,
   @PropsTrl.C37_reciprocal,
   @PropsTrl.C37_lossless,
   @PropsTrl.C37_passive,
   @PropsTrl.C37_through,
   @PropsTrl.C37_matched,
   @PropsTrl.C37_cascade,
   @PropsTrl.C37_reference,
   @PropsTrl.C37_list,
   @PropsTrl.C37_defined,
   @PropsTrl.C37_dc_refuted,
   @PropsTrl.C38_profile,
   @PropsTrl.C38_excitation,
   @PropsTrl.C38_history,
   @PropsTrl.C38_stale_refuted,
   @PropsTrl.C38_nodes_linspace).
Print Assumptions of_PropsTrl.
Definition of_PropsTrlV :=
  (@PropsTrlV.C59_line,
   @PropsTrlV.C59_reciprocal,
   @PropsTrlV.C59_lossless,
   @PropsTrlV.C59_passive,
   @PropsTrlV.C59_defined,
   @PropsTrlV.C59_reference,
   @PropsTrlV.C59_list,
   @PropsTrlV.C59_through,
   @PropsTrlV.C59_profile,
   @PropsTrlV.C59_history,
   @PropsTrlV.C59_fixed,
   @PropsTrlV.C59_nodes_refuted,
   @PropsTrlV.C59_zero_refuted).
Print Assumptions of_PropsTrlV.
Definition of_PropsTsf :=
  (@PropsTsf.C33_write_read,
   @PropsTsf.C33_write_read_exact,
   @PropsTsf.C33_write_read_error,
   @PropsTsf.C33_tsf2str_read,
   @PropsTsf.C33_tsf2str_exact,
   @PropsTsf.C33_tsf2str_frequency_refuted,
   @PropsTsf.C34_records,
   @PropsTsf.C34_impedance_data,
   @PropsTsf.C34_admittance_refuted,
   @PropsTsf.C34_port_names,
   @PropsTsf.C34_comments,
   @PropsTsf.C34_trailing_comment,
   @PropsTsf.C34_second_option_line,
   @PropsTsf.C34_default_impedance_refuted).
Print Assumptions of_PropsTsf.
Definition of_PropsTsfW :=
  (@PropsTsfW.C33_write_read_witness,
   @PropsTsfW.C33_tsf2str_two_ports_refuted,
   @PropsTsfW.C33_tsf2str_frequency_witness,
   @PropsTsfW.C34_records_witness,
   @PropsTsfW.C34_comments_refuted).
Print Assumptions of_PropsTsfW.
Definition of_PropsUtil :=
  (@PropsUtil.C41_increasing,
   @PropsUtil.C41_decreasing_refuted,
   @PropsUtil.C45_unique,
   @PropsUtil.C45_threads_refuted,
   @PropsUtil.C47_first,
   @PropsUtil.C47_accumulates,
   @PropsUtil.C47_refuted,
   @PropsUtil.C47_error_refuted,
   @PropsUtil.C48_scales,
   @PropsUtil.C48_compose,
   @PropsUtil.C48_refused,
   @PropsUtil.C48_shared_refuted,
   @PropsUtil.C48_tuple_refuted,
   @PropsUtil.C44_found,
   @PropsUtil.C44_not_found,
   @PropsUtil.C44_existspath,
   @PropsUtil.C35_text,
   @PropsUtil.C35_same,
   @PropsUtil.C35_newline_refuted,
   @PropsUtil.C35_again_refuted,
   @PropsUtil.C35_again,
   @PropsUtil.C35_list_refuted,
   @PropsUtil.C35_cr_refuted).
Print Assumptions of_PropsUtil.
Definition of_PropsXpos :=
  (@PropsXpos.C64_accepts,
   @PropsXpos.C64_result,
   @PropsXpos.C64_raises,
   @PropsXpos.C64_refuted).
Print Assumptions of_PropsXpos.
